From Coq Require Import List Arith ZArith Lia Bool QArith Qcanon Lqa Permutation.
From Verif Require Import Base Loop MserSort_Proofs ImOp_Spec ImOp_Proofs Rat Gauss_Model Gauss_Proofs Vlad_Proofs Kmeans_Spec Kmeans_Model Kmeans_Proofs Aib_Model Aib_Spec Aib_Proofs.
Import ListNotations.
Local Open Scope nat_scope.

Lemma idx_inj nl e c e' c' : c < nl -> c' < nl -> e * nl + c = e' * nl + c' -> e = e' /\ c = c'.
Proof. intros Lc Lc' E. assert (e = e') by nia. subst. lia. Qed.

Lemma filter_perm {A} (f : A -> bool) l l' : Permutation l l' -> Permutation (filter f l) (filter f l').
Proof.
  induction 1; cbn.
  - constructor.
  - destruct (f x); [now constructor|assumption].
  - destruct (f x), (f y); try apply Permutation_refl. constructor.
  - now apply Permutation_trans with (filter f l').
Qed.

Section Merge.
Variable log_ : Qc -> Qc.
Variables (N nl : nat).
Notation Row s e := (rowv nl (pcx s) e).
Notation loss := (loss log_ nl).
Notation prob := (prob nl).
Notation wf := (wf N nl).
Notation alive := (alive nl).
Notation valid := (valid log_ nl).
Notation covered := (covered log_ nl).
Notation pending := (pending log_ nl).

Lemma row_ext P Q e e' : length P = N * nl -> length Q = N * nl -> e < N -> e' < N ->
  (forall c, c < nl -> nth (e * nl + c) P 0%Qc = nth (e' * nl + c) Q 0%Qc) -> rowv nl P e = rowv nl Q e'.
Proof.
  intros LP LQ Le Le' H. apply (nth_ext _ _ 0%Qc 0%Qc); rewrite rowv_length by nia; [now rewrite rowv_length by nia|].
  intros c Lc. rewrite !rowv_nth by exact Lc. now apply H.
Qed.
Lemma join_length u v : length u = nl -> length v = nl -> length (join u v) = nl.
Proof. intros. unfold join. rewrite map_length, combine_length. lia. Qed.
Lemma join_nth u v c : length u = nl -> length v = nl -> c < nl -> nth c (join u v) 0%Qc = (nth c u 0 + nth c v 0)%Qc.
Proof.
  intros Lu Lv Lc. unfold join. rewrite (nth_indep _ 0%Qc ((fun p => (fst p + snd p)%Qc) (0, 0)%Qc)) by (rewrite map_length, combine_length; lia).
  rewrite (map_nth (fun p => (fst p + snd p)%Qc)). rewrite combine_nth by lia. reflexivity.
Qed.
Lemma prob_join u v : length u = nl -> length v = nl -> prob (join u v) = (prob u + prob v)%Qc.
Proof.
  intros Lu Lv. unfold Aib_Spec.prob. rewrite <- Gauss_Proofs.qsum_add. apply qsum_ext. intros c Lc. unfold at_. now apply join_nth.
Qed.

Lemma add_rows_ok P i j : length P = N * nl -> i < N -> j < N -> i <> j ->
  exists P', add_rows nl P i j = Some P' /\ length P' = N * nl /\ rowv nl P' i = join (rowv nl P i) (rowv nl P j) /\
    forall e, e < N -> e <> i -> rowv nl P' e = rowv nl P e.
Proof.
  intros LP Li Lj Nij. unfold add_rows. set (body := fun c P0 => _).
  destruct (iter_inv (fun k Q => length Q = N * nl /\ forall e c, e < N -> c < nl ->
      nth (e * nl + c) Q 0%Qc = if (e =? i) && (c <? k) then (nth (i * nl + c) P 0 + nth (j * nl + c) P 0)%Qc else nth (e * nl + c) P 0%Qc) body nl P) as (P' & E & L & V).
  - split; [exact LP|]. intros e c _ _. destruct (Nat.ltb_spec c 0); [lia|]. now rewrite andb_false_r.
  - intros k Q Lk [LQ VQ]. unfold body. rewrite (aget_nth Q (i * nl + k) 0%Qc), (aget_nth Q (j * nl + k) 0%Qc) by nia. cbn [obind].
    rewrite aset_lt by nia. eexists; split; [reflexivity|]. split; [now rewrite upd_length|]. intros e c Le Lc. rewrite nth_upd by nia.
    destruct (Nat.eqb_spec (e * nl + c) (i * nl + k)) as [Ei|Ni].
    + apply idx_inj in Ei as [-> ->]; auto. rewrite Nat.eqb_refl. destruct (Nat.ltb_spec k (k + 1)); [|lia]. cbn [andb].
      rewrite !VQ by auto. rewrite Nat.eqb_refl. destruct (Nat.ltb_spec k k); [lia|]. cbn [andb]. now rewrite andb_false_r.
    + rewrite VQ by auto. destruct (Nat.eqb_spec e i) as [->|]; [|reflexivity]. cbn [andb]. destruct (Nat.ltb_spec c k), (Nat.ltb_spec c (k + 1)); try lia; try reflexivity; assert (c = k) by lia; subst; congruence.
  - exists P'. split; [exact E|]. split; [exact L|]. split.
    + apply (nth_ext _ _ 0%Qc 0%Qc); rewrite rowv_length by nia; [now rewrite join_length by (apply rowv_length; nia)|].
      intros c Lc. rewrite join_nth by (first [exact Lc|apply rowv_length; nia]). rewrite !rowv_nth, V by auto. rewrite Nat.eqb_refl. destruct (Nat.ltb_spec c nl); [reflexivity|lia].
    + intros e Le Ne. apply row_ext; auto. intros c Lc. rewrite V by auto. destruct (Nat.eqb_spec e i); [congruence|reflexivity].
Qed.

Lemma copy_row_ok P j l : length P = N * nl -> j < N -> l < N ->
  exists P', copy_row nl P j l = Some P' /\ length P' = N * nl /\ rowv nl P' j = rowv nl P l /\
    forall e, e < N -> e <> j -> rowv nl P' e = rowv nl P e.
Proof.
  intros LP Lj Ll. unfold copy_row. set (body := fun c P0 => _).
  destruct (iter_inv (fun k Q => length Q = N * nl /\ forall e c, e < N -> c < nl ->
      nth (e * nl + c) Q 0%Qc = if (e =? j) && (c <? k) then nth (l * nl + c) P 0%Qc else nth (e * nl + c) P 0%Qc) body nl P) as (P' & E & L & V).
  - split; [exact LP|]. intros e c _ _. destruct (Nat.ltb_spec c 0); [lia|]. now rewrite andb_false_r.
  - intros k Q Lk [LQ VQ]. unfold body. rewrite (aget_nth Q (l * nl + k) 0%Qc) by nia. cbn [obind].
    rewrite aset_lt by nia. eexists; split; [reflexivity|]. split; [now rewrite upd_length|]. intros e c Le Lc. rewrite nth_upd by nia.
    destruct (Nat.eqb_spec (e * nl + c) (j * nl + k)) as [Ei|Ni].
    + apply idx_inj in Ei as [-> ->]; auto. rewrite Nat.eqb_refl. destruct (Nat.ltb_spec k (k + 1)); [|lia]. cbn [andb].
      rewrite !VQ by auto. destruct (Nat.ltb_spec k k); [lia|]. now rewrite andb_false_r.
    + rewrite VQ by auto. destruct (Nat.eqb_spec e j) as [->|]; [|reflexivity]. cbn [andb]. destruct (Nat.ltb_spec c k), (Nat.ltb_spec c (k + 1)); try lia; try reflexivity; assert (c = k) by lia; subst; congruence.
  - exists P'. split; [exact E|]. split; [exact L|]. split.
    + apply row_ext; auto. intros c Lc. rewrite V by auto. rewrite Nat.eqb_refl. destruct (Nat.ltb_spec c nl); [reflexivity|lia].
    + intros e Le Ne. apply row_ext; auto. intros c Lc. rewrite V by auto. destruct (Nat.eqb_spec e j); [congruence|reflexivity].
Qed.

Lemma scan_ok i j last bi be : length bi = N -> length be = N -> last < N ->
  exists bi' be' w, iter last (scan i j last) (bi, be, []) = Some (bi', be', w) /\ length bi' = N /\ length be' = N /\
    (forall n, In n w <-> n < last /\ (nth n bi 0 = i \/ nth n bi 0 = j)) /\
    (forall n, n < last -> (nth n bi 0 = i \/ nth n bi 0 = j) -> nth n be' None = None) /\
    (forall n, n < last -> nth n bi 0 <> i -> nth n bi 0 <> j -> nth n be' None = nth n be None /\ nth n bi' 0 = if nth n bi 0 =? last then j else nth n bi 0).
Proof.
  intros Lbi Lbe Ll.
  destruct (iter_inv (fun k '(bi', be', w) => length bi' = N /\ length be' = N /\
    (forall n, In n w <-> n < k /\ (nth n bi 0 = i \/ nth n bi 0 = j)) /\
    (forall n, k <= n -> nth n bi' 0 = nth n bi 0 /\ nth n be' None = nth n be None) /\
    (forall n, n < k -> (nth n bi 0 = i \/ nth n bi 0 = j) -> nth n be' None = None) /\
    (forall n, n < k -> nth n bi 0 <> i -> nth n bi 0 <> j -> nth n be' None = nth n be None /\ nth n bi' 0 = if nth n bi 0 =? last then j else nth n bi 0))
    (scan i j last) last (bi, be, [])) as ([[bi' be'] w] & E & L1 & L2 & Hw & _ & H1 & H2).
  - split; [exact Lbi|]. split; [exact Lbe|]. split; [intro n; split; [intros []|intros [A _]; lia]|]. split; [auto|]. split; intros; lia.
  - intros k [[bi' be'] w] Lk (L1 & L2 & Hw & Hs & H1 & H2). unfold scan. rewrite (aget_nth bi' k 0) by lia. cbn [obind].
    destruct (Hs k ltac:(lia)) as [Eb Ee]. rewrite Eb. destruct ((nth k bi 0 =? i) || (nth k bi 0 =? j)) eqn:B.
    + assert (B' : nth k bi 0 = i \/ nth k bi 0 = j) by (apply orb_true_iff in B as [B|B]; apply Nat.eqb_eq in B; auto).
      rewrite !aset_lt by lia. cbn [obind]. eexists; split; [reflexivity|]. cbv beta iota. rewrite !upd_length.
      split; [exact L1|]. split; [exact L2|]. split; [|split; [|split]].
      * intro n. rewrite in_app_iff, Hw. cbn [In]. split; [intros [[A C]|[<-|[]]]; [split; [lia|exact C]|split; [lia|exact B']]|].
        intros [A C]. destruct (Nat.eq_dec n k) as [->|]; [right; now left|left; split; [lia|exact C]].
      * intros n Ln. rewrite !nth_upd by lia. destruct (Nat.eqb_spec n k); [lia|]. apply Hs. lia.
      * intros n Ln C. rewrite nth_upd by lia. destruct (Nat.eqb_spec n k); [reflexivity|]. apply H1; [lia|exact C].
      * intros n Ln C1 C2. destruct (Nat.eq_dec n k) as [->|]; [exfalso; tauto|]. rewrite !nth_upd by lia. destruct (Nat.eqb_spec n k); [lia|]. apply H2; auto. lia.
    + apply orb_false_iff in B as [B1 B2]. apply Nat.eqb_neq in B1, B2.
      assert (G : forall n, In n w <-> n < k + 1 /\ (nth n bi 0 = i \/ nth n bi 0 = j)).
      { intro n. rewrite Hw. split; [intros [A C]; split; [lia|exact C]|]. intros [A C]. destruct (Nat.eq_dec n k) as [->|]; [tauto|]. split; [lia|exact C]. }
      destruct (nth k bi 0 =? last) eqn:BL.
      * rewrite aset_lt by lia. cbn [obind]. eexists; split; [reflexivity|]. cbv beta iota. rewrite upd_length. split; [exact L1|]. split; [exact L2|]. split; [exact G|]. split; [|split].
        -- intros n Ln. rewrite !nth_upd by lia. destruct (Nat.eqb_spec n k); [lia|]. apply Hs. lia.
        -- intros n Ln C. destruct (Nat.eq_dec n k) as [->|]; [tauto|]. apply H1; [lia|exact C].
        -- intros n Ln C1 C2. rewrite !nth_upd by lia. destruct (Nat.eqb_spec n k) as [->|]; [now rewrite BL|]. apply H2; auto. lia.
      * eexists; split; [reflexivity|]. split; [exact L1|]. split; [exact L2|]. split; [exact G|]. split; [|split].
        -- intros n Ln. apply Hs. lia.
        -- intros n Ln C. destruct (Nat.eq_dec n k) as [->|]; [tauto|]. apply H1; [lia|exact C].
        -- intros n Ln C1 C2. destruct (Nat.eq_dec n k) as [->|]; [rewrite BL; auto|]. apply H2; auto. lia.
  - exists bi', be', w. repeat (split; [assumption|]). exact H2.
Qed.

(** entry of the table before the last one is moved to j *)
Definition old (j last e : nat) : nat := if e =? j then last else e.

(** rows after a merge, whatever the cached losses *)
Lemma merge_rows s i j new : wf s -> i < j -> i < nentries s -> j < nentries s ->
  exists s', merge_nodes nl s i j new = Some s' /\ wf s' /\ nentries s' = nentries s - 1 /\
    Row s' i = join (Row s i) (Row s j) /\ forall e, e < nentries s' -> e <> i -> Row s' e = Row s (old j (nentries s - 1) e).
Proof.
  intros W Lij Li Lj. pose proof (wf_n _ _ s W) as Ln. unfold merge_nodes. destruct (Nat.ltb_spec j i); [lia|].
  set (last := nentries s - 1). assert (Ll : last < N) by lia.
  rewrite (aget_px N nl s i W Li), (aget_px N nl s j W Lj). cbn [obind].
  rewrite (aset_lt (px s)) by (rewrite (wf_px _ _ s W); lia). cbn [obind].
  rewrite (aset_lt (beta s)) by (rewrite (wf_beta _ _ s W); lia). cbn [obind].
  rewrite (aset_lt (nodes s)) by (rewrite (wf_nodes _ _ s W); lia). cbn [obind].
  destruct (add_rows_ok (pcx s) i j (wf_pcx _ _ s W) ltac:(lia) ltac:(lia) ltac:(lia)) as (P1 & E1 & L1 & R1 & S1). rewrite E1. cbn [obind].
  set (px1 := upd (px s) i _). rewrite (aget_nth px1 last 0%Qc) by (unfold px1; rewrite upd_length, (wf_px _ _ s W); lia). cbn [obind].
  rewrite (aset_lt px1) by (unfold px1; rewrite upd_length, (wf_px _ _ s W); lia). cbn [obind].
  set (be1 := upd (beta s) i _). rewrite (aget_nth be1 last None) by (unfold be1; rewrite upd_length, (wf_beta _ _ s W); lia). cbn [obind].
  rewrite (aset_lt be1) by (unfold be1; rewrite upd_length, (wf_beta _ _ s W); lia). cbn [obind].
  rewrite (aget_nth (bidx s) last 0) by (rewrite (wf_bidx _ _ s W); lia). cbn [obind].
  rewrite (aset_lt (bidx s)) by (rewrite (wf_bidx _ _ s W); lia). cbn [obind].
  set (no1 := upd (nodes s) i _). rewrite (aget_nth no1 last 0) by (unfold no1; rewrite upd_length, (wf_nodes _ _ s W); lia). cbn [obind].
  rewrite (aset_lt no1) by (unfold no1; rewrite upd_length, (wf_nodes _ _ s W); lia). cbn [obind].
  destruct (copy_row_ok P1 j last L1 ltac:(lia) Ll) as (P2 & E2 & L2 & R2 & S2). rewrite E2. cbn [obind].
  set (bi2 := upd (bidx s) j (nth last (bidx s) 0)). set (be2 := upd be1 j (nth last be1 None)).
  destruct (scan_ok i j last bi2 be2) as (bi & be & w & E3 & Lbi & Lbe & Hw & H1 & H2).
  { unfold bi2. now rewrite upd_length, (wf_bidx _ _ s W). } { unfold be2, be1. now rewrite !upd_length, (wf_beta _ _ s W). } { exact Ll. }
  rewrite E3. cbn [obind]. eexists; split; [reflexivity|].
  set (s' := mk_aib _ _ _ _ _ _ _).
  (* contents of the moved arrays *)
  assert (Rows : forall e, e < last -> e <> i -> Row s' e = Row s (old j last e)).
  { intros e Le Ne. cbn [s' pcx]. unfold old. destruct (Nat.eqb_spec e j) as [->|Nj].
    - rewrite R2. apply S1; [lia|]. lia.
    - rewrite S2 by (try lia; exact Nj). apply S1; [lia|exact Ne]. }
  assert (Rowi : Row s' i = join (Row s i) (Row s j)) by (cbn [s' pcx]; rewrite S2 by lia; exact R1).
  split; [|repeat split; auto].
  constructor; cbn [s' nodes beta bidx px pcx nentries]; try (rewrite ?upd_length; unfold no1, px1; rewrite ?upd_length; try assumption; apply W); [lia|].
    intros e Le. change (rowv nl P2 e) with (Row s' e). unfold px1. rewrite !nth_upd by (rewrite ?upd_length, (wf_px _ _ s W); lia).
    destruct (Nat.eqb_spec e j) as [->|Nj].
    + destruct (Nat.eqb_spec last i); [lia|]. rewrite (wf_prob _ _ s W) by lia. f_equal. rewrite Rows by lia. unfold old. now rewrite Nat.eqb_refl.
    + destruct (Nat.eqb_spec e i) as [->|Ni].
      * rewrite Rowi, prob_join by (apply rowv_length; rewrite (wf_pcx _ _ s W); nia). reflexivity.
      * rewrite (wf_prob _ _ s W) by lia. f_equal. rewrite Rows by lia. unfold old. destruct (Nat.eqb_spec e j); [congruence|reflexivity].
Qed.

Lemma merge_ok s i j new : wf s -> valid s -> pending s [] -> i < j -> alive s i -> alive s j -> nth i (bidx s) 0 = j ->
  exists s', merge_nodes nl s i j new = Some s' /\ wf s' /\ valid s' /\ pending s' (which s') /\ (forall e, In e (which s') -> e < nentries s') /\
    nentries s' = nentries s - 1 /\
    Row s' i = join (Row s i) (Row s j) /\ nth i (nodes s') 0 = new /\
    forall e, e < nentries s' -> e <> i -> Row s' e = Row s (old j (nentries s - 1) e) /\ nth e (nodes s') 0 = nth (old j (nentries s - 1) e) (nodes s) 0.
Proof.
  intros W V P Lij [Li Pi] [Lj Pj] Eij. pose proof (wf_n _ _ s W) as Ln. unfold merge_nodes. destruct (Nat.ltb_spec j i); [lia|].
  set (last := nentries s - 1). assert (Ll : last < N) by lia.
  rewrite (aget_px N nl s i W Li), (aget_px N nl s j W Lj). cbn [obind].
  rewrite (aset_lt (px s)) by (rewrite (wf_px _ _ s W); lia). cbn [obind].
  rewrite (aset_lt (beta s)) by (rewrite (wf_beta _ _ s W); lia). cbn [obind].
  rewrite (aset_lt (nodes s)) by (rewrite (wf_nodes _ _ s W); lia). cbn [obind].
  destruct (add_rows_ok (pcx s) i j (wf_pcx _ _ s W) ltac:(lia) ltac:(lia) ltac:(lia)) as (P1 & E1 & L1 & R1 & S1). rewrite E1. cbn [obind].
  set (px1 := upd (px s) i _). rewrite (aget_nth px1 last 0%Qc) by (unfold px1; rewrite upd_length, (wf_px _ _ s W); lia). cbn [obind].
  rewrite (aset_lt px1) by (unfold px1; rewrite upd_length, (wf_px _ _ s W); lia). cbn [obind].
  set (be1 := upd (beta s) i _). rewrite (aget_nth be1 last None) by (unfold be1; rewrite upd_length, (wf_beta _ _ s W); lia). cbn [obind].
  rewrite (aset_lt be1) by (unfold be1; rewrite upd_length, (wf_beta _ _ s W); lia). cbn [obind].
  rewrite (aget_nth (bidx s) last 0) by (rewrite (wf_bidx _ _ s W); lia). cbn [obind].
  rewrite (aset_lt (bidx s)) by (rewrite (wf_bidx _ _ s W); lia). cbn [obind].
  set (no1 := upd (nodes s) i _). rewrite (aget_nth no1 last 0) by (unfold no1; rewrite upd_length, (wf_nodes _ _ s W); lia). cbn [obind].
  rewrite (aset_lt no1) by (unfold no1; rewrite upd_length, (wf_nodes _ _ s W); lia). cbn [obind].
  destruct (copy_row_ok P1 j last L1 ltac:(lia) Ll) as (P2 & E2 & L2 & R2 & S2). rewrite E2. cbn [obind].
  set (bi2 := upd (bidx s) j (nth last (bidx s) 0)). set (be2 := upd be1 j (nth last be1 None)).
  destruct (scan_ok i j last bi2 be2) as (bi & be & w & E3 & Lbi & Lbe & Hw & H1 & H2).
  { unfold bi2. now rewrite upd_length, (wf_bidx _ _ s W). } { unfold be2, be1. now rewrite !upd_length, (wf_beta _ _ s W). } { exact Ll. }
  rewrite E3. cbn [obind]. eexists; split; [reflexivity|].
  set (s' := mk_aib _ _ _ _ _ _ _).
  (* contents of the moved arrays *)
  assert (Rows : forall e, e < last -> e <> i -> Row s' e = Row s (old j last e)).
  { intros e Le Ne. cbn [s' pcx]. unfold old. destruct (Nat.eqb_spec e j) as [->|Nj].
    - rewrite R2. apply S1; [lia|]. lia.
    - rewrite S2 by (try lia; exact Nj). apply S1; [lia|exact Ne]. }
  assert (Rowi : Row s' i = join (Row s i) (Row s j)) by (cbn [s' pcx]; rewrite S2 by lia; exact R1).
  assert (Bi : forall e, e < last -> e <> i -> nth e bi2 0 = nth (old j last e) (bidx s) 0 /\ nth e be2 None = nth (old j last e) (beta s) None).
  { intros e Le Ne. unfold bi2, be2, be1, old. rewrite !nth_upd by (rewrite ?upd_length, ?(wf_bidx _ _ s W), ?(wf_beta _ _ s W); lia).
    destruct (Nat.eqb_spec e j) as [->|Nj].
    - destruct (Nat.eqb_spec last i); [lia|]. auto.
    - destruct (Nat.eqb_spec e i); [congruence|]. auto. }
  assert (Biw : nth i bi2 0 = j).
  { unfold bi2. rewrite nth_upd by (rewrite (wf_bidx _ _ s W); lia). destruct (Nat.eqb_spec i j); [lia|exact Eij]. }
  assert (Iw : In i w) by (apply Hw; split; [lia|right; exact Biw]).
  assert (Old : forall e, e < last -> e <> i -> old j last e < nentries s /\ old j last e <> i /\ old j last e <> j).
  { intros e Le Ne. unfold old. destruct (Nat.eqb_spec e j); lia. }
  assert (Al : forall e, alive s' e -> e <> i -> alive s (old j last e)).
  { intros e [Le Pe] Ne. cbn [s' nentries] in Le. split; [apply Old; auto|]. rewrite <- Rows by auto. exact Pe. }
  split; [|split; [|split; [|split; [|split; [|split; [|split]]]]]].
  - constructor; cbn [s' nodes beta bidx px pcx nentries]; try (rewrite ?upd_length; unfold no1, px1; rewrite ?upd_length; try assumption; apply W); [lia|].
    intros e Le. change (rowv nl P2 e) with (Row s' e). unfold px1. rewrite !nth_upd by (rewrite ?upd_length, (wf_px _ _ s W); lia).
    destruct (Nat.eqb_spec e j) as [->|Nj].
    + destruct (Nat.eqb_spec last i); [lia|]. rewrite (wf_prob _ _ s W) by lia. f_equal. rewrite Rows by lia. unfold old. now rewrite Nat.eqb_refl.
    + destruct (Nat.eqb_spec e i) as [->|Ni].
      * rewrite Rowi, prob_join by (apply rowv_length; rewrite (wf_pcx _ _ s W); nia). reflexivity.
      * rewrite (wf_prob _ _ s W) by lia. f_equal. rewrite Rows by lia. unfold old. destruct (Nat.eqb_spec e j); [congruence|reflexivity].
  - intros e v Le Ev. cbn [s' beta bidx nentries] in Le, Ev |- *.
    assert (Ne : nth e bi2 0 <> i /\ nth e bi2 0 <> j).
    { split; intro X; [rewrite (H1 e Le (or_introl X)) in Ev|rewrite (H1 e Le (or_intror X)) in Ev]; discriminate. }
    destruct Ne as [N1 N2]. destruct (H2 e Le N1 N2) as [Eb Ei].
    assert (Nei : e <> i) by (intros ->; congruence). destruct (Bi e Le Nei) as [B1 B2]. destruct (Old e Le Nei) as (O1 & O2 & O3).
    rewrite Eb, B2 in Ev. destruct (V _ v O1 Ev) as ((_ & A1) & (A2 & A3) & A4 & A5). rewrite <- B1 in *. rewrite Ei.
    set (b := nth e bi2 0) in *. assert (Lb : (if b =? last then j else b) < last).
    { destruct (Nat.eqb_spec b last); [|lia]. assert (old j last e <> last) by congruence. unfold old in *. destruct (Nat.eqb_spec e j); [congruence|]. destruct (Nat.eq_dec j last); lia. }
    assert (Rb : Row s' (if b =? last then j else b) = Row s b).
    { destruct (Nat.eqb_spec b last) as [Eb'|Nb].
      - rewrite Rows by lia. unfold old. rewrite Nat.eqb_refl. now rewrite Eb'.
      - rewrite Rows by lia. unfold old. destruct (Nat.eqb_spec b j); [congruence|reflexivity]. }
    repeat split; cbn [s' nentries]; auto.
    + rewrite Rows by auto. exact A1.
    + rewrite Rb. exact A3.
    + destruct (Nat.eqb_spec b last) as [Eb'|Nb]; [|unfold old in A4; destruct (Nat.eqb_spec e j); [subst e; lia|exact A4]].
      intros <-. unfold old in A4. rewrite Nat.eqb_refl in A4. congruence.
    + rewrite Rb, Rows by auto. exact A5.
  - intros a b Aa Ab Nab. cbn [s' which].
    destruct (in_dec Nat.eq_dec a w) as [|Na]; [now left|]. destruct (in_dec Nat.eq_dec b w) as [|Nb]; [right; now left|]. right; right.
    assert (Nai : a <> i) by (intros ->; auto). assert (Nbi : b <> i) by (intros ->; auto).
    pose proof (Al a Aa Nai) as Aa'. pose proof (Al b Ab Nbi) as Ab'.
    assert (No : old j last a <> old j last b).
    { destruct Aa as [La _], Ab as [Lb _]. cbn [s' nentries] in La, Lb. unfold old. destruct (Nat.eqb_spec a j), (Nat.eqb_spec b j); lia. }
    destruct (P _ _ Aa' Ab' No) as [[]|[[]|C]]. unfold Aib_Proofs.covered in *.
    destruct Aa as [La _]. cbn [s' nentries] in La.
    assert (Wa : nth a bi2 0 <> i /\ nth a bi2 0 <> j) by (split; intro X; apply Na, Hw; auto).
    destruct (H2 a La (proj1 Wa) (proj2 Wa)) as [Eb _]. destruct (Bi a La Nai) as [_ B2]. cbn [s' beta]. rewrite Eb, B2.
    rewrite !Rows; auto. destruct Ab as [Lb _]. exact Lb.
  - intros e I. cbn [s' which nentries] in *. now apply Hw in I.
  - reflexivity.
  - exact Rowi.
  - cbn [s' nodes]. unfold no1. rewrite !nth_upd by (rewrite ?upd_length, (wf_nodes _ _ s W); lia). destruct (Nat.eqb_spec i j); [lia|]. now rewrite Nat.eqb_refl.
  - intros e Le Ne. cbn [s' nentries] in Le. split; [now apply Rows|]. cbn [s' nodes]. unfold no1, old.
    rewrite !nth_upd by (rewrite ?upd_length, (wf_nodes _ _ s W); lia). destruct (Nat.eqb_spec e j) as [->|Nj].
    + destruct (Nat.eqb_spec last i); [lia|]. reflexivity.
    + destruct (Nat.eqb_spec e i); [congruence|reflexivity].
Qed.
End Merge.
