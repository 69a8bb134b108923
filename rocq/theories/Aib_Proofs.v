From Coq Require Import List Arith ZArith Lia Bool QArith Qcanon Lqa Permutation.
From Verif Require Import Base Loop MserSort_Proofs ImOp_Spec ImOp_Proofs Rat Gauss_Model Gauss_Proofs Vlad_Proofs Kmeans_Spec Kmeans_Model Kmeans_Proofs Aib_Model Aib_Spec.
Import ListNotations.
Local Open Scope nat_scope.

Lemma is_null_spec q : is_null q = negb (nonnull q).
Proof. unfold is_null, nonnull. now destruct (Qc_eq_dec q 0). Qed.
Lemma nonnull_true q : nonnull q = true <-> q <> 0%Qc.
Proof. unfold nonnull. destruct (Qc_eq_dec q 0); split; congruence. Qed.

Section Proofs.
Variable log_ : Qc -> Qc.
Variables (N nl : nat).
Notation csum f := (sum 0%Qc Qcplus nl f).
Notation Row s e := (rowv nl (pcx s) e).
Notation loss := (loss log_ nl).
Notation prob := (prob nl).
Notation info := (info log_).

Lemma at_row P e c : c < nl -> at_ (rowv nl P e) c = nth (e * nl + c) P 0%Qc.
Proof. intro L. unfold at_. now apply rowv_nth. Qed.

Record wf (s : aib) : Prop := {
  wf_nodes : length (nodes s) = N; wf_beta : length (beta s) = N; wf_bidx : length (bidx s) = N; wf_px : length (px s) = N;
  wf_pcx : length (pcx s) = N * nl; wf_n : nentries s <= N;
  wf_prob : forall e, e < nentries s -> nth e (px s) 0%Qc = prob (Row s e) }.
Definition alive (s : aib) (e : nat) : Prop := e < nentries s /\ prob (Row s e) <> 0%Qc.

Definition valid (s : aib) : Prop := forall e v, e < nentries s -> nth e (beta s) None = Some v ->
  alive s e /\ alive s (nth e (bidx s) 0) /\ nth e (bidx s) 0 <> e /\ v = loss (Row s e) (Row s (nth e (bidx s) 0)).
Definition covered (s : aib) (a b : nat) : Prop :=
  match nth a (beta s) None with Some v => (v <= loss (Row s a) (Row s b))%Qc | None => False end.

Lemma loss_comm u v : loss u v = loss v u.
Proof.
  unfold Aib_Spec.loss. rewrite (qsum_ext nl (fun c => when (nonnull (at_ u c) || nonnull (at_ v c)) _) (fun c => when (nonnull (at_ v c) || nonnull (at_ u c)) ((at_ v c + at_ u c) * log_ (at_ v c + at_ u c))%Qc)).
  2:{ intros c _. now rewrite orb_comm, (Qcplus_comm (at_ u c)). }
  rewrite (Qcplus_comm (prob u) (prob v)). ring.
Qed.

Lemma aget_pcx s e c : wf s -> e < N -> c < nl -> aget (pcx s) (e * nl + c) = Some (at_ (Row s e) c).
Proof. intros W Le Lc. rewrite at_row by exact Lc. apply aget_nth. rewrite (wf_pcx s W). nia. Qed.
Lemma aget_px s e : wf s -> e < nentries s -> aget (px s) e = Some (prob (Row s e)).
Proof. intros W Le. rewrite <- (wf_prob s W) by exact Le. apply aget_nth. rewrite (wf_px s W). pose proof (wf_n s W). lia. Qed.

Lemma self_info_ok s a : wf s -> a < nentries s -> self_info log_ nl s a = Some (csum (fun c => info (at_ (Row s a) c) (prob (Row s a)))).
Proof.
  intros W La. pose proof (wf_n s W). unfold self_info. set (body := fun c t => _).
  destruct (iter_inv (fun j t => t = sum 0%Qc Qcplus j (fun c => info (at_ (Row s a) c) (prob (Row s a)))) body nl 0%Qc) as (t & E & ->).
  - reflexivity.
  - intros c t Lc ->. unfold body. rewrite (aget_pcx s a c W) by lia. cbn [obind]. rewrite (aget_px s a W La). cbn [obind].
    eexists; split; [reflexivity|]. rewrite Nat.add_1_r. cbn [sum]. unfold Aib_Spec.info. rewrite is_null_spec. destruct (nonnull (at_ (Row s a) c)); cbn [negb when]; [reflexivity|]. now rewrite Qcplus_0_r.
  - exact E.
Qed.

Lemma pair_loss_ok s tmp a b : wf s -> a < nentries s -> b < nentries s ->
  aget tmp a = Some (csum (fun c => info (at_ (Row s a) c) (prob (Row s a)))) ->
  aget tmp b = Some (csum (fun c => info (at_ (Row s b) c) (prob (Row s b)))) ->
  pair_loss log_ nl s tmp a b = Some (loss (Row s a) (Row s b)).
Proof.
  intros W La Lb Ea Eb. pose proof (wf_n s W). unfold pair_loss. rewrite (aget_px s a W La), (aget_px s b W Lb). cbn [obind]. rewrite Ea, Eb. cbn [obind]. cbv zeta.
  set (t0 := (plogp _ _ + _)%Qc). set (body := fun c t => _). set (u := Row s a) in *. set (v := Row s b) in *.
  set (f := fun c => when (nonnull (at_ u c) || nonnull (at_ v c)) ((at_ u c + at_ v c) * log_ (at_ u c + at_ v c))%Qc).
  destruct (iter_inv (fun j t => t = (t0 - sum 0%Qc Qcplus j f)%Qc) body nl t0) as (t & E & ->).
  - cbn [sum]. ring.
  - intros c t Lc ->. unfold body. rewrite (aget_pcx s a c W), (aget_pcx s b c W) by lia. cbn [obind]. fold u. fold v.
    eexists; split; [reflexivity|]. rewrite Nat.add_1_r. cbn [sum]. generalize (sum 0%Qc Qcplus c f). intro S. unfold f. rewrite !is_null_spec, <- negb_orb.
    destruct (nonnull (at_ u c) || nonnull (at_ v c)); cbn [negb when]; unfold plogp; ring.
  - rewrite E. f_equal. unfold t0, f, plogp, Aib_Spec.loss. ring.
Qed.

(** *** The update of the cache *)
Definition with_ (s : aib) (be : list (option Qc)) (bi : list nat) : aib := mk_aib (nodes s) (nentries s) be bi (which s) (pcx s) (px s).
Definition better (s s' : aib) : Prop :=
  (exists be bi, s' = with_ s be bi) /\ wf s' /\ valid s' /\ forall a b, covered s a b -> covered s' a b.

Lemma better_refl s : wf s -> valid s -> better s s.
Proof. intros W V. split; [exists (beta s), (bidx s); now destruct s|]. auto. Qed.
Lemma better_trans s1 s2 s3 : better s1 s2 -> better s2 s3 -> better s1 s3.
Proof.
  intros ((b1 & i1 & ->) & _ & _ & C1) ((b2 & i2 & ->) & W & V & C2). split; [exists b2, i2; reflexivity|]. split; [exact W|]. split; [exact V|]. auto.
Qed.

Lemma less_some t x : less (Some t) x = true <-> match x with None => True | Some y => (t < y)%Qc end.
Proof. destruct x as [y|]; cbn; [apply qlt_true|split; auto]. Qed.

Lemma lower_ok s a b : wf s -> valid s -> alive s a -> alive s b -> a <> b ->
  exists s', lower a b (loss (Row s a) (Row s b)) s = Some s' /\ better s s' /\ covered s' a b.
Proof.
  intros W V [La Pa] [Lb Pb] Nab. pose proof (wf_n s W). unfold lower. rewrite (aget_nth _ a None) by (rewrite (wf_beta s W); lia). cbn [obind].
  set (t := loss _ _). destruct (less (Some t) (nth a (beta s) None)) eqn:E.
  - rewrite (aset_lt (beta s)) by (rewrite (wf_beta s W); lia). cbn [obind]. rewrite (aset_lt (bidx s)) by (rewrite (wf_bidx s W); lia). cbn [obind].
    eexists; split; [reflexivity|]. fold (with_ s (upd (beta s) a (Some t)) (upd (bidx s) a b)).
    assert (W' : wf (with_ s (upd (beta s) a (Some t)) (upd (bidx s) a b))).
    { destruct W. constructor; cbn; try assumption; rewrite upd_length; assumption. }
    split; [split; [eexists; eexists; reflexivity|split; [exact W'|split]]|].
    + intros e v Le. cbn [with_ beta bidx nentries] in *. rewrite !nth_upd by (rewrite ?(wf_beta s W), ?(wf_bidx s W); lia).
      destruct (Nat.eqb_spec e a) as [->|Ne].
      * intro Ev. injection Ev as <-. repeat split; cbn [with_ nentries pcx]; auto.
      * intro Ev. exact (V e v Le Ev).
    + intros x y. unfold covered. cbn [with_ beta pcx]. destruct (Nat.eq_dec x a) as [->|].
      * rewrite nth_upd by (rewrite (wf_beta s W); lia). rewrite Nat.eqb_refl. apply less_some in E. destruct (nth a (beta s) None) as [z|]; [|tauto].
        intro. apply Qcle_trans with z; [now apply Qclt_le_weak|assumption].
      * rewrite nth_upd by (rewrite (wf_beta s W); lia). destruct (Nat.eqb_spec x a); [congruence|]. auto.
    + unfold covered. cbn [with_ beta pcx]. rewrite nth_upd by (rewrite (wf_beta s W); lia). rewrite Nat.eqb_refl. apply Qcle_refl.
  - exists s. split; [reflexivity|]. split; [now apply better_refl|]. unfold covered. fold t.
    destruct (nth a (beta s) None) as [z|]; cbn [less] in E; [|discriminate]. now apply qlt_false in E.
Qed.

Lemma alive_with s be bi e : alive (with_ s be bi) e <-> alive s e.
Proof. reflexivity. Qed.

Lemma update_pair_ok s tmp a b : wf s -> valid s -> a < nentries s -> b < nentries s ->
  (forall e, e < nentries s -> aget tmp e = Some (csum (fun c => info (at_ (Row s e) c) (prob (Row s e))))) ->
  exists s', update_pair log_ nl tmp a b s = Some s' /\ better s s' /\ (a <> b -> alive s a -> alive s b -> covered s' a b /\ covered s' b a).
Proof.
  intros W V La Lb Ht. unfold update_pair. rewrite (aget_px s a W La), (aget_px s b W Lb). cbn [obind].
  destruct (Nat.eqb_spec a b) as [->|Nab]; cbn [orb]; [exists s; split; [reflexivity|split; [now apply better_refl|congruence]]|].
  rewrite !is_null_spec, <- negb_andb. destruct (nonnull (prob (Row s a)) && nonnull (prob (Row s b))) eqn:E; cbn [negb].
  2:{ exists s. split; [reflexivity|]. split; [now apply better_refl|]. intros _ [_ Pa] [_ Pb]. apply nonnull_true in Pa, Pb. rewrite Pa, Pb in E. discriminate. }
  apply andb_true_iff in E as [Ea Eb]. apply nonnull_true in Ea, Eb.
  rewrite (pair_loss_ok s tmp a b W La Lb (Ht a La) (Ht b Lb)). cbn [obind].
  destruct (lower_ok s a b W V (conj La Ea) (conj Lb Eb) Nab) as (s1 & E1 & B1 & C1). rewrite E1. cbn [obind].
  destruct B1 as ((be & bi & ->) & W1 & V1 & M1). rewrite loss_comm.
  destruct (lower_ok (with_ s be bi) b a W1 V1 (conj Lb Eb) (conj La Ea) ltac:(congruence)) as (s2 & E2 & B2 & C2).
  exists s2. split; [exact E2|]. split; [apply better_trans with (with_ s be bi); [split; [eexists; eexists; reflexivity|auto]|exact B2]|].
  intros _ _ _. split; [apply B2; exact C1|exact C2].
Qed.

(** between two steps: the pairs with an entry of [which] may be missing from the cache *)
Definition pending (s : aib) (l : list nat) : Prop := forall a b, alive s a -> alive s b -> a <> b -> In a l \/ In b l \/ covered s a b.

Lemma update_beta_ok s : wf s -> valid s -> (forall e, In e (which s) -> e < nentries s) -> pending s (which s) ->
  exists s', update_beta log_ nl s = Some s' /\ better s s' /\ pending s' [].
Proof.
  intros W V Hw P. unfold update_beta. pose proof (wf_n s W).
  destruct (iter_inv (fun j (l : list Qc) => length l = j /\ forall e, e < j -> nth e l 0%Qc = csum (fun c => info (at_ (Row s e) c) (prob (Row s e))))
    (fun a l => do t <- self_info log_ nl s a; Some (l ++ [t])) (nentries s) []) as (tmp & E & Lt & Vt).
  { split; [reflexivity|]. intros; lia. }
  { intros j l Lj [Ll Vl]. rewrite self_info_ok by auto. cbn [obind]. eexists; split; [reflexivity|]. split; [rewrite app_length; cbn; lia|].
    intros e Le. destruct (Nat.eq_dec e j) as [->|]; [rewrite app_nth2, Ll, Nat.sub_diag by lia; reflexivity|]. rewrite app_nth1 by lia. apply Vl. lia. }
  rewrite E. cbn [obind].
  assert (Ht : forall e, e < nentries s -> aget tmp e = Some (csum (fun c => info (at_ (Row s e) c) (prob (Row s e))))).
  { intros e Le. rewrite <- Vt by exact Le. apply aget_nth. lia. }
  destruct (iter_inv (fun j s' => better s s' /\ forall a b, alive s a -> alive s b -> a <> b -> (exists i, i < j /\ (nth i (which s) 0 = a \/ nth i (which s) 0 = b)) -> covered s' a b)
    (fun i s' => do a <- aget (which s) i; iter (nentries s) (update_pair log_ nl tmp a) s') (length (which s)) s) as (s' & E' & B' & C').
  - split; [now apply better_refl|]. intros a b _ _ _ (i & Li & _). lia.
  - intros j s1 Lj [B1 C1]. rewrite (aget_nth _ j 0) by exact Lj. cbn [obind]. set (w := nth j (which s) 0).
    assert (Lw : w < nentries s) by (apply Hw, nth_In; exact Lj).
    destruct (iter_inv (fun m s2 => better s1 s2 /\ forall b, b < m -> w <> b -> alive s w -> alive s b -> covered s2 w b /\ covered s2 b w)
      (update_pair log_ nl tmp w) (nentries s) s1) as (s2 & E2 & B2 & C2).
    + split; [destruct B1 as (_ & W1 & V1 & _); now apply better_refl|]. intros; lia.
    + intros m s2 Lm [B2 C2]. pose proof (better_trans _ _ _ B1 B2) as B3. destruct B3 as ((be & bi & ->) & W3 & V3 & M3).
      destruct (update_pair_ok (with_ s be bi) tmp w m W3 V3 Lw Lm Ht) as (s3 & E3 & B3 & C3). exists s3. split; [exact E3|].
      split; [now apply better_trans with (with_ s be bi)|]. intros b Lb Nb Aw Ab. destruct (Nat.eq_dec b m) as [->|].
      * now apply C3.
      * destruct (C2 b ltac:(lia) Nb Aw Ab). split; apply B3; assumption.
    + exists s2. split; [exact E2|]. split; [now apply better_trans with s1|]. intros a b Aa Ab Nab (i & Li & Hi).
      destruct (Nat.eq_dec i j) as [->|]; [|apply B2; apply C1; auto; exists i; split; [lia|exact Hi]]. fold w in Hi.
      destruct Hi as [<-|<-]; [now apply (C2 b); [apply Ab|..]|apply (C2 a); auto; apply Aa].
  - exists s'. split; [exact E'|]. split; [exact B'|]. intros a b Aa Ab Nab. right; right.
    assert (As : alive s a /\ alive s b) by (destruct B' as ((be & bi & ->) & _); split; assumption). destruct As as [As Bs].
    assert (Wh : In a (which s) \/ In b (which s) -> exists i, i < length (which s) /\ (nth i (which s) 0 = a \/ nth i (which s) 0 = b)).
    { intros [I|I]; destruct (In_nth _ _ 0 I) as (i & Li & Ei); exists i; auto. }
    destruct (P a b As Bs Nab) as [I|[I|I]]; [apply C'; auto|apply C'; auto|now apply B'].
Qed.

(** *** The best pair *)
Lemma min_beta_ok s : wf s -> valid s -> pending s [] -> 0 < nentries s ->
  exists i j m, min_beta s = Some (i, j, m) /\
    match m with
    | None => forall a b, alive s a -> alive s b -> a = b
    | Some v => i < j /\ alive s i /\ alive s j /\ nth i (bidx s) 0 = j /\ nth i (beta s) None = Some v /\ v = loss (Row s i) (Row s j) /\
        forall a b, alive s a -> alive s b -> a <> b -> (v <= loss (Row s a) (Row s b))%Qc
    end.
Proof.
  intros W V P Hn. pose proof (wf_n s W). unfold min_beta.
  rewrite (aget_nth _ 0 None) by (rewrite (wf_beta s W); lia). cbn [obind]. rewrite (aget_nth (bidx s) 0 0) by (rewrite (wf_bidx s W); lia). cbn [obind].
  set (body := fun i s0 => _).
  destruct (iter_inv (fun k '(i, j, m) => i < nentries s /\ j = nth i (bidx s) 0 /\ m = nth i (beta s) None /\
      (forall e, e < k -> less (nth e (beta s) None) m = false) /\ forall e, e < i -> less m (nth e (beta s) None) = true) body (nentries s) (0, nth 0 (bidx s) 0, nth 0 (beta s) None)) as ([[i j] m] & E & Li & Ej & Em & Min & First).
  - repeat split; auto; intros; lia.
  - intros k [[i j] m] Lk (Li & Ej & Em & Min & First). unfold body. rewrite (aget_nth _ k None) by (rewrite (wf_beta s W); lia). cbn [obind].
    destruct (less (nth k (beta s) None) m) eqn:Lt.
    + rewrite (aget_nth (bidx s) k 0) by (rewrite (wf_bidx s W); lia). cbn [obind]. eexists; split; [reflexivity|].
      assert (Q : forall e, e < k -> less (nth k (beta s) None) (nth e (beta s) None) = true).
      { intros e Le. specialize (Min e Le). clear - Lt Min. destruct (nth k (beta s) None) as [u|]; [|discriminate]. destruct (nth e (beta s) None) as [v|]; [|reflexivity].
        destruct m as [w|]; cbn [less] in *; [|discriminate]. apply qlt_true. apply qlt_true in Lt. apply qlt_false in Min. now apply Qclt_le_trans with w. }
      repeat split; auto. intros e Le. destruct (Nat.eq_dec e k) as [->|]; [|assert (Q' := Q e ltac:(lia)); clear - Q'].
      * destruct (nth k (beta s) None); cbn; [apply qlt_false, Qcle_refl|reflexivity].
      * destruct (nth k (beta s) None) as [u|]; [|discriminate]. destruct (nth e (beta s) None) as [v|]; [|reflexivity]. cbn [less] in *. apply qlt_true in Q'. apply qlt_false. now apply Qclt_le_weak.
    + eexists; split; [reflexivity|]. repeat split; auto. intros e Le. destruct (Nat.eq_dec e k) as [->|]; [exact Lt|]. apply Min. lia.
  - exists i, j, m. split; [exact E|]. destruct m as [v|].
    + destruct (V i v Li (eq_sym Em)) as (Ai & Aj & Nj & Ev). rewrite <- Ej in *.
      assert (Mn : forall a b, alive s a -> alive s b -> a <> b -> (v <= loss (Row s a) (Row s b))%Qc).
      { intros a b Aa Ab Nab. destruct (P a b Aa Ab Nab) as [[]|[[]|C]]. unfold covered in C. specialize (Min a (proj1 Aa)).
        destruct (nth a (beta s) None) as [w|]; [|contradiction]. cbn [less] in Min. apply qlt_false in Min. now apply Qcle_trans with w. }
      split; [|split; [exact Ai|split; [exact Aj|split; [auto|split; [auto|split; [exact Ev|exact Mn]]]]]].
      destruct (Nat.lt_trichotomy i j) as [L|[L|L]]; [exact L|congruence|]. exfalso. specialize (First j L). cbn [less] in First.
      destruct (P j i Aj Ai Nj) as [[]|[[]|C]]. unfold covered in C. destruct (nth j (beta s) None) as [w|]; [|contradiction].
      rewrite loss_comm, <- Ev in C. apply qlt_true in First. exact (Qclt_not_le _ _ First C).
    + intros a b Aa Ab. destruct (Nat.eq_dec a b) as [|Nab]; [assumption|]. exfalso. destruct (P a b Aa Ab Nab) as [[]|[[]|C]]. unfold covered in C.
      specialize (Min a (proj1 Aa)). destruct (nth a (beta s) None); [discriminate|contradiction].
Qed.
End Proofs.
