(** Proofs about k-means: the update of the centers. *)
From Coq Require Import List Arith ZArith Lia Bool QArith Qcanon Qcabs Lqa Permutation.
From Verif Require Import Base Loop MserSort_Proofs Order_Spec Qsort_Model Qsort_Spec Qsort_Proofs ImOp_Spec ImOp_Proofs Rat Gauss_Model Gauss_Proofs Vlad_Proofs.
From Verif Require Homker_Proofs Vec_Proofs.
From Verif Require Import Kmeans_Model Kmeans_Spec Kmeans_Proofs.
Import ListNotations.
Local Open Scope nat_scope.

Lemma count_S N p : count (N + 1) p = count N p + (if p N then 1 else 0).
Proof.
  unfold count. rewrite seq_app, filter_app, app_length. cbn [seq filter Nat.add]. destruct (p N); cbn; lia.
Qed.
Lemma count_ext N p q : (forall x, x < N -> p x = q x) -> count N p = count N q.
Proof. intro H. unfold count. f_equal. apply filter_ext_in. intros x Ix. apply in_seq in Ix. apply H. lia. Qed.
Lemma count_pos N p x : x < N -> p x = true -> 0 < count N p.
Proof.
  intros L P. unfold count. assert (I : In x (filter p (seq 0 N))) by (apply filter_In; split; [apply in_seq; lia|exact P]).
  destruct (filter p (seq 0 N)); [destruct I|cbn; lia].
Qed.
Lemma count_perm N p l : Permutation l (seq 0 N) -> count N p = length (filter p l).
Proof. intro P. unfold count. apply Permutation_length. apply Permutation_sym in P. induction P; cbn; try constructor; auto.
  - destruct (p x); auto.
  - destruct (p x), (p y); try reflexivity. apply perm_swap.
  - now transitivity (filter p l').
Qed.

Lemma nth_skip {A} (l : list A) z : forall n k, nth k (skipn n l) z = nth (n + k) l z.
Proof.
  induction l as [|x l IH]; intros n k; [destruct n, k; reflexivity|]. destruct n; [reflexivity|]. cbn. apply IH.
Qed.

Section Update.
Variables (dim K : nat) (data : list Qc) (N : nat) (choose : nat -> nat).
Hypothesis Hd : dim * N <= length data.
Hypothesis HK : K <= N.
Notation X := (view dim data).
Variable asg : list nat.
Hypothesis La : length asg = N.
Notation a := (fun x => nth x asg 0).
Hypothesis Ha : forall x, x < N -> nth x asg 0 < K.

Lemma masses_ok : exists m, masses N asg = Some m /\ length m = N /\ forall k, k < N -> nth k m 0 = mass N a k.
Proof.
  unfold masses.
  destruct (iter_inv (fun x m => length m = N /\ forall k, k < N -> nth k m 0 = count x (fun x => nth x asg 0 =? k))
    (fun x m => do c <- aget asg x; do v <- aget m c; aset m c (v + 1)) N (repeat 0 N)) as (m & E & L & V).
  - split; [apply repeat_length|]. intros k _. unfold count. cbn. apply nth_repeat.
  - intros x m Lx [L V]. rewrite (aget_nth asg x 0) by lia. cbn [obind]. pose proof (Ha x Lx).
    rewrite (aget_nth m _ 0) by lia. cbn [obind]. rewrite aset_lt by lia. eexists; split; [reflexivity|].
    split; [rewrite upd_length; exact L|]. intros k Lk. rewrite nth_upd by lia. rewrite count_S. rewrite (Nat.eqb_sym k).
    destruct (Nat.eqb_spec (nth x asg 0) k) as [->|]; rewrite V by lia; lia.
  - exists m. repeat split; auto.
Qed.

(** writing a row *)
Lemma row_update c (g : nat -> Qc -> Qc) body l : c < K -> length l = dim * K ->
  (forall d l, d < dim -> length l = dim * K -> body d l = Some (upd l (c * dim + d) (g d (nth (c * dim + d) l 0%Qc)))) ->
  exists l', iter dim body l = Some l' /\ length l' = dim * K /\
    forall k d, k < K -> d < dim -> view dim l' k d = if k =? c then g d (view dim l k d) else view dim l k d.
Proof.
  intros Lc Ll Hb.
  destruct (iter_inv (fun j l' => length l' = dim * K /\ forall k d, k < K -> d < dim ->
      view dim l' k d = if (k =? c) && (d <? j) then g d (view dim l k d) else view dim l k d) body dim l) as (l' & E & L & V).
  - split; [exact Ll|]. intros. now rewrite andb_false_r.
  - intros j l' Lj [L V]. rewrite Hb by auto. eexists; split; [reflexivity|]. split; [rewrite upd_length; exact L|].
    intros k d Lk Ld. unfold view. assert (c * dim + j < length l') by nia. rewrite nth_upd by lia.
    destruct (Nat.eqb_spec (k * dim + d) (c * dim + j)) as [E|E].
    + assert (k = c) by nia. subst k. assert (d = j) by lia. subst d. rewrite Nat.eqb_refl. destruct (Nat.ltb_spec j (j + 1)); [|lia].
      cbn [andb]. f_equal. specialize (V c j Lc Lj). unfold view in V. rewrite V. rewrite Nat.ltb_irrefl, andb_false_r. reflexivity.
    + fold (view dim l' k d). rewrite V by auto. destruct (Nat.eqb_spec k c) as [->|]; [|reflexivity]. cbn [andb].
      destruct (Nat.ltb_spec d j), (Nat.ltb_spec d (j + 1)); auto; lia.
  - exists l'. split; [exact E|]. split; [exact L|]. intros k d Lk Ld. rewrite V by auto. destruct (Nat.ltb_spec d dim); [|lia]. now rewrite andb_true_r.
Qed.

Lemma restart_ok x c centers : x < N -> c < K -> length centers = dim * K ->
  exists l', restart dim data x c centers = Some l' /\ length l' = dim * K /\
    forall k d, k < K -> d < dim -> view dim l' k d = if k =? c then X x d else view dim centers k d.
Proof.
  intros Lx Lc Ll. apply (row_update c (fun d _ => X x d)); auto. intros d l Ld L.
  assert (x * dim + d < length data) by nia. rewrite (aget_nth data _ 0%Qc) by lia. cbn [obind]. rewrite aset_lt by nia. reflexivity.
Qed.

(** *** L2 *)
Lemma add_datum_ok x centers : x < N -> length centers = dim * K ->
  exists l', add_datum dim data asg x centers = Some l' /\ length l' = dim * K /\
    forall k d, k < K -> d < dim -> view dim l' k d = (view dim centers k d + (if nth x asg 0%nat =? k then X x d else 0))%Qc.
Proof.
  intros Lx Ll. unfold add_datum. rewrite (aget_nth asg x 0) by lia. cbn [obind]. pose proof (Ha x Lx).
  destruct (row_update (nth x asg 0) (fun d w => w + X x d)%Qc (fun d centers =>
    do v <- aget data (x * dim + d);
    do w <- aget centers (nth x asg 0 * dim + d);
    aset centers (nth x asg 0 * dim + d) (w + v)%Qc) centers) as (l' & E & L & V); auto.
  - intros d l Ld L. assert (x * dim + d < length data) by nia. assert (nth x asg 0 * dim + d < length l) by nia.
    rewrite (aget_nth data _ 0%Qc) by lia. cbn [obind]. rewrite (aget_nth l _ 0%Qc) by lia. cbn [obind]. rewrite aset_lt by lia. reflexivity.
  - exists l'. split; [exact E|]. split; [exact L|]. intros k d Lk Ld. rewrite V by auto. rewrite (Nat.eqb_sym k).
    destruct (_ =? k)%nat; ring.
Qed.

Hypothesis Hch : forall t, choose t < N.
(** center k is a datum *)
Definition a_datum (C : nat -> nat -> Qc) (k : nat) : Prop := exists x, x < N /\ forall d, d < dim -> C k d = X x d.

Lemma update_l2_ok m centers t : length m = N -> (forall k, k < N -> nth k m 0 = mass N a k) -> length centers = dim * K ->
  exists centers' t', update_l2 dim K data N choose asg m centers t = Some (centers', t') /\ length centers' = dim * K /\
    forall k, k < K -> if mass N a k =? 0 then a_datum (view dim centers') k
      else forall d, d < dim -> is_mean N a k (fun x => X x d) (view dim centers' k d).
Proof.
  intros Lm Vm Ll. unfold update_l2. destruct (Nat.ltb_spec (length centers) (dim * K)); [lia|]. cbv zeta.
  rewrite skipn_all2 by lia. rewrite app_nil_r.
  destruct (iter_inv (fun x l => length l = dim * K /\ forall k d, k < K -> d < dim ->
      view dim l k d = ksum x (fun x => if nth x asg 0%nat =? k then X x d else 0%Qc)) (add_datum dim data asg) N (repeat 0%Qc (dim * K))) as (l1 & E1 & L1_ & V1).
  - split; [apply repeat_length|]. intros. apply nth_repeat.
  - intros x l Lx [L V]. destruct (add_datum_ok x l Lx L) as (l' & E & L' & V'). exists l'. split; [exact E|]. split; [exact L'|].
    intros k d Lk Ld. rewrite V', V by auto. rewrite Nat.add_1_r. reflexivity.
  - rewrite E1. cbn [obind].
    destruct (iter_inv (fun j '(l, t) => length l = dim * K /\
        (forall k d, j <= k -> k < K -> d < dim -> view dim l k d = view dim l1 k d) /\
        forall k, k < j -> if mass N a k =? 0 then a_datum (view dim l) k
          else forall d, d < dim -> is_mean N a k (fun x => X x d) (view dim l k d)) (finish_center dim data choose m) K (l1, t)) as ([l2 t2] & E2 & L2_ & _ & V2).
    + split; [exact L1_|]. split; [reflexivity|]. lia.
    + intros j [l t1] Lj (L & U & V). unfold finish_center. rewrite (aget_nth m j 0) by lia. cbn [obind]. rewrite (Vm j) by lia.
      destruct (Nat.ltb_spec 0 (mass N a j)) as [P|P].
      * destruct (row_update j (fun _ w => w / nq (mass N a j))%Qc (fun d centers =>
            do w <- aget centers (j * dim + d); aset centers (j * dim + d) (w / nq (mass N a j))%Qc) l) as (l' & E & L' & V'); auto.
        { intros d l0 Ld L0. assert (j * dim + d < length l0) by nia. rewrite (aget_nth l0 _ 0%Qc) by lia. cbn [obind]. rewrite aset_lt by lia. reflexivity. }
        rewrite E. cbn [obind]. eexists; split; [reflexivity|]. split; [exact L'|]. split.
        -- intros k d Lk1 Lk Ld. rewrite V' by auto. destruct (Nat.eqb_spec k j); [lia|]. apply U; lia.
        -- intros k Lk. destruct (Nat.eq_dec k j) as [->|Nk].
           ++ destruct (Nat.eqb_spec (mass N a j) 0); [lia|]. intros d Ld. rewrite V' by auto. rewrite Nat.eqb_refl, U, V1 by auto.
              unfold is_mean. apply Qcmult_div_r. apply Homker_Proofs.qc_pos_neq. now apply Homker_Proofs.nq_pos.
           ++ specialize (V k ltac:(lia)). destruct (Nat.eqb_spec (mass N a k) 0).
              ** destruct V as (x & Lx & Vx). exists x. split; [exact Lx|]. intros d Ld. rewrite V' by lia. destruct (Nat.eqb_spec k j); [lia|]. auto.
              ** intros d Ld. rewrite V' by lia. destruct (Nat.eqb_spec k j); [lia|]. auto.
      * destruct (restart_ok (choose t1) j l (Hch t1) Lj L) as (l' & E & L' & V'). rewrite E. cbn [obind].
        eexists; split; [reflexivity|]. split; [exact L'|]. split.
        -- intros k d Lk1 Lk Ld. rewrite V' by auto. destruct (Nat.eqb_spec k j); [lia|]. apply U; lia.
        -- intros k Lk. destruct (Nat.eq_dec k j) as [->|Nk].
           ++ destruct (Nat.eqb_spec (mass N a j) 0); [|lia]. exists (choose t1). split; [apply Hch|]. intros d Ld. rewrite V' by auto. now rewrite Nat.eqb_refl.
           ++ specialize (V k ltac:(lia)). destruct (Nat.eqb_spec (mass N a k) 0).
              ** destruct V as (x & Lx & Vx). exists x. split; [exact Lx|]. intros d Ld. rewrite V' by lia. destruct (Nat.eqb_spec k j); [lia|]. auto.
              ** intros d Ld. rewrite V' by lia. destruct (Nat.eqb_spec k j); [lia|]. auto.
    + rewrite E2. exists l2, t2. split; [reflexivity|]. split; [exact L2_|]. exact V2.
Qed.

(** *** L1 *)
Definition sorting (d : nat) (perm : list nat) : Prop :=
  Permutation perm (seq 0 N) /\ forall i j, i < j -> j < N -> (X (nth i perm 0%nat) d <= X (nth j perm 0%nat) d)%Qc.

Lemma order_le d i j : (order dim data d i j <= 0)%Z <-> (X i d <= X j d)%Qc.
Proof.
  unfold order. fold (X i d) (X j d). unfold Qccompare. split.
  - destruct (this (X i d) ?= this (X j d))%Q eqn:E; intro Z0; try lia.
    + unfold Qcle. apply Qeq_alt in E. rewrite E. apply Qle_refl.
    + apply Qlt_alt in E. unfold Qcle. now apply Qlt_le_weak.
  - intro L. destruct (this (X i d) ?= this (X j d))%Q eqn:E; try lia. apply Qgt_alt in E. exfalso. unfold Qcle in L. lra.
Qed.
Lemma order_preorder d : total_preorder (order dim data d).
Proof.
  split.
  - intros i j. unfold order. fold (X i d) (X j d). unfold Qccompare.
    rewrite <- (Qcompare_antisym (this (X i d)) (this (X j d))). destruct (this (X i d) ?= this (X j d))%Q; cbn; lia.
  - intros i j k. rewrite !order_le. apply Qcle_trans.
Qed.

Lemma sort_data_ok : 0 < N -> exists perms, sort_data dim data N = Some perms /\ length perms = dim /\
  forall d, d < dim -> sorting d (nth d perms []).
Proof.
  intro HN. unfold sort_data.
  destruct (iter_inv (fun j perms => length perms = j /\ forall d, d < j -> sorting d (nth d perms []))
    (fun d perms =>
    if length data <? N * dim then None else
    do p <- qs_sort (order dim data d) (seq 0 N) N;
    Some (perms ++ [p])) dim []) as (perms & E & L & V).
  - split; [reflexivity|]. lia.
  - intros j perms Lj [L V]. destruct (Nat.ltb_spec (length data) (N * dim)); [lia|].
    destruct (qs_sort_spec (order dim data j) (order_preorder j) (seq 0 N) N ltac:(lia) ltac:(rewrite seq_length; lia)) as (p & E & Sk & P & So).
    rewrite E. cbn [obind]. eexists; split; [reflexivity|]. split; [rewrite app_length; cbn; lia|].
    assert (Lp : length p = N).
    { apply Permutation_length in P. rewrite !firstn_length, seq_length in P.
      assert (Ls : length (skipn N p) = length (skipn N (seq 0 N))) by now rewrite Sk. rewrite !skipn_length, seq_length in Ls. lia. }
    intros d Ld2. destruct (Nat.eq_dec d j) as [->|].
    + rewrite app_nth2 by lia. rewrite L, Nat.sub_diag. cbn [nth].
      rewrite firstn_all2 in P by lia. rewrite firstn_all2 in P by (rewrite seq_length; lia). split; [exact P|].
      rewrite firstn_all2 in So by lia. intros i k Li Lk. apply order_le.
      apply (So i k); [exact Li| |]; apply nth_error_nth'; lia.
    + rewrite app_nth1 by lia. apply V. lia.
  - exists perms. auto.
Qed.

Definition rank (perm : list nat) (x c : nat) : nat := length (filter (fun p => nth p asg 0 =? c) (firstn x perm)).
Lemma rank_S perm x c : x < length perm -> rank perm (x + 1) c = rank perm x c + (if nth (nth x perm 0) asg 0 =? c then 1 else 0).
Proof.
  intro L. unfold rank. rewrite Nat.add_1_r. rewrite (firstn_S_nth perm x) by exact L. rewrite filter_app, app_length. cbn [filter].
  destruct (_ =? c); cbn; lia.
Qed.
Lemma filter_le {A} (p q : A -> bool) l : (forall x, In x l -> p x = true -> q x = true) -> length (filter p l) <= length (filter q l).
Proof.
  induction l as [|x l IH]; intro H; [reflexivity|]. cbn. pose proof (IH (fun y I => H y (or_intror I))).
  destruct (p x) eqn:E; [rewrite (H x (or_introl eq_refl) E); cbn; lia|destruct (q x); cbn; lia].
Qed.
Lemma filter_none {A} (p : A -> bool) l : (forall x, In x l -> p x = false) -> filter p l = [].
Proof. induction l as [|x l IH]; intro H; [reflexivity|]. cbn. rewrite (H x (or_introl eq_refl)). apply IH. intros y I. apply H. now right. Qed.

Lemma median_found d perm j c : sorting d perm -> j < N -> nth (nth j perm 0) asg 0 = c ->
  2 * rank perm j c < mass N a c -> mass N a c <= 2 * (rank perm j c + 1) ->
  is_median N a c (fun x => X x d) (X (nth j perm 0) d).
Proof.
  intros [P So] Lj Ec R1 R2. assert (Lp : length perm = N) by (apply Permutation_length in P; rewrite seq_length in P; exact P).
  split; [|split].
  - exists (nth j perm 0). split; [|split; [exact Ec|reflexivity]].
    assert (I : In (nth j perm 0) (seq 0 N)) by (apply (Permutation_in _ P), nth_In; lia). apply in_seq in I. lia.
  - rewrite (count_perm N _ perm P). rewrite <- (firstn_skipn j perm), filter_app, app_length.
    rewrite (filter_none _ (skipn j perm)); cbn [length].
    + rewrite firstn_skipn. apply Nat.le_trans with (2 * rank perm j c); [|lia]. rewrite Nat.add_0_r.
      apply Nat.mul_le_mono_l. apply filter_le. intros x _ H. apply andb_true_iff in H. apply H.
    + intros x I. apply (In_nth _ _ 0) in I as (i & Li & <-). rewrite skipn_length in Li. rewrite firstn_skipn. rewrite nth_skip.
      apply andb_false_iff. right. unfold qless. destruct (Qclt_le_dec _ _) as [L|L]; [|reflexivity]. exfalso.
      destruct i as [|i]; [rewrite Nat.add_0_r in L; qc_lra|]. pose proof (So j (j + S i) ltac:(lia) ltac:(lia)). qc_lra.
  - rewrite (count_perm N _ perm P). rewrite <- (firstn_skipn (j + 1) perm), filter_app, app_length.
    rewrite (filter_none _ (firstn (j + 1) perm)); cbn [length Nat.add].
    + rewrite firstn_skipn. apply Nat.le_trans with (2 * (mass N a c - rank perm (j + 1) c)).
      * apply Nat.mul_le_mono_l. unfold mass. rewrite (count_perm N _ perm P). rewrite <- (firstn_skipn (j + 1) perm) at 2.
        rewrite filter_app, app_length. unfold rank. 
        match goal with |- _ <= ?u + ?v - ?u => replace (u + v - u) with v by lia end.
        apply filter_le. intros x _ H. apply andb_true_iff in H. apply H.
      * rewrite rank_S by lia. rewrite Ec, Nat.eqb_refl. lia.
    + intros x I. apply (In_nth _ _ 0) in I as (i & Li & <-). rewrite firstn_length in Li. rewrite firstn_skipn.
      assert (En : nth i (firstn (j + 1) perm) 0 = nth i perm 0).
      { rewrite <- (firstn_skipn (j + 1) perm) at 2. rewrite app_nth1; [reflexivity|]. rewrite firstn_length. lia. }
      rewrite En. apply andb_false_iff. right. unfold qless. destruct (Qclt_le_dec _ _) as [L|L]; [|reflexivity]. exfalso.
      destruct (Nat.eq_dec i j) as [->|]; [qc_lra|]. pose proof (So i j ltac:(lia) ltac:(lia)). qc_lra.
Qed.

Lemma median_pass_ok m d perm centers : length m = N -> (forall k, k < N -> nth k m 0 = mass N a k) -> d < dim ->
  sorting d perm -> length centers = dim * K ->
  exists l', median_pass dim K data N perm asg m d centers = Some l' /\ length l' = dim * K /\
    (forall k d', k < K -> d' < dim -> d' <> d -> view dim l' k d' = view dim centers k d') /\
    forall k, k < K -> if mass N a k =? 0 then view dim l' k d = view dim centers k d
      else is_median N a k (fun x => X x d) (view dim l' k d).
Proof.
  intros Lm Vm Ld So Ll. pose proof So as [P _]. assert (Lp : length perm = N) by (apply Permutation_length in P; rewrite seq_length in P; exact P).
  unfold median_pass.
  destruct (iter_inv (fun x '(seen, l) => length seen = K /\ length l = dim * K /\
      (forall c, c < K -> nth c seen 0 = rank perm x c) /\
      (forall k d', k < K -> d' < dim -> d' <> d -> view dim l k d' = view dim centers k d') /\
      (forall c, c < K -> (rank perm x c = 0 -> view dim l c d = view dim centers c d) /\
        (0 < rank perm x c -> exists j, j < x /\ nth (nth j perm 0) asg 0 = c /\ 2 * rank perm j c < mass N a c /\
           view dim l c d = X (nth j perm 0) d /\ (rank perm j c + 1 = rank perm x c \/ mass N a c <= 2 * (rank perm j c + 1)))))
    (fun x '(seen, centers) =>
    do p <- aget perm x;
    do c <- aget asg p;
    do n <- aget seen c;
    do mass <- aget m c;
    do centers <- (if 2 * n <? mass then
                     do v <- aget data (d + p * dim);
                     aset centers (d + c * dim) v
                   else Some centers);
    do seen <- aset seen c (n + 1);
    Some (seen, centers)) N (repeat 0 K, centers)) as ([seen l] & E & Ls & L & Vs & U & V).
  - split; [apply repeat_length|]. split; [exact Ll|]. split; [intros; now rewrite nth_repeat|]. split; [reflexivity|].
    intros c Lc. split; [reflexivity|]. unfold rank. cbn. lia.
  - intros x [seen l] Lx (Ls & L & Vs & U & V). rewrite (aget_nth perm x 0) by lia. cbn [obind]. set (p := nth x perm 0).
    assert (Ip : p < N).
    { assert (I : In p (seq 0 N)) by (apply (Permutation_in _ P), nth_In; lia). apply in_seq in I. lia. }
    rewrite (aget_nth asg p 0) by lia. cbn [obind]. pose proof (Ha p Ip) as Lc. set (c := nth p asg 0) in *.
    rewrite (aget_nth seen c 0) by lia. cbn [obind]. rewrite (aget_nth m c 0) by lia. cbn [obind]. rewrite Vs, (Vm c) by lia.
    assert (RS : forall k, rank perm (x + 1) k = rank perm x k + (if c =? k then 1 else 0)) by (intro; rewrite rank_S by lia; reflexivity).
    assert (Mp : 0 < mass N a c) by (apply (count_pos N _ p Ip); apply Nat.eqb_refl).
    rewrite (aset_lt seen) by lia.
    assert (Vs' : forall k, k < K -> nth k (upd seen c (rank perm x c + 1)) 0 = rank perm (x + 1) k).
    { intros k Lk. rewrite nth_upd by lia. rewrite RS. rewrite (Nat.eqb_sym k). destruct (Nat.eqb_spec c k) as [<-|]; [reflexivity|]. rewrite Vs by auto. lia. }
    destruct (Nat.ltb_spec (2 * rank perm x c) (mass N a c)) as [Lr|Lr].
    + assert (d + p * dim < length data) by nia. rewrite (aget_nth data _ 0%Qc) by lia. cbn [obind].
      assert (Li : d + c * dim < length l) by nia. rewrite aset_lt by lia. cbn [obind].
      eexists; split; [reflexivity|]. split; [rewrite upd_length; exact Ls|]. split; [rewrite upd_length; exact L|]. split; [exact Vs'|]. split.
      * intros k d' Lk Ld' Nd. unfold view at 1. rewrite nth_upd by lia. destruct (Nat.eqb_spec (k * dim + d') (d + c * dim)) as [E|E].
        -- exfalso. assert (k = c) by nia. subst k. lia.
        -- apply U; auto.
      * intros k Lk. rewrite RS. destruct (Nat.eqb_spec c k) as [<-|Nk].
        -- split; [lia|]. intros _. exists x. split; [lia|]. split; [reflexivity|]. split; [exact Lr|]. split.
           ++ unfold view at 1. rewrite nth_upd by lia. destruct (Nat.eqb_spec (c * dim + d) (d + c * dim)); [|lia]. unfold view. f_equal. fold p. lia.
           ++ left. reflexivity.
        -- assert (Ev : view dim (upd l (d + c * dim) (nth (d + p * dim) data 0%Qc)) k d = view dim l k d).
           { unfold view. rewrite nth_upd by lia. destruct (Nat.eqb_spec (k * dim + d) (d + c * dim)) as [E|E]; [|reflexivity]. exfalso. apply Nk. nia. }
           rewrite Nat.add_0_r. destruct (V k Lk) as [V0 V1]. rewrite Ev. split; [exact V0|]. intro R. destruct (V1 R) as (j & Lj & Ej & Mj & Vj & Oj). exists j. repeat split; auto; lia.
    + cbn [obind]. eexists; split; [reflexivity|]. split; [rewrite upd_length; exact Ls|]. split; [exact L|]. split; [exact Vs'|]. split; [exact U|].
      intros k Lk. rewrite RS. destruct (Nat.eqb_spec c k) as [<-|Nk].
      * split; [lia|]. intros _. destruct (V c Lc) as [_ V1]. destruct (V1 ltac:(lia)) as (j & Lj & Ej & Mj & Vj & Oj).
        exists j. split; [lia|]. split; [exact Ej|]. split; [exact Mj|]. split; [exact Vj|]. right. lia.
      * rewrite Nat.add_0_r. destruct (V k Lk) as [V0 V1]. split; [exact V0|]. intro R. destruct (V1 R) as (j & Lj & Ej & Mj & Vj & Oj). exists j. repeat split; auto; lia.
  - match goal with |- context [iter N ?f ?s] => change (iter N f s) with (iter N (fun x '(seen, centers) =>
    do p <- aget perm x;
    do c <- aget asg p;
    do n <- aget seen c;
    do mass <- aget m c;
    do centers <- (if 2 * n <? mass then
                     do v <- aget data (d + p * dim);
                     aset centers (d + c * dim) v
                   else Some centers);
    do seen <- aset seen c (n + 1);
    Some (seen, centers)) (repeat 0 K, centers)) end.
    rewrite E. cbn [obind]. exists l. split; [reflexivity|]. split; [exact L|]. split; [exact U|]. intros k Lk.
    assert (Rk : rank perm N k = mass N a k).
    { unfold rank, mass. rewrite (count_perm N _ perm P). rewrite firstn_all2 by lia. reflexivity. }
    destruct (V k Lk) as [V0 V1]. rewrite Rk in *. destruct (Nat.eqb_spec (mass N a k) 0) as [E0|E0]; [auto|].
    destruct (V1 ltac:(lia)) as (j & Lj & Ej & Mj & Vj & Oj). rewrite Vj. apply median_found; auto; lia.
Qed.

(** restarting the empty clusters *)
Lemma restarts_ok m (dd : nat -> bool) d0 centers t : length m = N -> (forall k, k < N -> nth k m 0 = mass N a k) -> length centers = dim * K ->
  exists d' l' t', restarts_lloyd dim K data choose m (d0, centers, t) = Some (d', l', t') /\ length l' = dim * K /\
    d' = (if existsb (fun k => mass N a k =? 0) (seq 0 K) then dim else d0) /\
    forall k, k < K -> if mass N a k =? 0 then a_datum (view dim l') k else forall d, d < dim -> view dim l' k d = view dim centers k d.
Proof.
  clear dd. intros Lm Vm Ll. unfold restarts_lloyd.
  destruct (iter_inv (fun j '(d', l', t') => length l' = dim * K /\
      d' = (if existsb (fun k => mass N a k =? 0) (seq 0 j) then dim else d0) /\
      (forall k d, j <= k -> k < K -> d < dim -> view dim l' k d = view dim centers k d) /\
      forall k, k < j -> if mass N a k =? 0 then a_datum (view dim l') k else forall d, d < dim -> view dim l' k d = view dim centers k d)
    (fun c '(d, centers, t) =>
    do mass <- aget m c;
    if mass =? 0 then
      do centers <- restart dim data (choose t) c centers;
      Some (dim, centers, t + 1)
    else Some (d, centers, t)) K (d0, centers, t)) as ([[d' l'] t'] & E & L & Ed & _ & V).
  - split; [exact Ll|]. split; [reflexivity|]. split; [reflexivity|]. lia.
  - intros j [[d' l'] t'] Lj (L & Ed & U & V). rewrite (aget_nth m j 0) by lia. cbn [obind]. rewrite (Vm j) by lia.
    assert (Ex : existsb (fun k => mass N a k =? 0) (seq 0 (j + 1)) = existsb (fun k => mass N a k =? 0) (seq 0 j) || (mass N a j =? 0)).
    { rewrite seq_app, existsb_app. cbn [seq existsb Nat.add]. now rewrite orb_false_r. }
    rewrite Ex. destruct (Nat.eqb_spec (mass N a j) 0) as [E0|E0].
    + destruct (restart_ok (choose t') j l' (Hch t') Lj L) as (l2 & E & L2_ & V2). rewrite E. cbn [obind]. eexists; split; [reflexivity|].
      split; [exact L2_|]. split; [now rewrite orb_true_r|]. split.
      * intros k d Lk1 Lk Ld. rewrite V2 by auto. destruct (Nat.eqb_spec k j); [lia|]. apply U; lia.
      * intros k Lk. destruct (Nat.eq_dec k j) as [->|Nk].
        -- rewrite E0. cbn [Nat.eqb]. exists (choose t'). split; [apply Hch|]. intros d Ld. rewrite V2 by auto. now rewrite Nat.eqb_refl.
        -- specialize (V k ltac:(lia)). destruct (Nat.eqb_spec (mass N a k) 0).
           ++ destruct V as (x & Lx & Vx). exists x. split; [exact Lx|]. intros d Ld. rewrite V2 by lia. destruct (Nat.eqb_spec k j); [lia|]. auto.
           ++ intros d Ld. rewrite V2 by lia. destruct (Nat.eqb_spec k j); [lia|]. auto.
    + eexists; split; [reflexivity|]. split; [exact L|]. split; [now rewrite orb_false_r|]. split; [intros; apply U; lia|].
      intros k Lk. destruct (Nat.eq_dec k j) as [->|Nk]; [|apply V; lia]. destruct (Nat.eqb_spec (mass N a j) 0); [lia|]. intros. apply U; lia.
  - exists d', l', t'. repeat split; auto.
Qed.

Definition no_empty : bool := negb (existsb (fun k => mass N a k =? 0) (seq 0 K)).

Lemma update_l1_lloyd_ok m perms centers t : length m = N -> (forall k, k < N -> nth k m 0 = mass N a k) -> length perms = dim ->
  (forall d, d < dim -> sorting d (nth d perms [])) -> length centers = dim * K ->
  exists centers' t', update_l1_lloyd dim K data N choose perms asg m centers t = Some (centers', t') /\ length centers' = dim * K /\
    forall k, k < K -> if mass N a k =? 0 then a_datum (view dim centers') k
      else forall d, d < dim -> if no_empty || (d =? 0) then is_median N a k (fun x => X x d) (view dim centers' k d)
        else view dim centers' k d = view dim centers k d.
Proof.
  intros Lm Vm Lp Hp Ll. unfold update_l1_lloyd.
  set (cond := fun s : nat * list Qc * nat => let '(d, _, _) := s in d <? dim).
  set (body := fun s : nat * list Qc * nat => let '(d, centers, t) := s in
    do perm <- aget perms d;
    do centers <- median_pass dim K data N perm asg m d centers;
    do (d, centers, t) <- restarts_lloyd dim K data choose m (d, centers, t);
    Some (d + 1, centers, t)).
  assert (W : exists s, while (dim + 1) cond body (0, centers, t) = Some s /\ let '(d', l', t') := s in
     length l' = dim * K /\
     forall k, k < K -> if mass N a k =? 0 then (dim = 0 \/ a_datum (view dim l') k)
      else forall d, d < dim -> if no_empty || (d =? 0) then is_median N a k (fun x => X x d) (view dim l' k d)
        else view dim l' k d = view dim centers k d).
  { unfold no_empty. destruct (existsb (fun k => mass N a k =? 0) (seq 0 K)) eqn:Ex; cbn [negb orb].
    - destruct (Nat.eq_dec dim 0) as [D0|D0].
      + exists (0, centers, t). split.
        { replace (dim + 1) with 1 by lia. cbn [while]. assert (Ec : cond (0, centers, t) = false) by (unfold cond; apply Nat.ltb_ge; lia). now rewrite Ec. }
        split; [exact Ll|]. intros k Lk. destruct (mass N a k =? 0); [now left|]. lia.
      + replace (dim + 1) with (S (S (dim - 1))) by lia.
        destruct (median_pass_ok m 0 (nth 0 perms []) centers Lm Vm ltac:(lia) (Hp 0 ltac:(lia)) Ll) as (l1 & E1 & L1_ & U1 & V1).
        destruct (restarts_ok m (fun _ => true) 0 l1 t Lm Vm L1_) as (d2 & l2 & t2 & E2 & L2_ & Ed & V2). rewrite Ex in Ed. subst d2.
        cbn [while]. assert (Ec : cond (0, centers, t) = true) by (unfold cond; apply Nat.ltb_lt; lia). rewrite Ec.
        assert (Eb : body (0, centers, t) = Some (dim + 1, l2, t2)).
        { unfold body. rewrite (aget_nth perms 0 []) by lia. cbn [obind]. rewrite E1. cbn [obind]. rewrite E2. reflexivity. }
        rewrite Eb. cbn [obind].
        assert (Ec2 : cond (dim + 1, l2, t2) = false) by (unfold cond; apply Nat.ltb_ge; lia). rewrite Ec2.
        eexists. split; [reflexivity|]. split; [exact L2_|]. intros k Lk. specialize (V2 k Lk). specialize (V1 k Lk).
        destruct (Nat.eqb_spec (mass N a k) 0); [now right|]. intros d Ld. rewrite V2 by exact Ld. destruct (Nat.eqb_spec d 0) as [->|]; [exact V1|]. now apply U1.
    - destruct (Vec_Proofs.while_safe (fun '(d, l, t') => d <= dim /\ length l = dim * K /\
         forall k d', k < K -> d' < dim -> if d' <? d then is_median N a k (fun x => X x d') (view dim l k d') else True)
         (fun '(d, _, _) => dim - d) cond body) with (fuel := dim + 1) (s := (0, centers, t)) as ([[d' l'] t'] & E & (Hd' & L & V) & Hc).
      + intros [[d l] t'] (Ld & L & V) Hc. unfold cond in Hc. apply Nat.ltb_lt in Hc. unfold body.
        rewrite (aget_nth perms d []) by lia. cbn [obind].
        destruct (median_pass_ok m d (nth d perms []) l Lm Vm Hc (Hp d Hc) L) as (l1 & E1 & L1_ & U1 & V1). rewrite E1. cbn [obind].
        destruct (restarts_ok m (fun _ => true) d l1 t' Lm Vm L1_) as (d2 & l2 & t2 & E2 & L2_ & Ed & V2). rewrite Ex in Ed. subst d2. rewrite E2. cbn [obind].
        eexists; split; [reflexivity|]. split; [|lia]. split; [lia|]. split; [exact L2_|]. intros k d' Lk Ld'.
        assert (E0 : mass N a k =? 0 = false).
        { destruct (mass N a k =? 0) eqn:E0; [|reflexivity]. assert (X0 : existsb (fun k => mass N a k =? 0) (seq 0 K) = true) by (apply existsb_exists; exists k; split; [apply in_seq; lia|exact E0]). congruence. }
        specialize (V2 k Lk). specialize (V1 k Lk). rewrite E0 in V1, V2. rewrite V2 by exact Ld'.
        destruct (Nat.ltb_spec d' (d + 1)); [|exact I]. destruct (Nat.eq_dec d' d) as [->|]; [exact V1|]. rewrite U1 by auto.
        specialize (V k d' Lk Ld'). destruct (Nat.ltb_spec d' d); [exact V|lia].
      + lia.
      + split; [lia|]. split; [exact Ll|]. intros. destruct (Nat.ltb_spec d' 0); [lia|exact I].
      + exists (d', l', t'). split; [exact E|]. split; [exact L|]. unfold cond in Hc. apply Nat.ltb_ge in Hc. intros k Lk.
        assert (E0 : mass N a k =? 0 = false).
        { destruct (mass N a k =? 0) eqn:E0; [|reflexivity]. assert (X0 : existsb (fun k => mass N a k =? 0) (seq 0 K) = true) by (apply existsb_exists; exists k; split; [apply in_seq; lia|exact E0]). congruence. }
        rewrite E0. intros d Ld. specialize (V k d Lk Ld). destruct (Nat.ltb_spec d d'); [exact V|lia]. }
  destruct W as ([[d' l'] t'] & E & L & V). fold cond body. rewrite E. cbn [obind]. exists l', t'. split; [reflexivity|]. split; [exact L|].
  intros k Lk. specialize (V k Lk). destruct (mass N a k =? 0); [|exact V]. destruct V as [->|V]; [|exact V].
  exists (choose 0). split; [apply Hch|]. lia.
Qed.

Lemma update_l1_elkan_ok m perms centers t : length m = N -> (forall k, k < N -> nth k m 0 = mass N a k) -> length perms = dim ->
  (forall d, d < dim -> sorting d (nth d perms [])) -> length centers = dim * K ->
  exists centers' t', update_l1_elkan dim K data N choose perms asg m centers t = Some (centers', t') /\ length centers' = dim * K /\
    forall k, k < K -> if mass N a k =? 0 then a_datum (view dim centers') k
      else forall d, d < dim -> is_median N a k (fun x => X x d) (view dim centers' k d).
Proof.
  intros Lm Vm Lp Hp Ll. unfold update_l1_elkan.
  destruct (iter_inv (fun d l => length l = dim * K /\ forall k d', k < K -> d' < dim -> mass N a k =? 0 = false ->
      if d' <? d then is_median N a k (fun x => X x d') (view dim l k d') else True)
    (fun d centers => do perm <- aget perms d; median_pass dim K data N perm asg m d centers) dim centers) as (l1 & E1 & L1_ & V1).
  - split; [exact Ll|]. intros. destruct (Nat.ltb_spec d' 0); [lia|exact I].
  - intros d l Ld [L V]. rewrite (aget_nth perms d []) by lia. cbn [obind].
    destruct (median_pass_ok m d (nth d perms []) l Lm Vm Ld (Hp d Ld) L) as (l1 & E1 & L1_ & U1 & V1). exists l1. split; [exact E1|].
    split; [exact L1_|]. intros k d' Lk Ld' E0. specialize (V1 k Lk). rewrite E0 in V1.
    destruct (Nat.ltb_spec d' (d + 1)); [|exact I]. destruct (Nat.eq_dec d' d) as [->|]; [exact V1|]. rewrite U1 by auto.
    specialize (V k d' Lk Ld' E0). destruct (Nat.ltb_spec d' d); [exact V|lia].
  - rewrite E1. cbn [obind].
    destruct (iter_inv (fun j '(l, t) => length l = dim * K /\
      (forall k d, j <= k -> k < K -> d < dim -> view dim l k d = view dim l1 k d) /\
      forall k, k < j -> if mass N a k =? 0 then a_datum (view dim l) k else forall d, d < dim -> view dim l k d = view dim l1 k d)
      (fun c '(centers, t) =>
      do mass <- aget m c;
      if mass =? 0 then
        do centers <- restart dim data (choose t) c centers;
        Some (centers, t + 1)
      else Some (centers, t)) K (l1, t)) as ([l2 t2] & E2 & L2_ & _ & V2).
    + split; [exact L1_|]. split; [reflexivity|]. lia.
    + intros j [l' t'] Lj (L & U & V). rewrite (aget_nth m j 0) by lia. cbn [obind]. rewrite (Vm j) by lia.
      destruct (Nat.eqb_spec (mass N a j) 0) as [E0|E0].
      * destruct (restart_ok (choose t') j l' (Hch t') Lj L) as (l2 & E & L2_ & V2). rewrite E. cbn [obind]. eexists; split; [reflexivity|].
        split; [exact L2_|]. split.
        -- intros k d Lk1 Lk Ld. rewrite V2 by auto. destruct (Nat.eqb_spec k j); [lia|]. apply U; lia.
        -- intros k Lk. destruct (Nat.eq_dec k j) as [->|Nk].
           ++ rewrite E0. cbn [Nat.eqb]. exists (choose t'). split; [apply Hch|]. intros d Ld. rewrite V2 by auto. now rewrite Nat.eqb_refl.
           ++ specialize (V k ltac:(lia)). destruct (Nat.eqb_spec (mass N a k) 0).
              ** destruct V as (x & Lx & Vx). exists x. split; [exact Lx|]. intros d Ld. rewrite V2 by lia. destruct (Nat.eqb_spec k j); [lia|]. auto.
              ** intros d Ld. rewrite V2 by lia. destruct (Nat.eqb_spec k j); [lia|]. auto.
      * eexists; split; [reflexivity|]. split; [exact L|]. split; [intros; apply U; lia|].
        intros k Lk. destruct (Nat.eq_dec k j) as [->|Nk]; [|apply V; lia]. destruct (Nat.eqb_spec (mass N a j) 0); [lia|]. intros. apply U; lia.
    + exists l2, t2. split; [exact E2|]. split; [exact L2_|]. intros k Lk. specialize (V2 k Lk). destruct (mass N a k =? 0) eqn:E0; [exact V2|].
      intros d Ld. rewrite V2 by exact Ld. specialize (V1 k d Lk Ld E0). destruct (Nat.ltb_spec d dim); [exact V1|lia].
Qed.
End Update.
