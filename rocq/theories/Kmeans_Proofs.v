(** Proofs about k-means: assignment and update of the centers. *)
From Coq Require Import List Arith ZArith Lia Bool QArith Qcanon Qcabs Lqa Permutation.
From Verif Require Import Base Loop MserSort_Proofs Order_Spec Qsort_Model Qsort_Spec Qsort_Proofs ImOp_Spec ImOp_Proofs Rat Gauss_Model Gauss_Proofs Vlad_Proofs.
From Verif Require Homker_Proofs.
From Verif Require Import Kmeans_Model Kmeans_Spec.
Import ListNotations.
Local Open Scope nat_scope.

(** ** rows *)
Lemma row_ok dim l i : dim * i + dim <= length l -> row dim l i = Some (rowv dim l i).
Proof. intro L. unfold row. destruct (Nat.leb_spec (dim * i + dim) (length l)); [reflexivity|lia]. Qed.
Lemma rowv_length dim l i : dim * i + dim <= length l -> length (rowv dim l i) = dim.
Proof. intro L. unfold rowv. rewrite firstn_length, skipn_length. lia. Qed.
Lemma rowv_nth dim l i d v : d < dim -> nth d (rowv dim l i) v = nth (i * dim + d) l v.
Proof.
  intro L. unfold rowv.
  assert (A : forall n (l : list Qc) k, k < n -> nth k (firstn n l) v = nth k l v).
  { induction n as [|n IH]; intros l0 k Lk; [lia|]. destruct l0 as [|a l0]; [destruct k; reflexivity|]. destruct k as [|k]; [reflexivity|]. cbn. apply IH. lia. }
  rewrite A by exact L.
  assert (B : forall n (l : list Qc) k, nth k (skipn n l) v = nth (n + k) l v).
  { induction n as [|n IH]; intros l0 k; [reflexivity|]. destruct l0 as [|a l0]; [destruct k; reflexivity|]. cbn. apply IH. }
  rewrite B. f_equal. lia.
Qed.

Definition is_l1 (m : metric) : bool := match m with L1 => true | L2 => false end.
Lemma term_gap m x y : term m x y = gap (is_l1 m) x y.
Proof.
  destruct m; [|reflexivity]. cbn [term is_l1]. unfold gap. rewrite qlt_dec. destruct (Qclt_le_dec (x - y) (- (x - y))) as [L|L].
  - symmetry. apply Qcabs_neg. generalize dependent (x - y)%Qc. intros d L. qc_lra.
  - symmetry. apply Qcabs_pos. generalize dependent (x - y)%Qc. intros d L. qc_lra.
Qed.
Lemma sum_shift n f : (ksum (S n) f = f 0%nat + ksum n (fun i => f (S i)))%Qc.
Proof. induction n as [|n IH]; [cbn; ring|]. cbn [sum] in *. rewrite IH. ring. Qed.
Lemma compare_sum m : forall n x y acc, length x = n -> length y = n ->
  (compare m x y acc = acc + ksum n (fun d => gap (is_l1 m) (nth d x 0) (nth d y 0)))%Qc.
Proof.
  induction n as [|n IH]; intros x y acc Lx Ly.
  - destruct x; [|discriminate]. cbn. ring.
  - destruct x as [|a x], y as [|b y]; try discriminate. cbn [compare]. rewrite IH by (cbn in *; lia).
    rewrite sum_shift. cbn [nth]. rewrite term_gap. ring.
Qed.
Lemma distance_dist m dim data centers x k : dim * x + dim <= length data -> dim * k + dim <= length centers ->
  distance m (rowv dim data x) (rowv dim centers k) = dist (is_l1 m) dim (view dim data) (view dim centers) x k.
Proof.
  intros L1_ L2_. unfold distance. rewrite (compare_sum m dim) by (apply rowv_length; auto). unfold dist.
  rewrite Qcplus_0_l. apply qsum_ext. intros d Ld. unfold view. now rewrite !rowv_nth by exact Ld.
Qed.

(** ** assignment *)
Section Quantize.
Variables (comp : list Qc -> list Qc -> Qc) (dim K : nat) (centers data : list Qc) (N : nat).
Hypothesis Hc : dim * K <= length centers.
Hypothesis Hd : dim * N <= length data.
Notation D x k := (comp (rowv dim data x) (rowv dim centers k)).
Lemma row_c k : k < K -> row dim centers k = Some (rowv dim centers k).
Proof. intro. apply row_ok. nia. Qed.
Lemma row_d x : x < N -> row dim data x = Some (rowv dim data x).
Proof. intro. apply row_ok. nia. Qed.

(** entry i is changed and the others kept *)
Definition only {A} (i : nat) (v d0 : A) (l l' : list A) : Prop :=
  length l' = length l /\ nth i l' d0 = v /\ forall j, j <> i -> nth j l' d0 = nth j l d0.
Lemma aset_only {A} (l : list A) i v d0 : i < length l -> exists l', aset l i v = Some l' /\ only i v d0 l l'.
Proof.
  intro L. rewrite aset_lt by exact L. eexists; split; [reflexivity|]. split; [apply upd_length|]. split.
  - rewrite nth_upd by exact L. now rewrite Nat.eqb_refl.
  - intros j Nj. rewrite nth_upd by exact L. destruct (Nat.eqb_spec j i); [lia|reflexivity].
Qed.

Lemma quantize_one_ok i asg dst : 0 < K -> i < N -> length asg = N -> length dst = N ->
  exists asg' dst' a, quantize_one comp dim K centers data i (asg, dst) = Some (asg', dst') /\
    only i a 0 asg asg' /\ only i (D i a) 0%Qc dst dst' /\ first_nearest K (fun k => D i k) a.
Proof.
  intros Hk Li La Ld. unfold quantize_one. rewrite row_d by exact Li. cbn [obind].
  destruct (iter_inv (fun k '(best, asg') =>
      match best with
      | None => k = 0 /\ asg' = asg
      | Some d => exists a, a < k /\ only i a 0 asg asg' /\ d = D i a /\ (forall j, j < k -> (D i a <= D i j)%Qc) /\ (forall j, j < a -> (D i a < D i j)%Qc)
      end)
    (fun k '(best, asg) =>
    do c <- row dim centers k;
    let d := comp (rowv dim data i) c in
    if below d best then do asg <- aset asg i k; Some (Some d, asg) else Some (best, asg)) K (@None Qc, asg)) as ([best asg'] & E & Hb).
  - split; reflexivity.
  - intros k [best asg'] Lk Hb. rewrite row_c by exact Lk. cbn [obind]. cbv zeta.
    assert (La' : length asg' = N) by (destruct best; [destruct Hb as (a & _ & [La' _] & _); congruence|destruct Hb as [_ ->]; exact La]).
    destruct best as [d|]; cbn [below].
    + destruct Hb as (a & La1 & O & -> & M & F). rewrite qlt_dec. destruct (Qclt_le_dec (D i k) (D i a)) as [L|L].
      * destruct (aset_only asg' i k 0 ltac:(lia)) as (asg'' & E1 & O1). change (if Qclt_le_dec (D i k) (D i a) then true else false) with true.
        cbv iota. rewrite E1. cbn [obind]. eexists; split; [reflexivity|]. exists k. split; [lia|].
        split; [|split; [reflexivity|split]].
        -- destruct O as (O1' & O2 & O3), O1 as (P1 & P2 & P3). split; [congruence|]. split; [exact P2|]. intros j Nj. rewrite P3 by auto. auto.
        -- intros j Lj. destruct (Nat.eq_dec j k) as [->|]; [apply Qcle_refl|]. apply Qclt_le_weak, Qclt_le_trans with (1 := L). apply M. lia.
        -- intros j Lj. apply Qclt_le_trans with (1 := L). apply M. lia.
      * eexists; split; [reflexivity|]. exists a. split; [lia|]. split; [exact O|]. split; [reflexivity|]. split; [|exact F].
        intros j Lj. destruct (Nat.eq_dec j k) as [->|]; [exact L|]. apply M. lia.
    + destruct Hb as [-> ->]. destruct (aset_only asg i 0 0 ltac:(lia)) as (asg'' & E1 & O1). rewrite E1. cbn [obind].
      eexists; split; [reflexivity|]. exists 0. split; [lia|]. split; [exact O1|]. split; [reflexivity|]. split; [|lia].
      intros j Lj. replace j with 0 by lia. apply Qcle_refl.
  - match goal with |- context [iter K ?f (None, asg)] => change f with (fun k '(best, asg) =>
      do c <- row dim centers k;
      let d := comp (rowv dim data i) c in
      if below d best then do asg <- aset asg i k; Some (Some d, asg) else Some (best, asg)) end.
    rewrite E. cbn [obind]. destruct best as [d|]; [|destruct Hb; lia]. destruct Hb as (a & La1 & O & -> & M & F).
    destruct (aset_only dst i (D i a) 0%Qc ltac:(lia)) as (dst' & E2 & O2). rewrite E2. cbn [obind].
    exists asg', dst', a. split; [reflexivity|]. split; [exact O|]. split; [exact O2|]. split; [split; [exact La1|exact M]|exact F].
Qed.

Lemma quantize_ok asg dst : 0 < K -> length asg = N -> length dst = N ->
  exists asg' dst', quantize comp dim K centers data N asg dst = Some (asg', dst') /\
    length asg' = N /\ length dst' = N /\
    forall x, x < N -> first_nearest K (fun k => D x k) (nth x asg' 0%nat) /\ nth x dst' 0%Qc = D x (nth x asg' 0%nat).
Proof.
  intros Hk La Ld. unfold quantize.
  destruct (iter_inv (fun i '(asg', dst') => length asg' = N /\ length dst' = N /\
      forall x, x < i -> first_nearest K (fun k => D x k) (nth x asg' 0%nat) /\ nth x dst' 0%Qc = D x (nth x asg' 0%nat))
    (quantize_one comp dim K centers data) N (asg, dst)) as ([asg' dst'] & E & L1_ & L2_ & V).
  - split; [exact La|]. split; [exact Ld|]. lia.
  - intros i [asg1 dst1] Li (La1 & Ld1 & V). destruct (quantize_one_ok i asg1 dst1 Hk Li La1 Ld1) as (asg2 & dst2 & a & E & (O1 & O2 & O3) & (P1 & P2 & P3) & F).
    rewrite E. eexists; split; [reflexivity|]. split; [congruence|]. split; [congruence|]. intros x Lx. destruct (Nat.eq_dec x i) as [->|].
    + rewrite O2. split; [exact F|exact P2].
    + rewrite O3, P3 by auto. apply V. lia.
  - rewrite E. exists asg', dst'. repeat split; auto; now apply V.
Qed.

(** ANN *)
Lemma quantize_ann_ok ann update asg dst : (forall x, ann centers x < K) -> length asg = N -> length dst = N ->
  (update = true -> forall x, x < N -> nth x asg 0 < K) ->
  exists asg' dst', quantize_ann comp dim ann update centers data N asg dst = Some (asg', dst') /\
    length asg' = N /\ length dst' = N /\
    forall x, x < N -> nth x asg' 0 < K /\ nth x dst' 0%Qc = D x (nth x asg' 0%nat) /\
      (D x (nth x asg' 0%nat) <= D x (ann centers (rowv dim data x)))%Qc /\
      (update = true -> (D x (nth x asg' 0%nat) <= D x (nth x asg 0%nat))%Qc).
Proof.
  intros Han La Ld Hu.
  destruct (iter_inv (fun i '(asg', dst') => length asg' = N /\ length dst' = N /\
      (forall x, i <= x -> nth x asg' 0 = nth x asg 0) /\
      forall x, x < i -> nth x asg' 0 < K /\ nth x dst' 0%Qc = D x (nth x asg' 0%nat) /\
        (D x (nth x asg' 0%nat) <= D x (ann centers (rowv dim data x)))%Qc /\
        (update = true -> (D x (nth x asg' 0%nat) <= D x (nth x asg 0%nat))%Qc))
    (fun i '(asg, dst) =>
    do x <- row dim data i;
    let n := ann centers x in
    do c <- row dim centers n;
    let d := comp x c in
    if negb update then
      do dst <- aset dst i d; do asg <- aset asg i n; Some (asg, dst)
    else
      do a <- aget asg i;
      do c' <- row dim centers a;
      let prev := comp x c' in
      if qlt d prev then do dst <- aset dst i d; do asg <- aset asg i n; Some (asg, dst)
      else do dst <- aset dst i prev; Some (asg, dst)) N (asg, dst)) as ([asg' dst'] & E & L1_ & L2_ & _ & V).
  - split; [exact La|]. split; [exact Ld|]. split; [reflexivity|]. lia.
  - intros i [asg1 dst1] Li (La1 & Ld1 & U & V). rewrite row_d by exact Li. cbn [obind]. cbv zeta.
    set (n := ann centers (rowv dim data i)). assert (Ln : n < K) by apply Han. rewrite row_c by exact Ln. cbn [obind].
    destruct (aset_only asg1 i n 0 ltac:(lia)) as (asg2 & Ea & O1 & O2 & O3).
    destruct (aset_only dst1 i (D i n) 0%Qc ltac:(lia)) as (dst2 & Ed & P1 & P2 & P3).
    assert (New : forall T : Prop, (T -> update = true -> (D i n <= D i (nth i asg 0%nat))%Qc) -> T ->
      length asg2 = N /\ length dst2 = N /\ (forall x, i + 1 <= x -> nth x asg2 0 = nth x asg 0) /\
      forall x, x < i + 1 -> nth x asg2 0 < K /\ nth x dst2 0%Qc = D x (nth x asg2 0%nat) /\
        (D x (nth x asg2 0%nat) <= D x (ann centers (rowv dim data x)))%Qc /\
        (update = true -> (D x (nth x asg2 0%nat) <= D x (nth x asg 0%nat))%Qc)).
    { intros T HT t. split; [congruence|]. split; [congruence|]. split; [intros x Lx; rewrite O3 by lia; apply U; lia|].
      intros x Lx. destruct (Nat.eq_dec x i) as [->|].
      - rewrite O2, P2. split; [exact Ln|]. split; [reflexivity|]. split; [apply Qcle_refl|]. now apply HT.
      - rewrite O3, P3 by auto. apply V. lia. }
    destruct update; cbn [negb].
    + rewrite (aget_nth asg1 i 0) by lia. cbn [obind]. rewrite U by lia. pose proof (Hu eq_refl i Li) as La0.
      rewrite row_c by exact La0. cbn [obind]. rewrite qlt_dec. destruct (Qclt_le_dec (D i n) (D i (nth i asg 0%nat))) as [L|L].
      * rewrite Ed. cbn [obind]. rewrite Ea. cbn [obind]. eexists; split; [reflexivity|]. apply (New True); [|exact I]. intros _ _. now apply Qclt_le_weak.
      * destruct (aset_only dst1 i (D i (nth i asg 0%nat)) 0%Qc ltac:(lia)) as (dst3 & Ed3 & R1 & R2 & R3). rewrite Ed3. cbn [obind].
        eexists; split; [reflexivity|]. split; [exact La1|]. split; [congruence|]. split; [intros x Lx; apply U; lia|].
        intros x Lx. destruct (Nat.eq_dec x i) as [->|].
        -- rewrite R2, U by lia. split; [exact La0|]. split; [reflexivity|]. split; [exact L|]. intros _. apply Qcle_refl.
        -- rewrite R3 by auto. apply V. lia.
    + rewrite Ed. cbn [obind]. rewrite Ea. cbn [obind]. eexists; split; [reflexivity|]. apply (New True); [|exact I]. intros _ X. discriminate X.
  - exists asg', dst'. split; [exact E|]. repeat split; auto; now apply V.
Qed.
End Quantize.
