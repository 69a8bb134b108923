(** Properties C40, C41 and C68 to C70: vector comparisons. *)
From Coq Require Import List Arith ZArith QArith Qcanon Qcabs Lia Bool Reals Lra.
From Verif Require Import Base Loop ImOp_Spec Vec_Model Vec_Spec Vec_Proofs VecPairs_Proofs VecReal_Proofs.
Import ListNotations.
Local Open Scope nat_scope.

(** C40.  With two sequences, entry (i, j), at i + j * numX, is the comparison of
    vector i of X and vector j of Y, and nothing else is written. *)
Theorem C40_all_pairs : forall A (fn : nat -> list A -> list A -> option A) (v : nat -> nat -> A) dim X numX Y numY result,
  0 < dim -> numX * numY <= length result ->
  (forall i j, i < numX -> j < numY -> fn dim (skipn (i * dim) X) (skipn (j * dim) Y) = Some (v i j)) ->
  exists result', all_pairs fn result dim X numX (Some Y) numY = Some result' /\
    filled (fun i j => i + j * numX) v numX numY result result'.
Proof. intros A fn v dim X nx Y ny result Hd Lr Hv. now apply pairs_ok. Qed.
Print Assumptions C40_all_pairs.

(** With Y null and a symmetric function the matrix is the comparison of X with
    itself, although only the upper half is computed. *)
Theorem C40_self_pairs : forall A (fn : nat -> list A -> list A -> option A) (v : nat -> nat -> A) dim X numX numY result,
  0 < dim -> numX * numX <= length result ->
  (forall i j, i < numX -> j < numX -> fn dim (skipn (i * dim) X) (skipn (j * dim) X) = Some (v i j)) ->
  (forall i j, i < numX -> j < numX -> v i j = v j i) ->
  exists result', all_pairs fn result dim X numX None numY = Some result' /\
    filled (fun i j => i + j * numX) v numX numX result result'.
Proof.
  intros A fn v dim X nx ny result Hd Lr Hv Sym.
  destruct (pairs_self_ok fn dim X nx Hd ny v result Lr) as (r & E & (L & F & O)).
  - intros i j Lij Lj. apply Hv; lia.
  - exists r. split; [exact E|]. split; [exact L|]. split; [|exact O].
    intros a b La Lb. rewrite F by auto. f_equal.
    destruct (Nat.le_ge_cases a b); [now rewrite Nat.min_l, Nat.max_r by lia|].
    rewrite Nat.min_r, Nat.max_l by lia. now apply Sym.
Qed.
Print Assumptions C40_self_pairs.

(** Nothing is written when the dimension or a number of vectors is zero. *)
Theorem C40_empty : forall A (fn : nat -> list A -> list A -> option A) dim X numX Y numY result,
  dim = 0 \/ numX = 0 \/ (Y <> None /\ numY = 0) -> all_pairs fn result dim X numX Y numY = Some result.
Proof.
  intros A fn dim X nx Y ny result D. unfold all_pairs.
  destruct (Nat.eqb_spec dim 0); [reflexivity|]. destruct (Nat.eqb_spec nx 0); [reflexivity|].
  destruct D as [D|[D|[N D]]]; try contradiction. destruct Y; [|congruence].
  destruct (Nat.eqb_spec ny 0); [reflexivity|contradiction].
Qed.
Print Assumptions C40_empty.

(** rationals in lowest terms, for computed examples *)
Definition qc_ops : ops Qc :=
  mk_ops (Q2Qc 0) (Q2Qc 1) Qcplus Qcminus Qcmult Qcdiv Qcopp
    (fun x y => if Qclt_le_dec y x then true else false)
    (fun x => if Qc_eq_dec x (Q2Qc 0) then false else true)
    Qcabs (fun x => x) (fun x => x).
Example C41_ex_exact : exact qc_ops.
Proof.
  constructor.
  - exact (F_R Qcft).
  - exists Qcinv. reflexivity.
  - intro x. cbn [o_abs o_gt o_opp qc_ops].
    assert (E : (this (Qcopp x) == - this x)%Q) by (exact (Qred_correct (- this x))).
    assert (E0 : (this (Q2Qc 0) == 0)%Q) by reflexivity.
    destruct (Qclt_le_dec (Qcopp x) x) as [P|P].
    + apply Qcabs_pos. unfold Qclt, Qcle in *. Lqa.lra.
    + apply Qcabs_neg. unfold Qclt, Qcle in *. Lqa.lra.
Qed.
Definition z (n : Z) : Qc := Q2Qc (inject_Z n).

Example C40_ex :
  let fn := fun dim x y => distance_l2 qc_ops dim x y in
  all_pairs fn (repeat (z 99) 5) 2 [z 0; z 0; z 3; z 4] 2 None 0 = Some [z 0; z 25; z 25; z 0; z 99] /\
  all_pairs fn (repeat (z 99) 5) 2 [z 0; z 0; z 3; z 4] 2 (Some [z 1; z 1; z 0; z 2]) 2 = Some [z 2; z 13; z 4; z 13; z 99].
Proof. split; vm_compute; repeat f_equal; apply Qc_is_canon; reflexivity. Qed.

(** C41.  In exact arithmetic the function returned for a comparison type does
    not depend on the processor's instructions (SSE2, AVX), on SIMD being enabled
    or on the alignment of the vectors, for every dimension, in both precisions. *)
Theorem C41_simd_equals_scalar : forall A (o : ops A) p sse2 avx t dim ax ay X Y, exact o ->
  dim <= length X -> dim <= length Y ->
  exists v, get_comparison o p sse2 avx t dim ax ay X Y = Some v /\
            get_comparison o p false false t dim 0 0 X Y = Some v.
Proof.
  intros A o p sse2 avx t dim ax ay X Y Ex Lx Ly.
  assert (E : get_comparison o p sse2 avx t dim ax ay X Y = get_comparison o p false false t dim 0 0 X Y).
  { unfold get_comparison.
    assert (H1 : forall v, length v = sse_lanes p -> vhsum_sse2 o p v = fsum o v).
    { destruct p; cbn; intros; [now apply hsum_sse2_f|now apply hsum_sse2_d]. }
    assert (H2 : forall v, length v = avx_lanes p -> vhsum_avx o p v = fsum o v).
    { destruct p; cbn; intros; [now apply hsum_avx_f|now apply hsum_avx_d]. }
    assert (V1 : 0 < sse_lanes p) by (destruct p; cbn; lia). assert (V2 : 0 < avx_lanes p) by (destruct p; cbn; lia).
    assert (B : 0 < bytes p) by (destruct p; cbn; lia).
    destruct t, avx, sse2; cbn [get_comparison]; try reflexivity;
      first [apply l2_simd_ok|apply l1_simd_ok|apply chi2_simd_ok|apply k2_simd_ok|apply k1_simd_ok|apply kchi2_simd_ok]; auto. }
  assert (T : forall f i acc, exists v, tail2 f dim X Y i acc = Some v).
  { intros f i acc. unfold tail2.
    destruct (Nat.le_gt_cases i dim) as [L|L].
    - destruct (iter_from_inv (fun _ _ => True) (fun i acc => do a <- aget X i; do b <- aget Y i; Some (f acc a b)) dim (dim - i) i acc)
        as (r & R & _); [lia|auto| |eauto].
      intros j s _ Lj _. destruct (aget_lt X j ltac:(lia)) as (a & ->). cbn [obind].
      destruct (aget_lt Y j ltac:(lia)) as (b & ->). cbn [obind]. eauto.
    - replace (dim - i) with 0 by lia. cbn. eauto. }
  rewrite E. cbn [get_comparison].
  destruct t; cbn [get_comparison];
    unfold distance_l1, distance_l2, distance_chi2, distance_hellinger, distance_js, kernel_l1, kernel_l2, kernel_chi2, kernel_hellinger, kernel_js;
    match goal with |- context [tail2 ?f _ _ _ ?i ?acc] => destruct (T f i acc) as (v & ->) end; cbn [obind]; eauto.
Qed.
Print Assumptions C41_simd_equals_scalar.

Theorem C41_mahalanobis : forall A (o : ops A) p sse2 avx dim ax ay az X MU S, exact o ->
  dim <= length X -> dim <= length MU -> dim <= length S ->
  get_comparison3 o p sse2 avx dim ax ay az X MU S =
  Some (sum (o_zero o) (o_add o) dim (fun i =>
    let d := o_sub o (nth i X (o_zero o)) (nth i MU (o_zero o)) in o_mul o (o_mul o d d) (nth i S (o_zero o)))).
Proof.
  intros A o p sse2 avx dim ax ay az X MU S Ex Lx Lm Ls.
  assert (E : get_comparison3 o p sse2 avx dim ax ay az X MU S = mahalanobis o dim X MU S).
  { unfold get_comparison3. destruct avx, sse2; try reflexivity; apply mahalanobis_simd_ok; auto;
      destruct p; cbn; try lia; intros;
      first [now apply hsum_sse2_f|now apply hsum_sse2_d|now apply hsum_avx_f|now apply hsum_avx_d]. }
  rewrite E. unfold mahalanobis. rewrite (tail3_ok o Ex _ (t_mahal o)) by (auto; lia). rewrite Nat.sub_0_r. f_equal.
  rewrite (Radd_0_l (ex_ring o Ex)). reflexivity.
Qed.
Print Assumptions C41_mahalanobis.

(** The accumulation steps of the Gaussian mixture code: MU += W X and
    S += W (X - Y)^2 on the first [dim] elements, whatever the register size. *)
Theorem C41_weighted_accumulation : forall A (o : ops A) vs es dim a1 a2 a3 R X Y W, exact o ->
  0 < vs -> 0 < es -> dim <= length R -> dim <= length X -> dim <= length Y ->
  let get l i := nth i l (o_zero o) in
  (exists R', weighted_mean_simd o vs es dim a1 a2 R X W = Some R' /\ length R' = length R /\
    forall i, get R' i = if i <? dim then o_add o (get R i) (o_mul o W (get X i)) else get R i) /\
  (exists R', weighted_sigma_simd o vs es dim a1 a2 a3 R X Y W = Some R' /\ length R' = length R /\
    forall i, get R' i = if i <? dim then
      let d := o_sub o (get X i) (get Y i) in o_add o (get R i) (o_mul o W (o_mul o d d)) else get R i).
Proof.
  intros A o vs es dim a1 a2 a3 R X Y W Ex Hv He Lr Lx Ly get. split.
  - destruct (weighted_mean_ok o Ex vs es Hv He dim a1 a2 R X W Lr Lx) as (R' & E & L & M). exists R'. auto.
  - destruct (weighted_sigma_ok o Ex vs es Hv He dim a1 a2 a3 R X Y W Lr Lx Ly) as (R' & E & L & M). exists R'. auto.
Qed.
Print Assumptions C41_weighted_accumulation.

(** seven components, unaligned and aligned, float and double *)
Example C41_ex :
  let X := map z [1; -2; 3; 4; 5; -6; 7; 8; 9; 10]%Z in let Y := map z [3; 1; 4; 1; -5; 9; 2; 6; 5; 3]%Z in
  get_comparison qc_ops Float true true DistanceL2 9 4 8 X Y = get_comparison qc_ops Double true false DistanceL2 9 0 32 X Y /\
  get_comparison qc_ops Float true true DistanceChi2 9 16 8 X Y = get_comparison qc_ops Double false false DistanceChi2 9 0 0 X Y /\
  get_comparison qc_ops Float true true KernelL2 10 16 32 X Y = Some (z 75).
Proof. repeat split; vm_compute; repeat f_equal; apply Qc_is_canon; reflexivity. Qed.

(** C68.  On non-negative vectors every comparison is the documented sum, with
    terms 0/0 and 0 log 0 read as zero, for all processors and alignments. *)
Theorem C68_documented_formulas : forall p sse2 avx t dim ax ay X Y,
  dim <= length X -> dim <= length Y -> Forall (fun x => 0 <= x)%R X -> Forall (fun x => 0 <= x)%R Y ->
  get_comparison real_ops p sse2 avx t dim ax ay X Y = Some (compared t dim X Y).
Proof.
  intros p sse2 avx t dim ax ay X Y Lx Ly Px Py.
  destruct (C41_simd_equals_scalar R real_ops p sse2 avx t dim ax ay X Y real_exact Lx Ly) as (v & -> & E).
  rewrite <- E. now apply documented.
Qed.
Print Assumptions C68_documented_formulas.

(** C69.  Corresponding distances and kernels are related by
    d(x,y) = k(x,x) + k(y,y) - k(x,y) - k(y,x). *)
Theorem C69_distance_from_kernel : forall p sse2 avx t dim ax ay X Y d kxx kyy kxy kyx,
  is_distance t = true ->
  dim <= length X -> dim <= length Y -> Forall (fun x => 0 <= x)%R X -> Forall (fun x => 0 <= x)%R Y ->
  let k := get_comparison real_ops p sse2 avx (kernel_of t) dim in
  get_comparison real_ops p sse2 avx t dim ax ay X Y = Some d ->
  k ax ax X X = Some kxx -> k ay ay Y Y = Some kyy -> k ax ay X Y = Some kxy -> k ay ax Y X = Some kyx ->
  d = (kxx + kyy - kxy - kyx)%R.
Proof.
  intros p sse2 avx t dim ax ay X Y d kxx kyy kxy kyx D Lx Ly Px Py k.
  unfold k. rewrite !C68_documented_formulas by auto. intros E1 E2 E3 E4 E5.
  injection E1 as <-. injection E2 as <-. injection E3 as <-. injection E4 as <-. injection E5 as <-.
  now apply compared_relation.
Qed.
Print Assumptions C69_distance_from_kernel.
Example C69_ex : compared DistanceChi2 2 [1; 2]%R [3; 0]%R = 3%R /\ compared KernelChi2 2 [1; 2]%R [3; 0]%R = (3 / 2)%R.
Proof.
  unfold compared. cbn. unfold ratio.
  destruct (Req_EM_T (1 + 3) 0), (Req_EM_T (2 + 0) 0); try (exfalso; Lra.lra). split; Lra.lra.
Qed.

(** C70.  The documentation defines the Hellinger kernel as the sum of
    2 sqrt(x y); the code returns half of it. *)
Theorem C70_hellinger_kernel_refuted :
  exists X Y, Forall (fun x => 0 <= x)%R X /\ Forall (fun x => 0 <= x)%R Y /\
    get_comparison real_ops Float false false KernelHellinger 1 0 0 X Y <>
    Some (rsum 1 (fun i => 2 * R_sqrt.sqrt (nth i X 0 * nth i Y 0))%R).
Proof.
  exists (1%R :: nil), (1%R :: nil). split; [repeat constructor; Lra.lra|]. split; [repeat constructor; Lra.lra|].
  rewrite C68_documented_formulas; try (cbn; lia); try (repeat constructor; Lra.lra).
  unfold compared. cbn. rewrite Rmult_1_r, sqrt_1. intro E. injection E as E. Lra.lra.
Qed.
Print Assumptions C70_hellinger_kernel_refuted.
