(** Model of the vector comparison functions: the scalar loops of mathop.c,
    their SSE2 and AVX versions in mathop_sse2.c and mathop_avx.c, the run-time
    dispatch and the evaluation on all pairs.  The functions are templates in
    the number type (float or double); here they are over any type with the
    operations below, so that rounding is not modelled.  Pointers below the start
    of an array, as in X_end - VSIZE + 1 for short vectors, are integers. *)
From Coq Require Import List Arith ZArith Lia Bool.
From Verif Require Import Base Loop.
Import ListNotations.
Local Open Scope nat_scope.

(** the arithmetic of the type T *)
Record ops (A : Type) := mk_ops {
  o_zero : A; o_one : A;
  o_add : A -> A -> A; o_sub : A -> A -> A; o_mul : A -> A -> A; o_div : A -> A -> A;
  o_opp : A -> A;
  o_gt : A -> A -> bool;     (* x > y *)
  o_nz : A -> bool;          (* x != 0 *)
  o_abs : A -> A;            (* vl_abs_f, vl_abs_d; also: clear the sign bit *)
  o_sqrt : A -> A; o_log2 : A -> A }.
Arguments mk_ops {A}.
Arguments o_zero {A}. Arguments o_one {A}. Arguments o_add {A}. Arguments o_sub {A}.
Arguments o_mul {A}. Arguments o_div {A}. Arguments o_opp {A}. Arguments o_gt {A}.
Arguments o_nz {A}. Arguments o_abs {A}. Arguments o_sqrt {A}. Arguments o_log2 {A}.

Section Vec.
Context {A : Type} (o : ops A).
Notation "0" := (o_zero o).
Notation "x + y" := (o_add o x y).
Notation "x - y" := (o_sub o x y).
Notation "x * y" := (o_mul o x y).
Notation "x / y" := (o_div o x y).
Notation "- x" := (o_opp o x).
Let two : A := o_one o + o_one o.

(** VL_MAX, generic.h:188 *)
Definition vl_max (x y : A) : A := if o_gt o x y then x else y.

(** ** Scalar loops *)
(** while (X < X_end) { a = *X++; b = *Y++; acc = f(acc, a, b) } from index i *)
Definition tail2 (f : A -> A -> A -> A) (dim : nat) (X Y : list A) (i : nat) (acc : A) : option A :=
  iter_from (dim - i)%nat i (fun i acc => do a <- aget X i; do b <- aget Y i; Some (f acc a b)) acc.
Definition tail3 (f : A -> A -> A -> A -> A) (dim : nat) (X Y S : list A) (i : nat) (acc : A) : option A :=
  iter_from (dim - i)%nat i
    (fun i acc => do a <- aget X i; do b <- aget Y i; do c <- aget S i; Some (f acc a b c)) acc.

(** loop bodies *)
Definition acc_l2 (acc a b : A) : A := let d := a - b in acc + d * d.
Definition acc_l1 (acc a b : A) : A := let d := a - b in acc + vl_max d (- d).
Definition acc_chi2 (acc a b : A) : A :=
  let delta := a - b in let denom := a + b in let numer := delta * delta in
  if o_nz o denom then acc + numer / denom else acc.
Definition acc_hellinger (acc a b : A) : A := acc + (a + b - two * o_sqrt o (a * b)).
Definition acc_js (acc x y : A) : A :=
  let acc := if o_nz o x then acc + (x - x * o_log2 o (o_one o + y / x)) else acc in
  if o_nz o y then acc + (y - y * o_log2 o (o_one o + x / y)) else acc.
Definition acc_k2 (acc a b : A) : A := acc + a * b.
Definition acc_k1 (acc a b : A) : A := acc + (o_abs o a + o_abs o b - o_abs o (a - b)).
Definition acc_kchi2 (acc a b : A) : A :=
  let denom := a + b in
  if o_nz o denom then let numer := two * a * b in acc + numer / denom else acc.
Definition acc_khellinger (acc a b : A) : A := acc + o_sqrt o (a * b).
Definition acc_kjs (acc x y : A) : A :=
  let acc := if o_nz o x then acc + x * o_log2 o (o_one o + y / x) else acc in
  if o_nz o y then acc + y * o_log2 o (o_one o + x / y) else acc.
Definition acc_mahal (acc a b c : A) : A := let d := a - b in acc + d * d * c.

(** _vl_distance_l2, mathop.c:294-305 *)
Definition distance_l2 (dim : nat) (X Y : list A) : option A := tail2 acc_l2 dim X Y 0%nat 0.
(** _vl_distance_l1, mathop.c:307-318 *)
Definition distance_l1 (dim : nat) (X Y : list A) : option A := tail2 acc_l1 dim X Y 0%nat 0.
(** _vl_distance_chi2, mathop.c:320-340 *)
Definition distance_chi2 (dim : nat) (X Y : list A) : option A := tail2 acc_chi2 dim X Y 0%nat 0.
(** _vl_distance_hellinger, mathop.c:342-358 *)
Definition distance_hellinger (dim : nat) (X Y : list A) : option A := tail2 acc_hellinger dim X Y 0%nat 0.
(** _vl_distance_js, mathop.c:360-373 *)
Definition distance_js (dim : nat) (X Y : list A) : option A := tail2 acc_js dim X Y 0%nat 0.
(** _vl_kernel_l2, mathop.c:375-387 *)
Definition kernel_l2 (dim : nat) (X Y : list A) : option A := tail2 acc_k2 dim X Y 0%nat 0.
(** _vl_kernel_l1, mathop.c:389-403 *)
Definition kernel_l1 (dim : nat) (X Y : list A) : option A :=
  do acc <- tail2 acc_k1 dim X Y 0%nat 0; Some (acc / two).
(** _vl_kernel_chi2, mathop.c:405-422 *)
Definition kernel_chi2 (dim : nat) (X Y : list A) : option A := tail2 acc_kchi2 dim X Y 0%nat 0.
(** _vl_kernel_hellinger, mathop.c:424-440 *)
Definition kernel_hellinger (dim : nat) (X Y : list A) : option A := tail2 acc_khellinger dim X Y 0%nat 0.
(** _vl_kernel_js, mathop.c:442-455 *)
Definition kernel_js (dim : nat) (X Y : list A) : option A :=
  do acc <- tail2 acc_kjs dim X Y 0%nat 0; Some (o_one o / two * acc).
(** _vl_distance_mahalanobis_sq, mathop.c:457-468 *)
Definition mahalanobis (dim : nat) (X MU S : list A) : option A := tail3 acc_mahal dim X MU S 0%nat 0.

(** ** Vector registers *)
(** A register is the list of its lanes; the instructions act lane by lane. *)
Definition vop (f : A -> A -> A) (a b : list A) : list A := map (fun p => f (fst p) (snd p)) (combine a b).
Definition vadd := vop (o_add o).
Definition vsub := vop (o_sub o).
Definition vmul := vop (o_mul o).
Definition vdiv := vop (o_div o).
(** VANDN(vminus, a) clears the sign bits *)
Definition vabs (a : list A) : list A := map (o_abs o) a.
(** VAND(ratio, VNEQ(denom, 0)) *)
Definition vmask (r d : list A) : list A := vop (fun r d => if o_nz o d then r else 0) r d.
Definition lane (v : list A) (k : nat) : A := nth k v 0.

(** _mm_shuffle_ps(a, b, _MM_SHUFFLE(z, y, x, w)) and _mm_shuffle_pd *)
Definition shuffle4 (a b : list A) (z y x w : nat) : list A := [lane a w; lane a x; lane b y; lane b z].
Definition shuffle2 (a b : list A) (y x : nat) : list A := [lane a x; lane b y].
(** _mm_hadd_ps, _mm_hadd_pd, _mm256_hadd_ps *)
Definition hadd4 (a b : list A) : list A := [lane a 0%nat + lane a 1; lane a 2 + lane a 3; lane b 0%nat + lane b 1; lane b 2 + lane b 3].
Definition hadd2 (a b : list A) : list A := [lane a 0%nat + lane a 1; lane b 0%nat + lane b 1].
Definition hadd8 (a b : list A) : list A := hadd4 (firstn 4 a) (firstn 4 b) ++ hadd4 (skipn 4 a) (skipn 4 b).
(** _mm256_permute2f128(a, a, 1): swap the halves *)
Definition swap_halves (a : list A) : list A := let h := Nat.div2 (length a) in skipn h a ++ firstn h a.

(** _vl_vhsum_sse2, mathop_sse2.c:43-72: VSIZE is 4 for float and 2 for double *)
Definition vhsum_sse2_f (x : list A) : A :=
  let shuffle := shuffle4 x x 1 0 3 2 in
  let sum := vadd x shuffle in
  let shuffle := shuffle4 sum sum 2 3 0 1 in
  lane (vadd sum shuffle) 0%nat.
Definition vhsum_sse2_d (x : list A) : A := lane (vadd x (shuffle2 x x 0 1)) 0%nat.
(** _vl_vhsum_avx, mathop_avx.c:43-67: VSIZEavx is 8 for float and 4 for double *)
Definition vhsum_avx_f (x : list A) : A :=
  let hsum := hadd8 x x in
  let hsum := vadd hsum (swap_halves hsum) in
  lane (hadd4 (firstn 4 hsum) (firstn 4 hsum)) 0%nat.
Definition vhsum_avx_d (x : list A) : A :=
  let hsum := vadd x (swap_halves x) in
  lane (hadd2 (firstn 2 hsum) (firstn 2 hsum)) 0%nat.

(** ** Vector loops *)
Section Simd.
(** lanes of a register, bytes of a number, horizontal sum *)
Variables (vs es : nat) (hsum : list A -> A).

(** VALIGNED: the address is a multiple of the register size *)
Definition is_aligned (addr : nat) : bool := (addr mod (vs * es)%nat =? 0)%nat.
(** load a register from index i of the array at this address; the aligned load
    faults when the address is not aligned *)
Definition ld (aligned : bool) (addr : nat) (X : list A) (i : nat) : option (list A) :=
  if (i + vs <=? length X)%nat && (negb aligned || is_aligned (addr + i * es)%nat)
  then Some (firstn vs (skipn i X)) else None.
(** store a register *)
Definition st (aligned : bool) (addr : nat) (X : list A) (i : nat) (v : list A) : option (list A) :=
  if (i + vs <=? length X)%nat && (negb aligned || is_aligned (addr + i * es)%nat)
  then Some (firstn i X ++ v ++ skipn (i + vs)%nat X) else None.

(** while (X < X_vec_end), where X_vec_end is X + dimension - VSIZE + [plus] *)
Definition more (dim plus i : nat) : bool := (Z.of_nat i <? Z.of_nat dim - Z.of_nat vs + Z.of_nat plus)%Z.

(** the vector loop: sum the terms in the lanes, return the index reached *)
Definition vloop2 (plus : nat) (term : list A -> list A -> list A) (dim ax ay : nat) (X Y : list A) : option (nat * list A) :=
  let aligned := is_aligned ax && is_aligned ay in
  while (S dim) (fun s => more dim plus (fst s))
    (fun s => let '(i, vacc) := s in
       do a <- ld aligned ax X i; do b <- ld aligned ay Y i;
       Some ((i + vs)%nat, vadd vacc (term a b)))
    (0%nat, repeat 0 vs).
Definition vloop3 (plus : nat) (term : list A -> list A -> list A -> list A) (dim ax ay az : nat) (X Y S : list A) : option (nat * list A) :=
  let aligned := is_aligned ax && is_aligned ay && is_aligned az in
  while (Datatypes.S dim) (fun s => more dim plus (fst s))
    (fun s => let '(i, vacc) := s in
       do a <- ld aligned ax X i; do b <- ld aligned ay Y i; do c <- ld aligned az S i;
       Some ((i + vs)%nat, vadd vacc (term a b c)))
    (0%nat, repeat 0 vs).

(** vector loop, horizontal sum, scalar tail *)
Definition simd2 (plus : nat) (term : list A -> list A -> list A) (f : A -> A -> A -> A) (dim ax ay : nat) (X Y : list A) : option A :=
  do (i, vacc) <- vloop2 plus term dim ax ay X Y;
  tail2 f dim X Y i (hsum vacc).

(** _vl_dot_sse2, mathop_sse2.c:76-113, and _vl_kernel_l2_sse2, 304-341 *)
Definition kernel_l2_simd := simd2 1 (fun a b => vmul a b) acc_k2.
(** _vl_distance_l2_sse2, mathop_sse2.c:115-155; _vl_distance_l2_avx, mathop_avx.c:69-110 *)
Definition distance_l2_simd := simd2 1 (fun a b => let delta := vsub a b in vmul delta delta) acc_l2.
(** _vl_distance_mahalanobis_sq_sse2, mathop_sse2.c:157-211;
    _vl_distance_mahalanobis_sq_avx, mathop_avx.c:112-166 *)
Definition mahalanobis_simd (dim ax ay az : nat) (X MU S : list A) : option A :=
  do (i, vacc) <- vloop3 1 (fun a b c => let delta := vsub a b in vmul (vmul delta delta) c) dim ax ay az X MU S;
  tail3 acc_mahal dim X MU S i (hsum vacc).
(** _vl_distance_l1_sse2, mathop_sse2.c:215-253 *)
Definition distance_l1_simd := simd2 0 (fun a b => vabs (vsub a b)) acc_l1.
(** _vl_distance_chi2_sse2, mathop_sse2.c:255-301 *)
Definition distance_chi2_simd := simd2 0
  (fun a b => let delta := vsub a b in let denom := vadd a b in
              vmask (vdiv (vmul delta delta) denom) denom) acc_chi2.
(** _vl_kernel_l1_sse2, mathop_sse2.c:343-391 *)
Definition kernel_l1_simd (dim ax ay : nat) (X Y : list A) : option A :=
  do acc <- simd2 1 (fun a b => vsub (vadd (vabs a) (vabs b)) (vabs (vsub a b))) acc_k1 dim ax ay X Y;
  Some (acc / two).
(** _vl_kernel_chi2_sse2, mathop_sse2.c:393-439 *)
Definition kernel_chi2_simd (dim ax ay : nat) (X Y : list A) : option A :=
  do acc <- simd2 0 (fun a b => let denom := vadd a b in vmask (vdiv (vmul a b) denom) denom)
              (fun acc a b => let denom := a + b in if o_nz o denom then acc + a * b / denom else acc) dim ax ay X Y;
  Some (two * acc).

(** _vl_weighted_mean_sse2, mathop_sse2.c:491-534; _vl_weighted_mean_avx,
    mathop_avx.c:168-211: MU += W X *)
Definition weighted_mean_simd (dim am ax : nat) (MU X : list A) (W : A) : option (list A) :=
  let w := repeat W vs in
  let aligned := is_aligned ax && is_aligned am in
  do (i, MU) <- while (S dim) (fun s => more dim 1 (fst s))
    (fun s => let '(i, MU) := s in
       do a <- ld aligned ax X i; do mu <- ld aligned am MU i;
       do MU <- st aligned am MU i (vadd (vmul a w) mu);
       Some ((i + vs)%nat, MU)) (0%nat, MU);
  iter_from (dim - i)%nat i (fun i MU => do a <- aget X i; do m <- aget MU i; aset MU i (m + a * W)) MU.
(** _vl_weighted_sigma_sse2, mathop_sse2.c:441-489; _vl_weighted_sigma_avx,
    mathop_avx.c:213-262: S += W (X - Y)^2 *)
Definition weighted_sigma_simd (dim as_ ax ay : nat) (SI X Y : list A) (W : A) : option (list A) :=
  let w := repeat W vs in
  let aligned := is_aligned ax && is_aligned ay && is_aligned as_ in
  do (i, SI) <- while (S dim) (fun s => more dim 1 (fst s))
    (fun s => let '(i, SI) := s in
       do a <- ld aligned ax X i; do b <- ld aligned ay Y i; do s <- ld aligned as_ SI i;
       let delta := vsub a b in
       do SI <- st aligned as_ SI i (vadd s (vmul (vmul delta delta) w));
       Some ((i + vs)%nat, SI)) (0%nat, SI);
  iter_from (dim - i)%nat i
    (fun i SI => do a <- aget X i; do b <- aget Y i; let delta := a - b in
                do s <- aget SI i; aset SI i (s + delta * delta * W)) SI.
End Simd.

(** ** Dispatch *)
(** VlVectorComparisonType, mathop.h *)
Inductive comparison := DistanceL1 | DistanceL2 | DistanceChi2 | DistanceHellinger | DistanceJS
  | KernelL1 | KernelL2 | KernelChi2 | KernelHellinger | KernelJS.

(** float or double: lanes and bytes *)
Inductive prec := Float | Double.
Definition sse_lanes (p : prec) : nat := match p with Float => 4 | Double => 2 end.
Definition avx_lanes (p : prec) : nat := match p with Float => 8 | Double => 4 end.
Definition bytes (p : prec) : nat := match p with Float => 4 | Double => 8 end.
Definition vhsum_sse2 (p : prec) := match p with Float => vhsum_sse2_f | Double => vhsum_sse2_d end.
Definition vhsum_avx (p : prec) := match p with Float => vhsum_avx_f | Double => vhsum_avx_d end.

(** vl_get_vector_comparison_function, mathop.c:472-519.  [sse2] and [avx] tell
    whether the processor has the instructions and SIMD is enabled; the returned
    function takes the dimension and, for each array, its address and contents. *)
Definition get_comparison (p : prec) (sse2 avx : bool) (t : comparison) (dim ax ay : nat) (X Y : list A) : option A :=
  let sse f := f (sse_lanes p) (bytes p) (vhsum_sse2 p) dim ax ay X Y in
  let scalar := match t with
    | DistanceL2 => distance_l2 | DistanceL1 => distance_l1 | DistanceChi2 => distance_chi2
    | DistanceHellinger => distance_hellinger | DistanceJS => distance_js
    | KernelL2 => kernel_l2 | KernelL1 => kernel_l1 | KernelChi2 => kernel_chi2
    | KernelHellinger => kernel_hellinger | KernelJS => kernel_js
    end in
  let with_sse := if sse2 then match t with
    | DistanceL2 => sse distance_l2_simd | DistanceL1 => sse distance_l1_simd | DistanceChi2 => sse distance_chi2_simd
    | KernelL2 => sse kernel_l2_simd | KernelL1 => sse kernel_l1_simd | KernelChi2 => sse kernel_chi2_simd
    | _ => scalar dim X Y
    end else scalar dim X Y in
  if avx then match t with
    | DistanceL2 => distance_l2_simd (avx_lanes p) (bytes p) (vhsum_avx p) dim ax ay X Y
    | _ => with_sse
    end else with_sse.

(** vl_get_vector_3_comparison_function, mathop.c:523-554 *)
Definition get_comparison3 (p : prec) (sse2 avx : bool) (dim ax ay az : nat) (X MU S : list A) : option A :=
  if avx then mahalanobis_simd (avx_lanes p) (bytes p) (vhsum_avx p) dim ax ay az X MU S
  else if sse2 then mahalanobis_simd (sse_lanes p) (bytes p) (vhsum_sse2 p) dim ax ay az X MU S
  else mahalanobis dim X MU S.

(** ** All pairs *)
(** vl_eval_vector_comparison_on_all_pairs, mathop.c:558-601.  A pointer into an
    array is the array from there on; [Y] is [None] for the null pointer. *)
Section Pairs.
Variable fn : nat -> list A -> list A -> option A.
Definition all_pairs (result : list A) (dim : nat) (X : list A) (numX : nat) (Y : option (list A)) (numY : nat) : option (list A) :=
  if (dim =? 0)%nat then Some result else
  if (numX =? 0)%nat then Some result else
  match Y with
  | Some Y =>
    if (numY =? 0)%nat then Some result else
    do (_, result) <- iter numY (fun yi s =>
      iter numX (fun xi s => let '(r, result) := s in
        do z <- fn dim (skipn (xi * dim)%nat X) (skipn (yi * dim)%nat Y);
        do result <- aset result r z;
        Some ((r + 1)%nat, result)) s) (0%nat, result);
    Some result
  | None =>
    do (_, _, result) <- iter numX (fun yi s =>
      do (r, rt, result) <- iter (yi + 1)%nat (fun xi s => let '(r, rt, result) := s in
        do z <- fn dim (skipn (xi * dim)%nat X) (skipn (yi * dim)%nat X);
        do result <- zset result r z;
        do result <- zset result rt z;
        Some ((r + 1)%Z, (rt + Z.of_nat numX)%Z, result)) s;
      Some ((r + Z.of_nat (numX - (yi + 1)))%Z, (rt + 1 - (Z.of_nat yi + 1) * Z.of_nat numX)%Z, result))
      (0%Z, 0%Z, result);
    Some result
  end.
End Pairs.
End Vec.
