(** The singular value decomposition of 2 by 2 matrices, vl_svd2 and vl_lapack_dlasv2 of mathop.c,
    and the frames made of it by the affine adaptation of covdet.c, over the real numbers (rounding is not modelled).
    [None] is a division by zero: results that are infinite or not numbers. *)
From Coq Require Import List Arith Bool Reals ZArith.
Import ListNotations.
From Verif Require Import Base Rodrigues_Model.
Local Open Scope R_scope.

(** VL_EPSILON_D, mathop.h:45 *)
Definition epsilon : R := / 2 ^ 52.
(** "#define sign", mathop.c:710 *)
Definition sign (x : R) : R := if ltb x 0 then -1 else 1.
Definition eqb (a b : R) : bool := if Req_EM_T a b then true else false.
Record lasv := Lasv { l_smin : R; l_smax : R; l_sv : R; l_cv : R; l_su : R; l_cu : R }.
(** the values smin, smax, cvt, svt, cut and sut of a matrix with |f| >= |h| after the swap, mathop.c:751-810; [None] is a division by zero *)
Definition half_svd (ft gt ht : R) : option (R * R * R * R * R * R) :=
  let fa := Rabs ft in let ga := Rabs gt in let ha := Rabs ht in
  if eqb ga 0 then Some (ha, fa, 1, 0, 1, 0)
  else if ltb fa ga && ltb (fa / ga) epsilon then
    (* g is very large *)
    Some (if ltb 1 ha then fa / (ga / ha) else fa / ga * ha, ga, 1, ft / gt, 1, ht / gt)
  else if eqb ft 0 then None else
    let fmh := fa - ha in
    let d := if eqb fmh fa then 1 else fmh / fa in
    let q := gt / ft in
    let s := 2 - d in
    let dd := d * d in let qq := q * q in let ss := s * s in
    let spq := sqrt (ss + qq) in
    let dpq := if eqb d 0 then Rabs q else sqrt (dd + qq) in
    let a := (1 / 2) * (spq + dpq) in
    let tmp := if eqb qq 0 then (if eqb d 0 then sign ft * 2 * sign gt else gt / (sign ft * fmh) + q / s)
               else (q / (spq + s) + q / (dpq + d)) * (1 + a) in
    let tt := sqrt (tmp * tmp + 4) in
    let cvt := 2 / tt in let svt := tmp / tt in
    Some (ha / a, fa * a, cvt, svt, (cvt + svt * q) / a, ht / ft * svt / a).
(** vl_lapack_dlasv2, mathop.c:712-823 *)
Definition dlasv2 (f g h : R) : option lasv :=
  let swap := ltb (Rabs f) (Rabs h) in
  let '(ft, ht) := if swap then (h, f) else (f, h) in
  let pmax := if negb (eqb (Rabs g) 0) && ltb (Rabs ft) (Rabs g) then 2%nat else if swap then 3%nat else 1%nat in
  do (smin, smax, cvt, svt, cut, sut) <- half_svd ft g ht;
  let '(cu, su, cv, sv) := if swap then (svt, cvt, sut, cut) else (cut, sut, cvt, svt) in
  let tsign := match pmax with
    | 1%nat => sign cv * sign cu * sign f
    | 2%nat => sign sv * sign cu * sign g
    | _ => sign sv * sign su * sign h
    end in
  Some (Lasv (sign (tsign * sign f * sign h) * smin) (sign tsign * smax) sv cv su cu).

(** a 2 by 2 matrix in the order of the arrays: M[0] = m11, M[1] = m21, M[2] = m12, M[3] = m22 *)
Record mat := Mat { m11 : R; m21 : R; m12 : R; m22 : R }.
(** vl_svd2, mathop.c:640-683: S[0], S[3], U and V *)
Definition svd2 (M : mat) : option (R * R * mat * mat) :=
  let norm := sqrt (m11 M * m11 M + m21 M * m21 M) in
  if eqb norm 0 then None else
  let cu1 := m11 M / norm in let su1 := m21 M / norm in
  let f := cu1 * m11 M + su1 * m21 M in
  let g := cu1 * m12 M + su1 * m22 M in
  let h := - su1 * m12 M + cu1 * m22 M in
  do r <- dlasv2 f g h;
  let cu2 := l_cu r in let su2 := l_su r in
  Some (l_smax r, l_smin r, Mat (cu2 * cu1 - su2 * su1) (su2 * cu1 + cu2 * su1) (- cu2 * su1 - su2 * cu1) (- su2 * su1 + cu2 * cu1),
        Mat (l_cv r) (l_sv r) (- l_sv r) (l_cv r)).

(** ** covdet.c *)
(** the frame of one iteration of the adaptation, covdet.c:2501-2529: [ref] is the reference scale, [None] in the first iteration;
    the new reference scale, the frame and its singular values.  A zero singular value is left to the caller: the quotients of the test of the anisotropy are not modelled *)
Definition rescaled (ref : option R) (A : mat) : option (R * mat * R * R) :=
  do (d0, d3, U, V) <- svd2 A;
  let ref' := match ref with None => Rmin d0 d3 | Some r => r end in
  let factor := match ref with None => 1 | Some r => r / Rmin d0 d3 end in
  let d0 := d0 * factor in let d3 := d3 * factor in
  Some (ref', Mat (m11 U * d0) (m21 U * d0) (m12 U * d3) (m22 U * d3), d0, d3).
(** "Make upright", covdet.c:2617-2655: [x] is the solution ref_ of A x = ref found by vl_solve_linear_system_2 and [atan2] the library function *)
Definition upright (atan2 : R -> R -> R) (transposed : bool) (x : R * R) (A : mat) : mat :=
  let '(r0, r1) := if transposed then (1, 0) else (0, 1) in
  let dangle := atan2 (snd x) (fst x) - atan2 r1 r0 in
  let c := cos dangle in let s := sin dangle in
  Mat (m11 A * c + m12 A * s) (m21 A * c + m22 A * s) (- m11 A * s + m12 A * c) (- m21 A * s + m22 A * c).

(** ** the loop of the adaptation *)
(** VL_COVDET_AA_MAX_ANISOTROPY, VL_COVDET_AA_MAX_NUM_ITERATIONS, VL_COVDET_AA_CONVERGENCE_THRESHOLD, covdet.c:1435-1440 *)
Definition max_anisotropy : R := 5.
Definition max_iterations : nat := 15.
Definition threshold : R := 1001 / 1000.
(** covdet.c:2509-2516 *)
Definition anisotropic (d0 d3 : R) : bool := ltb max_anisotropy (Rmax (d0 / d3) (d3 / d0)).
(** covdet.c:2595-2598 *)
Definition converged (q0 q3 : R) : bool := ltb (q3 / q0) threshold && ltb (q0 / q3) threshold.
(** covdet.c:2600-2609 *)
Definition whitened (A P : mat) (q0 q3 : R) : mat :=
  Mat ((m11 A * m11 P + m12 A * m21 P) / sqrt q0) ((m21 A * m11 P + m22 A * m21 P) / sqrt q0)
      ((m11 A * m12 P + m12 A * m22 P) / sqrt q3) ((m21 A * m12 P + m22 A * m22 P) / sqrt q3).
(** [Failed]: the code of an error of the extraction of the patch is returned *)
Inductive outcome := Failed | Adapted (A : mat).
(** vl_covdet_extract_affine_shape_for_frame up to "Make upright", covdet.c:2466-2612: [moments A d0 d3] is the second moment matrix measured on the patch
    extracted for the frame A of singular values d0 and d3 ([None]: the patch cannot be extracted).  The outer [None] is a division by zero,
    the root of a negative number, or the end of the fuel *)
Fixpoint adapt (moments : mat -> R -> R -> option mat) (frame : mat) (fuel iter : nat) (ref : option R) (A adapted : mat) : option outcome :=
  match fuel with
  | O => None
  | S n =>
    do (d0, d3, U, V) <- svd2 A;
    if eqb d0 0 || eqb d3 0 then None else
    if anisotropic d0 d3 then Some (Adapted adapted) else
    do (ref', A', e0, e3) <- rescaled ref A;
    if (max_iterations <=? S iter)%nat then Some (Adapted A') else
    match moments A' e0 e3 with
    | None => Some Failed
    | Some M =>
      if eqb (m11 M) 0 || eqb (m22 M) 0 then Some (Adapted frame) else
      do (q0, q3, P, P') <- svd2 M;
      if eqb q0 0 || eqb q3 0 then None else
      if converged q0 q3 then Some (Adapted A') else
      if ltb q0 0 || ltb q3 0 then None else
      adapt moments frame n (S iter) (Some ref') (whitened A' P q0 q3) A'
    end
  end.
(** vl_covdet_extract_affine_shape_for_frame, covdet.c:2466-2658: the linear part of the adapted frame; [solve] is vl_solve_linear_system_2 *)
Definition affine_shape (moments : mat -> R -> R -> option mat) (atan2 : R -> R -> R) (solve : mat -> R * R -> R * R) (transposed : bool) (frame : mat) : option outcome :=
  do r <- adapt moments frame 16 0 None frame frame;
  match r with
  | Failed => Some Failed
  | Adapted A => Some (Adapted (upright atan2 transposed (solve A (if transposed then (1, 0) else (0, 1))) A))
  end.
