(** Smoothing of images in MATLAB, toolbox/imop/vl_imsmooth.c, on the convolutions of ImOp_Model.  Exact rationals; parsing of the
    arguments is left out. *)
From Coq Require Import List Arith ZArith Bool QArith Qcanon.
Import ListNotations.
From Verif Require Import Base Loop Rat ImOp_Model Gauss_Model SiftDescr_Model Quickshift_Model.
Local Open Scope nat_scope.

(** the two kernels, vl_imsmooth.c:151; with their arrays and sizes, vl_imsmooth.c:70-83 and 103 *)
Inductive shape := gaussian | triangular.
Inductive kern := kern_filter (filt : list Qc) (W : nat) | kern_triangle (F : nat).

Section Smooth.
Variables (expo : Qc -> Qc) (eps_f junk : Qc).

(** vl_imsmooth.c:70-80; [junk] fills the array at first *)
Definition gauss_filter (sigma : Qc) (W : nat) : option (list Qc) :=
  do (filter, acc) <- iter (2 * W + 1) (fun j s =>
    let '(filter, acc) := s in
    let z := ((nq j - nq W) / (sigma + eps_f))%Qc in
    let v := expo (- (1 / nq 2) * (z * z))%Qc in
    do filter <- aset filter j v;
    Some (filter, (acc + v)%Qc)) (repeat junk (2 * W + 1), 0%Qc);
  iter (2 * W + 1) (fun j filter => do v <- aget filter j; aset filter j (v / acc)%Qc) filter.
(** the kernel for [sigma]; the conversion of a negative number to an unsigned type is undefined *)
Definition make_kernel (k : shape) (sigma : Qc) : option kern :=
  match k with
  | gaussian =>
    let W := qceil (nq 4 * sigma)%Qc in
    if (W <? 0)%Z then None else
    do filt <- gauss_filter sigma (Z.to_nat W);
    Some (kern_filter filt (Z.to_nat W))
  | triangular => if (trunc sigma <? 0)%Z then None else Some (kern_triangle (Nat.max (Z.to_nat (trunc sigma)) 1))
  end.
(** IMCONVCOL and IMCONVCOLTRI with the flag VL_TRANSPOSE, vl_imsmooth.c:22-26, 84-90, 106-112 and 336-337 *)
Definition convolve (k : kern) (step : nat) (zeropad : bool) (dst : list Qc) (dstride : nat) (src : list Qc) (width height stride : nat) : option (list Qc) :=
  match k with
  | kern_filter filt W => imconvcol 0%Qc Qcplus Qcmult dstride src width height stride filt (- Z.of_nat W) (Z.of_nat W) step true zeropad dst
  | kern_triangle F => imconvcoltri 0%Qc 1%Qc Qcplus Qcmult Qcminus Qcopp dstride src width height stride F (1 / (nq F * nq F))%Qc step true zeropad (repeat junk (height + F)) dst
  end.
(** _vl_imsmooth_smooth, vl_imsmooth.c:28-125: the new contents of [out]; [temp] are those of the temporary image at first.
    Channels are parts of the arrays. *)
Definition smooth (k : shape) (sigma : Qc) (step : nat) (zeropad : bool) (out : list Qc) (outRows outCols : nat) (input : list Qc) (rows cols channels : nat) (temp : list Qc) : option (list Qc) :=
  do kern <- make_kernel k sigma;
  do (out, _) <- iter channels (fun c s =>
    let '(out, temp) := s in
    let image := firstn (rows * cols) (skipn (c * (rows * cols)) input) in
    do temp <- convolve kern step zeropad temp outCols image rows cols rows;
    do part <- convolve kern step zeropad (firstn (outRows * outCols) (skipn (c * (outRows * outCols)) out)) outRows temp outCols rows outCols;
    Some (firstn (c * (outRows * outCols)) out ++ part ++ skipn ((c + 1) * (outRows * outCols)) out, temp)) (out, temp);
  Some out.
(** sizes of the output, vl_imsmooth.c:298-299, in numbers of 64 bits *)
Definition out_size (step M : Z) : Z := (((M - 1) mod 2 ^ 64) / step + 1) mod 2 ^ 64.
(** mexFunction, vl_imsmooth.c:292-358, for an image of M rows, N columns and K channels: sizes and contents of the output *)
Definition imsmooth (k : shape) (sigma : Qc) (step : nat) (zeropad : bool) (input : list Qc) (M N K : nat) (temp : list Qc) : option (nat * nat * list Qc) :=
  if qlt sigma (1 / nq 100) && (step =? 1) then Some (M, N, input) else
  let M_ := Z.to_nat (out_size (Z.of_nat step) (Z.of_nat M)) in
  let N_ := Z.to_nat (out_size (Z.of_nat step) (Z.of_nat N)) in
  do out <- smooth k sigma step zeropad (repeat 0%Qc (M_ * N_ * K)) M_ N_ input M N K temp;
  Some (M_, N_, out).
End Smooth.
