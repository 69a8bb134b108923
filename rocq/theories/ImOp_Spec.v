(** What the image operations should compute, stated without the model. *)
From Coq Require Import List Arith ZArith Lia Bool.
Import ListNotations.

Section Sums.
Context {A : Type} (r0 : A) (radd rmul : A -> A -> A).

(** f(0) + ... + f(n-1) *)
Fixpoint sum (n : nat) (f : nat -> A) : A :=
  match n with O => r0 | S n => radd (sum n f) (f n) end.

(** v + ... + v, n times *)
Definition times (n : nat) (v : A) : A := sum n (fun _ => v).

(** the image as a function of column and row *)
Definition pixel (image : list A) (stride x y : nat) : A := nth (x + y * stride) image r0.

(** the sum of the image over columns x0..x1-1 and rows y0..y1-1 *)
Definition rect_sum (image : list A) (stride x0 x1 y0 y1 : nat) : A :=
  sum (y1 - y0) (fun j => sum (x1 - x0) (fun i => pixel image stride (x0 + i) (y0 + j))).

(** a column of height [h] extended to all integers, with zeros or with its
    first and last value *)
Definition padded (zeropad : bool) (h : nat) (col : nat -> A) (p : Z) : A :=
  if (0 <=? p)%Z && (p <? Z.of_nat h)%Z then col (Z.to_nat p)
  else if zeropad then r0
  else if (p <? 0)%Z then col 0 else col (h - 1).

(** sum over the filter support fb..fe of padded(y - t) * filter(t), where the
    filter array starts with the sample fb *)
Definition conv_at (zeropad : bool) (h : nat) (col : nat -> A) (filt : list A) (fb fe : Z) (y : nat) : A :=
  sum (Z.to_nat (fe - fb + 1)) (fun i =>
    rmul (padded zeropad h col (Z.of_nat y - (fb + Z.of_nat i))) (nth i filt r0)).

(** sum over |d| < F of (F - |d|) padded(y + d) *)
Definition triangle_at (zeropad : bool) (h : nat) (col : nat -> A) (F : nat) (y : nat) : A :=
  sum (2 * F - 1) (fun i =>
    let d := (Z.of_nat i - (Z.of_nat F - 1))%Z in
    times (Z.to_nat (Z.of_nat F - Z.abs d)) (padded zeropad h col (Z.of_nat y + d))).
End Sums.

(** position of output (x, k) in the destination *)
Definition out_pos (transp : bool) (dstride x k : nat) : nat :=
  if transp then x * dstride + k else x + k * dstride.

(** [dst'] is [dst] with [val a b] stored at [pos a b] for all a < n, b < m
    and nothing else changed. *)
Definition filled {A} (pos : nat -> nat -> nat) (val : nat -> nat -> A) (n m : nat) (dst dst' : list A) : Prop :=
  length dst' = length dst /\
  (forall a b, a < n -> b < m -> nth_error dst' (pos a b) = Some (val a b)) /\
  (forall i, (forall a b, a < n -> b < m -> i <> pos a b) -> nth_error dst' i = nth_error dst i).
