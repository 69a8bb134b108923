(** What the resampling routines should compute, stated without the model. *)
From Coq Require Import List Arith Lia.
Import ListNotations.

(** the image as a function of column and row *)
Definition image_of {A} (d : A) (im : list A) (stride x y : nat) : A := nth (x + y * stride) im d.

Section Interpolation.
Context {A : Type} (add : A -> A -> A) (half : A -> A).

(** the signal f(0..n-1), its last value continued, at X/2 by linear
    interpolation *)
Definition interpolate (n : nat) (f : nat -> A) (t : nat) : A :=
  if Nat.even t then f (t / 2) else half (add (f (t / 2)) (f (Nat.min (t / 2 + 1) (n - 1)))).

(** the n by m image doubled in both directions *)
Definition doubled (n m : nat) (f : nat -> nat -> A) (x y : nat) : A :=
  interpolate m (fun j => interpolate n (fun i => f i j) x) y.

(** doubled k times *)
Fixpoint doubled_times (k n m : nat) (f : nat -> nat -> A) : nat -> nat -> A :=
  match k with
  | O => f
  | S k => doubled (n * 2 ^ k) (m * 2 ^ k) (doubled_times k n m f)
  end.
End Interpolation.

(** rounded up *)
Definition ceil_div (n d : nat) : nat := (n + (d - 1)) / d.
