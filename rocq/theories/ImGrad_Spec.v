(** Derivatives of an image, by pixel. *)
From Coq Require Import List Arith ZArith Lia Bool QArith Qcanon.
Import ListNotations.
Local Open Scope nat_scope.

(** the pixel of column x and row y *)
Definition pixel (img : list Qc) (stride x y : nat) : Qc := nth (y * stride + x) img 0%Qc.
(** the derivative of a function of n samples: half the difference of the neighbours inside, the difference to the one neighbour at the ends *)
Definition derivative (f : nat -> Qc) (n i : nat) : Qc :=
  if i =? 0 then (f 1%nat - f 0%nat)%Qc else if i =? n - 1 then (f i - f (i - 1)%nat)%Qc else ((f (i + 1)%nat - f (i - 1)%nat) / Q2Qc 2)%Qc.
Definition horizontal (img : list Qc) (stride w x y : nat) : Qc := derivative (fun x => pixel img stride x y) w x.
Definition vertical (img : list Qc) (stride h x y : nat) : Qc := derivative (fun y => pixel img stride x y) h y.
(** the positions y hs + x ws of the pixels are different *)
Definition layout (w h ws hs : nat) : Prop := forall x y x' y', x < w -> y < h -> x' < w -> y' < h -> y * hs + x * ws = y' * hs + x' * ws -> x = x' /\ y = y'.
(** the determinant of the Hessian by finite differences *)
Definition hessian_det (img : list Qc) (w x y : nat) : Qc :=
  let I := pixel img w in
  let lxx := (I (x + 1)%nat y + I (x - 1)%nat y - Q2Qc 2 * I x y)%Qc in
  let lyy := (I x (y + 1)%nat + I x (y - 1)%nat - Q2Qc 2 * I x y)%Qc in
  let lxy := ((I (x + 1)%nat (y + 1)%nat + I (x - 1)%nat (y - 1)%nat - I (x + 1)%nat (y - 1)%nat - I (x - 1)%nat (y + 1)%nat) / Q2Qc 4)%Qc in
  (lxx * lyy - lxy * lxy)%Qc.
(** the nearest position that is not on the border *)
Definition inner (n i : nat) : nat := Nat.min (Nat.max i 1) (n - 2).
(** the response of Harris of a second moment matrix (a, c; c, b) *)
Definition harris_score (alpha a b c : Qc) : Qc := (a * b - c * c - alpha * ((a + b) * (a + b)))%Qc.
