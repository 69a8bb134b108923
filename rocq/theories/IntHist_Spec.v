(** Sums over boxes of a label map. *)
From Coq Require Import List Arith ZArith.
Import ListNotations.

(** the sum of f over [a, a + n) *)
Fixpoint sum (n a : nat) (f : nat -> Z) : Z := match n with O => 0%Z | S n' => (f a + sum n' (S a) f)%Z end.
(** the sum of f over the rows x1 .. x2 - 1 and the columns y1 .. y2 - 1 *)
Definition box (f : nat -> nat -> Z) (x1 y1 x2 y2 : nat) : Z := sum (y2 - y1) y1 (fun y => sum (x2 - x1) x1 (fun x => f x y)).
(** the total mass of the label l at the pixel (x, y) over the maps *)
Definition label_mass (labels : list nat) (mass : nat -> Z) (W H maps l x y : nat) : Z :=
  sum maps 0 (fun q => if nth (q * (W * H) + W * y + x) labels 0 =? l then mass (W * y + x) else 0%Z).
