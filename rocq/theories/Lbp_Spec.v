(** Local binary patterns, stated without the model. *)
From Coq Require Import List Arith ZArith Lia Bool QArith Qcanon Qcabs.
From Verif Require Import ImOp_Spec Rat.
Import ListNotations.
Local Open Scope nat_scope.

(** the eight neighbours of a pixel, in the order of the bits: E SE S SW W NW N NE
    (y grows downwards) *)
Definition neighbour (k : nat) : Z * Z :=
  nth k [(1, 0); (1, 1); (0, 1); (-1, 1); (-1, 0); (-1, -1); (0, -1); (1, -1)]%Z (0, 0)%Z.

(** the pattern is a run of j ones starting at bit i, circularly *)
Definition is_run (b : nat -> bool) (i j : nat) : bool :=
  forallb (fun t => Bool.eqb (b t) ((t + 8 - i) mod 8 <? j)) (seq 0 8).
Definition is_constant (b : nat -> bool) : bool := forallb (fun t => Bool.eqb (b t) (b 0)) (seq 0 8).

(** documented bins: 7 i + (j-1) for the 56 runs, 56 for the constant patterns,
    57 for the others *)
Definition bin_of (b : nat -> bool) : nat :=
  if is_constant b then 56 else
  match find (fun '(i, j) => is_run b i j) (list_prod (seq 0 8) (seq 1 7)) with
  | Some (i, j) => 7 * i + (j - 1)
  | None => 57
  end.

(** transposition of the plane exchanges bit k and bit 2 - k modulo 8 *)
Definition transposed_bit (k : nat) : nat := (10 - k) mod 8.

Section Histogram.
Context {V : Type} (gt : V -> V -> bool) (im : Z -> Z -> V).

(** the bits of the pixel (x, y) *)
Definition bits (x y : Z) (k : nat) : bool :=
  gt (im (x + fst (neighbour k)) (y + snd (neighbour k))) (im x y).

(** bilinear weight of a pixel for a cell, along one axis: the cell c of size
    [size] is centred at (c + 1/2) size, the pixel x at x + 1/2 *)
Definition tent (size : nat) (c x : nat) : Qc :=
  let d := ([ (nq x + Q2Qc (1#2)) / nq size - (nq c + Q2Qc (1#2)) ])%Qc in
  if Qclt_le_dec d 1 then (1 - d)%Qc else 0%Qc.

(** weight of the interior pixels whose pattern falls in the bin *)
Definition histogram (width height size : nat) (bin : (nat -> bool) -> nat) (cx cy k : nat) : Qc :=
  sum 0%Qc Qcplus (height - 2) (fun y =>
  sum 0%Qc Qcplus (width - 2) (fun x =>
    if bin (bits (Z.of_nat (x + 1)) (Z.of_nat (y + 1))) =? k
    then (tent size cx (x + 1) * tent size cy (y + 1))%Qc else 0%Qc)).
End Histogram.
