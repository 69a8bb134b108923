(** Model of the LIOP descriptor, vl/liop.c: the permutation index and the
    accumulation of the histogram.

    Integers are mathematical (factorial fits an int for up to 12 neighbours).
    Weights and descriptor entries are integers; the normalisation of the
    descriptor (liop.c:546-556) is not modelled.  The sampling and sorting of the
    neighbours of a pixel enter as the permutation and the weight they produce
    (the sort itself is [Qsort_Model]). *)
From Coq Require Import List Arith ZArith Lia Bool.
From Verif Require Import Base Loop.
Import ListNotations.

(** factorial, liop.c:217-226; [num] rounds suffice *)
Fixpoint factorial_loop (fuel num result : nat) : nat :=
  match fuel with
  | O => result
  | S fuel => if 1 <? num then factorial_loop fuel (num - 1) (num * result) else result
  end.
Definition factorial (num : nat) : nat := factorial_loop num num 1.

(** the inner loop of get_permutation_index, liop.c:257-259 *)
Definition close_gap (i : nat) (j : nat) (p : list nat) : option (list nat) :=
  do a <- aget p j;
  do b <- aget p i;
  if b <? a then aset p j (a - 1) else Some p.

(** one round of the outer loop, liop.c:255-260; state (index, permutation) *)
Definition index_step (size i : nat) (s : nat * list nat) : option (nat * list nat) :=
  let '(index, p) := s in
  do a <- aget p i;
  let index := index * (size - i) + a in
  do p <- iter_from (size - (i + 1)) (i + 1) (close_gap i) p;
  Some (index, p).

(** get_permutation_index, liop.c:250-262 *)
Definition permutation_index (p : list nat) (size : nat) : option nat :=
  do (index, _) <- iter size (index_step size) (0, p);
  Some index.

(** one pixel of the patch, liop.c:486-544; [perm i] is the content of
    neighPermutation after neigh_sort for the i-th pixel by intensity and
    [weight i] its weight; state (spatialBinEnd, spatialBinIndex, offset, desc) *)
Definition pixel_step (neighbours bins area : nat) (perm : nat -> list nat) (weight : nat -> Z) (i : nat)
    (s : nat * nat * nat * list Z) : option (nat * nat * nat * list Z) :=
  let '(bend, bindex, offset, desc) := s in
  let '(bend, bindex, offset) :=
    if (bend <=? i) && (Z.of_nat bindex <? Z.of_nat bins - 1)%Z
    then (bend + area, bindex + 1, offset + factorial neighbours)
    else (bend, bindex, offset) in
  do r <- permutation_index (perm i) neighbours;
  do d <- aget desc (r + offset);
  do desc <- aset desc (r + offset) (d + weight i)%Z;
  Some (bend, bindex, offset, desc).

(** vl_liopdesc_process, liop.c:441-544, before the normalisation; the
    descriptor has the dimension set by vl_liopdesc_new, liop.c:334.  A division
    by zero bins is [None]. *)
Definition liop_process (neighbours bins patch_size : nat) (perm : nat -> list nat) (weight : nat -> Z)
    : option (list Z) :=
  let desc := repeat 0%Z (factorial neighbours * bins) in
  if bins =? 0 then None else
  let area := patch_size / bins in
  do (_, _, _, desc) <- iter patch_size (pixel_step neighbours bins area perm weight) (area, 0, 0, desc);
  Some desc.
