(** Sorting, independently of any algorithm. *)
From Coq Require Import List ZArith Permutation.

(** [l] is in non-decreasing order. *)
Definition sorted_by {A} (cmp : A -> A -> Z) (l : list A) : Prop :=
  forall i j x y, i < j -> nth_error l i = Some x -> nth_error l j = Some y ->
    (cmp x y <= 0)%Z.
