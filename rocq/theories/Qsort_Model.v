(** Model of the generic quicksort of /repo/vl/qsort-def.h. *)
From Coq Require Import List ZArith Arith.
From Verif Require Import Base.
Import ListNotations.

Section Qsort.
  Context {A : Type}.
  Variable cmp : A -> A -> Z.

  (** VL_QSORT_cmp on two positions, /repo/vl/qsort-def.h:68-90; the user may
      supply any comparison of elements. *)
  Definition qs_cmp (array : list A) (i j : nat) : option Z :=
    do a <- aget array i; do b <- aget array j; Some (cmp a b).

  (** The scanning loop, /repo/vl/qsort-def.h:144-151, with [n] = end - i
      iterations left.  VL_QSORT_swap (99-108) is [aswap]. *)
  Fixpoint qs_scan (n : nat) (array : list A) (i pivot lowPart : nat) : option (list A * nat) :=
    match n with
    | O => Some (array, lowPart)
    | S n' =>
        do c <- qs_cmp array i pivot;
        if (c <=? 0)%Z then
          do array1 <- aswap array lowPart i;
          qs_scan n' array1 (i + 1) pivot (lowPart + 1)
        else qs_scan n' array (i + 1) pivot lowPart
    end.

  (** VL_QSORT_sort_recursive, /repo/vl/qsort-def.h:126-165; recursion bounded
      by [fuel], running out of fuel is [None], as is a failing assertion. *)
  Fixpoint qs_sort_recursive (fuel : nat) (array : list A) (begin end_ : nat) : option (list A) :=
    match fuel with
    | O => None
    | S fuel' =>
        if begin <=? end_ then
          let pivot := (end_ + begin) / 2 in
          do a1 <- aswap array pivot end_;
          do (a2, lowPart) <- qs_scan (end_ - begin) a1 begin end_ begin;
          do a3 <- aswap a2 lowPart end_;
          let pivot := lowPart in
          do a4 <- (if begin <? pivot then qs_sort_recursive fuel' a3 begin (pivot - 1) else Some a3);
          if pivot <? end_ then qs_sort_recursive fuel' a4 (pivot + 1) end_ else Some a4
        else None
    end.

  (** VL_QSORT_sort, /repo/vl/qsort-def.h:182-188 *)
  Definition qs_sort (array : list A) (size : nat) : option (list A) :=
    if 1 <=? size then qs_sort_recursive size array 0 (size - 1) else None.
End Qsort.
