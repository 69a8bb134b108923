(** Model of the two random shuffles: vl_rand_permute_indexes
    (/repo/vl/random.c:207-216) and VL_SHUFFLE_shuffle
    (/repo/vl/shuffle-def.h:81-92).

    Both take the generator through vl_rand_uindex only, so the models are over
    any source [draw g range] of numbers; they are used below with the real
    generator of Random_Model.v and with an arbitrary list of draws. *)
From Coq Require Import List NArith ZArith Arith.
From Verif Require Import Base Random_Model.
Import ListNotations.

(** Conversion of a vl_uindex to vl_int (a 32-bit int), /repo/vl/random.c:213:
    reduction modulo 2^32 to the signed range, as on every supported compiler. *)
Definition to_int (n : N) : Z :=
  let r := (Z.of_N n mod 2 ^ 32)%Z in
  if (r <? 2 ^ 31)%Z then r else (r - 2 ^ 32)%Z.

Section Shuffle.
  Context {G A : Type} (draw : G -> N -> option (G * N)).

  (** The loop of vl_rand_permute_indexes, /repo/vl/random.c:211-215.  The signed
      counter [i] runs from size-1 down to 1; for size 0 it starts at -1 and the
      loop does not run, as for size 1. *)
  Fixpoint permute_loop (i : nat) (g : G) (a : list A) : option (G * list A) :=
    match i with
    | O => Some (g, a)
    | S i' =>
        do (g1, r) <- draw g (N.of_nat i + 1)%N;
        let j := to_int r in
        do tmp <- aget a i;
        do x <- zget a j;
        do a1 <- aset a i x;
        do a2 <- zset a1 j tmp;
        permute_loop i' g1 a2
    end.

  Definition permute_indexes (g : G) (a : list A) : option (G * list A) :=
    permute_loop (length a - 1) g a.

  (** VL_SHUFFLE_swap, /repo/vl/shuffle-def.h:55-64 is [aswap];
      the loop of VL_SHUFFLE_shuffle, /repo/vl/shuffle-def.h:85-90, for [n]. *)
  Fixpoint shuffle_loop (n : nat) (g : G) (a : list A) : option (G * list A) :=
    match n with
    | O => Some (g, a)
    | S m =>
        match m with
        | O => Some (g, a)
        | S _ =>
            do (g1, k) <- draw g (N.of_nat n);
            do a1 <- aswap a m (N.to_nat k);
            shuffle_loop m g1 a1
        end
    end.

  Definition shuffle (g : G) (a : list A) : option (G * list A) :=
    shuffle_loop (length a) g a.
End Shuffle.

(** Draws taken from a given list; a draw that is not below its range cannot
    come from vl_rand_uindex and is [None]. *)
Definition draw_list (g : list N) (range : N) : option (list N * N) :=
  match g with
  | [] => None
  | d :: g' => if (d <? range)%N then Some (g', d) else None
  end.
