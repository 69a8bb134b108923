(** Permutations and their lexicographic order, stated without the model. *)
From Coq Require Import List Arith Permutation ZArith.
Import ListNotations.

(** a permutation of 0..n-1 *)
Definition is_perm (n : nat) (p : list nat) : Prop := Permutation p (seq 0 n).

(** lexicographic order on lists of the same length *)
Inductive lex_lt : list nat -> list nat -> Prop :=
| lex_here x y p q : x < y -> lex_lt (x :: p) (y :: q)
| lex_next x p q : lex_lt p q -> lex_lt (x :: p) (x :: q).

Fixpoint fact (n : nat) : nat := match n with O => 1 | S m => S m * fact m end.

(** sum of the weights of the pixels i < m with [sel i] *)
Fixpoint weighted_count (m : nat) (sel : nat -> bool) (weight : nat -> Z) : Z :=
  match m with
  | O => 0%Z
  | S m => (weighted_count m sel weight + (if sel m then weight m else 0))%Z
  end.

(** spatial bin of the i-th pixel by intensity: equal shares of [area] pixels,
    the last bin taking the remainder.  With fewer pixels than bins the code
    starts at bin one and gives a bin to each pixel. *)
Definition spatial_bin (bins area i : nat) : nat :=
  Nat.min (if area =? 0 then i + 1 else i / area) (bins - 1).
