(** Counting labels. *)
From Coq Require Import List Arith Bool ZArith.
Import ListNotations.

(** labels of D bytes that are not all zero *)
Definition proper (D : nat) (x : list Z) : Prop := length x = D /\ exists b, In b x /\ b <> 0%Z.
Definition occurrences (y : list Z) (X : list (list Z)) : nat := count_occ (list_eq_dec Z.eq_dec) X y.
