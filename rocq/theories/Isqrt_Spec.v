(** What an integer square root is, independently of the code. *)
From Coq Require Import ZArith.
Local Open Scope Z_scope.

(** [r] is the floor of the square root of [x]. *)
Definition is_floor_sqrt (x r : Z) : Prop :=
  0 <= r /\ r * r <= x /\ x < (r + 1) * (r + 1).
