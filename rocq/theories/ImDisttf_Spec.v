(** What the distance transform of matrices should compute. *)
From Coq Require Import List Arith ZArith QArith.
Import ListNotations.
Local Open Scope Q_scope.

Definition num (n : nat) : Q := inject_Z (Z.of_nat n).
(** the cost of moving from row v and column u to row y and column x, with the offsets added to the position of the source *)
Definition cost (a b c d : Q) (u v x y : nat) : Q := a * ((num x - num u - b) * (num x - num u - b)) + c * ((num y - num v - d) * (num y - num v - d)).
(** the cost as documented, vl_imdisttf.m:13-15 *)
Definition documented (a b c d : Q) (u v x y : nat) : Q := a * ((num u - num x - b) * (num u - num x - b)) + c * ((num v - num y - d) * (num v - num y - d)).
(** [val] is the minimum of the matrix plus the cost, attained in column u and row v *)
Definition minimum (cost : nat -> nat -> nat -> nat -> Q) (I : nat -> nat -> Q) (M N : nat) (x y u v : nat) (val : Q) : Prop :=
  (u < N)%nat /\ (v < M)%nat /\ val == I v u + cost u v x y /\ forall u' v', (u' < N)%nat -> (v' < M)%nat -> val <= I v' u' + cost u' v' x y.
