(** What the distance transform should compute. *)
From Coq Require Import List Arith ZArith QArith.
Import ListNotations.
Local Open Scope Q_scope.

(** the parabola of pixel u with value r, at position x *)
Definition parabola (coeff offset : Q) (r : Q) (u x : nat) : Q :=
  r + coeff * ((inject_Z (Z.of_nat x) - inject_Z (Z.of_nat u) - offset) *
               (inject_Z (Z.of_nat x) - inject_Z (Z.of_nat u) - offset)).

(** u attains the minimum over the row f(0..n-1), and v is the minimum *)
Definition lower_envelope (coeff offset : Q) (n : nat) (f : nat -> Q) (x u : nat) (v : Q) : Prop :=
  (u < n)%nat /\ v == parabola coeff offset (f u) u x /\
  forall u', (u' < n)%nat -> v <= parabola coeff offset (f u') u' x.
