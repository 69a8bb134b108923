(** The logistic loss and the expanded data, stated apart from the code. *)
From Coq Require Import Reals List.
Import ListNotations.
Local Open Scope R_scope.

Definition softplus (y z : R) : R := ln (1 + exp (- (y * z))).
(** the problem of an update, svm.c:1803-1805: the objective and the feasible steps; the conjugate is the entropy of [b] and [1 - b], with 0 log 0 = 0 *)
Definition entropy (b : R) : R := (if Rle_dec b 0 then 0 else b * ln b) + (if Rle_dec (1 - b) 0 then 0 else (1 - b) * ln (1 - b)).
Definition update_objective (alpha inner norm2 y delta : R) : R :=
  norm2 / 2 * (delta * delta) + inner * delta + entropy (y * (alpha + delta)).
Definition feasible (alpha y delta : R) : Prop := 0 <= y * (alpha + delta) <= 1.
Definition solves_update (alpha inner norm2 y delta : R) : Prop :=
  feasible alpha y delta /\ forall d, feasible alpha y d -> update_objective alpha inner norm2 y delta <= update_objective alpha inner norm2 y d.
(** the vector of a datum expanded by a map *)
Definition expanded (hom : R -> list R) (x : list R) : list R := concat (map hom x).
Fixpoint dot (a b : list R) : R := match a, b with x :: a, y :: b => x * y + dot a b | _, _ => 0 end.
Fixpoint add_scaled (c : R) (a b : list R) : list R := match a, b with x :: a, y :: b => (y + x * c) :: add_scaled c a b | _, b => b end.
