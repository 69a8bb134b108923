(** What rotations are, independently of the code. *)
From Coq Require Import List Arith Reals.
Import ListNotations.
Local Open Scope R_scope.

Definition entry (m : list R) (i j : nat) : R := nth (i + 3 * j) m 0.
(** the columns are orthonormal *)
Definition orthogonal (m : list R) : Prop :=
  length m = 9%nat /\
  forall i j, (i < 3)%nat -> (j < 3)%nat ->
    entry m 0 i * entry m 0 j + entry m 1 i * entry m 1 j + entry m 2 i * entry m 2 j = if (i =? j)%nat then 1 else 0.
Definition det (m : list R) : R :=
  entry m 0 0 * (entry m 1 1 * entry m 2 2 - entry m 1 2 * entry m 2 1)
  - entry m 0 1 * (entry m 1 0 * entry m 2 2 - entry m 1 2 * entry m 2 0)
  + entry m 0 2 * (entry m 1 0 * entry m 2 1 - entry m 1 1 * entry m 2 0).
Definition rotation (m : list R) : Prop := orthogonal m /\ det m = 1.
Definition trace (m : list R) : R := entry m 0 0 + entry m 1 1 + entry m 2 2.
(** the image of a vector *)
Definition apply (m : list R) (v : R * R * R) : R * R * R :=
  let '(a, b, c) := v in
  (entry m 0 0 * a + entry m 0 1 * b + entry m 0 2 * c,
   entry m 1 0 * a + entry m 1 1 * b + entry m 1 2 * c,
   entry m 2 0 * a + entry m 2 1 * b + entry m 2 2 * c).
Definition norm (v : R * R * R) : R := let '(a, b, c) := v in sqrt (a * a + b * b + c * c).
Definition dot (u v : R * R * R) : R := let '(a, b, c) := u in let '(d, e, f) := v in a * d + b * e + c * f.
Definition cross (u v : R * R * R) : R * R * R :=
  let '(a, b, c) := u in let '(d, e, f) := v in (b * f - c * e, c * d - a * f, a * e - b * d).
Definition scale (k : R) (v : R * R * R) : R * R * R := let '(a, b, c) := v in (k * a, k * b, k * c).
Definition plus (u v : R * R * R) : R * R * R := let '(a, b, c) := u in let '(d, e, f) := v in (a + d, b + e, c + f).
(** [v] turned by the angle [t] about the unit vector [k], anticlockwise *)
Definition turn (k : R * R * R) (t : R) (v : R * R * R) : R * R * R :=
  plus (plus (scale (cos t) v) (scale (sin t) (cross k v))) (scale (dot k v * (1 - cos t)) k).
Definition transpose (m : list R) : list R :=
  [entry m 0 0; entry m 0 1; entry m 0 2; entry m 1 0; entry m 1 1; entry m 1 2; entry m 2 0; entry m 2 1; entry m 2 2].

(** replacing a coordinate *)
Definition with_coord (v : R * R * R) (j : nat) (t : R) : R * R * R :=
  let '(a, b, c) := v in match j with 0%nat => (t, b, c) | 1%nat => (a, t, c) | _ => (a, b, t) end.
Definition coord (v : R * R * R) (j : nat) : R :=
  let '(a, b, c) := v in match j with 0%nat => a | 1%nat => b | _ => c end.
(** [f'] is the partial derivative of [f] in coordinate [j] at [v] *)
Definition partial_at (f : R * R * R -> R) (v : R * R * R) (j : nat) (f' : R) : Prop :=
  derivable_pt_lim (fun t => f (with_coord v j t)) (coord v j) f'.
(** replacing an entry *)
Fixpoint with_entry (m : list R) (k : nat) (t : R) : list R :=
  match m, k with
  | [], _ => []
  | _ :: m, O => t :: m
  | a :: m, S k => a :: with_entry m k t
  end.
Definition partial_entry (f : list R -> R) (m : list R) (k : nat) (f' : R) : Prop :=
  derivable_pt_lim (fun t => f (with_entry m k t)) (nth k m 0) f'.
(** the matrix of [turn] *)
Definition turn_matrix (k : R * R * R) (t : R) : list R :=
  let col v := let '(a, b, c) := turn k t v in [a; b; c] in
  col (1, 0, 0) ++ col (0, 1, 0) ++ col (0, 0, 1).
Definition basis (j : nat) : R * R * R := with_coord (0, 0, 0) j 1.
