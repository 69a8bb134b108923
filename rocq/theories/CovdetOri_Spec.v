(** Orientations and Laplacian scales, independently of the code. *)
From Coq Require Import List Arith ZArith Bool QArith Qcanon Qcabs.
From Verif Require Import Rat Kmeans_Spec SiftDescr_Spec.
Local Open Scope nat_scope.

(** bin [b] of the histogram of the directions of [n] weighted gradients; bin [b] is centred at 10 b degrees *)
Definition direction_bin (pi : Qc) (n : nat) (m a w : nat -> Qc) (b : nat) : Qc :=
  ksum n (fun k => (m k * w k * tent (wrap 36 (nq 36 * a k / (nq 2 * pi) - nq b)))%Qc).
Definition direction (pi theta0 : Qc) (transposed : bool) (H : nat -> Qc) (b : nat) : Qc :=
  (nq 2 * pi / nq 36 * (nq b + vertex H b) + theta0 - (if transposed then pi / nq 2 else 0))%Qc.
(** sorted by descending score *)
Fixpoint descending (l : list (Qc * Qc)) : Prop :=
  match l with nil => True | cons x l => (forall y, In y l -> (snd y <= snd x)%Qc) /\ descending l end.

(** level [k] is an extremum, of absolute value at least [t] *)
Definition extremum (t : Qc) (s : nat -> Qc) (k : nat) : Prop :=
  1 <= k <= 8 /\ ((s (k - 1)%nat < s k /\ s (k + 1)%nat < s k) \/ (s k < s (k - 1)%nat /\ s k < s (k + 1)%nat))%Qc /\ (t <= Qcabs (s k))%Qc.
(** the parabola through the level and its neighbours, as a function of the distance to the level, and its vertex *)
Definition parabola (s : nat -> Qc) (k : nat) (u : Qc) : Qc :=
  (s k + (s (k + 1)%nat - s (k - 1)%nat) / nq 2 * u + (s (k + 1)%nat + s (k - 1)%nat - nq 2 * s k) / nq 2 * (u * u))%Qc.
Definition top (s : nat -> Qc) (k : nat) : Qc := ((s (k + 1)%nat - s (k - 1)%nat) / (nq 2 * (nq 2 * s k - s (k - 1)%nat - s (k + 1)%nat)))%Qc.
