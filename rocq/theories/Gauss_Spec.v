(** Linear systems, stated without the model. *)
From Coq Require Import List Arith QArith Qcanon Qcabs.
From Verif Require Import ImOp_Spec.
Import ListNotations.
Local Open Scope Qc_scope.

(** entry (i,j) of a column-major matrix *)
Definition entry (rows : nat) (m : list Qc) (i j : nat) : Qc := nth (i + j * rows) m 0.

(** A v = b, where A is the leading n x n part of [m] and b its column k *)
Definition solves (n : nat) (m : list Qc) (k : nat) (v : nat -> Qc) : Prop :=
  forall i, (i < n)%nat -> sum 0 Qcplus n (fun j => entry n m i j * v j) = entry n m i k.

(** a vector with an entry 1 that A takes to a vector with entries below 1e-10 *)
Definition nearly_singular (n : nat) (m : list Qc) : Prop :=
  exists (v : nat -> Qc) j, (j < n)%nat /\ v j = 1 /\
    forall i, (i < n)%nat -> Qcabs (sum 0 Qcplus n (fun j => entry n m i j * v j)) < Q2Qc (1 # 10000000000).
