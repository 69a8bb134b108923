(** The VLAD encoding, stated without the model. *)
From Coq Require Import List Arith ZArith Bool QArith Qcanon.
From Verif Require Import ImOp_Spec Rat.
Import ListNotations.
Local Open Scope nat_scope.

Section Spec.
Variables (root : Qc -> Qc) (tiny : Qc).
Variables (mean x : nat -> nat -> Qc) (q : nat -> nat -> Qc).   (* mean cluster coordinate, x datum coordinate, q datum cluster *)
Variables (dimension clusters num_data : nat).
Variables (mass_ root_ components_ : bool).
Notation total n f := (sum 0%Qc Qcplus n f).

(** the association of datum i with cluster k; negative values count as none *)
Definition weight (i k : nat) : Qc := if Qclt_le_dec 0 (q i k) then q i k else 0%Qc.
Definition mass (k : nat) : Qc := total num_data (fun i => weight i k).

(** the residual sums *)
Definition residual (k d : nat) : Qc := total num_data (fun i => weight i k * (x i d - mean k d))%Qc.
(** divided by the mass, for clusters with mass *)
Definition scaled (k d : nat) : Qc :=
  if mass_ then (if Qc_eq_dec (mass k) 0 then 0%Qc else (residual k d / mass k)%Qc) else residual k d.
(** sign(z) root |z| *)
Definition rooted (k d : nat) : Qc :=
  let z := scaled k d in
  if root_ then (if Qclt_le_dec z 0 then - root (- z) else root z)%Qc else z.
Definition at_least (a : Qc) : Qc := if Qclt_le_dec tiny a then a else tiny.
Definition normal (k d : nat) : Qc :=
  if components_ then (rooted k d / at_least (root (total dimension (fun d => rooted k d * rooted k d))))%Qc
  else rooted k d.
(** global norm *)
Definition norm : Qc := at_least (root (total clusters (fun k => total dimension (fun d => normal k d * normal k d))))%Qc.
Definition encoded (unnormalized : bool) (k d : nat) : Qc :=
  if unnormalized then normal k d else (normal k d / norm)%Qc.
End Spec.
