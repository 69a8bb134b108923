(** Smoothed images, stated without the model. *)
From Coq Require Import List Arith ZArith QArith Qcanon.
From Verif Require Import Rat Kmeans_Spec ImOp_Spec.
Local Open Scope nat_scope.

(** the sum of a padded line around [y] with weights 0, ..., 2 W *)
Definition line (zeropad : bool) (h W : nat) (weight : nat -> Qc) (col : nat -> Qc) (y : nat) : Qc :=
  ksum (2 * W + 1) (fun i => (weight i * padded 0%Qc zeropad h col (Z.of_nat y + Z.of_nat i - Z.of_nat W))%Qc).
(** along columns, then along rows *)
Definition both (zeropad : bool) (M N W : nat) (weight : nat -> Qc) (image : nat -> nat -> Qc) (r c : nat) : Qc :=
  line zeropad M W weight (fun r' => line zeropad N W weight (image r') c) r.
(** Gaussian weights that sum to one *)
Definition bell (expo : Qc -> Qc) (sigma eps : Qc) (W i : nat) : Qc :=
  expo (- (1 / nq 2) * (((nq i - nq W) / (sigma + eps)) * ((nq i - nq W) / (sigma + eps))))%Qc.
Definition bell_weight (expo : Qc -> Qc) (sigma eps : Qc) (W i : nat) : Qc := (bell expo sigma eps W i / ksum (2 * W + 1) (bell expo sigma eps W))%Qc.
(** triangular weights of F * F: 1, 2, ..., F, ..., 2, 1 *)
Definition ramp_weight (F i : nat) : Qc := (nq (Nat.min (i + 1) (2 * F - 1 - i)) / (nq F * nq F))%Qc.
(** entry of row r, column c and channel k of an array of MATLAB *)
Definition entry (input : list Qc) (M N k r c : nat) : Qc := nth (k * (M * N) + c * M + r) input 0%Qc.
