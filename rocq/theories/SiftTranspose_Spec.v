(** Transposed descriptors, stated without the model. *)
From Coq Require Import List Arith ZArith QArith Qcanon.
From Verif Require Import Rat SiftDescr_Spec.
Import ListNotations.
Local Open Scope nat_scope.

(** the entry of the transposed descriptor for entry [i]: same column of bins, opposite row and opposite orientation *)
Definition mirror (i : nat) : nat := 32 * (3 - i / 32) + 8 * (i / 8 mod 4) + (8 - i mod 8) mod 8.

(** [R] has, by rows, the M x N image of magnitudes and angles which the array [G] of MATLAB has by columns *)
Definition by_rows (M N : nat) (G R : list Qc) : Prop :=
  length G = 2 * (M * N) /\ length R = 2 * (N * M) /\
  forall r c, r < M -> c < N -> mag R 0 N c r = mag G 0 M r c /\ ang R 0 N c r = ang G 0 M r c.
