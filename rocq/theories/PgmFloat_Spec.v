(** Bytes of images of floats, stated without the model. *)
From Coq Require Import List Arith ZArith QArith Qcanon.
From Verif Require Import Rat.

Definition smallest (data : list Qc) (m : Qc) : Prop := In m data /\ forall d, In d data -> (m <= d)%Qc.
Definition largest (data : list Qc) (m : Qc) : Prop := In m data /\ forall d, In d data -> (d <= m)%Qc.
