(** What vl_alldist returns: the documented names and the matrix of comparisons, toolbox/misc/vl_alldist2.m. *)
From Coq Require Import List NArith ZArith Arith Bool String Ascii.
Import ListNotations.
From Verif Require Import Str_Spec MexUtil_Model Vec_Model.
Local Open Scope nat_scope.

Fixpoint codes (s : string) : list N :=
  match s with EmptyString => [] | String c s => N_of_ascii c :: codes s end.
(** the names with a comparison, and the documented ones without *)
Definition metrics : list (string * comparison) :=
  [("L2", DistanceL2); ("L1", DistanceL1); ("CHI2", DistanceChi2); ("HELL", DistanceHellinger); ("JS", DistanceJS);
   ("KL2", KernelL2); ("KL1", KernelL1); ("KCHI2", KernelChi2); ("KHELL", KernelHellinger); ("KJS", KernelJS)]%string.
(** a row of ASCII characters that spell the name in any case *)
Definition spells (a : marray) (s : string) : Prop :=
  a_class a = Char /\ a_dims a = [1; List.length (a_chars a)] /\ map lower (a_chars a) = map lower (codes s).
Definition spells_metric (a : marray) (t : comparison) : Prop := exists s, In (s, t) metrics /\ spells a s.
(** a matrix of real numbers of class single or double *)
Definition real_matrix (c : mclass) (d n : nat) (a : marray) : Prop :=
  (c = Single \/ c = MexUtil_Model.Double) /\ a_class a = c /\ a_complex a = false /\ a_sparse a = false /\ a_dims a = [d; n] /\
  (Z.of_nat d < 4294967296)%Z /\ (Z.of_nat n < 4294967296)%Z /\ (Z.of_nat (d * n) < 4294967296)%Z.
(** entry (i, j) of a matrix with [n] rows stored by columns *)
Definition entries {A} (n m : nat) (v : nat -> nat -> A) (D : list A) : Prop :=
  List.length D = n * m /\ forall i j, i < n -> j < m -> nth_error D (i + n * j) = Some (v i j).
