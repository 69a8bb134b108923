(** Matches of two sets of descriptors. *)
From Coq Require Import List Arith ZArith QArith Qcanon.
Import ListNotations.

(** the squared Euclidean distance *)
Fixpoint sqdist (x y : list Qc) : Qc :=
  match x, y with a :: x', b :: y' => ((a - b) * (a - b) + sqdist x' y')%Qc | _, _ => 0%Qc end.
Definition below (q : Qc) (m : option Qc) : Prop := match m with Some v => (q < v)%Qc | None => True end.
(** the k-th descriptor y of the set is the first of those nearest to x, and passes the ratio test against all others *)
Definition matches (maxval : option Qc) (thresh : Qc) (x : list Qc) (L2 : list (list Qc)) (k : nat) (d : Qc) : Prop :=
  exists y, nth_error L2 k = Some y /\ d = sqdist x y /\
    (forall j z, nth_error L2 j = Some z -> (d <= sqdist x z)%Qc) /\ (forall j z, (j < k)%nat -> nth_error L2 j = Some z -> (d < sqdist x z)%Qc) /\
    (forall j z, j <> k -> nth_error L2 j = Some z -> (thresh * d < sqdist x z)%Qc) /\ below (thresh * d) maxval.
