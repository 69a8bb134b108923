(** Local maxima of arrays. *)
From Coq Require Import List Arith QArith Qcanon.
Import ListNotations.
Local Open Scope nat_scope.

(** the element i is not on the boundary along the dimensions D, the first of the array *)
Fixpoint interior (D : list nat) (i : nat) : Prop :=
  match D with [] => True | d :: D => 1 <= i mod d /\ i mod d + 2 <= d /\ interior D (i / d) end.
(** the subscripts of i and j differ by one at most along D and are equal along the other dimensions *)
Fixpoint near (D : list nat) (i j : nat) : Prop :=
  match D with [] => i = j | d :: D => i mod d <= j mod d + 1 /\ j mod d <= i mod d + 1 /\ near D (i / d) (j / d) end.
Definition local_max (F : list Qc) (D : list nat) (threshold : option Qc) (i : nat) : Prop :=
  i < length F /\ interior D i /\ match threshold with None => True | Some t => (t <= nth i F 0)%Qc end /\ forall j, near D i j -> j <> i -> (nth j F 0 < nth i F 0)%Qc.
