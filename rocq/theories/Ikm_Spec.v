(** Squared distances, nearest centers, truncated means and paths, without the code. *)
From Coq Require Import List Arith ZArith.
Import ListNotations.
From Verif Require Import Ikm_Model.
Local Open Scope nat_scope.

Fixpoint zsum (n : nat) (f : nat -> Z) : Z :=
  match n with O => 0 | S n => zsum n f + f n end%Z.
(** coordinate i of the k-th vector of dimension M *)
Definition coord (M : nat) (l : list Z) (k i : nat) : Z := nth (k * M + i) l 0%Z.
Definition sqdist (M : nat) (u v : nat -> Z) : Z := zsum M (fun i => (u i - v i) * (u i - v i))%Z.
(** k is the first of the K centers at the least distance from u *)
Definition first_nearest (M K : nat) (cs : list Z) (u : nat -> Z) (k : nat) : Prop :=
  k < K /\ (forall c, c < K -> (sqdist M u (coord M cs k) <= sqdist M u (coord M cs c))%Z) /\
  forall c, c < k -> (sqdist M u (coord M cs k) < sqdist M u (coord M cs c))%Z.
Definition a_nearest (M K : nat) (cs : list Z) (u : nat -> Z) (k : nat) : Prop :=
  k < K /\ forall c, c < K -> (sqdist M u (coord M cs k) <= sqdist M u (coord M cs c))%Z.
(** the data with label c, their number, and the truncated mean of their coordinates *)
Definition of_label (asgn : list Z) (c x : nat) : bool := (nth x asgn 0 =? Z.of_nat c)%Z.
Definition members (N : nat) (asgn : list Z) (c : nat) : Z := zsum N (fun x => if of_label asgn c x then 1 else 0)%Z.
Definition total (M N : nat) (data asgn : list Z) (c i : nat) : Z :=
  zsum N (fun x => if of_label asgn c x then coord M data x i else 0)%Z.
(** every center is the mean, truncated, of the data with its label, or zero if there are none *)
Definition are_means (M K N : nat) (data asgn cs : list Z) : Prop :=
  forall c i, c < K -> i < M ->
    coord M cs c i = (if (0 <? members N asgn c)%Z then (total M N data asgn c i / members N asgn c)%Z else 0%Z).
Definition bytes (l : list Z) : Prop := Forall (fun v => (0 <= v < 256)%Z) l.
(** the quantiser's arrays have the right sizes and, with Elkan's method, the table is current *)
Definition current (M K : nat) (cs inter : list Z) : Prop :=
  length inter = K * K /\
  forall k c, k < K -> c < K -> nth (k * K + c) inter 0%Z = (sqdist M (coord M cs k) (coord M cs c) / 4)%Z.
Definition ready (f : ikm) : Prop :=
  length (centers f) = fM f * fK f /\ (elkan f = true -> current (fM f) (fK f) (centers f) (inter f)).
(** the distances fit in the accumulator *)
Definition fits (M K : nat) (cs : list Z) (u : nat -> Z) : Prop :=
  forall k, k < K -> (sqdist M u (coord M cs k) < acc_max)%Z.
Definition permutes (N : nat) (order : list nat) : Prop :=
  length order = N /\ NoDup order /\ forall p, In p order -> p < N.
(** a path from the root to a leaf, through the first nearest center at every node *)
Inductive path_of (M : nat) (u : nat -> Z) : node -> list Z -> Prop :=
| path_leaf f k : first_nearest M (fK f) (centers f) u k -> path_of M u (Node f None) [Z.of_nat k]
| path_node f cs k c p : length cs = fK f -> first_nearest M (fK f) (centers f) u k ->
    nth_error cs k = Some c -> path_of M u c p -> path_of M u (Node f (Some cs)) (Z.of_nat k :: p).
(** no node of the tree is without centers *)
Inductive inhabited : node -> Prop :=
| inh_leaf f : 0 < fK f -> inhabited (Node f None)
| inh_node f cs : 0 < fK f -> Forall inhabited cs -> inhabited (Node f (Some cs)).
