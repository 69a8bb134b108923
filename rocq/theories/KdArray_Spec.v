(** What a kd-forest should be after its conversion to a structure and back. *)
From Coq Require Import List ZArith.
From Verif Require Import KdTree_Model.
Import ListNotations.

(** the same tree: the same nodes in use, parents included, and the same data in the leaves *)
Definition same_tree (t t' : kdtree) : Prop :=
  t_used t' = t_used t /\ t_nodes t' = firstn (t_used t) (t_nodes t) /\ map e_index (t_index t') = map e_index (t_index t).
Definition same_forest (F F' : forest) : Prop :=
  fo_dim F' = fo_dim F /\ fo_data F' = fo_data F /\ fo_num F' = fo_num F /\ fo_max_nodes F' = fo_max_nodes F /\
  Forall2 same_tree (fo_trees F) (fo_trees F').
