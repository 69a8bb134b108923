(** What a MATLAB structure of a tree of integer k-means is, without the code. *)
From Coq Require Import List ZArith Arith.
Import ListNotations.
From Verif Require Import Ikm_Model Ikm_Spec HikmArray_Model.
Local Open Scope nat_scope.

(** the matrices of the structure have as many values as their sizes say *)
Inductive matrices_ok : mnode -> Prop :=
| mo_none ms : (forall l, ms = Some (Some l) -> Forall matrices_ok l) -> matrices_ok (MNode None ms)
| mo_some c ms : length (m_vals c) = m_rows c * m_cols c -> (forall l, ms = Some (Some l) -> Forall matrices_ok l) -> matrices_ok (MNode (Some c) ms).
(** the structure represents the tree: the columns of centers are the centers, the elements of sub are the children;
    every matrix has M rows and at most K columns *)
Definition holds (M K : nat) (c : matrix) (f : ikm) : Prop :=
  is_int32 c = true /\ is_matrix c = true /\ m_rows c = M /\ m_cols c <= K /\ fM f = M /\ fK f = m_cols c /\ centers f = m_vals c.
Inductive represents (M K : nat) : mnode -> node -> Prop :=
| rep_leaf c f : holds M K c f -> represents M K (MNode (Some c) None) (Node f None)
| rep_node c f ms cs : holds M K c f -> length cs = m_cols c -> Forall2 (represents M K) ms cs ->
    represents M K (MNode (Some c) (Some (Some ms))) (Node f (Some cs)).
(** the nodes of the tree use the method, and are ready to quantise *)
Inductive prepared (el : bool) : node -> Prop :=
| prep_leaf f : elkan f = el -> ready f -> prepared el (Node f None)
| prep_node f cs : elkan f = el -> ready f -> Forall (prepared el) cs -> prepared el (Node f (Some cs)).
(** the leaves of a tree: the centers of the last level *)
Fixpoint leaves (nd : node) : nat :=
  let 'Node f cs := nd in match cs with None => fK f | Some l => list_sum (map leaves l) end.
(** the structure is a tree of the documented form *)
Inductive valid (M K : nat) : mnode -> Prop :=
| valid_leaf c : is_int32 c = true -> is_matrix c = true -> m_rows c = M -> m_cols c <= K -> valid M K (MNode (Some c) None)
| valid_node c ms : is_int32 c = true -> is_matrix c = true -> m_rows c = M -> m_cols c <= K -> length ms = m_cols c -> Forall (valid M K) ms ->
    valid M K (MNode (Some c) (Some (Some ms))).
