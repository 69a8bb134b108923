(** The live searchers of a forest, in creation order. *)
From Coq Require Import List Arith.
From Verif Require Import KdSearchers_Model.
Import ListNotations.

(** [live_after l ops l'] : starting with the live searchers [l] (oldest
    first), the calls [ops] are legal (the allocator returns an unused address,
    only live searchers are deleted) and leave the live searchers [l']. *)
Inductive live_after : list nat -> list sop -> list nat -> Prop :=
| la_nil l : live_after l [] l
| la_new l a ops l' :
    ~ In a l -> live_after (l ++ [a]) ops l' -> live_after l (SNew a :: ops) l'
| la_delete l1 a l2 ops l' :
    live_after (l1 ++ l2) ops l' -> live_after (l1 ++ a :: l2) (SDelete a :: ops) l'.
