(** Life of objects, stated on heaps: lists of blocks, [None] if freed. *)
From Coq Require Import List Arith ZArith.
Import ListNotations.

Definition blocks := list (option (list Z)).
Definition live (h : blocks) (p : nat) : Prop := exists b, nth_error h p = Some (Some b).
(** the blocks of [h0] are as they were *)
Definition kept (h0 h : blocks) : Prop := length h0 <= length h /\ forall p, p < length h0 -> nth_error h p = nth_error h0 p.
(** exactly the blocks [l] were allocated since [h0] and are live, each listed once *)
Definition allocated (h0 h : blocks) (l : list nat) : Prop := kept h0 h /\ NoDup l /\ forall p, In p l <-> length h0 <= p /\ live h p.
