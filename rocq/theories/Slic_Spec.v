(** Regions of images, independently of the code.  A label image of width w and height h is a
    function of pixels p < w * h; the row of p is p / w and its column p mod w. *)
From Coq Require Import List Arith ZArith.
Import ListNotations.

Definition adjacent (w h p q : nat) : Prop :=
  p < w * h /\ q < w * h /\
  ((p / w = q / w /\ (p mod w = q mod w + 1 \/ q mod w = p mod w + 1)) \/
   (p mod w = q mod w /\ (p / w = q / w + 1 \/ q / w = p / w + 1))).
(** q is in the 4-connected region of p *)
Inductive joined (w h : nat) (lab : nat -> Z) (p : nat) : nat -> Prop :=
| joined_self : p < w * h -> joined w h lab p p
| joined_step q r : joined w h lab p q -> adjacent w h q r -> lab q = lab r -> joined w h lab p r.
(** the region of p has at least n pixels *)
Definition at_least (w h n : nat) (lab : nat -> Z) (p : nat) : Prop :=
  exists l, NoDup l /\ n <= length l /\ forall q, In q l -> joined w h lab p q.
