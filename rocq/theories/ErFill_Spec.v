(** The extremal region of a pixel. *)
From Coq Require Import List Arith ZArith.
Import ListNotations.
From Verif Require Import Mser_Spec.

(** the pixels reached from p by steps between neighbours whose values are at most (at least) that of p *)
Inductive region (dims im : list nat) (bright : bool) (p : nat) : nat -> Prop :=
| region_self : p < length im -> region dims im bright p p
| region_step q s : region dims im bright p q -> adjacent dims q s -> s < length im -> (if bright then nth p im 0 <= nth s im 0 else nth s im 0 <= nth p im 0) -> region dims im bright p s.
