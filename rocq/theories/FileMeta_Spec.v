(** Files of the drivers, stated apart from the code. *)
From Coq Require Import List Arith NArith.
From Verif Require Import Str_Spec.
Import ListNotations.

(** a double as a number of eight bytes, the most significant first, and its representation on a host *)
Definition stored (big : bool) (v : list N) : list N := if big then v else rev v.
(** the text held by a buffer *)
Definition holds (b s : list N) : Prop := cstring s b.
