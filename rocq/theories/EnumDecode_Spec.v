(** A MATLAB string and the names of an enumeration. *)
From Coq Require Import List NArith ZArith Arith Bool.
Import ListNotations.
From Verif Require Import Str_Model Str_Spec MexUtil_Model.
Local Open Scope nat_scope.

(** a row of characters, or the empty array *)
Definition row_of_chars (a : marray) : Prop := a_class a = Char /\ (exists c, a_dims a = [1; c] \/ a_dims a = [0; 0]).
(** ASCII characters other than zero *)
Definition ascii_text (l : list N) : Prop := Forall (fun c => (0 < c < 128)%N) l.
