(** Scalars, vectors, matrices and lists of options as documented in toolbox/mexutils.h. *)
From Coq Require Import List NArith ZArith Arith Bool.
Import ListNotations.
From Verif Require Import Str_Model Str_Spec MexUtil_Model.
Local Open Scope nat_scope.

(** a prescribed size, negative for any *)
Definition fits_size (want : Z) (n : nat) : Prop := (want < 0)%Z \/ want = Z.of_nat n.
Definition one_long_dimension (dims : list nat) : Prop := exists k, forall i d, i <> k -> nth_error dims i = Some d -> d = 1.
Definition vector_doc (a : marray) : Prop := a_sparse a = false /\ (numel a = 0 \/ one_long_dimension (a_dims a)).
Definition flat (dims : list nat) : Prop := forall i d, 2 <= i -> nth_error dims i = Some d -> d = 1.
Definition matrix_doc (a : marray) : Prop :=
  a_sparse a = false /\ (flat (a_dims a) \/ (numel a = 0 /\ (nth 0 (a_dims a) 1 = 0 \/ nth 1 (a_dims a) 1 = 0))).
Definition small_array (a : marray) : Prop :=
  2 <= length (a_dims a) /\ (Z.of_nat (numel a) < 4294967296)%Z /\ Forall (fun d => (Z.of_nat d < 4294967296)%Z) (a_dims a) /\ (Z.of_nat (get_N a) < 4294967296)%Z.

(** the options in a list of arguments: a name of the table, without regard to case, and its argument if it has one *)
Definition names (a : marray) (o : moption) : Prop :=
  is_string a (-1) = true /\ length (a_chars a) <= 1023 /\
  exists n, o_name o = Some (n ++ [0%N]) /\ map lower (map (fun c => (c mod 256)%N) (a_chars a)) = map lower n.
(** the first entry of the table with the name *)
Definition entry (tbl : list moption) (a : marray) (o : moption) : Prop :=
  exists before after, tbl = before ++ o :: after /\ names a o /\ forall o', In o' before -> ~ names a o'.
Inductive options_of (tbl : list moption) : list marray -> list (Z * option marray) -> Prop :=
| opts_nil : options_of tbl [] []
| opts_flag a args o l : entry tbl a o -> o_has_arg o = false -> options_of tbl args l -> options_of tbl (a :: args) ((o_val o, None) :: l)
| opts_arg a v args o l : entry tbl a o -> o_has_arg o = true -> options_of tbl args l -> options_of tbl (a :: v :: args) ((o_val o, Some v) :: l).
(** a table as in the callers: names are strings, codes are not negative, the last name is null *)
Definition good_table (tbl : list moption) : Prop :=
  exists es e, tbl = es ++ [e] /\ o_name e = None /\
    Forall (fun o => (0 <= o_val o)%Z /\ exists n, o_name o = Some (n ++ [0%N]) /\ Forall (fun c => c <> 0%N) n) es.
(** the characters of an argument are not zero, also as bytes *)
Definition plain_text (a : marray) : Prop := Forall (fun c => (c mod 256)%N <> 0%N) (a_chars a).
