(** Property C313: members of enumerations named by MATLAB strings. *)
From Coq Require Import List NArith ZArith Arith Bool Lia.
Import ListNotations.
From Verif Require Import Base Str_Model Str_Spec Str_Props MexUtil_Model MexUtil_Spec MexUtil_Props EnumDecode_Model EnumDecode_Spec.
Local Open Scope nat_scope.

Lemma row_string a : is_string a (-1) = true <-> row_of_chars a.
Proof.
  rewrite C274_string. unfold row_of_chars, fits_size. split; intros (C & H); (split; [assumption|]).
  - destruct H as (r & c & D & [->|(-> & ->)] & _); exists c || exists 0; rewrite D; auto.
  - destruct H as (c & [D|D]); rewrite D; [exists 1, c|exists 0, 0]; (split; [reflexivity|]); (split; [lia|left; lia]).
Qed.
Lemma ascii_string a : ascii_text (a_chars a) -> List.length (a_chars a) <= 1023 -> exists mem, get_string a 1024 = Some mem /\ cstring (a_chars a) mem.
Proof.
  intros F L. unfold get_string. destruct (Nat.ltb_spec (List.length (a_chars a)) 1024); [|lia]. eexists. split; [reflexivity|]. split.
  - eapply Forall_impl; [|exact F]. intros c Hc. cbn in Hc. lia.
  - exists []. f_equal. clear -F. induction F as [|c l Hc F IH]; [reflexivity|]. cbn [map]. rewrite IH, N.mod_small by lia. reflexivity.
Qed.
(** C313: a string gives the first member with its name, or in any letter case if asked; no member gives null *)
Theorem C313_decode : forall a entries tbl ci, row_of_chars a -> ascii_text (a_chars a) -> List.length (a_chars a) <= 1023 -> table entries tbl ->
  exists r, decode_enumeration a tbl ci = Some (Some r) /\ first_match (if ci then named_casei (a_chars a) else named (a_chars a)) entries r.
Proof.
  intros a entries tbl ci R F L T. apply row_string in R. destruct (ascii_string a F L) as (mem & E & C). unfold decode_enumeration. rewrite R, E. cbn [negb]. destruct ci.
  - destruct (C11_enumeration_get_casei entries tbl _ mem T C) as (r & -> & H). exists r. now split.
  - destruct (C11_enumeration_get entries tbl _ mem T C) as (r & -> & H). exists r. now split.
Qed.
(** C313: an error is raised exactly for arrays that are not strings and strings of 1024 characters or more *)
Theorem C313_refused : forall a entries tbl ci, ascii_text (a_chars a) -> table entries tbl ->
  (decode_enumeration a tbl ci = Some None <-> ~ row_of_chars a \/ 1024 <= List.length (a_chars a)).
Proof.
  intros a entries tbl ci F T. destruct (is_string a (-1)) eqn:R; pose proof (row_string a) as RS; rewrite R in RS.
  - assert (row_of_chars a) by (now apply RS). destruct (Nat.le_gt_cases (List.length (a_chars a)) 1023) as [L|L].
    + destruct (C313_decode a entries tbl ci ltac:(assumption) F L T) as (r & -> & _). split; [discriminate|]. intros [N|N]; [contradiction|lia].
    + split; [right; lia|]. intros _. unfold decode_enumeration, get_string. rewrite R. cbn [negb]. destruct (Nat.ltb_spec (List.length (a_chars a)) 1024); [lia|reflexivity].
  - split; [left; intro X; apply RS in X; discriminate|]. intros _. unfold decode_enumeration. now rewrite R.
Qed.
Print Assumptions C313_decode.
Print Assumptions C313_refused.
(* the members "a", "B" and "b" *)
Definition members3 : list enumerator := [mk_enum (Some [97; 0]%N) 1; mk_enum (Some [66; 0]%N) 2; mk_enum (Some [98; 0]%N) 3].
Definition char_row (l : list N) : marray := mk_marray Char false false [1; List.length l] l.
Example C313_ex : row_of_chars (char_row [98]%N) /\ ascii_text [98]%N /\ table members3 (members3 ++ [mk_enum None 0]) /\
  decode_enumeration (char_row [98]%N) (members3 ++ [mk_enum None 0]) false = Some (Some (Some 2)) /\
  decode_enumeration (char_row [98]%N) (members3 ++ [mk_enum None 0]) true = Some (Some (Some 1)) /\
  decode_enumeration (char_row [99]%N) (members3 ++ [mk_enum None 0]) true = Some (Some None) /\
  decode_enumeration (mk_marray MexUtil_Model.Double false false [1; 1] []) (members3 ++ [mk_enum None 0]) true = Some None.
Proof.
  split; [split; [reflexivity|]; exists 1; now left|]. split; [repeat constructor|]. split; [|repeat split].
  split; [|exists (mk_enum None 0), []; split; reflexivity]. intros e [<-|[<-|[<-|[]]]]; [exists [97; 0]%N, [97]%N|exists [66; 0]%N, [66]%N|exists [98; 0]%N, [98]%N];
    (split; [reflexivity|]); (split; [repeat constructor; discriminate|exists []; reflexivity]).
Qed.
