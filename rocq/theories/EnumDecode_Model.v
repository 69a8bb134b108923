(** Members of enumerations named by MATLAB strings, toolbox/mexutils.h. *)
From Coq Require Import List NArith ZArith Arith Bool.
Import ListNotations.
From Verif Require Import Base Str_Model MexUtil_Model.
Local Open Scope nat_scope.

(** vlmxDecodeEnumeration, mexutils.h:831-853: the index of the member, if any; [Some None] is an error raised *)
Definition decode_enumeration (a : marray) (tbl : list enumerator) (caseInsensitive : bool) : option (option (option nat)) :=
  if negb (is_string a (-1)) then Some None
  else match get_string a 1024 with
    | None => Some None
    | Some name => do r <- (if caseInsensitive then enumeration_get_casei tbl name else enumeration_get tbl name); Some (Some r)
    end.
