(** Properties C08 to C11 and C57: string functions. *)
From Coq Require Import List NArith ZArith Arith Bool Lia.
From Verif Require Import Base Str_Model Str_Spec Str_Proofs.
Import ListNotations.

(** C08.  For a destination buffer of at least the stated size [n], each
    function completes, and its effect is the documented bounded write of the
    full result; bytes after the terminator keep their value. *)
Theorem C08_string_copy_bounded : forall s mem b n, cstring s mem -> n <= length b ->
  exists b' r, string_copy (Some b) n mem = Some (Some b', r) /\ bounded_write s b n b' r.
Proof. exact string_copy_ok. Qed.
Print Assumptions C08_string_copy_bounded.

(** [len] is the distance between the two pointers; a NUL inside ends the copy. *)
Theorem C08_string_copy_sub_bounded : forall s mem b n len, cstring s mem -> n <= length b ->
  exists b' r, string_copy_sub (Some b) n mem len = Some (Some b', r) /\
    bounded_write (firstn len s) b n b' r.
Proof. exact string_copy_sub_ok. Qed.
Print Assumptions C08_string_copy_sub_bounded.

Theorem C08_string_basename_bounded : forall s mem b n m, cstring s mem -> n <= length b ->
  exists base stem b' r, string_basename (Some b) n mem m = Some (Some b', r) /\
    leading_path s base /\ stripped base m stem /\ bounded_write stem b n b' r.
Proof. exact string_basename_ok. Qed.
Print Assumptions C08_string_basename_bounded.

(** The two parts of the basename specification determine the name. *)
Theorem C08_basename_spec_deterministic : forall s m b1 b2 t1 t2,
  leading_path s b1 -> leading_path s b2 -> stripped b1 m t1 -> stripped b2 m t2 -> t1 = t2.
Proof. exact basename_det. Qed.
Print Assumptions C08_basename_spec_deterministic.

(** With a null destination and size 0, the functions return the length needed. *)
Theorem C08_null_destination_measures : forall s mem r rmem w e m, cstring s mem -> cstring r rmem ->
  string_copy None 0 mem = Some (None, length s) /\
  string_copy_sub None 0 mem m = Some (None, length (firstn m s)) /\
  replace_wildcard None 0 mem w e rmem = Some (None, length (substituted w e r s)).
Proof. exact null_dest. Qed.
Print Assumptions C08_null_destination_measures.

Example C08_case_truncates :
  string_copy (Some [7;7;7;7;7]%N) 4 [65;66;67;68;69;0]%N = Some (Some [65;66;67;0;7]%N, 5).
Proof. reflexivity. Qed.
Example C08_case_basename : (* "a/f.tar.gz" without one extension *)
  string_basename (Some [7;7;7;7;7;7;7;7]%N) 8 [97;47;102;46;116;97;114;46;103;122;0]%N 1
  = Some (Some [102;46;116;97;114;0;7;7]%N, 5).
Proof. reflexivity. Qed.

(** C09.  Wildcard substitution. *)
Theorem C09_replace_wildcard : forall s mem r rmem w e b n,
  cstring s mem -> cstring r rmem -> n <= length b ->
  exists b' k, replace_wildcard (Some b) n mem w e rmem = Some (Some b', k) /\
    bounded_write (substituted w e r s) b n b' k.
Proof. exact replace_wildcard_ok. Qed.
Print Assumptions C09_replace_wildcard.

Example C09_case : (* "a%b\%" with % -> "xy" and escape \ *)
  replace_wildcard (Some (repeat 7%N 8)) 8 [97;37;98;92;37;0]%N 37 92 [120;121;0]%N
  = Some (Some [97;120;121;98;37;0;7;7]%N, 5).
Proof. reflexivity. Qed.

(** C10.  The string is split at its first "://"; the pointer returned is after
    it; the code depends only on the part before, and the names of the two
    supported protocols parse back to them. *)
Theorem C10_parse_protocol_none : forall s mem, cstring s mem -> ~ contains_sep s ->
  parse_protocol mem = Some (PROT_NONE, 0).
Proof. exact parse_none. Qed.
Print Assumptions C10_parse_protocol_none.

Theorem C10_parse_protocol_split : forall s mem pre rest, cstring s mem -> split_first s pre rest ->
  exists p, parse_protocol mem = Some (p, length pre + 3) /\
    (p = PROT_ASCII <-> prefix_of pre str_ascii) /\
    (p = PROT_BINARY <-> prefix_of pre str_bin /\ pre <> []) /\
    (p = PROT_UNKNOWN <-> ~ prefix_of pre str_ascii /\ ~ prefix_of pre str_bin).
Proof. exact parse_split. Qed.
Print Assumptions C10_parse_protocol_split.

Theorem C10_names_parse_back : forall p nm s mem, p = PROT_ASCII \/ p = PROT_BINARY ->
  protocol_name p = Some nm -> cstring (nm ++ sep ++ s) mem ->
  parse_protocol mem = Some (p, length nm + 3).
Proof. exact names_parse_back. Qed.
Print Assumptions C10_names_parse_back.

Example C10_case : parse_protocol [98;105;110;58;47;47;120;0]%N = Some (PROT_BINARY, 6).
Proof. reflexivity. Qed.

(** C57.  The documented table of prefixes (ascii:// and binary://, everything
    else unknown, empty name for the unknown protocol) is not what the code
    implements: binary:// is unknown, a:// is ascii, the name is a null pointer. *)
Theorem C57_documented_prefixes_refuted :
  (exists s mem, s = [98;105;110;97;114;121;58;47;47]%N /\ cstring s mem /\
     parse_protocol mem = Some (PROT_UNKNOWN, 9)) /\
  (exists s mem, s = [97;58;47;47]%N /\ cstring s mem /\
     parse_protocol mem = Some (PROT_ASCII, 4)) /\
  (exists s mem, s = [58;47;47]%N /\ cstring s mem /\
     parse_protocol mem = Some (PROT_ASCII, 3)) /\
  protocol_name PROT_UNKNOWN <> Some [].
Proof. exact prefixes_refuted. Qed.
Print Assumptions C57_documented_prefixes_refuted.

(** C11.  The comparison is the dictionary order of the lower-case strings. *)
Theorem C11_casei_cmp_order : forall s1 s2 m1 m2, cstring s1 m1 -> cstring s2 m2 ->
  exists v, casei_cmp m1 m2 = Some v /\
    (v = 0%Z <-> map lower s1 = map lower s2) /\
    ((v < 0)%Z <-> dict_lt (map lower s1) (map lower s2)) /\
    ((v > 0)%Z <-> dict_lt (map lower s2) (map lower s1)).
Proof. exact casei_order. Qed.
Print Assumptions C11_casei_cmp_order.

(** That order is a strict total order, so the comparison is antisymmetric and
    transitive. *)
Theorem C11_dict_order_total : 
  (forall s, ~ dict_lt s s) /\
  (forall s t u, dict_lt s t -> dict_lt t u -> dict_lt s u) /\
  (forall s t, dict_lt s t \/ s = t \/ dict_lt t s).
Proof. exact dict_total. Qed.
Print Assumptions C11_dict_order_total.

Theorem C11_casei_cmp_laws : forall s1 s2 s3 m1 m2 m3 v12 v21 v23 v13,
  cstring s1 m1 -> cstring s2 m2 -> cstring s3 m3 ->
  casei_cmp m1 m2 = Some v12 -> casei_cmp m2 m1 = Some v21 ->
  casei_cmp m2 m3 = Some v23 -> casei_cmp m1 m3 = Some v13 ->
  ((v12 < 0)%Z <-> (v21 > 0)%Z) /\ (v12 = 0%Z <-> v21 = 0%Z) /\
  ((v12 <= 0)%Z -> (v23 <= 0)%Z -> (v13 <= 0)%Z).
Proof. exact casei_laws. Qed.
Print Assumptions C11_casei_cmp_laws.

(** Table lookups return the first matching entry, or null when there is none.
    A table is any list of named entries followed by an entry with null name. *)
Definition table (entries : list enumerator) (tbl : list enumerator) : Prop :=
  (forall e, In e entries -> exists nm s, en_name e = Some nm /\ cstring s nm) /\
  exists last tail, en_name last = None /\ tbl = entries ++ last :: tail.
Definition named (s : list N) (e : enumerator) : Prop :=
  exists nm, en_name e = Some nm /\ cstring s nm.
Definition named_casei (s : list N) (e : enumerator) : Prop :=
  exists nm t, en_name e = Some nm /\ cstring t nm /\ map lower t = map lower s.

Theorem C11_enumeration_get : forall entries tbl s mem, table entries tbl -> cstring s mem ->
  exists r, enumeration_get tbl mem = Some r /\ first_match (named s) entries r.
Proof. intros e t s m [H1 H2]. exact (enum_get_ok e t s m H1 H2). Qed.
Print Assumptions C11_enumeration_get.

Theorem C11_enumeration_get_casei : forall entries tbl s mem, table entries tbl -> cstring s mem ->
  exists r, enumeration_get_casei tbl mem = Some r /\ first_match (named_casei s) entries r.
Proof. intros e t s m [H1 H2]. exact (enum_casei_ok e t s m H1 H2). Qed.
Print Assumptions C11_enumeration_get_casei.

Theorem C11_enumeration_get_by_value : forall entries tbl v, table entries tbl ->
  exists r, enumeration_get_by_value tbl v = Some r /\
    first_match (fun e => en_value e = v) entries r.
Proof. intros e t v [H1 H2]. exact (enum_value_ok e t v H1 H2). Qed.
Print Assumptions C11_enumeration_get_by_value.

Example C11_case : casei_cmp [65;98;0]%N [97;67;0]%N = Some (-1)%Z.
Proof. reflexivity. Qed.
Example C11_case_get :
  enumeration_get_casei [mk_enum (Some [97;0]%N) 1; mk_enum (Some [66;0]%N) 2; mk_enum None 0] [98;0]%N
  = Some (Some 1).
Proof. reflexivity. Qed.

(** C67.  The reverse search finds the last occurrence in the range, and reads
    nothing outside the range. *)
Theorem C67_find_char_rev : forall mem len c, len <= length mem ->
  exists r, find_char_rev mem len c = Some r /\
    match r with
    | Some i => i < len /\ nth_error mem i = Some c /\ forall j, i < j < len -> nth_error mem j <> Some c
    | None => forall j, j < len -> nth_error mem j <> Some c
    end.
Proof.
  intros mem len c. induction len as [|e IH]; intro L; cbn [find_char_rev].
  - exists None. split; [reflexivity|]. intros; lia.
  - destruct (aget_lt mem e L) as (x & E). rewrite E. cbn [obind].
    destruct (N.eqb_spec x c) as [->|N0].
    + exists (Some e). split; [reflexivity|]. split; [lia|]. split; [exact E|]. intros; lia.
    + destruct (IH ltac:(lia)) as (r & -> & R). exists r. split; [reflexivity|].
      assert (Ne : nth_error mem e <> Some c) by (intro X; unfold aget in E; congruence).
      destruct r as [i|].
      * destruct R as (R1 & R2 & R3). split; [lia|]. split; [exact R2|]. intros j Lj.
        destruct (Nat.eq_dec j e) as [->|]; [exact Ne|apply R3; lia].
      * intros j Lj. destruct (Nat.eq_dec j e) as [->|]; [exact Ne|apply R; lia].
Qed.
Print Assumptions C67_find_char_rev.
Example C67_ex : find_char_rev [97;47;98;47;99]%N 5 47%N = Some (Some 3) /\ find_char_rev [97;47;98;47]%N 3 47%N = Some (Some 1)
  /\ find_char_rev [97;47]%N 2 98%N = Some None.
Proof. auto. Qed.
