(** What a command line means, following the documentation of getopt_long
    (/repo/vl/getopt_long.c:42-71), as relations on the argument list only. *)
From Coq Require Import List ZArith.
From Verif Require Import Getopt_Model.
Import ListNotations.
Local Open Scope Z_scope.

Section Spec.
  Variable colon : bool.          (* optstring had a leading colon *)
  Variable optstring : list Z.
  Variable longs : list longopt.

  Definition missing := if colon then 58 else 63.

  (** First occurrence of [c] in the option string, followed by a colon or not. *)
  Definition takes_arg (c : Z) : Prop :=
    exists pre post, optstring = pre ++ c :: 58 :: post /\ ~ In c pre.
  Definition plain (c : Z) : Prop :=
    exists pre post, optstring = pre ++ c :: post /\ ~ In c pre /\ hd_error post <> Some 58.

  (** [shorts body rest evs k]: the cluster [-body] followed by arguments [rest]
      reports [evs] and uses [k] of the arguments. *)
  Inductive shorts : list Z -> list (list Z) -> list event -> nat -> Prop :=
  | sh_nil rest : shorts [] rest [] 0
  | sh_unknown c body rest evs k : ~ In c optstring -> shorts body rest evs k ->
      shorts (c :: body) rest (mk_event 63 None None None :: evs) k
  | sh_plain c body rest evs k : plain c -> shorts body rest evs k ->
      shorts (c :: body) rest (mk_event c None None None :: evs) k
  | sh_inline c body rest : takes_arg c -> body <> [] ->
      shorts (c :: body) rest [mk_event c (Some body) None None] 0
  | sh_next c v rest : takes_arg c -> shorts [c] (v :: rest) [mk_event c (Some v) None None] 1
  | sh_missing c : takes_arg c -> shorts [c] [] [mk_event missing None None None] 0.

  (** The first long option called [name]. *)
  Definition lookup (name : list Z) (i : nat) (o : longopt) : Prop :=
    exists pre post, longs = pre ++ o :: post /\ length pre = i /\ lo_name o = name /\
      Forall (fun p => lo_name p <> name) pre.

  Definition found (i : nat) (o : longopt) (arg : option (list Z)) : event :=
    match lo_flag o with
    | None => mk_event (lo_val o) arg (Some i) None
    | Some f => mk_event 0 arg (Some i) (Some (f, lo_val o))
    end.

  (** [body] is a name alone or name=value. *)
  Definition named (body name : list Z) (value : option (list Z)) : Prop :=
    ~ In 61 name /\ match value with None => body = name | Some v => body = name ++ 61 :: v end.

  Inductive long : list Z -> list (list Z) -> event -> nat -> Prop :=
  | lg_unknown body name v rest : named body name v -> (forall o, In o longs -> lo_name o <> name) ->
      long body rest (mk_event 63 None None None) 0
  | lg_plain body name v rest i o : named body name v -> lookup name i o -> lo_arg o = no_argument ->
      long body rest (found i o None) 0
  | lg_inline body name v rest i o : named body name (Some v) -> lookup name i o ->
      lo_arg o <> no_argument -> long body rest (found i o (Some v)) 0
  | lg_optional body rest i o : named body body None -> lookup body i o ->
      lo_arg o = optional_argument -> long body rest (found i o None) 0
  | lg_next body v rest i o : named body body None -> lookup body i o ->
      lo_arg o = required_argument -> long body (v :: rest) (found i o (Some v)) 1
  | lg_missing body i o : named body body None -> lookup body i o ->
      lo_arg o = required_argument -> long body [] (mk_event missing None (Some i) None) 0.

  (** [parses args evs used free]: the arguments report [evs]; [used] are the
      arguments taken by options, [free] the others, each in order. *)
  Inductive parses : list (list Z) -> list event -> list (list Z) -> list (list Z) -> Prop :=
  | ps_nil : parses [] [] [] []
  | ps_free a rest evs used free : hd_error a <> Some 45 -> parses rest evs used free ->
      parses (a :: rest) evs used (a :: free)
  | ps_long body rest ev k evs used free : body <> [] -> long body rest ev k ->
      parses (skipn k rest) evs used free ->
      parses ((45 :: 45 :: body) :: rest) (ev :: evs) ((45 :: 45 :: body) :: firstn k rest ++ used) free
  | ps_short body rest evs1 k evs used free : body <> [] -> hd_error body <> Some 45 ->
      shorts body rest evs1 k -> parses (skipn k rest) evs used free ->
      parses ((45 :: body) :: rest) (evs1 ++ evs) ((45 :: body) :: firstn k rest ++ used) free.
End Spec.
