(** Specifications for the string functions, independent of their loops. *)
From Coq Require Import List NArith ZArith Arith Bool.
Import ListNotations.

(** [s] is the text of a C string: no byte is NUL. *)
Definition text (s : list N) : Prop := Forall (fun c => c <> 0%N) s.

(** A memory object holding the C string [s] (followed by anything). *)
Definition cstring (s mem : list N) : Prop := text s /\ exists rest, mem = s ++ 0%N :: rest.

(** The contract of every function writing a string to a buffer of stated size
    [n] (documentation of stringop.c, "Detecting overflow"): [full] is the
    complete result; the buffer [b] becomes [b'] and [r] is returned. *)
Definition bounded_write (full b : list N) (n : nat) (b' : list N) (r : nat) : Prop :=
  r = length full /\
  (n = 0 -> b' = b) /\
  (n > 0 -> exists m,
     m = Nat.min (length full) (n - 1) /\
     b' = firstn m full ++ [0%N] ++ skipn (m + 1) b).

(** The leading path is everything up to the last slash or backslash. *)
Definition is_sep (c : N) : Prop := c = 92%N \/ c = 47%N.
Definition leading_path (src base : list N) : Prop :=
  Forall (fun c => ~ is_sep c) base /\
  (src = base \/ exists dir c, is_sep c /\ src = dir ++ c :: base).

(** An extension is a dot followed by a dot-free string. *)
Definition extension (x : list N) : Prop :=
  exists y, x = 46%N :: y /\ ~ In 46%N y.

(** [stem] is [base] without up to [m] trailing extensions, as many as possible. *)
Definition stripped (base : list N) (m : nat) (stem : list N) : Prop :=
  exists exts, base = stem ++ concat exts /\ Forall extension exts /\ length exts <= m /\
    (length exts = m \/ ~ In 46%N stem).

(** Wildcard substitution: [w] is replaced by [repl]; [e] disappears and the
    character after it is copied verbatim. *)
Fixpoint substituted (w e : N) (repl src : list N) : list N :=
  match src with
  | [] => []
  | c :: t =>
      if (c =? e)%N then
        match t with
        | [] => []
        | d :: t' => d :: substituted w e repl t'
        end
      else if (c =? w)%N then repl ++ substituted w e repl t
      else c :: substituted w e repl t
  end.

(** Lower-case version of an ASCII letter, other bytes unchanged. *)
Definition lower (c : N) : N :=
  if (andb (65 <=? c) (c <=? 90))%N then (c + 32)%N else c.

(** Dictionary order on strings of bytes: strict. *)
Inductive dict_lt : list N -> list N -> Prop :=
| dl_nil : forall c t, dict_lt [] (c :: t)
| dl_head : forall c d s t, (c < d)%N -> dict_lt (c :: s) (d :: t)
| dl_tail : forall c s t, dict_lt s t -> dict_lt (c :: s) (c :: t).

(** The first index whose entry satisfies [P], if any. *)
Definition first_match {A} (P : A -> Prop) (l : list A) (r : option nat) : Prop :=
  match r with
  | Some i => exists x, nth_error l i = Some x /\ P x /\
                forall j y, j < i -> nth_error l j = Some y -> ~ P y
  | None => forall x, In x l -> ~ P x
  end.

(** [pre] ends at the first occurrence of "://" in [s]. *)
Definition sep : list N := [58; 47; 47]%N.
Definition contains_sep (s : list N) : Prop := exists a b, s = a ++ sep ++ b.
Definition split_first (s pre rest : list N) : Prop :=
  s = pre ++ sep ++ rest /\
  forall a b, s = a ++ sep ++ b -> length pre <= length a.

Definition prefix_of (p s : list N) : Prop := exists q, s = p ++ q.
