(** Model of /repo/vl/stringop.c.

    A [char const *] argument is the list of bytes from the pointer to the end of
    the underlying object; reading past the list is [None].  A destination is
    [None] for a null pointer or [Some buffer]; writing past the buffer is
    [None].  Sizes and indexes are unbounded naturals: the wrap-around of
    [k + 1] at 2^64 needs strings of 2^64 bytes and is not modelled. *)
From Coq Require Import List NArith ZArith Arith Bool.
From Verif Require Import Base.
Import ListNotations.
Local Open Scope bool_scope.

Notation byte := N (only parsing).

(** [if (destination && k + 1 < destinationSize) destination[k] = c],
    /repo/vl/stringop.c:237-239, 245-247, 281-283, 320-322 *)
Definition put (dst : option (list byte)) (n k : nat) (c : byte) : option (option (list byte)) :=
  match dst with
  | None => Some None
  | Some b => if k + 1 <? n then do b1 <- aset b k c; Some (Some b1) else Some dst
  end.

(** [if (destinationSize > 0) destination[VL_MIN(k, destinationSize - 1)] = 0],
    /repo/vl/stringop.c:254-256, 288-290, 327-329 *)
Definition finalize (dst : option (list byte)) (n k : nat) : option (option (list byte)) :=
  if 0 <? n then
    match dst with
    | None => None
    | Some b => do b1 <- aset b (Nat.min k (n - 1)) 0%N; Some (Some b1)
    end
  else Some dst.

(** The loop of vl_string_copy, /repo/vl/stringop.c:280-285 *)
Fixpoint copy_loop (dst : option (list byte)) (n : nat) (src : list byte) (k : nat)
  : option (option (list byte) * nat) :=
  match src with
  | [] => None
  | c :: src' =>
      if (c =? 0)%N then Some (dst, k)
      else do dst1 <- put dst n k c; copy_loop dst1 n src' (k + 1)
  end.

(** vl_string_copy, /repo/vl/stringop.c:273-292 *)
Definition string_copy (dst : option (list byte)) (n : nat) (src : list byte)
  : option (option (list byte) * nat) :=
  do (dst1, k) <- copy_loop dst n src 0;
  do dst2 <- finalize dst1 n k;
  Some (dst2, k).

(** The loop of vl_string_copy_sub, /repo/vl/stringop.c:319-324; [len] is
    [end - beginning] (0 when [end <= beginning]). *)
Fixpoint copy_sub_loop (len : nat) (dst : option (list byte)) (n : nat) (src : list byte) (k : nat)
  : option (option (list byte) * nat) :=
  match len with
  | O => Some (dst, k)
  | S len' =>
      match src with
      | [] => None
      | c :: src' =>
          if (c =? 0)%N then Some (dst, k)
          else do dst1 <- put dst n k c; copy_sub_loop len' dst1 n src' (k + 1)
      end
  end.

(** vl_string_copy_sub, /repo/vl/stringop.c:310-331 *)
Definition string_copy_sub (dst : option (list byte)) (n : nat) (src : list byte) (len : nat)
  : option (option (list byte) * nat) :=
  do (dst1, k) <- copy_sub_loop len dst n src 0;
  do dst2 <- finalize dst1 n k;
  Some (dst2, k).

(** vl_string_length, /repo/vl/stringop.c:361-367 (and the C library strlen) *)
Fixpoint string_length (src : list byte) : option nat :=
  match src with
  | [] => None
  | c :: src' => if (c =? 0)%N then Some 0 else do n <- string_length src'; Some (S n)
  end.

(** First loop of vl_string_basename, /repo/vl/stringop.c:173-175;
    92 is the backslash and 47 the slash. *)
Fixpoint basename_beg (src : list byte) (k beg : nat) : option nat :=
  match src with
  | [] => None
  | c :: src' =>
      if (c =? 0)%N then Some beg
      else basename_beg src' (k + 1)
             (if ((c =? 92) || (c =? 47))%N then k + 1 else beg)
  end.

(** Second loop of vl_string_basename, /repo/vl/stringop.c:179-184, with
    [d] = [k - beg] iterations left; 46 is the dot. *)
Fixpoint basename_end (d : nat) (src : list byte) (beg m e : nat) : option nat :=
  match d with
  | O => Some e
  | S d' =>
      let k := beg + d in
      do c <- aget src (k - 1);
      if (c =? 46)%N && (0 <? m)
      then basename_end d' src beg (m - 1) (k - 1)
      else basename_end d' src beg m e
  end.

(** vl_string_basename, /repo/vl/stringop.c:162-188 *)
Definition string_basename (dst : option (list byte)) (n : nat) (src : list byte) (m : nat)
  : option (option (list byte) * nat) :=
  do beg <- basename_beg src 0 0;
  do len <- string_length src;
  do e <- basename_end (len - beg) src beg m len;
  string_copy_sub dst n (skipn beg src) (e - beg).

(** Inner loop of vl_string_replace_wildcard, /repo/vl/stringop.c:235-241 *)
Fixpoint repl_loop (dst : option (list byte)) (n : nat) (repl : list byte) (k : nat)
  : option (option (list byte) * nat) :=
  match repl with
  | [] => None
  | c :: repl' =>
      if (c =? 0)%N then Some (dst, k)
      else do dst1 <- put dst n k c; repl_loop dst1 n repl' (k + 1)
  end.

(** Outer loop of vl_string_replace_wildcard, /repo/vl/stringop.c:225-251 *)
Fixpoint wild_loop (dst : option (list byte)) (n : nat) (src : list byte)
    (w e : byte) (repl : list byte) (k : nat) (escape : bool)
  : option (option (list byte) * nat) :=
  match src with
  | [] => None
  | c :: src' =>
      if (c =? 0)%N then Some (dst, k)
      else if negb escape && (c =? e)%N then wild_loop dst n src' w e repl k true
      else if negb escape && (c =? w)%N then
        do (dst1, k1) <- repl_loop dst n repl k;
        wild_loop dst1 n src' w e repl k1 false
      else
        do dst1 <- put dst n k c;
        wild_loop dst1 n src' w e repl (k + 1) false
  end.

(** vl_string_replace_wildcard, /repo/vl/stringop.c:213-258 *)
Definition replace_wildcard (dst : option (list byte)) (n : nat) (src : list byte)
    (w e : byte) (repl : list byte) : option (option (list byte) * nat) :=
  do (dst1, k) <- wild_loop dst n src w e repl 0 false;
  do dst2 <- finalize dst1 n k;
  Some (dst2, k).

(** vl_string_find_char_rev, /repo/vl/stringop.c:344-353: index of the last
    occurrence among the first [len] bytes. *)
Fixpoint find_char_rev (src : list byte) (len : nat) (c : byte) : option (option nat) :=
  match len with
  | O => Some None
  | S e => do x <- aget src e; if (x =? c)%N then Some (Some e) else find_char_rev src e c
  end.

(** The C library [tolower] in the "C" locale. *)
Definition tolower (c : byte) : N := if ((65 <=? c) && (c <=? 90))%N then (c + 32)%N else c.

(** vl_string_casei_cmp, /repo/vl/stringop.c:376-391 *)
Fixpoint casei_cmp (s1 s2 : list byte) : option Z :=
  match s1, s2 with
  | c1 :: t1, c2 :: t2 =>
      if (tolower c1 =? tolower c2)%N then
        if (c1 =? 0)%N then Some 0%Z else casei_cmp t1 t2
      else Some (Z.of_N (tolower c1) - Z.of_N (tolower c2))%Z
  | _, _ => None
  end.

(** The C library [strcmp] as used at /repo/vl/stringop.c:413: only the sign is
    specified by the C standard; the difference is one valid choice. *)
Fixpoint strcmp (s1 s2 : list byte) : option Z :=
  match s1, s2 with
  | c1 :: t1, c2 :: t2 =>
      if (c1 =? c2)%N then if (c1 =? 0)%N then Some 0%Z else strcmp t1 t2
      else Some (Z.of_N c1 - Z.of_N c2)%Z
  | _, _ => None
  end.

(** VlEnumerator, /repo/vl/stringop.h: a name (null in the last entry) and a value. *)
Record enumerator := mk_enum { en_name : option (list byte); en_value : Z }.

(** The loop shared by vl_enumeration_get, _get_casei and _get_by_value,
    /repo/vl/stringop.c:412-416, 434-438, 456-460, returning the index of the
    entry found. *)
Fixpoint enum_scan (test : list byte -> enumerator -> option bool) (tbl : list enumerator) (i : nat)
  : option (option nat) :=
  match tbl with
  | [] => None
  | e :: tbl' =>
      match en_name e with
      | None => Some None
      | Some nm =>
          do b <- test nm e;
          if b then Some (Some i) else enum_scan test tbl' (i + 1)
      end
  end.

(** vl_enumeration_get, /repo/vl/stringop.c:408-417 *)
Definition enumeration_get (tbl : list enumerator) (name : list byte) : option (option nat) :=
  enum_scan (fun nm _ => do r <- strcmp name nm; Some (r =? 0)%Z) tbl 0.

(** vl_enumeration_get_casei, /repo/vl/stringop.c:430-439 *)
Definition enumeration_get_casei (tbl : list enumerator) (name : list byte) : option (option nat) :=
  enum_scan (fun nm _ => do r <- casei_cmp name nm; Some (r =? 0)%Z) tbl 0.

(** vl_enumeration_get_by_value, /repo/vl/stringop.c:452-461 *)
Definition enumeration_get_by_value (tbl : list enumerator) (v : Z) : option (option nat) :=
  enum_scan (fun _ e => Some (en_value e =? v)%Z) tbl 0.

(** Protocol codes, /repo/vl/stringop.h:19-25 *)
Inductive protocol := PROT_UNKNOWN | PROT_NONE | PROT_ASCII | PROT_BINARY.

(** The C library [strncmp(s, t, n) == 0] for [t] given without its terminator. *)
Fixpoint strncmp_eq (s t : list byte) (n : nat) {struct n} : option bool :=
  match n with
  | O => Some true
  | S n' =>
      match s with
      | [] => None
      | c :: s' =>
          let d := match t with [] => 0%N | d :: _ => d end in
          if (c =? d)%N then
            if (c =? 0)%N then Some true else strncmp_eq s' (tl t) n'
          else Some false
      end
  end.

(** The C library [strstr(string, "://")]: offset of the first occurrence. *)
Fixpoint strstr_sep (s : list byte) (k : nat) : option (option nat) :=
  match s with
  | [] => None
  | c :: s' =>
      if (c =? 0)%N then Some None
      else
        match s with
        | 58%N :: 47%N :: 47%N :: _ => Some (Some k)
        | _ => strstr_sep s' (k + 1)
        end
  end.

Definition str_ascii : list byte := [97; 115; 99; 105; 105]%N.
Definition str_bin : list byte := [98; 105; 110]%N.

(** vl_string_parse_protocol, /repo/vl/stringop.c:82-112: the code and the
    offset of the returned pointer. *)
Definition parse_protocol (s : list byte) : option (protocol * nat) :=
  do r <- strstr_sep s 0;
  match r with
  | None => Some (PROT_NONE, 0)
  | Some n =>
      do a <- strncmp_eq s str_ascii n;
      if a then Some (PROT_ASCII, n + 3)
      else do b <- strncmp_eq s str_bin n;
           Some (if b then PROT_BINARY else PROT_UNKNOWN, n + 3)
  end.

(** vl_string_protocol_name, /repo/vl/stringop.c:125-138; [None] is a null pointer. *)
Definition protocol_name (p : protocol) : option (list byte) :=
  match p with
  | PROT_ASCII => Some str_ascii
  | PROT_BINARY => Some str_bin
  | PROT_NONE => Some []
  | PROT_UNKNOWN => None
  end.
