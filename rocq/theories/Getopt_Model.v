(** Model of getopt_long (/repo/vl/getopt_long.c).

    Strings are lists of non-zero characters without their terminator; a
    [char *] into a string is the suffix it points to.  [argv] is a list of
    argc+1 pointers, the last one NULL ([None]).  [None] as a result is undefined
    behaviour.  Messages printed on stderr are not modelled (they depend on
    [opterr] and have no other effect).  The static variables of the C function
    and the globals optind, optarg, optopt, optreset form the state. *)
From Coq Require Import List ZArith Arith Bool.
From Verif Require Import Base.
Import ListNotations.
Local Open Scope Z_scope.

Notation str := (list Z) (only parsing).

(** struct option and its has_arg values, /repo/vl/getopt_long.h:17-36 *)
Inductive has_arg := no_argument | required_argument | optional_argument.
Record longopt := mk_longopt { lo_name : str; lo_arg : has_arg; lo_flag : option nat; lo_val : Z }.

(** BADCH and BADARG, /repo/vl/getopt_long.c:35-36 *)
Definition BADCH := 63.
Definition BADARG := 58.

(** Globals and statics, /repo/vl/getopt_long.c:29-33 and 78-80 *)
Record gst := mk_gst { g_argv : list (option str); g_ind : nat; g_begin : nat; g_end : nat;
  g_place : str; g_arg : option str; g_opt : Z; g_reset : bool }.

(** What one call reports: return value, optarg, value stored in *longindex if
    stored, and the write to a flag variable if any. *)
Record event := mk_event { ev_ret : Z; ev_arg : option str; ev_index : option nat; ev_flag : option (nat * Z) }.

(** The search for the next option, /repo/vl/getopt_long.c:113-132: [Some None] when
    arguments are exhausted, else optbegin and the candidate after its dash. *)
Fixpoint find_option (fuel : nat) (argv : list (option str)) (argc b : nat) : option (option (nat * str)) :=
  match fuel with
  | O => None
  | S fuel' =>
      do p <- aget argv b;
      do p <- p;
      match p with
      | c :: place => if c =? 45 then Some (Some (b, place))
                      else if (argc <=? b + 1)%nat then Some None else find_option fuel' argv argc (b + 1)
      | [] => if (argc <=? b + 1)%nat then Some None else find_option fuel' argv argc (b + 1)
      end
  end.

(** strcspn(place, "="), /repo/vl/getopt_long.c:172 *)
Fixpoint cspn_eq (s : str) : nat :=
  match s with c :: s' => if c =? 61 then 0%nat else S (cspn_eq s') | [] => 0%nat end.

Fixpoint str_eqb (a b : str) : bool :=
  match a, b with
  | [], [] => true
  | x :: a', y :: b' => (x =? y) && str_eqb a' b'
  | _, _ => false
  end.

(** The scan of longopts, /repo/vl/getopt_long.c:175-178 *)
Fixpoint find_long (place : str) (namelen : nat) (longs : list longopt) (i : nat) : option (nat * longopt) :=
  match longs with
  | [] => None
  | o :: longs' =>
      if (length (lo_name o) =? namelen)%nat && str_eqb (firstn namelen place) (lo_name o)
      then Some (i, o) else find_long place namelen longs' (S i)
  end.

(** strchr(optstring, c) for a non-zero c: the suffix starting at c *)
Fixpoint strchr (s : str) (c : Z) : option str :=
  match s with [] => None | x :: s' => if x =? c then Some s else strchr s' c end.

(** One circular shift, /repo/vl/getopt_long.c:318-323 *)
Fixpoint shift_right (n : nat) (argv : list (option str)) (i : nat) : option (list (option str)) :=
  match n with
  | O => Some argv
  | S n' => do x <- aget argv (i - 1); do argv <- aset argv i x; shift_right n' argv (i - 1)
  end.
Definition rotate1 (argv : list (option str)) (ind end_ : nat) : option (list (option str)) :=
  do tmp <- aget argv (end_ - 1);
  do argv <- shift_right (end_ - 1 - ind) argv (end_ - 1);
  aset argv ind tmp.
Fixpoint rotate (c : nat) (argv : list (option str)) (ind end_ : nat) : option (list (option str)) :=
  match c with
  | O => Some argv
  | S c' => do argv <- rotate1 argv ind end_; rotate c' argv ind end_
  end.

(** done_option, /repo/vl/getopt_long.c:312-326 *)
Definition done_option (s : gst) (e : event) : option (gst * event) :=
  let pos := (g_end s - g_begin s)%nat in
  do argv <- rotate pos (g_argv s) (g_ind s) (g_end s);
  Some (mk_gst argv (g_ind s + pos) (g_begin s) (g_end s) (g_place s) (g_arg s) (g_opt s) (g_reset s), e).

Definition set_place (s : gst) p := mk_gst (g_argv s) (g_ind s) (g_begin s) (g_end s) p (g_arg s) (g_opt s) (g_reset s).

(** The long option branch, /repo/vl/getopt_long.c:160-236, [place] after both dashes *)
Definition long_option (has_colon : bool) (longs : list longopt) (argc : nat) (s : gst) (place : str)
  : option (gst * event) :=
  let s := set_place s [] in
  let namelen := cspn_eq place in
  match find_long place namelen longs 0 with
  | None => done_option s (mk_event BADCH (g_arg s) None None)
  | Some (i, o) =>
      let finish (s : gst) :=
        match lo_flag o with
        | None => done_option s (mk_event (lo_val o) (g_arg s) (Some i) None)
        | Some f => done_option s (mk_event 0 (g_arg s) (Some i) (Some (f, lo_val o)))
        end in
      match lo_arg o with
      | no_argument => finish s
      | a =>
          match skipn namelen place with
          | _ :: v => (* place[namelen] is '=' *)
              finish (mk_gst (g_argv s) (g_ind s) (g_begin s) (g_end s) [] (Some v) (g_opt s) (g_reset s))
          | [] =>
              match a with
              | required_argument =>
                  if (argc - 1 <=? g_begin s)%nat then
                    done_option s (mk_event (if has_colon then BADARG else BADCH) (g_arg s) (Some i) None)
                  else
                    do v <- aget (g_argv s) (g_end s);
                    finish (mk_gst (g_argv s) (g_ind s) (g_begin s) (g_end s + 1) [] v (g_opt s) (g_reset s))
              | _ => finish s
              end
          end
      end
  end.

(** The short option branch, /repo/vl/getopt_long.c:239-310.  [place] is the null
    string only for the argument "-", when the C code reads past the end of the
    option string. *)
Definition short_option (has_colon : bool) (optstring : str) (argc : nat) (s : gst) : option (gst * event) :=
  match g_place s with
  | [] => None
  | c :: place =>
      let s := mk_gst (g_argv s) (g_ind s) (g_begin s) (g_end s) place (g_arg s) c (g_reset s) in
      match strchr optstring c with
      | None =>
          match place with
          | _ :: _ => Some (s, mk_event BADCH (g_arg s) None None)
          | [] => done_option s (mk_event BADCH (g_arg s) None None)
          end
      | Some oli =>
          if match oli with _ :: x :: _ => x =? 58 | _ => false end then
              match place with
              | _ :: _ =>
                  done_option (mk_gst (g_argv s) (g_ind s) (g_begin s) (g_end s) [] (Some place) c (g_reset s))
                    (mk_event c (Some place) None None)
              | [] =>
                  if (argc - 1 <=? g_begin s)%nat then
                    done_option s (mk_event (if has_colon then BADARG else BADCH) (g_arg s) None None)
                  else
                    do v <- aget (g_argv s) (g_end s);
                    done_option (mk_gst (g_argv s) (g_ind s) (g_begin s) (g_end s + 1) [] v c (g_reset s))
                      (mk_event c v None None)
              end
          else
              match place with
              | _ :: _ => Some (s, mk_event c (g_arg s) None None)
              | [] => done_option s (mk_event c (g_arg s) None None)
              end
      end
  end.

(** The leading colon, /repo/vl/getopt_long.c:90-91 *)
Definition split_colon (optstring : str) : bool * str :=
  match optstring with
  | c :: o => if c =? 58 then (true, o) else (false, optstring)
  | [] => (false, [])
  end.

(** getopt_long, /repo/vl/getopt_long.c:72-329 *)
Definition getopt_long (argc : nat) (optstring : str) (longs : list longopt) (s : gst) : option (gst * event) :=
  let (has_colon, optstring) := split_colon optstring in
  if g_reset s || (match g_place s with [] => true | _ => false end) then
    if (argc <=? g_ind s)%nat then
      Some (mk_gst (g_argv s) (g_ind s) (g_begin s) (g_end s) [] (g_arg s) (g_opt s) false,
            mk_event (-1) (g_arg s) None None)
    else
      do r <- find_option (S argc) (g_argv s) argc (g_ind s);
      match r with
      | None => Some (mk_gst (g_argv s) (g_ind s) argc (g_end s) [] (g_arg s) (g_opt s) false,
                      mk_event (-1) (g_arg s) None None)
      | Some (b, place) =>
          let s := mk_gst (g_argv s) (g_ind s) b (b + 1) place None (g_opt s) false in
          match place with
          | [c] =>
              if c =? 45 then
                done_option (mk_gst (g_argv s) (g_end s) b (g_end s) [] None (g_opt s) false)
                            (mk_event (-1) None None None)
              else short_option has_colon optstring argc s
          | c :: place' =>
              if c =? 45 then long_option has_colon longs argc s place'
              else short_option has_colon optstring argc s
          | [] => short_option has_colon optstring argc s
          end
      end
  else short_option has_colon optstring argc s.

(** The usual loop: call until -1 and collect what is reported. *)
Fixpoint getopt_run (fuel : nat) (argc : nat) (optstring : str) (longs : list longopt) (s : gst)
  : option (gst * list event) :=
  match fuel with
  | O => None
  | S fuel' =>
      do (s1, e) <- getopt_long argc optstring longs s;
      if ev_ret e =? -1 then Some (s1, [])
      else do (s2, es) <- getopt_run fuel' argc optstring longs s1; Some (s2, e :: es)
  end.

(** Initial values, /repo/vl/getopt_long.c:29-33 and 78-80 *)
Definition getopt_init (args : list str) : gst :=
  mk_gst (map Some args ++ [None]) 1 0 0 [] None 0 false.
