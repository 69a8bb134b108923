(** Model of the per-thread state (/repo/vl/generic.c): last error, timer mark and
    default random generator, reached through a thread-specific pointer.

    The pointer stored under the thread key is [tls t], an address in [heap]; a
    fresh block is appended by malloc and holds arbitrary data ([junk]) where the
    constructor writes nothing.  vl_get_thread_specific_state runs entirely inside
    the library lock (property C26) and the rest of each call touches only the
    block it returned, so a call is one step.  clock() is an input of the call.
    vsnprintf is given as the formatted string; blocks are not freed. *)
From Coq Require Import List ZArith NArith Arith Bool.
From Verif Require Import Base Random_Model.
Import ListNotations.
Local Open Scope Z_scope.

(** VL_ERR_MSG_LEN, /repo/vl/generic.h:30 *)
Definition MSG_LEN : nat := 1024.

(** VlThreadState, /repo/vl/generic.c:799-815 *)
Record tstate := mk_tstate { t_error : Z; t_message : list Z; t_rand : vlrand; t_tic : Z }.

(** vl_thread_specific_state_new, /repo/vl/generic.c:1474-1493; malloc returns the block [junk] *)
Definition tstate_new (junk : tstate) : option tstate :=
  do msg <- aset (t_message junk) 0 0;
  do g <- rand_init (t_rand junk);
  Some (mk_tstate 0 msg g 0).

Record world := mk_world { heap : list tstate; tls : nat -> option nat }.
Definition world0 : world := mk_world [] (fun _ => None).

(** vl_get_thread_specific_state, /repo/vl/generic.c:1016-1047: the address of the state *)
Definition get_state (junk : tstate) (w : world) (t : nat) : option (world * nat) :=
  match tls w t with
  | Some a => Some (w, a)
  | None =>
      do b <- tstate_new junk;
      let a := length (heap w) in
      Some (mk_world (heap w ++ [b]) (fun u => if Nat.eqb u t then Some a else tls w u), a)
  end.

(** vsnprintf(buf, n, ...) of the formatted string [s] *)
Fixpoint write_at (buf : list Z) (i : nat) (s : list Z) : option (list Z) :=
  match s with
  | [] => Some buf
  | c :: s' => do buf <- aset buf i c; write_at buf (S i) s'
  end.
Definition snprintf (buf : list Z) (n : nat) (s : list Z) : option (list Z) :=
  match n with O => Some buf | S m => write_at buf 0 (firstn m s ++ [0]) end.

(** The C string at the start of a buffer. *)
Fixpoint cstr (buf : list Z) : option (list Z) :=
  match buf with
  | [] => None
  | c :: buf' => if c =? 0 then Some [] else do s <- cstr buf'; Some (c :: s)
  end.

Inductive call :=
| SetLastError (e : Z) (msg : option (list Z))
| GetLastError
| GetLastErrorMessage
| Tic (clock : Z)
| Toc (clock : Z)
| Rand (o : rand_op).      (* a generator function applied to vl_get_rand() *)

Inductive answer := AInt (z : Z) | AStr (s : list Z) | ARand (r : rand_out) | AVoid.

(** vl_set_last_error 1236-1258, vl_get_last_error 1265-1268, vl_get_last_error_message
    1275-1279, vl_tic 1412-1421, vl_toc 1437-1449 (difference in clock ticks), vl_get_rand 1460-1464 *)
Definition do_call (junk : tstate) (w : world) (t : nat) (c : call) : option (world * answer) :=
  do (w, a) <- get_state junk w t;
  do b <- aget (heap w) a;
  let store (b : tstate) (r : answer) := do h <- aset (heap w) a b; Some (mk_world h (tls w), r) in
  match c with
  | SetLastError e msg =>
      do m <- match msg with
              | Some s => snprintf (t_message b) MSG_LEN s
              | None => aset (t_message b) 0 0
              end;
      store (mk_tstate e m (t_rand b) (t_tic b)) (AInt e)
  | GetLastError => Some (w, AInt (t_error b))
  | GetLastErrorMessage => do s <- cstr (t_message b); Some (w, AStr s)
  | Tic now => store (mk_tstate (t_error b) (t_message b) (t_rand b) now) AVoid
  | Toc now => Some (w, AInt (now - t_tic b))
  | Rand o => do (g, r) <- rand_step (t_rand b) o; store (mk_tstate (t_error b) (t_message b) g (t_tic b)) (ARand r)
  end.

(** A history: the calls of all threads in the order in which they happen, each with the
    contents that malloc would return at that moment. *)
Definition history := list (nat * call * tstate).
Fixpoint run_calls (w : world) (h : history) : option (world * list (nat * answer)) :=
  match h with
  | [] => Some (w, [])
  | (t, c, junk) :: h' =>
      do (w, r) <- do_call junk w t c;
      do (w, rs) <- run_calls w h';
      Some (w, (t, r) :: rs)
  end.
