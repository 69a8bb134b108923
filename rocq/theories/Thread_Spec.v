(** What a single thread using the error, timer and random functions must observe,
    as a machine that knows nothing of other threads or of memory. *)
From Coq Require Import List ZArith NArith.
From Verif Require Import Random_Model Thread_Model.
Import ListNotations.
Local Open Scope Z_scope.

Record view := mk_view { v_error : Z; v_message : list Z; v_rand : vlrand; v_tic : Z }.

(** No error, empty message, a generator as left by vl_rand_init, timer at zero. *)
Definition view0 : view := mk_view 0 [] (mk_rand (repeat 0%N 624) 625) 0.

Definition view_call (v : view) (c : call) : option (view * answer) :=
  match c with
  | SetLastError e (Some s) => Some (mk_view e (firstn 1023 s) (v_rand v) (v_tic v), AInt e)
  | SetLastError e None => Some (mk_view e [] (v_rand v) (v_tic v), AInt e)
  | GetLastError => Some (v, AInt (v_error v))
  | GetLastErrorMessage => Some (v, AStr (v_message v))
  | Tic now => Some (mk_view (v_error v) (v_message v) (v_rand v) now, AVoid)
  | Toc now => Some (v, AInt (now - v_tic v))
  | Rand o => match rand_step (v_rand v) o with
              | Some (g, r) => Some (mk_view (v_error v) (v_message v) g (v_tic v), ARand r)
              | None => None
              end
  end.

Fixpoint view_calls (v : view) (cs : list call) : option (view * list answer) :=
  match cs with
  | [] => Some (v, [])
  | c :: cs' => match view_call v c with
                | Some (v1, r) => match view_calls v1 cs' with
                                  | Some (v2, rs) => Some (v2, r :: rs)
                                  | None => None
                                  end
                | None => None
                end
  end.

(** The calls of thread [t] in a history, and its answers. *)
Definition calls_of (t : nat) (h : history) : list call :=
  map (fun x => snd (fst x)) (filter (fun x => Nat.eqb (fst (fst x)) t) h).
Definition answers_of (t : nat) (l : list (nat * answer)) : list answer :=
  map snd (filter (fun x => Nat.eqb (fst x) t) l).
