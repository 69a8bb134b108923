(** Model of the library lock, vl_lock_state and vl_unlock_state
    (/repo/vl/generic.c:945-968 and 978-994, POSIX version), executed by any number
    of threads (numbered by nat) under any schedule.

    One step is one access to shared data or one pthread call.  The pthread mutex
    is [holder]; pthread_cond_wait releases it and sleeps until woken by a signal
    or spuriously, then takes it again; pthread_cond_signal wakes a sleeping
    thread if there is one. *)
From Coq Require Import List ZArith Arith Bool.
Import ListNotations.
Local Open Scope Z_scope.

(** Program points: [L1]..[L5] in vl_lock_state (951, 952-954, 956, 959-960, 962), [LInc] the
    re-entry (955); [Asleep]/[Woken] inside pthread_cond_wait (957); [U1]..[U4] in
    vl_unlock_state (984, 985, 986, 989) and [USig] (987); [Out] elsewhere. *)
Inductive pc := Out | L1 | L2 | LInc | L3 | Asleep | Woken | L4 | L5 | U1 | U2 | U3 | USig | U4.

(** [level t] is not in the code: calls of vl_lock_state by [t] that returned minus its
    calls of vl_unlock_state. *)
Record st := mk_st { holder : option nat; count : Z; owner : nat; pcs : nat -> pc; level : nat -> nat }.

Definition set {A} (f : nat -> A) (t : nat) (v : A) : nat -> A := fun u => if Nat.eqb u t then v else f u.
Definition goto (s : st) (t : nat) (p : pc) : st :=
  mk_st (holder s) (count s) (owner s) (set (pcs s) t p) (level s).
Definition hold (s : st) (h : option nat) : st := mk_st h (count s) (owner s) (pcs s) (level s).
Definition set_count (s : st) (c : Z) : st := mk_st (holder s) c (owner s) (pcs s) (level s).
Definition set_owner (s : st) (o : nat) : st := mk_st (holder s) (count s) o (pcs s) (level s).
Definition set_level (s : st) (t : nat) (n : nat) : st :=
  mk_st (holder s) (count s) (owner s) (pcs s) (set (level s) t n).

(** pthread_mutex_lock: possible when the mutex is free *)
Definition acquire (s : st) (t : nat) (p : pc) : option st :=
  match holder s with None => Some (goto (hold s (Some t)) t p) | Some _ => None end.

(** The next step of thread [t], [None] if it cannot move by itself. *)
Definition advance (s : st) (t : nat) : option st :=
  match pcs s t with
  | L1 => acquire s t L2
  | L2 => if (1 <=? count s) && (owner s =? t)%nat then Some (goto s t LInc) else Some (goto s t L3)
  | LInc => Some (goto (set_count s (count s + 1)) t L5)
  | L3 => if 1 <=? count s then Some (goto (hold s None) t Asleep) else Some (goto s t L4)
  | Woken => acquire s t L3
  | L4 => Some (goto (set_count (set_owner s t) 1) t L5)
  | L5 => Some (set_level (goto (hold s None) t Out) t (S (level s t)))
  | U1 => acquire s t U2
  | U2 => Some (goto (set_count s (count s - 1)) t U3)
  | U3 => if count s =? 0 then Some (goto s t USig) else Some (goto s t U4)
  | U4 => Some (goto (hold s None) t Out)
  | Out | Asleep | USig => None
  end.

(** Steps of the threads inside the two functions. *)
Inductive internal : st -> st -> Prop :=
| in_advance s t s' : advance s t = Some s' -> internal s s'
| in_signal s t w : pcs s t = USig -> pcs s w = Asleep -> internal s (goto (goto s w Woken) t U4)
| in_signal_none s t : pcs s t = USig -> (forall w, pcs s w <> Asleep) -> internal s (goto s t U4).

(** All steps: also calls of the two functions (a thread unlocks only what it
    locked) and spurious wake-ups. *)
Inductive step : st -> st -> Prop :=
| st_internal s s' : internal s s' -> step s s'
| st_spurious s w : pcs s w = Asleep -> step s (goto s w Woken)
| st_lock s t : pcs s t = Out -> step s (goto s t L1)
| st_unlock s t n : pcs s t = Out -> level s t = S n -> step s (set_level (goto s t U1) t n).

(** The initial state: static zero initialisation; the owner field may be anything. *)
Definition init (o : nat) : st := mk_st None 0 o (fun _ => Out) (fun _ => 0%nat).

Inductive reachable : st -> Prop :=
| re_init o : reachable (init o)
| re_step s s' : reachable s -> step s s' -> reachable s'.
