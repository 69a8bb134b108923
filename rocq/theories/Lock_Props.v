(** Property C26: the library lock is a recursive mutex.  [level s t] is the number of
    calls of vl_lock_state by thread [t] that returned minus its calls of
    vl_unlock_state, so a thread with a positive level is inside the locked region. *)
From Coq Require Import List ZArith Arith Bool Lia.
From Verif Require Import Lock_Model Lock_Proofs.
Import ListNotations.
Local Open Scope Z_scope.

Theorem C26_mutual_exclusion : forall s t u, reachable s ->
  (0 < level s t)%nat -> (0 < level s u)%nat -> t = u.
Proof. exact mutual_exclusion. Qed.
Print Assumptions C26_mutual_exclusion.

(** A thread already inside never reaches the waiting loop: it re-enters at once. *)
Theorem C26_reentrant : forall s t, reachable s -> (0 < level s t)%nat ->
  pcs s t <> L3 /\ pcs s t <> Asleep /\ pcs s t <> Woken /\ pcs s t <> L4 /\
  (pcs s t = L2 -> advance s t = Some (goto s t LInc)).
Proof.
  intros s t R H. pose proof (reachable_inv s R) as I. pose proof (i_enter s I t) as HE. unfold held in HE.
  repeat split; try (intro P; rewrite P in HE; specialize (HE eq_refl); lia).
  intro P. unfold advance. rewrite P.
  destruct (i_count s I) as [[_ C]|(C1 & C2 & C3)]; [specialize (C t); unfold held in C; lia|].
  destruct (Nat.eq_dec t (owner s)) as [->|NE]; [|specialize (C3 t NE); unfold held in C3; lia].
  rewrite Nat.eqb_refl, andb_true_r. destruct (Z.leb_spec 1 (count s)); [auto|lia].
Qed.
Print Assumptions C26_reentrant.

(** The recursion count is exact: with nobody inside the two functions it is the
    level of the thread inside the region, and 0 if there is none. *)
Theorem C26_count_exact : forall s, reachable s -> (forall t, pcs s t = Out \/ pcs s t = Asleep) ->
  (forall t, (0 < level s t)%nat -> count s = Z.of_nat (level s t) /\ owner s = t) /\
  ((forall t, level s t = 0%nat) -> count s = 0).
Proof.
  intros s R HO. pose proof (reachable_inv s R) as I.
  assert (HX : forall t, held s t = level s t) by (intro t; unfold held; destruct (HO t) as [-> | ->]; cbn; lia).
  split.
  - intros t Ht. destruct (i_count s I) as [[_ C]|(C1 & C2 & C3)]; [specialize (C t); rewrite HX in C; lia|].
    destruct (Nat.eq_dec t (owner s)) as [->|NE]; [rewrite HX in C1; auto|].
    specialize (C3 t NE). rewrite HX in C3. lia.
  - intro HL. destruct (i_count s I) as [[C _]|(C1 & _ & _)]; auto. rewrite C1, HX, HL. reflexivity.
Qed.
Print Assumptions C26_count_exact.

(** The count is positive whenever it is decremented, so it never wraps. *)
Theorem C26_count_never_negative : forall s t, reachable s ->
  0 <= count s /\ (pcs s t = U2 -> 0 < count s).
Proof.
  intros s t R. pose proof (reachable_inv s R) as I.
  destruct (i_count s I) as [[C1 C]|(C1 & C2 & C3)]; split; try lia.
  intro P. specialize (C t). unfold held in C. rewrite P in C. cbn in C. lia.
Qed.
Print Assumptions C26_count_never_negative.

(** No deadlock and no lost wake-up: if some thread is inside one of the two
    functions (possibly asleep) and no thread sits in the locked region, then some
    thread can move on. *)
Theorem C26_progress : forall s t, reachable s -> pcs s t <> Out ->
  (forall u, pcs s u = Out -> level s u = 0%nat) -> exists s', internal s s'.
Proof. exact progress. Qed.
Print Assumptions C26_progress.

(** In particular nobody sleeps while the lock is free and all others are outside. *)
Theorem C26_no_sleeper_left : forall s, reachable s -> count s = 0 ->
  (forall t, pcs s t = Out \/ pcs s t = Asleep) -> forall t, pcs s t = Out.
Proof.
  intros s R C HO t. destruct (HO t) as [H|H]; auto. pose proof (reachable_inv s R) as I.
  destruct (i_wake s I C t H) as [u Hu]. destruct (HO u) as [X|X]; rewrite X in Hu; discriminate.
Qed.
Print Assumptions C26_no_sleeper_left.

(** A reachable state with thread 1 inside twice and thread 2 asleep. *)
Inductive act := Lock (t : nat) | Adv (t : nat).
Definition do_act (a : act) (s : st) : option st :=
  match a with
  | Lock t => match pcs s t with Out => Some (goto s t L1) | _ => None end
  | Adv t => advance s t
  end.
Fixpoint do_acts (l : list act) (s : st) : option st :=
  match l with [] => Some s | a :: l' => match do_act a s with Some s1 => do_acts l' s1 | None => None end end.
Lemma do_acts_reach l : forall s s', reachable s -> do_acts l s = Some s' -> reachable s'.
Proof.
  induction l as [|a l IH]; intros s s' R E; cbn in E; [congruence|].
  destruct (do_act a s) as [s1|] eqn:A; [|discriminate]. apply (IH s1); auto.
  apply (re_step s); auto. destruct a; cbn in A.
  - destruct (pcs s t) eqn:P; inversion A; subst. apply st_lock. auto.
  - apply st_internal. eapply in_advance. eauto.
Qed.
Example C26_example : exists s, reachable s /\ level s 1 = 2%nat /\ pcs s 2 = Asleep /\ count s = 2.
Proof.
  destruct (do_acts [Lock 1; Adv 1; Adv 1; Adv 1; Adv 1; Adv 1; Lock 2; Adv 2; Adv 2; Adv 2;
                     Lock 1; Adv 1; Adv 1; Adv 1; Adv 1] (init 7)) as [s|] eqn:E; [|discriminate].
  exists s. split; [eapply do_acts_reach; [apply re_init|exact E]|].
  vm_compute in E. inversion E; subst. auto.
Qed.
