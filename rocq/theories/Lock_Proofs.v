From Coq Require Import List ZArith Arith Bool Lia.
From Verif Require Import Lock_Model.
Import ListNotations.
Local Open Scope Z_scope.

Definition holding (p : pc) : bool :=
  match p with L2 | LInc | L3 | L4 | L5 | U2 | U3 | USig | U4 => true | _ => false end.
Definition extra (p : pc) : nat := match p with L5 | U1 | U2 => 1 | _ => 0 end.
Definition held (s : st) (t : nat) : nat := (level s t + extra (pcs s t))%nat.
Arguments held : simpl never.
Definition entering (p : pc) : bool := match p with L3 | Asleep | Woken | L4 => true | _ => false end.
Definition alert (p : pc) : bool := match p with Woken | L3 | L4 | U3 | USig => true | _ => false end.

Record inv (s : st) : Prop := {
  i_mutex : forall t, holding (pcs s t) = true <-> holder s = Some t;
  i_count : (count s = 0 /\ forall t, held s t = 0%nat) \/
            (count s = Z.of_nat (held s (owner s)) /\ 0 < count s /\ forall t, t <> owner s -> held s t = 0%nat);
  i_enter : forall t, entering (pcs s t) = true -> held s t = 0%nat;
  i_inc : forall t, pcs s t = LInc -> 0 < count s /\ owner s = t;
  i_take : forall t, pcs s t = L4 \/ pcs s t = USig -> count s = 0;
  i_wake : count s = 0 -> forall w, pcs s w = Asleep -> exists u, alert (pcs s u) = true }.

Lemma set_eq {A} (f : nat -> A) t v : set f t v t = v.
Proof. unfold set. rewrite Nat.eqb_refl. reflexivity. Qed.
Lemma set_neq {A} (f : nat -> A) t v u : u <> t -> set f t v u = f u.
Proof. intro H. unfold set. destruct (Nat.eqb_spec u t); congruence. Qed.

Lemma inv_init o : inv (init o).
Proof.
  constructor; cbn; try (intros; discriminate); try (intros; split; discriminate).
  left. auto.
Qed.

(** A step of [t] that only moves its program counter. *)
Lemma unique_holder s t u : inv s -> holding (pcs s t) = true -> holding (pcs s u) = true -> u = t.
Proof. intros I H1 H2. apply (i_mutex s I) in H1, H2. congruence. Qed.

(** Change of the program counter of [t] and of the mutex only. *)
Lemma inv_move s t p h : inv s ->
  (if holding p then h = Some t else h = None \/ (h = holder s /\ holding (pcs s t) = false)) ->
  (holding p = false -> holding (pcs s t) = false -> h = holder s) ->
  (holding (pcs s t) = true \/ holder s = None \/ h = holder s /\ holding p = false) ->
  extra p = extra (pcs s t) ->
  (entering p = true -> held s t = 0%nat) ->
  (p = LInc -> 0 < count s /\ owner s = t) ->
  (p = L4 \/ p = USig -> count s = 0) ->
  (count s = 0 -> alert (pcs s t) = true -> alert p = false -> forall w, w <> t -> pcs s w <> Asleep) ->
  (p = Asleep -> 0 < count s) ->
  inv (goto (hold s h) t p).
Proof.
  intros I Hh Hkeep Hfree He Hent Hinc Htake Hal Has.
  assert (HH : forall u, held (goto (hold s h) t p) u = held s u).
  { intro u. unfold held. cbn. destruct (Nat.eq_dec u t) as [->|NE].
    - rewrite set_eq. lia.
    - rewrite set_neq by auto. reflexivity. }
  constructor.
  - intro u. cbn. destruct (Nat.eq_dec u t) as [->|NE].
    + rewrite set_eq. destruct (holding p).
      * subst h. split; auto.
      * split; [discriminate|]. intro E. destruct Hh as [Hh|[Hh Hp]]; [congruence|].
        rewrite Hh in E. apply (i_mutex s I) in E. congruence.
    + rewrite set_neq by auto. split; intro E.
      * pose proof E as E'. apply (i_mutex s I) in E'.
        destruct Hfree as [X|[X|[X Y]]].
        -- apply (i_mutex s I) in X. congruence.
        -- congruence.
        -- congruence.
      * destruct (holding p) eqn:HP; [congruence|]. destruct Hh as [Hh|[Hh _]]; [congruence|].
        rewrite Hh in E. apply (i_mutex s I). auto.
  - cbn. destruct (i_count s I) as [[C1 C2]|(C1 & C2 & C3)].
    + left. split; auto. intro u. rewrite HH. auto.
    + right. rewrite HH. repeat split; auto. intros u Hu. rewrite HH. auto.
  - intros u. cbn. destruct (Nat.eq_dec u t) as [->|NE].
    + rewrite set_eq. intro E. rewrite HH. auto.
    + rewrite set_neq by auto. intro E. rewrite HH. apply (i_enter s I). auto.
  - intros u. cbn. destruct (Nat.eq_dec u t) as [->|NE].
    + rewrite set_eq. auto.
    + rewrite set_neq by auto. apply (i_inc s I).
  - intros u. cbn. destruct (Nat.eq_dec u t) as [->|NE].
    + rewrite set_eq. auto.
    + rewrite set_neq by auto. apply (i_take s I).
  - intros C w. cbn in *. destruct (Nat.eq_dec w t) as [->|NE].
    + rewrite set_eq. intro E. specialize (Has E). lia.
    + rewrite set_neq by auto. intro E. destruct (i_wake s I C w E) as [u Hu].
      destruct (Nat.eq_dec u t) as [->|NE2].
      * destruct (alert p) eqn:AP; [exists t; rewrite set_eq; auto|].
        exfalso. apply (Hal C Hu eq_refl w NE E).
      * exists u. rewrite set_neq by auto. auto.
Qed.

Lemma hold_id s : hold s (holder s) = s.
Proof. destruct s; reflexivity. Qed.

Lemma advance_inv s t s' : inv s -> advance s t = Some s' -> inv s'.
Proof.
  intros I. unfold advance. destruct (pcs s t) eqn:P; intro E; try discriminate.
  - (* L1 *) unfold acquire in E. destruct (holder s) eqn:H; [discriminate|]. inversion E; subst; clear E.
    apply inv_move; rewrite ?P; cbn; auto; try discriminate; try (intros [?|?]; discriminate).
  - (* L2 *) pose proof P as P'. 
    assert (HH : holder s = Some t) by (apply (i_mutex s I); rewrite P; auto).
    destruct ((1 <=? count s) && (owner s =? t)%nat)%bool eqn:B; inversion E; subst; clear E;
      rewrite <- (hold_id s); apply inv_move; rewrite ?P; cbn; auto; try discriminate; try (intros [?|?]; discriminate).
    + intros _. apply andb_true_iff in B as [B1 B2]. apply Z.leb_le in B1. apply Nat.eqb_eq in B2. lia.
    + intros _. destruct (i_count s I) as [[C1 C2]|(C1 & C2 & C3)]; auto.
      apply C3. intros ->. rewrite Nat.eqb_refl, andb_true_r in B. apply Z.leb_gt in B. lia.
  - (* LInc *) inversion E; subst; clear E. destruct (i_inc s I t P) as [C0 C1].
    assert (HH : holder s = Some t) by (apply (i_mutex s I); rewrite P; auto).
    constructor; cbn.
    + intro u. destruct (Nat.eq_dec u t) as [->|NE]; [rewrite set_eq; cbn; tauto|].
      rewrite set_neq by auto. apply (i_mutex s I).
    + right. destruct (i_count s I) as [[? _]|(D1 & D2 & D3)]; [lia|].
      unfold held in *. cbn. rewrite C1, set_eq. cbn. rewrite C1, P in D1. cbn in D1.
      repeat split; [lia|lia|]. intros u Hu. rewrite set_neq by auto. apply D3. congruence.
    + intros u. destruct (Nat.eq_dec u t) as [->|NE]; [rewrite set_eq; discriminate|].
      unfold held. cbn. rewrite set_neq by auto. apply (i_enter s I).
    + intros u. destruct (Nat.eq_dec u t) as [->|NE]; [rewrite set_eq; discriminate|].
      rewrite set_neq by auto. intro E. destruct (i_inc s I u E). lia.
    + intros u. destruct (Nat.eq_dec u t) as [->|NE]; [rewrite set_eq; intros [?|?]; discriminate|].
      rewrite set_neq by auto. intro E. pose proof (i_take s I u E). lia.
    + intros C. lia.
  - (* L3 *)
    assert (HH : holder s = Some t) by (apply (i_mutex s I); rewrite P; auto).
    assert (H0 : held s t = 0%nat) by (apply (i_enter s I); rewrite P; auto).
    destruct (Z.leb_spec 1 (count s)); inversion E; subst; clear E; [|rewrite <- (hold_id s)];
      apply inv_move; rewrite ?P; cbn; auto; try discriminate; try (intros [?|?]; discriminate); try (intros; lia).
    intros _. destruct (i_count s I) as [[C1 C2]|(C1 & C2 & C3)]; lia.
  - (* Woken *)
    unfold acquire in E. destruct (holder s) eqn:H; [discriminate|]. inversion E; subst; clear E.
    assert (H0 : held s t = 0%nat) by (apply (i_enter s I); rewrite P; auto).
    apply inv_move; rewrite ?P; cbn; auto; try discriminate; try (intros [?|?]; discriminate).
  - (* L4 *) inversion E; subst; clear E.
    assert (HH : holder s = Some t) by (apply (i_mutex s I); rewrite P; auto).
    assert (H0 : count s = 0) by (apply (i_take s I t); auto).
    assert (H1 : forall u, held s u = 0%nat) by (destruct (i_count s I) as [[_ ?]|(? & ? & _)]; [auto|lia]).
    constructor; cbn.
    + intro u. destruct (Nat.eq_dec u t) as [->|NE]; [rewrite set_eq; cbn; tauto|].
      rewrite set_neq by auto. apply (i_mutex s I).
    + right. unfold held in *. cbn. rewrite set_eq. specialize (H1 t) as H1t. cbn.
      repeat split; [lia|]. intros u Hu. rewrite set_neq by auto. apply H1.
    + intros u. destruct (Nat.eq_dec u t) as [->|NE]; [rewrite set_eq; discriminate|].
      unfold held. cbn. rewrite set_neq by auto. apply (i_enter s I).
    + intros u. destruct (Nat.eq_dec u t) as [->|NE]; [rewrite set_eq; discriminate|].
      rewrite set_neq by auto. intro E. destruct (i_inc s I u E). lia.
    + intros u. destruct (Nat.eq_dec u t) as [->|NE]; [rewrite set_eq; intros [?|?]; discriminate|].
      rewrite set_neq by auto. intro E.
      exfalso. apply NE. apply (unique_holder s t u I); [rewrite P; auto|destruct E as [-> | ->]; auto].
    + discriminate.
  - (* L5 *) inversion E; subst; clear E.
    assert (HH : holder s = Some t) by (apply (i_mutex s I); rewrite P; auto).
    assert (EQ : forall u, held (set_level (goto (hold s None) t Out) t (S (level s t))) u = held s u).
    { intro u. unfold held. cbn. destruct (Nat.eq_dec u t) as [->|NE].
      - rewrite !set_eq, P. cbn. lia.
      - rewrite !set_neq by auto. reflexivity. }
    constructor; cbn.
    + intro u. destruct (Nat.eq_dec u t) as [->|NE]; [rewrite set_eq; cbn; split; discriminate|].
      rewrite set_neq by auto. split; [|discriminate]. intro X. apply (i_mutex s I) in X. congruence.
    + setoid_rewrite EQ. apply (i_count s I).
    + intros u. rewrite EQ. destruct (Nat.eq_dec u t) as [->|NE]; [rewrite set_eq; discriminate|].
      rewrite set_neq by auto. apply (i_enter s I).
    + intros u. destruct (Nat.eq_dec u t) as [->|NE]; [rewrite set_eq; discriminate|].
      rewrite set_neq by auto. apply (i_inc s I).
    + intros u. destruct (Nat.eq_dec u t) as [->|NE]; [rewrite set_eq; intros [?|?]; discriminate|].
      rewrite set_neq by auto. apply (i_take s I).
    + intros C w. destruct (Nat.eq_dec w t) as [->|NE]; [rewrite set_eq; discriminate|].
      rewrite set_neq by auto. intro X. destruct (i_wake s I C w X) as [u Hu]. exists u.
      rewrite set_neq; auto. intros ->. rewrite P in Hu. discriminate.
  - (* U1 *) unfold acquire in E. destruct (holder s) eqn:H; [discriminate|]. inversion E; subst; clear E.
    apply inv_move; rewrite ?P; cbn; auto; try discriminate; try (intros [?|?]; discriminate).
  - (* U2 *) inversion E; subst; clear E.
    assert (HH : holder s = Some t) by (apply (i_mutex s I); rewrite P; auto).
    assert (HD : (0 < held s t)%nat) by (unfold held; rewrite P; cbn; lia).
    destruct (i_count s I) as [[C1 C2]|(C1 & C2 & C3)]; [specialize (C2 t); lia|].
    assert (HO : owner s = t) by (destruct (Nat.eq_dec t (owner s)); [auto|specialize (C3 t n); lia]).
    assert (HD2 : forall u, held (goto (set_count s (count s - 1)) t U3) u = if (u =? t)%nat then level s t else 0%nat).
    { intro u. unfold held. cbn. destruct (Nat.eqb_spec u t) as [->|NE].
      - rewrite set_eq. cbn. lia.
      - rewrite set_neq by auto. apply C3. congruence. }
    assert (HC : count s = Z.of_nat (level s t) + 1) by (rewrite C1; unfold held; rewrite HO, P; cbn; lia).
    constructor; cbn.
    + intro u. destruct (Nat.eq_dec u t) as [->|NE]; [rewrite set_eq; cbn; tauto|].
      rewrite set_neq by auto. apply (i_mutex s I).
    + destruct (level s t) as [|l] eqn:L.
      * left. split; [lia|]. intro u. rewrite HD2. destruct (u =? t)%nat; auto.
      * right. rewrite HO, HD2, Nat.eqb_refl. repeat split; [lia|lia|].
        intros u Hu. rewrite HD2. destruct (Nat.eqb_spec u t); [congruence|auto].
    + intros u. rewrite HD2. destruct (Nat.eq_dec u t) as [->|NE]; [rewrite set_eq; discriminate|].
      intros _. destruct (Nat.eqb_spec u t); [congruence|auto].
    + intros u. destruct (Nat.eq_dec u t) as [->|NE]; [rewrite set_eq; discriminate|].
      rewrite set_neq by auto. intro E. exfalso. apply NE.
      apply (unique_holder s t u I); [rewrite P; auto|rewrite E; auto].
    + intros u. destruct (Nat.eq_dec u t) as [->|NE]; [rewrite set_eq; intros [?|?]; discriminate|].
      rewrite set_neq by auto. intro E.
      exfalso. apply NE. apply (unique_holder s t u I); [rewrite P; auto|destruct E as [-> | ->]; auto].
    + intros _ w _. exists t. rewrite set_eq. reflexivity.
  - (* U3 *)
    assert (HH : holder s = Some t) by (apply (i_mutex s I); rewrite P; auto).
    destruct (Z.eqb_spec (count s) 0); inversion E; subst; clear E; rewrite <- (hold_id s);
      apply inv_move; rewrite ?P; cbn; auto; try discriminate; try (intros [?|?]; discriminate); try (intros; lia).
  - (* U4 *) inversion E; subst; clear E.
    assert (HH : holder s = Some t) by (apply (i_mutex s I); rewrite P; auto).
    apply inv_move; rewrite ?P; cbn; auto; try discriminate; try (intros [?|?]; discriminate).
Qed.

Lemma wake_inv s w : inv s -> pcs s w = Asleep -> inv (goto s w Woken).
Proof.
  intros I P. rewrite <- (hold_id s).
  assert (H0 : held s w = 0%nat) by (apply (i_enter s I); rewrite P; auto).
  apply inv_move; rewrite ?P; cbn; auto; try discriminate; try (intros [?|?]; discriminate).
Qed.

Lemma step_inv s s' : inv s -> step s s' -> inv s'.
Proof.
  intros I H. destruct H as [s s' H|s w P|s t P|s t n P L].
  - destruct H as [s t s' E|s t w P W|s t P N].
    + eapply advance_inv; eauto.
    + pose proof (wake_inv s w I W) as I2. assert (NE : w <> t) by congruence.
      assert (P2 : pcs (goto s w Woken) t = USig) by (cbn; rewrite set_neq by auto; auto).
      assert (HH : holder (goto s w Woken) = Some t) by (apply (i_mutex _ I2); rewrite P2; auto).
      rewrite <- (hold_id (goto s w Woken)).
      constructor.
      * intro u. cbn. destruct (Nat.eq_dec u t) as [->|NE2]; [rewrite set_eq; cbn; cbn in HH; tauto|].
        rewrite set_neq by auto. apply (i_mutex _ I2).
      * assert (EQ : forall u, held (goto (goto s w Woken) t U4) u = held (goto s w Woken) u).
        { intro u. unfold held. cbn. destruct (Nat.eq_dec u t) as [->|NE2]; [rewrite set_eq; cbn in P2; rewrite P2; auto|].
          rewrite set_neq by auto. auto. }
        cbn [hold_id]. rewrite hold_id. setoid_rewrite EQ. apply (i_count _ I2).
      * intros u. rewrite hold_id. cbn. destruct (Nat.eq_dec u t) as [->|NE2]; [rewrite set_eq; discriminate|].
        unfold held. cbn. rewrite set_neq by auto. apply (i_enter _ I2).
      * intros u. cbn. destruct (Nat.eq_dec u t) as [->|NE2]; [rewrite set_eq; discriminate|].
        rewrite set_neq by auto. apply (i_inc _ I2).
      * intros u. cbn. destruct (Nat.eq_dec u t) as [->|NE2]; [rewrite set_eq; intros [?|?]; discriminate|].
        rewrite set_neq by auto. apply (i_take _ I2).
      * intros _ v _. exists w. cbn. rewrite set_neq by auto. rewrite set_eq. reflexivity.
    + assert (HH : holder s = Some t) by (apply (i_mutex s I); rewrite P; auto).
      rewrite <- (hold_id s).
      apply inv_move; rewrite ?P; cbn; auto; try discriminate; try (intros [?|?]; discriminate).
  - apply wake_inv; auto.
  - rewrite <- (hold_id s). apply inv_move; rewrite ?P; cbn; auto; try discriminate; try (intros [?|?]; discriminate).
  - assert (EQ : forall u, held (set_level (goto s t U1) t n) u = held s u).
    { intro u. unfold held. cbn. destruct (Nat.eq_dec u t) as [->|NE].
      - rewrite !set_eq, P, L. cbn. lia.
      - rewrite !set_neq by auto. reflexivity. }
    constructor; cbn.
    + intro u. destruct (Nat.eq_dec u t) as [->|NE].
      * rewrite set_eq. cbn. split; [discriminate|]. intro E. apply (i_mutex s I) in E. rewrite P in E. discriminate.
      * rewrite set_neq by auto. apply (i_mutex s I).
    + setoid_rewrite EQ. apply (i_count s I).
    + intros u. rewrite EQ. destruct (Nat.eq_dec u t) as [->|NE]; [rewrite set_eq; discriminate|].
      rewrite set_neq by auto. apply (i_enter s I).
    + intros u. destruct (Nat.eq_dec u t) as [->|NE]; [rewrite set_eq; discriminate|].
      rewrite set_neq by auto. apply (i_inc s I).
    + intros u. destruct (Nat.eq_dec u t) as [->|NE]; [rewrite set_eq; intros [?|?]; discriminate|].
      rewrite set_neq by auto. apply (i_take s I).
    + intros C w. destruct (Nat.eq_dec w t) as [->|NE]; [rewrite set_eq; discriminate|].
      rewrite set_neq by auto. intro X. destruct (i_wake s I C w X) as [u Hu]. exists u.
      rewrite set_neq; auto. intros ->. rewrite P in Hu. discriminate.
Qed.

Lemma reachable_inv s : reachable s -> inv s.
Proof. induction 1; [apply inv_init|eapply step_inv; eauto]. Qed.

Lemma reachable_finite s : reachable s -> exists n, forall t, (n <= t)%nat -> pcs s t = Out.
Proof.
  assert (K : forall s t p n, (forall u, (n <= u)%nat -> pcs s u = Out) ->
    forall u, (Nat.max n (S t) <= u)%nat -> pcs (goto s t p) u = Out).
  { intros s0 t p n H u Hu. cbn. rewrite set_neq by lia. apply H. lia. }
  induction 1 as [o|s s' R [n IH] H]; [exists 0%nat; reflexivity|].
  assert (A : forall s t s', (forall u, (n <= u)%nat -> pcs s u = Out) -> advance s t = Some s' ->
     forall u, (Nat.max n (S t) <= u)%nat -> pcs s' u = Out).
  { clear. intros s t s' IH E u Hu.
    assert (X : exists p, pcs s' u = set (pcs s) t p u).
    { unfold advance, acquire in E.
      destruct (pcs s t); try discriminate;
        repeat match type of E with context [match ?x with _ => _ end] => destruct x; try discriminate end;
        inversion E; subst; cbn; eexists; reflexivity. }
    destruct X as [p ->]. rewrite set_neq by lia. apply IH. lia. }
  destruct H as [s s' H|s w P|s t P|s t m P L].
  - destruct H as [s t s' E|s t w P W|s t P N].
    + eexists. eapply A; eauto.
    + exists (Nat.max (Nat.max n (S w)) (S t)). apply K. apply K. auto.
    + eexists. apply K. eauto.
  - eexists. apply K. eauto.
  - eexists. apply K. eauto.
  - exists (Nat.max n (S t)). intros u Hu. cbn. rewrite set_neq by lia. apply IH. lia.
Qed.

(** ** Consequences *)
Lemma mutual_exclusion s t u : reachable s -> (0 < level s t)%nat -> (0 < level s u)%nat -> t = u.
Proof.
  intros R H1 H2. pose proof (reachable_inv s R) as I.
  destruct (i_count s I) as [[_ C]|(_ & _ & C)].
  - specialize (C t). unfold held in C. lia.
  - destruct (Nat.eq_dec t (owner s)), (Nat.eq_dec u (owner s)); try congruence.
    + specialize (C u n). unfold held in C. lia.
    + specialize (C t n). unfold held in C. lia.
    + specialize (C t n). unfold held in C. lia.
Qed.

Lemma progress s t : reachable s -> pcs s t <> Out ->
  (forall u, pcs s u = Out -> level s u = 0%nat) -> exists s', internal s s'.
Proof.
  intros R HT HO. pose proof (reachable_inv s R) as I.
  destruct (holder s) as [h|] eqn:H.
  - apply (i_mutex s I) in H. destruct (pcs s h) eqn:P; try discriminate.
    all: try (eexists; apply (in_advance s h); unfold advance; rewrite P; reflexivity).
    + destruct ((1 <=? count s) && (owner s =? h)%nat)%bool eqn:B;
        eexists; apply (in_advance s h); unfold advance; rewrite P, B; reflexivity.
    + destruct (1 <=? count s) eqn:B;
        eexists; apply (in_advance s h); unfold advance; rewrite P, B; reflexivity.
    + destruct (count s =? 0) eqn:B;
        eexists; apply (in_advance s h); unfold advance; rewrite P, B; reflexivity.
    + destruct (reachable_finite s R) as [n Hn].
      assert (D : (exists w, pcs s w = Asleep) \/ (forall w, pcs s w <> Asleep)).
      { assert (D : forall m, (exists w, pcs s w = Asleep) \/ (forall w, (w < m)%nat -> pcs s w <> Asleep)).
        { induction m as [|m [IH|IH]]; [right; lia|auto|].
          assert (DP : pcs s m = Asleep \/ pcs s m <> Asleep) by (destruct (pcs s m); auto; right; discriminate).
          destruct DP; [left; eauto|right]. intros w Hw. destruct (Nat.eq_dec w m) as [->|]; auto. apply IH. lia. }
        destruct (D n) as [X|X]; auto. right. intros w. destruct (le_lt_dec n w); auto. rewrite Hn by auto. discriminate. }
      destruct D as [[w W]|N]; eexists.
      * eapply in_signal; eauto.
      * eapply in_signal_none; eauto.
  - assert (NH : forall u, holding (pcs s u) = false).
    { intro u. destruct (holding (pcs s u)) eqn:X; auto. apply (i_mutex s I) in X. congruence. }
    assert (GO : forall u, pcs s u = L1 \/ pcs s u = Woken \/ pcs s u = U1 -> exists s', internal s s').
    { intros u Hu. destruct Hu as [P|[P|P]]; eexists; apply (in_advance s u); unfold advance, acquire; rewrite P, H; reflexivity. }
    assert (AS : pcs s t = Asleep -> exists s', internal s s').
    { intro P. destruct (i_count s I) as [[C1 C2]|(C1 & C2 & C3)].
      - destruct (i_wake s I C1 t P) as [u Hu]. apply (GO u). specialize (NH u).
        destruct (pcs s u); try discriminate; auto.
      - set (o := owner s) in *. assert (HD : (0 < held s o)%nat) by lia.
        apply (GO o). specialize (NH o). unfold held in HD.
        pose proof (HO o) as HOo. pose proof (i_enter s I o) as HE. unfold held in HE.
        destruct (pcs s o); try discriminate; auto; cbn in *.
        + rewrite HOo in HD by auto. lia.
        + rewrite HE in HD by auto. lia. }
    specialize (NH t). destruct (pcs s t) eqn:P; try discriminate; try congruence; auto.
    + apply (GO t). auto.
    + apply (GO t). auto.
    + apply (GO t). auto.
Qed.
