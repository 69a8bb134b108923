(** The union-find forest of MSER. *)
From Coq Require Import List Arith ZArith Lia Bool Permutation Sorted.
From Verif Require Import Base Mser_Model Mser_Spec MserSort_Proofs MserNbr_Proofs.
Import ListNotations.

(** * Ancestors in a parent function *)
Section Anc.
  Variable P : nat -> option nat.
  Inductive ancn : nat -> nat -> nat -> Prop :=
  | an_refl p : P p <> None -> ancn 0 p p
  | an_step n p q a : P p = Some q -> q <> p -> ancn n q a -> ancn (S n) p a.
  Definition anc (p a : nat) : Prop := exists n, ancn n p a.

  Lemma ancn_dom n p a : ancn n p a -> P p <> None /\ P a <> None.
  Proof. induction 1 as [|? ? ? ? E]; [auto|]. destruct IHancn. split; auto. rewrite E. discriminate. Qed.
  Lemma anc_dom p a : anc p a -> P p <> None /\ P a <> None.
  Proof. intros [n H]. eapply ancn_dom; eauto. Qed.
  Lemma anc_refl p : P p <> None -> anc p p.
  Proof. exists 0. now constructor. Qed.
  Lemma anc_step p q a : P p = Some q -> q <> p -> anc q a -> anc p a.
  Proof. intros H N [n X]. exists (S n). econstructor; eauto. Qed.
  Lemma ancn_trans n m p q a : ancn n p q -> ancn m q a -> ancn (n + m) p a.
  Proof. induction 1; intro X; cbn; auto. econstructor; eauto. Qed.
  Lemma anc_trans p q a : anc p q -> anc q a -> anc p a.
  Proof. intros [n X] [m Y]. exists (n + m). eapply ancn_trans; eauto. Qed.
  Lemma anc_root x y : P x = Some x -> anc x y -> y = x.
  Proof. intros H [n X]. inversion X; subst; auto. congruence. Qed.
  Lemma ancn_split : forall k n p x j, ancn n p x -> P x = Some x -> ancn k p j ->
    exists m, ancn m j x /\ n = k + m.
  Proof.
    induction k as [|k IH]; intros n p x j Hn Hx Hk; inversion Hk; subst.
    - exists n. auto.
    - inversion Hn as [|n' ? q0 ? E0 N0 X0]; subst; [congruence|]. assert (q0 = q) by congruence. subst q0.
      destruct (IH n' q x j) as (m & Hm & ->); auto. exists m. auto.
  Qed.
  Lemma anc_cmp p a b : anc p a -> anc p b -> anc a b \/ anc b a.
  Proof.
    intros [n X] [m Y]. revert m Y. induction X as [p Hp|n p q a E N X IH]; intros m Y.
    - left. exists m; auto.
    - inversion Y; subst.
      + right. exists (S n). econstructor; eauto.
      + assert (q0 = q) by congruence. subst. eapply IH; eauto.
  Qed.
  Lemma root_unique p x y : anc p x -> anc p y -> P x = Some x -> P y = Some y -> x = y.
  Proof.
    intros A B X Y. destruct (anc_cmp _ _ _ A B) as [C|C]; [symmetry|]; eapply anc_root; eauto.
  Qed.
  Lemma anc_parent p q : P p = Some q -> P q <> None -> anc p q.
  Proof.
    intros H D. destruct (Nat.eq_dec q p) as [->|N]; [now apply anc_refl|].
    eapply anc_step; eauto. now apply anc_refl.
  Qed.
End Anc.

Lemma ancn_ext P Q n p a : (forall x, P x = Q x) -> ancn P n p a -> ancn Q n p a.
Proof.
  intros H X. induction X; [constructor|econstructor]; rewrite <- ?H; eauto.
Qed.
Lemma anc_ext P Q p a : (forall x, P x = Q x) -> (anc P p a <-> anc Q p a).
Proof. intro H. split; intros [n X]; exists n; eapply ancn_ext; try exact X; auto. Qed.

(** Linking root a below root b. *)
Lemma anc_link P a b : P a = Some a -> P b = Some b -> a <> b ->
  let Q := fun p => if p =? a then Some b else P p in
  forall p y, anc Q p y <-> anc P p y \/ (anc P p a /\ y = b).
Proof.
  intros Ha Hb N Q p y.
  assert (QN : forall p, p <> a -> Q p = P p).
  { intros r Hr. unfold Q. destruct (Nat.eqb_spec r a); congruence. }
  assert (Qa : Q a = Some b) by (unfold Q; now rewrite Nat.eqb_refl).
  assert (QD : forall p, Q p <> None <-> P p <> None).
  { intro r. destruct (Nat.eq_dec r a) as [->|E]; [rewrite Qa, Ha; split; discriminate|now rewrite QN]. }
  assert (U : forall p y, anc P p y -> anc Q p y).
  { intros r z [n X]. induction X as [r Hr|n r q z E Nq X IH]; [apply anc_refl; now apply QD|].
    eapply anc_step; eauto. rewrite QN; auto. intros ->. congruence. }
  split.
  - intros [n X]. revert p y X. induction n as [|n IH]; intros p y X; inversion X as [|n0 p0 q a0 H0 H1 H3]; subst.
    + left. apply anc_refl. now apply QD.
    + destruct (Nat.eq_dec p a) as [->|Np].
      * rewrite Qa in H0. inversion H0; subst q. destruct (IH _ _ H3) as [A|[A _]].
        -- apply anc_root in A; auto. subst y. right. split; auto. apply anc_refl. congruence.
        -- apply anc_root in A; auto. congruence.
      * rewrite QN in H0 by auto. destruct (IH _ _ H3) as [A|[A ->]].
        -- left. eapply anc_step; eauto.
        -- right. split; auto. eapply anc_step; eauto.
  - intros [A|[A ->]]; [auto|]. eapply anc_trans; [apply U; exact A|].
    apply anc_parent; auto. apply QD. congruence.
Qed.

(** Adding a new root. *)
Lemma anc_add P i : P i = None -> (forall p q, P p = Some q -> P q <> None) ->
  let Q := fun p => if p =? i then Some i else P p in
  forall p y, anc Q p y <-> anc P p y \/ (p = i /\ y = i).
Proof.
  intros Hi Hc Q p y.
  assert (QN : forall p, p <> i -> Q p = P p).
  { intros r Hr. unfold Q. destruct (Nat.eqb_spec r i); congruence. }
  assert (Qi : Q i = Some i) by (unfold Q; now rewrite Nat.eqb_refl).
  split.
  - intros [n X]. revert p y X. induction n as [|n IH]; intros p y X; inversion X as [|n0 p0 q a0 H0 H1 H3]; subst.
    + destruct (Nat.eq_dec y i) as [->|N]; [auto|]. left. apply anc_refl. now rewrite <- QN.
    + destruct (Nat.eq_dec p i) as [->|Np]; [congruence|]. rewrite QN in H0 by auto.
      destruct (IH _ _ H3) as [A|[-> ->]].
      * left. eapply anc_step; eauto.
      * exfalso. apply (Hc _ _ H0). exact Hi.
  - intros [[n X]|[-> ->]]; [|apply anc_refl; congruence].
    induction X as [r Hr|n r q z E Nq X IH].
    + apply anc_refl. rewrite QN; auto. intros ->. auto.
    + eapply anc_step; eauto. rewrite QN; auto. intros ->. congruence.
Qed.

(** * The fields of the forest *)
Definition par (r : list reg) (p : nat) : option nat :=
  match nth_error r p with Some g => g_parent g | None => None end.
Definition sc (r : list reg) (p : nat) : option nat :=
  match nth_error r p with Some g => Some (g_shortcut g) | None => None end.
Definition ar (r : list reg) (p : nat) : option nat :=
  match nth_error r p with Some g => Some (g_area g) | None => None end.

(** * climb *)
Inductive spath (r : list reg) : nat -> list nat -> nat -> Prop :=
| sp_root x : sc r x = Some x -> spath r x [x] x
| sp_step i j l x : sc r i = Some j -> j <> i -> spath r j l x -> spath r i (i :: l) x.

Lemma spath_det r i l x : spath r i l x -> forall l' x', spath r i l' x' -> l' = l /\ x' = x.
Proof.
  induction 1 as [x E|i j l x E N S IH]; intros l' x' S'; inversion S' as [? E'|? j' ? ? E' N' S'']; subst.
  - auto.
  - congruence.
  - congruence.
  - assert (j' = j) by congruence. subst. destruct (IH _ _ S'') as [-> ->]. auto.
Qed.

Lemma spath_suffix r i l x : spath r i l x -> forall p, In p l -> exists l2, spath r p l2 x /\ length l2 <= length l.
Proof.
  induction 1 as [x E|i j l x E N S IH]; intros p [<-|H].
  - exists [x]. split; [now constructor|auto].
  - destruct H.
  - exists (i :: l). split; [econstructor; eauto|auto].
  - destruct (IH p H) as (l2 & A & B). exists l2. cbn. auto with arith.
Qed.

Lemma spath_not_in r i j l x : sc r i = Some j -> j <> i -> spath r j l x -> ~ In i l.
Proof.
  intros E N S I. destruct (spath_suffix _ _ _ _ S i I) as (l2 & A & B).
  destruct (spath_det r i (i :: l) x) with (l' := l2) (x' := x) as [-> _]; auto.
  - econstructor; eauto.
  - cbn in B. lia.
Qed.

Lemma spath_nodup r i l x : spath r i l x -> NoDup l.
Proof.
  induction 1 as [x E|i j l x E N S IH]; [constructor; [intros []|constructor]|].
  constructor; auto. eapply spath_not_in; eauto.
Qed.

Lemma sc_lt r p j : sc r p = Some j -> p < length r.
Proof.
  unfold sc. destruct (nth_error r p) eqn:E; [|discriminate]. intros _. apply nth_error_Some. congruence.
Qed.

Lemma spath_lt r i l x : spath r i l x -> Forall (fun p => p < length r) l.
Proof. induction 1; constructor; auto; eapply sc_lt; eauto. Qed.

Lemma spath_length r i l x : spath r i l x -> length l <= length r.
Proof.
  intro S. rewrite <- (seq_length (length r) 0). apply NoDup_incl_length; [eapply spath_nodup; eauto|].
  intros p Hp. apply in_seq. apply spath_lt in S. rewrite Forall_forall in S. specialize (S p Hp). lia.
Qed.

(** Setting the shortcuts of a set of nodes. *)
Definition shortcut_to (r : list reg) (l : list nat) (x : nat) (r' : list reg) : Prop :=
  length r' = length r /\
  forall p, nth_error r' p = if existsb (Nat.eqb p) l then option_map (fun g => set_shortcut g x) (nth_error r p)
                             else nth_error r p.

Lemma existsb_eqb p l : existsb (Nat.eqb p) l = true <-> In p l.
Proof.
  rewrite existsb_exists. split.
  - intros (y & H & E). apply Nat.eqb_eq in E. now subst.
  - intro H. exists p. split; auto. apply Nat.eqb_refl.
Qed.

Lemma sc_upd r p i g s : nth_error r i = Some g ->
  sc (upd r i (set_shortcut g s)) p = if p =? i then Some s else sc r p.
Proof.
  intro H. unfold sc. rewrite nth_error_upd.
  assert (L : i < length r) by (apply nth_error_Some; congruence).
  apply Nat.ltb_lt in L. rewrite L, andb_true_r. destruct (p =? i); reflexivity.
Qed.

Lemma spath_upd r i l x k g s : spath r i l x -> ~ In k l -> nth_error r k = Some g ->
  spath (upd r k (set_shortcut g s)) i l x.
Proof.
  induction 1 as [x E|i j l x E N S IH]; intros NI G.
  - constructor. rewrite (sc_upd r x k g s G). destruct (Nat.eqb_spec x k) as [->|]; auto. exfalso; apply NI; cbn; auto.
  - econstructor; eauto.
    + rewrite (sc_upd r i k g s G). destruct (Nat.eqb_spec i k) as [->|]; auto. exfalso; apply NI; cbn; auto.
    + apply IH; auto. intro X; apply NI; cbn; auto.
Qed.

Lemma climb_loops : forall l r i x, spath r i l x -> forall fuel prev, length l <= fuel ->
  exists r' r'', climb_up fuel r prev i = Some (r', x) /\ length r' = length r /\ shortcut_to r l x r'' /\
    forall k, climb_down (length l + k) r' x x =
              if prev =? i then Some r'' else climb_down k r'' x prev.
Proof.
  intros l r i x SP. revert l r i SP.
  assert (G : forall l r i, spath r i l x -> forall fuel prev, length l <= fuel ->
    exists r' r'', climb_up fuel r prev i = Some (r', x) /\ length r' = length r /\ shortcut_to r l x r'' /\
    forall k, climb_down (length l + k) r' x x = if prev =? i then Some r'' else climb_down k r'' x prev).
  2: { intros l r i SP fuel prev H. eapply G; eauto. }
  induction l as [|i0 l IH]; intros r i SP fuel prev HL; [inversion SP|].
  destruct fuel as [|fuel]; [cbn in HL; lia|].
  assert (i0 = i) by (inversion SP; auto). subst i0.
  inversion SP as [x0 E|i0 j l0 x0 E N S']; subst.
  - (* root *)
    pose proof (sc_lt _ _ _ E) as B. destruct (nth_error r x) as [g|] eqn:Eg; [|apply nth_error_None in Eg; lia].
    assert (Es : g_shortcut g = x) by (unfold sc in E; rewrite Eg in E; congruence).
    cbn [climb_up]. unfold aget. rewrite Eg. cbn [obind]. rewrite aset_lt by auto. cbn [obind].
    rewrite Es, Nat.eqb_refl. exists (upd r x (set_shortcut g prev)), (upd r x (set_shortcut g x)).
    split; [reflexivity|]. split; [apply upd_length|]. split.
    + split; [apply upd_length|]. intro p. rewrite nth_error_upd. apply Nat.ltb_lt in B. rewrite B, andb_true_r.
      cbn [existsb]. rewrite orb_false_r. destruct (Nat.eqb_spec p x) as [->|]; [now rewrite Eg|reflexivity].
    + intro k. cbn [length Nat.add climb_down]. unfold aget. rewrite nth_error_upd_eq by auto. cbn [obind].
      rewrite aset_lt by (now rewrite upd_length). cbn [obind]. rewrite upd_upd. cbn [set_shortcut g_shortcut g_parent g_height g_area].
      reflexivity.
  - pose proof (sc_lt _ _ _ E) as B. destruct (nth_error r i) as [g|] eqn:Eg; [|apply nth_error_None in Eg; lia].
    assert (Es : g_shortcut g = j) by (unfold sc in E; rewrite Eg in E; congruence).
    assert (NI : ~ In i l) by (eapply spath_not_in; eauto).
    set (r1 := upd r i (set_shortcut g prev)).
    assert (S1 : spath r1 j l x) by (apply spath_upd; auto).
    destruct (IH r1 j S1 fuel i) as (r' & r2 & U & L' & (L2 & T) & D); [cbn in HL; lia|].
    assert (EL : length r1 = length r) by apply upd_length.
    cbn [climb_up]. unfold aget. rewrite Eg. cbn [obind]. rewrite aset_lt by auto. cbn [obind].
    rewrite Es. destruct (Nat.eqb_spec j i); [congruence|]. fold r1. rewrite U.
    assert (T2 : nth_error r2 i = Some (set_shortcut g prev)).
    { rewrite T. destruct (existsb (Nat.eqb i) l) eqn:X; [apply existsb_eqb in X; contradiction|].
      unfold r1. now rewrite nth_error_upd_eq. }
    exists r', (upd r2 i (set_shortcut g x)). split; [reflexivity|]. split; [congruence|]. split.
    + split; [rewrite upd_length; congruence|]. intro p. rewrite nth_error_upd, L2, EL.
      apply Nat.ltb_lt in B. rewrite B, andb_true_r. cbn [existsb].
      destruct (Nat.eqb_spec p i) as [->|Np]; cbn [orb]; [now rewrite Eg|].
      rewrite T. unfold r1. rewrite nth_error_upd_neq by auto. reflexivity.
    + intro k. cbn [length]. replace (S (length l) + k) with (length l + S k) by lia. rewrite D.
      destruct (Nat.eqb_spec i j); [congruence|]. cbn [climb_down]. unfold aget. rewrite T2. cbn [obind].
      rewrite aset_lt by (rewrite L2, EL; auto). cbn [obind set_shortcut g_shortcut g_parent g_height g_area].
      reflexivity.
Qed.

Lemma climb_ok r i l x : spath r i l x -> exists r', climb r i = Some (r', x) /\ shortcut_to r l x r'.
Proof.
  intro S. pose proof (spath_length _ _ _ _ S) as HL.
  destruct (climb_loops l r i x S (length r) i HL) as (r' & r'' & U & L' & T & D).
  unfold climb. rewrite U. cbn [obind]. rewrite L'. replace (length r) with (length l + (length r - length l)) by lia.
  rewrite D, Nat.eqb_refl. cbn [obind]. eauto.
Qed.
