(** Lemmas on the hash table of labels. *)
From Coq Require Import List Arith Bool ZArith Lia.
Import ListNotations.
From Verif Require Import Base IHash_Model IHash_Spec.

Lemma is_equal_true x y : length x = length y -> (is_equal x y = true <-> x = y).
Proof.
  revert y. induction x as [|a x IH]; destruct y as [|b y]; cbn; intros L; try discriminate; [tauto|].
  rewrite andb_true_iff, Z.eqb_eq, IH by lia. split; [intros [-> ->]; reflexivity|intros [= -> ->]; auto].
Qed.
Lemma is_equal_refl x : is_equal x x = true.
Proof. now apply is_equal_true. Qed.
Lemma is_null_repeat D : is_null (repeat 0%Z D) = true.
Proof. induction D; cbn; auto. Qed.
Lemma proper_not_null D x : proper D x -> is_null x = false.
Proof.
  intros (_ & b & I & N). destruct (is_null x) eqn:E; [|reflexivity]. unfold is_null in E. rewrite forallb_forall in E. specialize (E b I). apply Z.eqb_eq in E. congruence.
Qed.
Lemma not_null_proper D x : length x = D -> is_null x = false -> proper D x.
Proof.
  intros L N. split; [exact L|]. clear L. induction x as [|a x IH]; cbn in N; [discriminate|]. destruct a; cbn in N; [destruct (IH N) as (b & I & B); exists b; split; [now right|exact B]| |]; eexists; (split; [now left|discriminate]).
Qed.

Section hash.
  Variables D K : nat.
  (** the slots from [last] up are fresh *)
  Record wf (t : table) (last : nat) : Prop := {
    wf_h : length (t_h t) = length (t_id t); wf_n : length (t_next t) = length (t_id t);
    wf_K : 1 <= K <= last; wf_last : last <= length (t_id t);
    wf_D : forall p l, nth_error (t_id t) p = Some l -> length l = D;
    wf_next : forall p n, nth_error (t_next t) p = Some n -> n = 0 \/ (S p < n /\ n <= last);
    wf_fresh : forall p l, last <= p -> nth_error (t_id t) p = Some l -> is_null l = true }.
  Inductive Chain (t : table) (x : label) : nat -> nat -> Prop :=
  | chain_stop p l : nth_error (t_id t) p = Some l -> is_null l = true \/ l = x -> Chain t x p p
  | chain_dead p l : nth_error (t_id t) p = Some l -> is_null l = false -> l <> x -> nth_error (t_next t) p = Some 0 -> Chain t x p p
  | chain_step p l m e : nth_error (t_id t) p = Some l -> is_null l = false -> l <> x -> nth_error (t_next t) p = Some (S m) -> Chain t x m e -> Chain t x p e.
  Lemma some_nth {A} (l : list A) p : p < length l -> exists v, nth_error l p = Some v.
  Proof. intros H. destruct (nth_error l p) eqn:E; [eauto|]. apply nth_error_None in E. lia. Qed.
  Lemma nth_bound {A} (l : list A) p v : nth_error l p = Some v -> p < length l.
  Proof. intros H. apply nth_error_Some. congruence. Qed.
  Lemma chain_exists t last x p : wf t last -> p < length (t_id t) -> exists e, Chain t x p e.
  Proof.
    intros W. remember (length (t_id t) - p) as n eqn:E. revert p E. induction n as [n IH] using lt_wf_ind. intros p E P.
    destruct (some_nth _ _ P) as [l L]. destruct (is_null l) eqn:N; [exists p; eapply chain_stop; eauto|].
    destruct (list_eq_dec Z.eq_dec l x) as [->|X]; [exists p; eapply chain_stop; eauto|].
    destruct (some_nth (t_next t) p ltac:(rewrite (wf_n _ _ W); exact P)) as [n' M]. destruct (wf_next _ _ W p n' M) as [-> | [A B]]; [exists p; eapply chain_dead; eauto|].
    destruct n' as [|m]; [lia|]. pose proof (wf_last _ _ W). destruct (IH (length (t_id t) - m) ltac:(lia) m eq_refl ltac:(lia)) as [e C]. exists e. eapply chain_step; eauto.
  Qed.
  Lemma stops t last x p l : wf t last -> length x = D -> nth_error (t_id t) p = Some l -> (is_null l || is_equal l x = true <-> is_null l = true \/ l = x).
  Proof. intros W X L. rewrite orb_true_iff, is_equal_true; [reflexivity|]. rewrite (wf_D _ _ W p l L). auto. Qed.
  Lemma goes_on t last x p l : wf t last -> length x = D -> nth_error (t_id t) p = Some l -> is_null l = false -> l <> x -> is_null l || is_equal l x = false.
  Proof. intros W X L N E. destruct (is_null l || is_equal l x) eqn:Q; [|reflexivity]. apply (stops _ _ _ _ _ W X L) in Q. destruct Q; congruence. Qed.
  Lemma chain_run t last x p e : wf t last -> length x = D -> Chain t x p e -> forall fuel, length (t_id t) - p < fuel -> chain x fuel t p = Some e.
  Proof.
    intros W X C. induction C as [p l L S0|p l L N E Z|p l m e L N E Z C IH]; intros fuel F; destruct fuel as [|fuel]; try lia; cbn [chain]; unfold aget; rewrite L; cbn [obind].
    - now rewrite (proj2 (stops _ _ _ _ _ W X L) S0).
    - rewrite (goes_on _ _ _ _ _ W X L N E), Z. reflexivity.
    - rewrite (goes_on _ _ _ _ _ W X L N E), Z. cbn [obind Nat.eqb]. replace (S m - 1) with m by lia. apply IH. destruct (wf_next _ _ W p _ Z) as [|[A B]]; [discriminate|]. pose proof (nth_bound _ _ _ L). lia.
  Qed.
  (** the table in which the dead end [e] leads to a fresh slot *)
  Definition appended (t : table) (last e : nat) : table :=
    let t := if length (t_h t) <=? last then grow D t else t in Table (t_h t) (t_id t) (upd (t_next t) e (S last)).
  Definition same_prefix {A} (l l' : list A) : Prop := length l <= length l' /\ forall p, p < length l -> nth_error l' p = nth_error l p.
  Lemma prefix_refl {A} (l : list A) : same_prefix l l.
  Proof. split; auto. Qed.
  Lemma prefix_app {A} (l r : list A) : same_prefix l (l ++ r).
  Proof. split; [rewrite app_length; lia|]. intros p P. now apply nth_error_app1. Qed.
  Lemma grow_facts t last : wf t last -> let t' := if length (t_h t) <=? last then grow D t else t in
    same_prefix (t_h t) (t_h t') /\ same_prefix (t_id t) (t_id t') /\ same_prefix (t_next t) (t_next t') /\ length (t_h t') = length (t_id t') /\ length (t_next t') = length (t_id t') /\ last < length (t_id t') /\
    (forall p l, length (t_id t) <= p -> nth_error (t_id t') p = Some l -> l = repeat 0%Z D) /\ (forall p n, length (t_id t) <= p -> nth_error (t_next t') p = Some n -> n = 0).
  Proof.
    intros W t'. unfold t'. pose proof (wf_h _ _ W) as H1. pose proof (wf_n _ _ W) as H2. pose proof (wf_last _ _ W) as H3. destruct (length (t_h t) <=? last) eqn:G.
    - apply Nat.leb_le in G. unfold grow. cbn [t_h t_id t_next]. set (more := Nat.max (length (t_h t) / 2) 2). assert (2 <= more) by (unfold more; lia). rewrite !app_length, !repeat_length.
      split; [apply prefix_app|]. split; [apply prefix_app|]. split; [apply prefix_app|]. split; [lia|]. split; [lia|]. split; [lia|]. split.
      + intros p l P E. rewrite nth_error_app2 in E by lia. apply nth_error_In in E. now apply repeat_spec in E.
      + intros p n P E. rewrite nth_error_app2 in E by lia. apply nth_error_In in E. now apply repeat_spec in E.
    - apply Nat.leb_gt in G. split; [apply prefix_refl|]. split; [apply prefix_refl|]. split; [apply prefix_refl|]. split; [lia|]. split; [lia|]. split; [lia|]. split; intros p v P E; apply nth_bound in E; lia.
  Qed.
  Lemma appended_wf t last e : wf t last -> e < last -> wf (appended t last e) (S last).
  Proof.
    intros W E. pose proof (grow_facts t last W) as G. cbv zeta in G. unfold appended. set (t' := if length (t_h t) <=? last then grow D t else t) in *.
    destruct G as (P1 & P2 & P3 & L1 & L2 & L3 & F1 & F2). pose proof (wf_K _ _ W). constructor; cbn [t_h t_id t_next]; rewrite ?upd_length; auto; try lia.
    - intros p l I. destruct (lt_dec p (length (t_id t))) as [Q|Q]; [rewrite (proj2 P2 p Q) in I; now apply (wf_D _ _ W p)|]. rewrite (F1 p l ltac:(lia) I). apply repeat_length.
    - intros p n I. destruct (Nat.eq_dec e p) as [->|Q].
      + rewrite nth_error_upd_eq in I by lia. injection I as <-. right. lia.
      + rewrite nth_error_upd_neq in I by auto. destruct (lt_dec p (length (t_next t))) as [Z|Z]; [rewrite (proj2 P3 p Z) in I; destruct (wf_next _ _ W p n I); lia|]. left. apply (F2 p n); [rewrite <- (wf_n _ _ W); lia|exact I].
    - intros p l Q I. destruct (lt_dec p (length (t_id t))) as [Z|Z]; [rewrite (proj2 P2 p Z) in I; apply (wf_fresh _ _ W p); auto; lia|]. rewrite (F1 p l ltac:(lia) I). apply is_null_repeat.
  Qed.
  Lemma appended_fresh t last e : wf t last -> exists l, nth_error (t_id (appended t last e)) last = Some l /\ is_null l = true.
  Proof.
    intros W. pose proof (grow_facts t last W) as G. cbv zeta in G. unfold appended. set (t' := if length (t_h t) <=? last then grow D t else t) in *. cbn [t_id].
    destruct G as (P1 & P2 & P3 & L1 & L2 & L3 & F1 & F2). destruct (some_nth _ _ L3) as [l I]. exists l. split; [exact I|].
    destruct (lt_dec last (length (t_id t))) as [Z|Z]; [rewrite (proj2 P2 _ Z) in I; now apply (wf_fresh _ _ W last)|]. rewrite (F1 last l ltac:(lia) I). apply is_null_repeat.
  Qed.
  Lemma overflow_run t last x p e : wf t last -> length x = D -> Chain t x p e -> forall fuel, S (length (t_id t) - p) < fuel ->
    exists l, nth_error (t_id t) e = Some l /\
    ((is_null l = true \/ l = x) /\ overflow D x fuel t last p = Some (Some (t, last, e)) \/
     is_null l = false /\ l <> x /\ nth_error (t_next t) e = Some 0 /\ overflow D x fuel t last p = Some (Some (appended t last e, S last, last))).
  Proof.
    intros W X C. pose proof (wf_h _ _ W) as WH. induction C as [p l L S0|p l L N E Z|p l m e L N E Z C IH]; intros fuel F; destruct fuel as [|fuel]; try lia.
    - exists l. split; [exact L|]. left. split; [exact S0|]. cbn [overflow]. unfold aget. rewrite L. cbn [obind]. now rewrite (proj2 (stops _ _ _ _ _ W X L) S0).
    - exists l. split; [exact L|]. right. split; [exact N|]. split; [exact E|]. split; [exact Z|]. cbn [overflow]. unfold aget. rewrite L. cbn [obind]. rewrite (goes_on _ _ _ _ _ W X L N E), Z. cbn [obind Nat.eqb].
      replace (length (t_h t) <? 0) with false by reflexivity. pose proof (grow_facts t last W) as G. cbv zeta in G. set (t' := if length (t_h t) <=? last then grow D t else t) in *.
      destruct G as (P1 & P2 & P3 & L1 & L2 & L3 & F1 & F2). pose proof (nth_bound _ _ _ L) as B. unfold aset. replace (p <? length (t_next t')) with true by (symmetry; apply Nat.ltb_lt; destruct P2; lia). cbn [obind].
      replace (S last - 1) with last by lia. destruct (appended_fresh t last p W) as (l' & I & N'). unfold appended in *. fold t' in I |- *. destruct fuel as [|fuel]; [lia|]. cbn [overflow t_id]. unfold aget. cbn [t_id] in I. rewrite I. cbn [obind]. now rewrite N'.
    - pose proof (nth_bound _ _ _ L) as B. destruct (wf_next _ _ W p _ Z) as [|[A1 A2]]; [discriminate|]. pose proof (wf_last _ _ W).
      destruct (IH fuel ltac:(lia)) as (l' & I & H'). exists l'. split; [exact I|]. cbn [overflow]. unfold aget. rewrite L. cbn [obind]. rewrite (goes_on _ _ _ _ _ W X L N E), Z. cbn [obind Nat.eqb].
      replace (length (t_h t) <? S m) with false by (symmetry; apply Nat.ltb_ge; lia). cbn [obind]. replace (S m - 1) with m by lia. exact H'.
  Qed.
  Lemma probe_some id x h2 n h1 p : K <= length id -> 1 <= K -> p < K -> exists q, probe K id x h2 n h1 p = Some q /\ q < K.
  Proof.
    intros L K1. revert h1 p. induction n as [|n IH]; intros h1 p P; cbn [probe]; [eauto|]. destruct (some_nth id p ltac:(lia)) as [l E]. unfold aget. rewrite E. cbn [obind]. destruct (is_null l || is_equal l x); [eauto|]. apply IH.
    pose proof (Z.mod_pos_bound ((h1 + h2) mod 2 ^ 32) (Z.of_nat K) ltac:(lia)). lia.
  Qed.
  Lemma first_some t last x : wf t last -> exists q, first_slot K (t_id t) x = Some q /\ q < K.
  Proof.
    intros W. pose proof (wf_K _ _ W). pose proof (wf_last _ _ W). unfold first_slot. destruct (K =? 0) eqn:Z; [apply Nat.eqb_eq in Z; lia|]. apply probe_some; try lia.
    pose proof (Z.mod_pos_bound (fnv_hash x mod Z.of_nat K) (Z.of_nat K) ltac:(lia)). lia.
  Qed.
  (** a table that keeps what is in use *)
  Definition extends (t t' : table) : Prop :=
    (forall p l, nth_error (t_id t) p = Some l -> is_null l = false -> nth_error (t_id t') p = Some l) /\
    (forall p n, nth_error (t_next t) p = Some (S n) -> nth_error (t_next t') p = Some (S n)).
  Lemma probe_extends t t' x h2 n h1 p q : (forall p l, nth_error (t_id t) p = Some l -> length l = length x) -> extends t t' -> probe K (t_id t) x h2 n h1 p = Some q ->
    (forall l, nth_error (t_id t) q = Some l -> is_null l = true -> nth_error (t_id t') q = Some x) -> probe K (t_id t') x h2 n h1 p = Some q.
  Proof.
    intros LX [X1 _]. revert h1 p. induction n as [|n IH]; intros h1 p P Q; cbn [probe] in *; [exact P|]. unfold aget in *. destruct (nth_error (t_id t) p) as [l|] eqn:L; [|discriminate]. cbn [obind] in P.
    destruct (is_null l) eqn:N; cbn [orb] in P.
    - injection P as ->. rewrite (Q l L N). cbn [obind]. now rewrite is_equal_refl, orb_true_r.
    - rewrite (X1 p l L N). cbn [obind]. rewrite N. cbn [orb]. destruct (is_equal l x); [exact P|]. now apply IH.
  Qed.
  Lemma chain_extends t t' x p e g : extends t t' -> is_null x = false -> Chain t x p e ->
    (nth_error (t_id t') e = Some x /\ g = e \/ (exists l, nth_error (t_id t) e = Some l /\ is_null l = false /\ l <> x) /\ nth_error (t_next t') e = Some (S g) /\ nth_error (t_id t') g = Some x) -> Chain t' x p g.
  Proof.
    intros [X1 X2] NX C H. induction C as [p l L S0|p l L N E Z|p l m e L N E Z C IH].
    - destruct H as [[I ->]|[(l' & L' & N' & E') _]]; [eapply chain_stop; eauto|]. destruct S0; congruence.
    - destruct H as [[I ->]|[(l' & L' & N' & E') [M I]]]; [eapply chain_stop; eauto|]. rewrite L in L'. injection L' as <-. eapply chain_step; eauto. eapply chain_stop; eauto.
    - eapply chain_step; eauto.
  Qed.
  Definition located (t : table) (x : label) (e : nat) : Prop := exists p, first_slot K (t_id t) x = Some p /\ Chain t x p e.
  Lemma chain_null t x p e l : nth_error (t_id t) p = Some l -> is_null l = true -> Chain t x p e -> e = p.
  Proof. intros L N C. inversion C; subst; auto; congruence. Qed.
  Lemma located_extends t t' x e g : (forall p l, nth_error (t_id t) p = Some l -> length l = length x) -> extends t t' -> is_null x = false -> located t x e ->
    (nth_error (t_id t') e = Some x /\ g = e \/ (exists l, nth_error (t_id t) e = Some l /\ is_null l = false /\ l <> x) /\ nth_error (t_next t') e = Some (S g) /\ nth_error (t_id t') g = Some x) -> located t' x g.
  Proof.
    intros LX X NX (p & F & C) H. exists p. split; [|eapply chain_extends; eauto]. unfold first_slot in *. destruct (K =? 0); [discriminate|].
    eapply probe_extends; eauto. intros l L N. pose proof (chain_null t x p e l L N C) as ->. destruct H as [[I _]|[(l' & L' & N' & _) _]]; [exact I|congruence].
  Qed.
  Definition counts (t : table) (seen : list label) : Prop :=
    (forall p l, nth_error (t_id t) p = Some l -> is_null l = true \/ In l seen) /\
    (forall p l, nth_error (t_id t) p = Some l -> is_null l = true -> nth_error (t_h t) p = Some 0%Z) /\
    (forall p q l, nth_error (t_id t) p = Some l -> nth_error (t_id t) q = Some l -> is_null l = false -> p = q) /\
    (forall y, In y seen -> proper D y /\ exists e, located t y e /\ nth_error (t_id t) e = Some y /\ nth_error (t_h t) e = Some (Z.of_nat (occurrences y seen) mod 2 ^ 32)%Z).
  Lemma occ_app y a b : occurrences y (a ++ b) = occurrences y a + occurrences y b.
  Proof. unfold occurrences. induction a as [|c a IH]; cbn; [reflexivity|]. destruct (list_eq_dec Z.eq_dec c y); lia. Qed.
  Lemma occ_self y : occurrences y [y] = 1.
  Proof. unfold occurrences. cbn. destruct (list_eq_dec Z.eq_dec y y); congruence. Qed.
  Lemma occ_other y x : x <> y -> occurrences y [x] = 0.
  Proof. unfold occurrences. cbn. destruct (list_eq_dec Z.eq_dec x y); congruence. Qed.
  Lemma occ_not_in y s : ~ In y s -> occurrences y s = 0.
  Proof. apply count_occ_not_In. Qed.
  (** the slot [g] of the table [u] takes one more [x] *)
  Lemma bump t u last last' seen x e g : wf t last -> wf u last' -> counts t seen -> proper D x -> located t x e -> e < length (t_id t) -> g < last' ->
    same_prefix (t_id t) (t_id u) -> same_prefix (t_h t) (t_h u) ->
    (forall p n, nth_error (t_next t) p = Some (S n) -> nth_error (t_next u) p = Some (S n)) ->
    (forall p l, length (t_id t) <= p -> nth_error (t_id u) p = Some l -> is_null l = true) -> (forall p c, length (t_id t) <= p -> nth_error (t_h u) p = Some c -> c = 0%Z) ->
    (exists l, nth_error (t_id u) g = Some l /\ (is_null l = true \/ l = x)) ->
    (g = e \/ (exists l, nth_error (t_id t) e = Some l /\ is_null l = false /\ l <> x) /\ nth_error (t_next u) e = Some (S g)) ->
    exists c, nth_error (t_h u) g = Some c /\
    let v := Table (upd (t_h u) g ((c + 1) mod 2 ^ 32)%Z) (upd (t_id u) g x) (t_next u) in wf v last' /\ counts v (seen ++ [x]).
  Proof.
    intros W WU (C1 & C2 & C4 & C3) PX LE E G SI SH SN FI FH (l & IL & LX) HG.
    pose proof (proper_not_null _ _ PX) as NX. destruct PX as [DX PX0]. pose proof (conj DX PX0 : proper D x) as PX.
    pose proof (wf_last _ _ WU) as WL. pose proof (wf_h _ _ WU) as WH. pose proof (wf_n _ _ WU) as WN.
    destruct (some_nth (t_h u) g ltac:(lia)) as [c HC]. exists c. split; [exact HC|]. cbv zeta. set (v := Table _ _ _).
    assert (EX : extends t v).
    { split; [|exact SN]. intros p k I N. unfold v. cbn [t_id]. pose proof (nth_bound _ _ _ I) as B. destruct (Nat.eq_dec g p) as [->|Q]; [|rewrite nth_error_upd_neq by auto; now rewrite (proj2 SI p B)].
      rewrite (proj2 SI p B), I in IL. injection IL as <-. rewrite nth_error_upd_eq by lia. destruct LX; congruence. }
    assert (VG : nth_error (t_id v) g = Some x) by (unfold v; cbn [t_id]; apply nth_error_upd_eq; lia).
    assert (LOC : forall e', located t x e' -> e' = e).
    { intros e' L'. destruct LE as (p1 & F1 & Q1), L' as (p2 & F2 & Q2). rewrite F1 in F2. injection F2 as <-. pose proof (chain_run t last x p1 e W DX Q1 (S (length (t_id t))) ltac:(lia)) as R1. rewrite (chain_run t last x p1 e' W DX Q2 (S (length (t_id t))) ltac:(lia)) in R1. congruence. }
    assert (ONE : forall q, q <> g -> nth_error (t_id u) q <> Some x).
    { intros q Q I. assert (Bq : q < length (t_id t)). { destruct (lt_dec q (length (t_id t))) as [B|B]; [exact B|]. rewrite (FI q x ltac:(lia) I) in NX. discriminate. }
      rewrite (proj2 SI q Bq) in I. destruct (C1 q x I) as [?|IS]; [congruence|]. destruct (C3 x IS) as (_ & e' & L' & I' & _). pose proof (LOC e' L') as Z. subst e'. pose proof (C4 q e x I I' NX) as ->.
      destruct HG as [->|[(k & K1 & K2 & K3) _]]; congruence. }
    assert (OTHER : forall q k, q <> g -> nth_error (t_id u) q = Some k -> is_null k = false -> nth_error (t_id t) q = Some k).
    { intros q k Q I N. destruct (lt_dec q (length (t_id t))) as [B|B]; [now rewrite <- (proj2 SI q B)|]. rewrite (FI q k ltac:(lia) I) in N. discriminate. }
    split.
    { constructor; unfold v; cbn [t_h t_id t_next]; rewrite ?upd_length; auto; try apply WU.
      - intros p k I. destruct (Nat.eq_dec g p) as [->|Q]; [rewrite nth_error_upd_eq in I by lia; now injection I as <-|]. rewrite nth_error_upd_neq in I by auto. now apply (wf_D _ _ WU p).
      - intros p k Q I. rewrite nth_error_upd_neq in I by lia. now apply (wf_fresh _ _ WU p). }
    split; [|split; [|split]].
    - intros p k I. unfold v in I. cbn [t_id] in I. destruct (Nat.eq_dec g p) as [->|Q].
      + rewrite nth_error_upd_eq in I by lia. injection I as <-. right. apply in_or_app. right. now left.
      + rewrite nth_error_upd_neq in I by auto. destruct (lt_dec p (length (t_id t))) as [B|B]; [|left; apply (FI p k); [lia|exact I]]. rewrite (proj2 SI p B) in I. destruct (C1 p k I); [now left|]. right. apply in_or_app. now left.
    - intros p k I N. unfold v in *. cbn [t_id t_h] in *. destruct (Nat.eq_dec g p) as [->|Q]; [rewrite nth_error_upd_eq in I by lia; congruence|]. rewrite nth_error_upd_neq in I by auto. rewrite nth_error_upd_neq by auto.
      destruct (lt_dec p (length (t_id t))) as [B|B].
      + rewrite (proj2 SI p B) in I. rewrite (proj2 SH p) by (rewrite (wf_h _ _ W); exact B). eauto.
      + destruct (some_nth (t_h u) p) as [c' Hc]; [rewrite WH; now apply nth_bound in I|]. rewrite Hc. f_equal. apply (FH p c'); [apply not_lt; exact B|exact Hc].
    - intros p q k P Q N. unfold v in P, Q. cbn [t_id] in P, Q. destruct (Nat.eq_dec g p) as [->|PG], (Nat.eq_dec p q) as [?|PQ]; auto.
      + rewrite nth_error_upd_eq in P by lia. injection P as <-. rewrite nth_error_upd_neq in Q by auto. exfalso. exact (ONE q (not_eq_sym PQ) Q).
      + rewrite nth_error_upd_neq in P by auto. destruct (Nat.eq_dec g q) as [->|QG].
        * rewrite nth_error_upd_eq in Q by lia. injection Q as <-. exfalso. exact (ONE p PQ P).
        * rewrite nth_error_upd_neq in Q by auto. apply (C4 p q k); auto.
    - assert (HX : nth_error (t_h v) g = Some (Z.of_nat (occurrences x (seen ++ [x])) mod 2 ^ 32)%Z).
      { unfold v. cbn [t_h]. rewrite nth_error_upd_eq by lia. f_equal. rewrite occ_app, occ_self. rewrite Nat2Z.inj_add. change (Z.of_nat 1) with 1%Z. rewrite <- (Z.add_mod_idemp_l (Z.of_nat _)) by lia. f_equal. f_equal.
        destruct LX as [N| ->].
        - assert (c = 0%Z) as ->.
          { destruct (lt_dec g (length (t_id t))) as [B|B]; [|apply (FH g c); [lia|exact HC]]. rewrite (proj2 SI g B) in IL. rewrite (proj2 SH g) in HC by (rewrite (wf_h _ _ W); exact B). rewrite (C2 g l IL N) in HC. congruence. }
          rewrite occ_not_in; [reflexivity|]. intros I. destruct (C3 x I) as (_ & e' & L' & I' & _).
          pose proof (LOC e' L') as Q.
          subst e'. destruct HG as [->|[(k & K1 & K2 & K3) _]]; [|congruence]. rewrite (proj2 SI e E), I' in IL. injection IL as <-. congruence.
        - assert (Bg : g < length (t_id t)). { destruct (lt_dec g (length (t_id t))) as [B|B]; [exact B|]. rewrite (FI g x ltac:(lia) IL) in NX. discriminate. }
          rewrite (proj2 SI g Bg) in IL. destruct (C1 g x IL) as [?|IS]; [congruence|]. destruct (C3 x IS) as (_ & e' & L' & I' & H').
          pose proof (LOC e' L') as Q.
          subst e'. destruct HG as [->|[(k & K1 & K2 & K3) _]]; [|congruence]. rewrite (proj2 SH e) in HC by (rewrite (wf_h _ _ W); exact E). rewrite H' in HC. apply (f_equal (fun o => match o with Some z => z | None => 0%Z end)) in HC. symmetry. exact HC. }
      intros y Y. destruct (list_eq_dec Z.eq_dec y x) as [->|NE].
      + split; [exact PX|]. exists g. split; [|split; [exact VG|exact HX]].
        eapply located_extends; [| |exact NX|exact LE|]; [intros p k I; rewrite DX; now apply (wf_D _ _ W p)|exact EX|]. destruct HG as [->|[HG1 HG2]]; [left; auto|right]. split; [exact HG1|]. split; [exact HG2|exact VG].
      + apply in_app_or in Y. destruct Y as [Y|[Y|[]]]; [|congruence]. destruct (C3 y Y) as (PY & f & LF & IF & HF). split; [exact PY|]. exists f. pose proof (proper_not_null _ _ PY) as NY.
        pose proof (nth_bound _ _ _ IF) as BF. assert (VF : nth_error (t_id v) f = Some y) by now apply (proj1 EX).
        assert (g <> f) by congruence. split; [|split; [exact VF|]].
        * eapply located_extends; [| |exact NY|exact LF|left; split; [exact VF|reflexivity]]; [intros p k I; destruct PY as [-> _]; now apply (wf_D _ _ W p)|exact EX].
        * unfold v. cbn [t_h]. rewrite nth_error_upd_neq by auto. rewrite (proj2 SH f) by (rewrite (wf_h _ _ W); exact BF). rewrite HF, occ_app, occ_other by congruence. do 3 f_equal. lia.
  Qed.
  Lemma chain_bound t last x p e : wf t last -> p < last -> Chain t x p e -> e < last.
  Proof. intros W P C. induction C as [| |p l m e L N E Z C IH]; auto. apply IH. destruct (wf_next _ _ W p _ Z); lia. Qed.
  Lemma add1_ok t last seen x : wf t last -> counts t seen -> proper D x -> exists t' last', add1 D K x t last = Some (Some (t', last')) /\ wf t' last' /\ counts t' (seen ++ [x]).
  Proof.
    intros W C P. pose proof (proper_not_null _ _ P) as NX. destruct (first_some t last x W) as (p & F & PK). pose proof (wf_K _ _ W) as WK. pose proof (wf_last _ _ W) as WL. pose proof (wf_h _ _ W) as WH.
    destruct (chain_exists t last x p W ltac:(lia)) as [e CE]. pose proof (chain_bound t last x p e W ltac:(lia) CE) as EB.
    unfold add1. rewrite NX, F. cbn [obind]. destruct P as [PD P0]. pose proof (conj PD P0 : proper D x) as P.
    destruct (overflow_run t last x p e W PD CE (S (S (length (t_h t)))) ltac:(lia)) as (l & L & [[S0 ->]|(N & E & Z & ->)]); cbn [obind].
    - edestruct (bump t t last last seen x e e) as (c & HC & V); eauto using prefix_refl; [exists p; auto|lia|intros q k Q I; apply nth_bound in I; lia|intros q k Q I; apply nth_bound in I; lia|].
      unfold aget, aset. rewrite HC. cbn [obind]. replace (e <? length (t_h t)) with true by (symmetry; apply Nat.ltb_lt; lia). replace (e <? length (t_id t)) with true by (symmetry; apply Nat.ltb_lt; lia). cbn [obind].
      eexists _, _. split; [reflexivity|]. exact V.
    - pose proof (appended_wf t last e W EB) as WA. destruct (appended_fresh t last e W) as (k & KI & KN). pose proof (grow_facts t last W) as G. cbv zeta in G.
      edestruct (bump t (appended t last e) last (S last) seen x e last) as (c & HC & V); eauto.
      + exists p; auto.
      + lia.
      + unfold appended. cbn [t_id]. apply G.
      + unfold appended. cbn [t_h]. apply G.
      + intros q n Q. unfold appended. cbn [t_next]. destruct (Nat.eq_dec e q) as [->|NE]; [congruence|]. rewrite nth_error_upd_neq by auto. destruct G as (_ & _ & G & _). rewrite (proj2 G) by now apply nth_bound in Q. exact Q.
      + intros q k' Q I. unfold appended in I. cbn [t_id] in I. destruct G as (_ & _ & _ & _ & _ & _ & G & _). rewrite (G q k' Q I). apply is_null_repeat.
      + intros q c Q I. unfold appended in I. cbn [t_h] in I. destruct (length (t_h t) <=? last); [|apply nth_bound in I; lia]. unfold grow in I. cbn [t_h] in I. rewrite nth_error_app2 in I by lia. apply nth_error_In in I. now apply repeat_spec in I.
      + right. split; [eauto|]. unfold appended. cbn [t_next]. apply nth_error_upd_eq. destruct G as (_ & _ & G & _). destruct G as [G _]. rewrite (wf_n _ _ W) in G. lia.
      + pose proof (wf_h _ _ WA) as WH'. pose proof (wf_last _ _ WA) as WL'. unfold aget, aset. rewrite HC. cbn [obind]. replace (last <? length (t_h (appended t last e))) with true by (symmetry; apply Nat.ltb_lt; lia). replace (last <? length (t_id (appended t last e))) with true by (symmetry; apply Nat.ltb_lt; lia). cbn [obind].
        eexists _, _. split; [reflexivity|]. exact V.
  Qed.
  Lemma add_all_ok X : forall t last seen, wf t last -> counts t seen -> Forall (proper D) X -> exists t' last', add_all D K X t last = Some (Some (t', last')) /\ wf t' last' /\ counts t' (seen ++ X).
  Proof.
    induction X as [|x X IH]; intros t last seen W C F; cbn [add_all]; [rewrite app_nil_r; eauto|]. inversion F as [|? ? F1 F2]; subst. destruct (add1_ok t last seen x W C F1) as (t1 & l1 & -> & W1 & C1). cbn [obind].
    destruct (IH t1 l1 (seen ++ [x]) W1 C1 F2) as (t2 & l2 & -> & W2 & C2). exists t2, l2. rewrite <- app_assoc in C2. auto.
  Qed.
  Lemma nth_firstn {A} n (l : list A) p : nth_error (firstn n l) p = if p <? n then nth_error l p else None.
  Proof.
    revert l p. induction n as [|n IH]; intros l p; cbn [firstn]; [destruct p; reflexivity|]. destruct l as [|a l]; [destruct p; cbn [nth_error]; destruct (_ <? _); reflexivity|]. destruct p as [|p]; [reflexivity|]. cbn [nth_error]. rewrite IH. reflexivity.
  Qed.
  Definition trim (t : table) (last : nat) : table := Table (firstn last (t_h t)) (firstn last (t_id t)) (firstn last (t_next t)).
  Lemma trim_wf t last : wf t last -> wf (trim t last) last.
  Proof.
    intros W. pose proof (wf_h _ _ W). pose proof (wf_n _ _ W). pose proof (wf_last _ _ W). constructor; unfold trim; cbn [t_h t_id t_next]; rewrite ?firstn_length; try lia; try apply W.
    - intros p l. rewrite nth_firstn. destruct (p <? last); [apply (wf_D _ _ W)|discriminate].
    - intros p n. rewrite nth_firstn. destruct (p <? last); [apply (wf_next _ _ W)|discriminate].
    - intros p l. rewrite nth_firstn. destruct (p <? last); [apply (wf_fresh _ _ W)|discriminate].
  Qed.
  Lemma trim_chain t last x p e : wf t last -> p < last -> Chain t x p e -> Chain (trim t last) x p e.
  Proof.
    intros W P C. induction C as [p l L S0|p l L N E Z|p l m e L N E Z C IH].
    - eapply chain_stop; eauto. unfold trim. cbn [t_id]. rewrite nth_firstn. apply Nat.ltb_lt in P. now rewrite P.
    - apply Nat.ltb_lt in P. eapply chain_dead; eauto; unfold trim; cbn [t_id t_next]; rewrite nth_firstn, P; assumption.
    - assert (m < last) by (destruct (wf_next _ _ W p _ Z); lia). apply Nat.ltb_lt in P. eapply chain_step; eauto; unfold trim; cbn [t_id t_next]; rewrite nth_firstn, P; assumption.
  Qed.
  Lemma trim_probe id x h2 n last : K <= last -> 1 <= K -> forall h1 p, p < K -> probe K (firstn last id) x h2 n h1 p = probe K id x h2 n h1 p.
  Proof.
    intros L K1. induction n as [|n IH]; intros h1 p P; cbn [probe]; [reflexivity|]. unfold aget. rewrite nth_firstn. replace (p <? last) with true by (symmetry; apply Nat.ltb_lt; lia). destruct (nth_error id p); [|reflexivity]. cbn [obind]. destruct (_ || _); [reflexivity|]. apply IH.
    pose proof (Z.mod_pos_bound ((h1 + h2) mod 2 ^ 32) (Z.of_nat K) ltac:(lia)). lia.
  Qed.
  Lemma trim_counts t last seen : wf t last -> counts t seen -> counts (trim t last) seen.
  Proof.
    intros W (C1 & C2 & C4 & C3). pose proof (wf_K _ _ W) as WK. split; [|split; [|split]].
    - intros p l. unfold trim. cbn [t_id]. rewrite nth_firstn. destruct (p <? last); [apply C1|discriminate].
    - intros p l. unfold trim. cbn [t_id t_h]. rewrite !nth_firstn. destruct (p <? last); [apply C2|discriminate].
    - intros p q l. unfold trim. cbn [t_id]. rewrite !nth_firstn. destruct (p <? last), (q <? last); try discriminate. apply C4.
    - intros y Y. destruct (C3 y Y) as (P & e & (p & F & C) & I & H). split; [exact P|]. exists e. destruct (first_some t last y W) as (p' & F' & PK). rewrite F in F'. injection F' as <-.
      pose proof (chain_bound t last y p e W ltac:(lia) C) as B. apply Nat.ltb_lt in B. split; [|unfold trim; cbn [t_id t_h]; rewrite !nth_firstn, B; auto]. exists p. split; [|apply trim_chain; auto; lia].
      unfold first_slot in *. destruct (K =? 0); [discriminate|]. unfold trim. cbn [t_id]. rewrite trim_probe; auto; try lia. pose proof (Z.mod_pos_bound (fnv_hash y mod Z.of_nat K) (Z.of_nat K) ltac:(lia)). lia.
  Qed.
  Lemma fold_max l : forall r, (forall p n, nth_error l p = Some n -> n <= r) -> fold_left Nat.max l r = r.
  Proof. induction l as [|a l IH]; intros r H; cbn; [reflexivity|]. pose proof (H 0 a eq_refl). replace (Nat.max r a) with r by lia. apply IH. intros p n E. apply (H (S p)). exact E. Qed.
  Lemma sum_ok X t seen : wf t (length (t_id t)) -> counts t seen -> Forall (proper D) X -> exists t', ihashsum D K X t = Some (Some t') /\ wf t' (length (t_id t')) /\ counts t' (seen ++ X).
  Proof.
    intros W C F. pose proof (wf_h _ _ W) as WH. pose proof (wf_K _ _ W) as WK. unfold ihashsum. rewrite WH. rewrite fold_max; [|intros p n E; destruct (wf_next _ _ W p n E); lia].
    replace (length (t_id t) <? K) with false by (symmetry; apply Nat.ltb_ge; lia). rewrite Nat.ltb_irrefl. cbn [orb].
    destruct (add_all_ok X t _ seen W C F) as (t1 & l1 & -> & W1 & C1). cbn [obind]. exists (trim t1 l1). split; [reflexivity|]. pose proof (trim_wf _ _ W1) as W2. pose proof (wf_last _ _ W1).
    replace (length (t_id (trim t1 l1))) with l1 by (unfold trim; cbn [t_id]; rewrite firstn_length; lia). split; [exact W2|]. now apply trim_counts.
  Qed.
  Lemma empty_ok : 1 <= K -> wf (empty D K) (length (t_id (empty D K))) /\ counts (empty D K) [].
  Proof.
    intros H. assert (E : forall p l, nth_error (repeat (repeat 0%Z D) K) p = Some l -> l = repeat 0%Z D) by (intros p l I; apply nth_error_In in I; now apply repeat_spec in I). split.
    - constructor; unfold empty; cbn [t_h t_id t_next]; rewrite ?repeat_length; auto.
      + intros p l I. rewrite (E p l I). apply repeat_length.
      + intros p n I. apply nth_error_In in I. apply repeat_spec in I. now left.
      + intros p l _ I. rewrite (E p l I). apply is_null_repeat.
    - unfold empty. split; cbn [t_h t_id]; [|split; [|split]].
      + intros p l I. rewrite (E p l I). left. apply is_null_repeat.
      + intros p l I _. apply nth_bound in I. rewrite repeat_length in I. now apply nth_error_repeat.
      + intros p q l I _ N. rewrite (E p l I), is_null_repeat in N. discriminate.
      + intros y [].
  Qed.
  Lemma find_ok t seen y : wf t (length (t_id t)) -> counts t seen -> proper D y -> 
    (In y seen -> exists p, find1 K t y = Some (S p) /\ nth_error (t_id t) p = Some y /\ nth_error (t_h t) p = Some (Z.of_nat (occurrences y seen) mod 2 ^ 32)%Z) /\ (~ In y seen -> find1 K t y = Some 0).
  Proof.
    intros W (C1 & C2 & C4 & C3) P. pose proof (proper_not_null _ _ P) as N. destruct P as [PD P0]. pose proof (wf_h _ _ W) as WH. pose proof (wf_K _ _ W). unfold find1. rewrite N, WH. split.
    - intros Y. destruct (C3 y Y) as (_ & e & (p & F & C) & I & H'). exists e. rewrite F. cbn [obind]. rewrite (chain_run t _ y p e W PD C) by lia. cbn [obind]. unfold aget. rewrite I. cbn [obind]. rewrite is_equal_refl. auto.
    - intros Y. destruct (first_some t _ y W) as (p & F & PK). destruct (chain_exists t _ y p W ltac:(lia)) as [e C]. rewrite F. cbn [obind]. rewrite (chain_run t _ y p e W PD C) by lia. cbn [obind]. pose proof (chain_bound t _ y p e W ltac:(lia) C) as B.
      destruct (some_nth _ _ B) as [l L]. unfold aget. rewrite L. cbn [obind]. destruct (is_equal l y) eqn:Q; [|reflexivity]. exfalso. apply is_equal_true in Q; [|rewrite PD; now apply (wf_D _ _ W e)]. subst l. destruct (C1 e y L); [congruence|auto].
  Qed.
  Lemma sums_ok B : forall t seen, wf t (length (t_id t)) -> counts t seen -> Forall (Forall (proper D)) B -> exists t', sums D K B t = Some (Some t') /\ wf t' (length (t_id t')) /\ counts t' (seen ++ concat B).
  Proof.
    induction B as [|X B IH]; intros t seen W C F; cbn [sums concat]; [rewrite app_nil_r; eauto|]. inversion F as [|? ? F1 F2]; subst. destruct (sum_ok X t seen W C F1) as (t1 & -> & W1 & C1). destruct (IH t1 _ W1 C1 F2) as (t2 & -> & W2 & C2). exists t2. rewrite <- app_assoc in C2. auto.
  Qed.
  Lemma add_null X : forall t last seen x, wf t last -> counts t seen -> Forall (fun y => length y = D) X -> In x X -> is_null x = true -> add_all D K X t last = Some None.
  Proof.
    induction X as [|a X IH]; intros t last seen x W C F I N; [destruct I|]. inversion F as [|? ? F1 F2]; subst. cbn [add_all]. destruct (is_null a) eqn:NA; [unfold add1; now rewrite NA|].
    destruct (add1_ok t last seen a W C (not_null_proper _ _ F1 NA)) as (t1 & l1 & -> & W1 & C1). cbn [obind]. destruct I as [->|I]; [congruence|]. eapply IH; eauto.
  Qed.
End hash.
