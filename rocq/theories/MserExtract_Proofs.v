(** The extremal regions found by MSER are the components of the level sets. *)
From Coq Require Import List Arith ZArith Lia Bool Permutation Sorted.
From Verif Require Import Base Mser_Model Mser_Spec MserSort_Proofs MserNbr_Proofs MserForest_Proofs MserUnion_Proofs.
Import ListNotations.

(** The grid is connected. *)
Lemma grid_step dims : pos_dims dims -> forall p, p < nel_of dims -> 0 < p -> exists q, q < p /\ adjacent dims p q.
Proof.
  unfold adjacent. induction dims as [|d dims IH]; intros HP p Hp H0; [cbn in Hp; lia|].
  inversion HP as [|? ? Hd HP']; subst. cbn [coords]. destruct (Nat.eq_dec (p mod d) 0) as [E|E].
  - assert (Hq : p / d < nel_of dims).
    { apply Nat.div_lt_upper_bound; [lia|]. exact Hp. }
    pose proof (Nat.div_mod p d ltac:(lia)) as DM.
    destruct (IH HP' (p / d) Hq) as (q & Q1 & Q2).
    { destruct (Nat.eq_dec (p / d) 0) as [X|X]; [|lia]. rewrite X in DM. lia. }
    exists (q * d). split; [nia|]. rewrite Nat.mod_mul, Nat.div_mul by lia. constructor; [lia|exact Q2].
  - exists (p - 1). split; [lia|]. pose proof (Nat.div_mod p d ltac:(lia)) as DM.
    pose proof (Nat.mod_upper_bound p d ltac:(lia)).
    assert (X : p - 1 = (p / d) * d + (p mod d - 1)) by nia.
    assert (M : (p - 1) mod d = p mod d - 1).
    { rewrite X, Nat.add_comm, Nat.mod_add by lia. apply Nat.mod_small. lia. }
    assert (D : (p - 1) / d = p / d).
    { rewrite X, Nat.add_comm, Nat.div_add by lia. rewrite Nat.div_small by lia. reflexivity. }
    rewrite M, D. constructor; [lia|].
    generalize (coords dims (p / d)). induction l; constructor; auto; lia.
Qed.

Lemma ancn_fun P m k p x : ancn P m p x -> ancn P k p x -> P x = Some x -> m = k.
Proof.
  intros A B R. destruct (ancn_split P k m p x x A R B) as (j & J & ->). destruct j; [lia|].
  inversion J; congruence.
Qed.

Lemma anc_antisym P p q x : anc P p q -> anc P q p -> anc P p x -> P x = Some x -> p = q.
Proof.
  intros [a A] [b B] [m M] R. destruct (ancn_split P a m p x q M R A) as (m1 & M1 & ->).
  destruct (ancn_split P b m1 q x p M1 R B) as (m2 & M2 & ->).
  pose proof (ancn_fun P _ _ _ _ M M2 R). assert (a = 0) by lia. subst a. now inversion A.
Qed.

Lemma ancn_nodes P m p x : ancn P m p x -> P x = Some x ->
  exists l, NoDup l /\ length l = m /\ forall q, In q l -> exists k, 0 < k <= m /\ ancn P k q x.
Proof.
  intros A R. induction A as [p D|m p q x E N A IH].
  - exists []. split; [constructor|]. split; [reflexivity|]. intros q [].
  - destruct (IH R) as (l & L1 & L2 & L3). exists (p :: l). split; [constructor; auto|split; [cbn; lia|]].
    + intro I. destruct (L3 p I) as (k & K1 & K2).
      pose proof (ancn_fun P k (S m) p x K2 ltac:(econstructor; eauto) R). lia.
    + intros s [<-|I]; [exists (S m); split; [lia|econstructor; eauto]|].
      destruct (L3 s I) as (k & K1 & K2). exists k. split; [lia|auto].
Qed.

Section Extract.
  Variable dims im : list nat.
  Hypothesis Hdims : pos_dims dims.
  Hypothesis Hlen : length im = nel_of dims.
  Let v (p : nat) : nat := nth p im 0.
  Let conn := connected dims im.
  Variable r : list reg.
  Variable P : nat -> option nat.
  Variable val ner : nat.
  Variable joins : list nat.
  Hypothesis HI : Inv dims im r P val joins ner.
  Hypothesis HJ : all_joined dims im P.
  Hypothesis HD : forall p, P p <> None <-> p < length im.

  Lemma P_some p : p < length im -> exists q, P p = Some q /\ q < length im /\ v p <= v q.
  Proof.
    intro H. destruct (P p) as [q|] eqn:E; [|apply HD in H; congruence]. exists q. split; [auto|].
    destruct (inv_par _ _ _ _ _ _ _ HI _ _ E) as (A & B & _). apply HD in A. auto.
  Qed.

  (** One root. *)
  Lemma same_root p q x y : adjacent dims p q -> anc P p x -> P x = Some x -> anc P q y -> P y = Some y -> x = y.
  Proof.
    intros A X RX Y RY. destruct (HJ p q) as (a & A1 & A2 & _); auto.
    - exact (proj1 (anc_dom P p x X)).
    - exact (proj1 (anc_dom P q y Y)).
    - destruct (inv_root _ _ _ _ _ _ _ HI a) as (z & Z & RZ); [exact (proj2 (anc_dom P p a A1))|].
      transitivity z; [|symmetry].
      + eapply root_unique; [exact X|eapply anc_trans; eauto|auto|auto].
      + eapply root_unique; [exact Y|eapply anc_trans; eauto|auto|auto].
  Qed.

  Lemma one_root : exists x, P x = Some x /\ forall p, p < length im -> anc P p x.
  Proof.
    assert (H0 : 0 < length im) by (rewrite Hlen; now apply nel_pos).
    destruct (inv_root _ _ _ _ _ _ _ HI 0 (proj2 (HD 0) H0)) as (x & X & R). exists x. split; [auto|].
    intro p. induction p as [p IH] using lt_wf_ind. intro Hp. destruct (Nat.eq_dec p 0) as [->|N]; [auto|].
    destruct (grid_step dims Hdims p ltac:(lia) ltac:(lia)) as (q & Q1 & Q2).
    destruct (inv_root _ _ _ _ _ _ _ HI p (proj2 (HD p) Hp)) as (y & Y & RY).
    assert (x = y); [|congruence]. apply (same_root q p); auto; [now apply adjacent_sym|]. apply IH; auto. lia.
  Qed.

  (** Regions whose parent is above level w. *)
  Definition top_at (w p : nat) : Prop := v p <= w /\ (P p = Some p \/ exists q, P p = Some q /\ w < v q).

  Lemma desc_component w p : p < length im -> top_at w p -> forall s, anc P s p <-> conn w p s.
  Proof.
    intros Hp (Vp & T) s. split.
    - intro A. destruct (anc_conn dims im Hlen r P val joins ner s p HI A) as [_ K].
      apply conn_sym. exact (conn_mono dims im Hlen _ _ _ _ Vp K).
    - intro C. induction C as [A B|q s C IH Ad A B]; [apply anc_refl; now apply HD|].
      destruct (HJ q s) as (a & A1 & A2 & A3); auto.
      { apply HD. apply (conn_lt dims im w p q) in C. tauto. } { now apply HD. }
      assert (Va : v a <= w).
      { apply (conn_lt dims im w p q) in C. destruct C as [_ [_ C]]. change (v a <= Nat.max (v q) (v s)) in A3. fold (v q) in C. fold (v s) in B. lia. }
      destruct (anc_cmp P q a p A1 IH) as [X|X]; [eapply anc_trans; eauto|].
      destruct X as [k X]. destruct X as [p D|k p q' a E N X]; [auto|].
      exfalso. destruct T as [T|(q'' & E' & L)]; [congruence|]. assert (q'' = q') by congruence. subst q''.
      destruct (anc_conn dims im Hlen r P val joins ner q' a HI (ex_intro _ k X)) as [V' _].
      change (v q' <= v a) in V'. lia.
  Qed.

  Lemma top_exists w p : p < length im -> v p <= w -> exists a, anc P p a /\ top_at w a.
  Proof.
    intros Hp Vp. destruct one_root as (x & R & AX). destruct (AX p Hp) as [k X].
    induction X as [p D|k p q x E N X IH].
    - exists p. split; [now apply anc_refl|]. split; auto.
    - destruct (le_lt_dec (v q) w) as [L|L].
      + assert (Hq : q < length im) by (apply HD; exact (proj1 (ancn_dom _ _ _ _ X))).
        destruct (IH Hq L R AX) as (a & A & T). exists a. split; [|auto]. eapply anc_step; eauto.
      + exists p. split; [apply anc_refl; now apply HD|]. split; [auto|]. right. eauto.
  Qed.

  (** * Extraction *)
  Definition exb (p : nat) : bool := match P p with Some q => (v p <? v q) || (p =? q) | None => false end.

  Lemma exb_spec p : exb p = true <-> p < length im /\ top_at (v p) p.
  Proof.
    unfold exb, top_at. destruct (P p) as [q|] eqn:E.
    - rewrite orb_true_iff, Nat.ltb_lt, Nat.eqb_eq. assert (p < length im) by (apply HD; congruence).
      split.
      + intros [L| ->]; split; auto. split; auto. right. eauto.
      + intros (_ & _ & [X|(q' & X & L)]); [right; congruence|left; congruence].
    - split; [discriminate|]. intros (L & _). apply HD in L. congruence.
  Qed.

  Variable perm : list nat.
  Hypothesis Hperm : in_stable_order im perm.

  Lemma perm_in p : In p perm <-> p < length im.
  Proof.
    destruct Hperm as [Pe _]. split; intro H.
    - apply (Permutation_in _ Pe) in H. apply in_seq in H. lia.
    - apply (Permutation_in _ (Permutation_sym Pe)). apply in_seq. lia.
  Qed.
  Lemma perm_nodup : NoDup perm.
  Proof. destruct Hperm as [Pe _]. eapply Permutation_NoDup; [apply Permutation_sym; exact Pe|apply seq_NoDup]. Qed.

  Definition regions : list nat := filter exb perm.

  Lemma regions_in p : In p regions <-> exb p = true.
  Proof.
    unfold regions. rewrite filter_In, perm_in. split; [tauto|]. intro H. split; [|auto].
    apply exb_spec in H. tauto.
  Qed.
  Lemma regions_nodup : NoDup regions.
  Proof. apply NoDup_filter, perm_nodup. Qed.

  Lemma regions_sorted i j : i < j -> j < length regions -> v (nth i regions 0) <= v (nth j regions 0).
  Proof.
    assert (S : StronglySorted (fun a b => v a <= v b) regions).
    { destruct Hperm as [_ S]. unfold regions. clear - S. induction S as [|a l S IH F]; cbn; [constructor|].
      destruct (exb a); auto. constructor; auto. rewrite Forall_forall in F |- *. intros b Hb.
      apply filter_In in Hb. destruct (F b (proj1 Hb)) as [|[]]; unfold v; lia. }
    intros L H. revert i j L H. induction S as [|a l S IH F]; intros i j L H; [cbn in H; lia|].
    destruct j as [|j]; [lia|]. destruct i as [|i]; cbn [nth].
    - rewrite Forall_forall in F. apply F. apply nth_In. cbn in H. lia.
    - apply IH; [lia|]. cbn in H. lia.
  Qed.

  Lemma regions_number : length regions = ner + 1.
  Proof.
    destruct (inv_ner _ _ _ _ _ _ _ HI) as (l & A & B & C). destruct one_root as (x & R & AX).
    assert (Pe : Permutation regions (x :: l)).
    { apply NoDup_Permutation; [apply regions_nodup| |].
      - constructor; auto. rewrite B. intros (q & E & L). assert (q = x) by congruence. subst. lia.
      - intro p. rewrite regions_in. unfold exb. cbn [In]. rewrite B. split.
        + destruct (P p) as [q|] eqn:E; [|discriminate]. rewrite orb_true_iff, Nat.ltb_lt, Nat.eqb_eq.
          intros [L|<-]; [right; exists q; auto|]. left. symmetry.
          assert (Lp : p < length im) by (apply HD; congruence).
          symmetry. apply (anc_root P p x); auto.
        + intros [<-|(q & E & L)].
          * rewrite R. rewrite Nat.eqb_refl. apply orb_true_r.
          * rewrite E. apply orb_true_iff. left. apply Nat.ltb_lt. exact L. }
    apply Permutation_length in Pe. cbn in Pe. lia.
  Qed.

  Context {V : Type}.
  Variable junk : @ereg V.

  Definition area_of (p : nat) : nat := match ar r p with Some a => a | None => 0 end.

  Fixpoint ers (b : nat) (l : list nat) : list (@ereg V) :=
    match l with
    | [] => []
    | i :: l' => mk_ereg b i (v i) (e_shortcut junk) (area_of i) (e_variation junk) (e_stable junk) :: ers (S b) l'
    end.

  Lemma ers_length b l : length (ers b l) = length l.
  Proof. revert b. induction l; intro b; cbn; auto. Qed.
  Lemma ers_nth l : forall b k, k < length l -> nth k (ers b l) junk =
    mk_ereg (b + k) (nth k l 0) (v (nth k l 0)) (e_shortcut junk) (area_of (nth k l 0)) (e_variation junk) (e_stable junk).
  Proof.
    induction l as [|i l IH]; intros b k H; cbn in H; [lia|]. destruct k as [|k]; cbn [ers nth].
    - now rewrite Nat.add_0_r.
    - rewrite IH by lia. f_equal. lia.
  Qed.

  Lemma extract_ok cap : forall pm er link, (forall i, In i pm -> i < length im) -> NoDup pm -> length link = length im ->
    length er + length (filter exb pm) <= cap ->
    exists link', extract junk im r pm cap er link = Some (er ++ ers (length er) (filter exb pm), link') /\
      length link' = length im /\
      (forall p, ~ In p pm -> nth_error link' p = nth_error link p) /\
      (forall p, In p pm -> exb p = false -> nth_error link' p = Some None) /\
      (forall k, k < length (filter exb pm) -> nth_error link' (nth k (filter exb pm) 0) = Some (Some (length er + k))).
  Proof.
    induction pm as [|i pm IH]; intros er link Hb ND L C.
    - exists link. cbn [extract filter ers]. rewrite app_nil_r. split; [reflexivity|]. split; [auto|]. split; [auto|].
      split; [intros p []|]. cbn. intros k Hk. lia.
    - assert (Hi : i < length im) by (apply Hb; cbn; auto). inversion ND as [|? ? Ni ND']; subst.
      cbn [extract]. rewrite (aget_nth im i 0) by auto. cbn [obind]. fold (v i).
      pose proof (inv_len _ _ _ _ _ _ _ HI) as Lr.
      destruct (nth_error r i) as [g|] eqn:Eg; [|apply nth_error_None in Eg; lia].
      unfold aget at 1. rewrite Eg. cbn [obind].
      destruct (P_some i Hi) as (q & Eq & Lq & Vq).
      assert (Eq' : g_parent g = Some q) by (rewrite <- Eq, <- (inv_P _ _ _ _ _ _ _ HI); unfold par; now rewrite Eg).
      rewrite Eq'. cbn [obind]. rewrite (aget_nth im q 0) by auto. cbn [obind]. fold (v q).
      assert (Ex : exb i = (v i <? v q) || (i =? q)) by (unfold exb; now rewrite Eq).
      assert (Hb' : forall j, In j pm -> j < length im) by (intros; apply Hb; cbn; auto).
      rewrite <- Ex. cbn [filter] in C |- *. destruct (exb i) eqn:EX.
      + cbn [length] in C. destruct (Nat.ltb_spec (length er) cap); [|lia].
        rewrite aset_lt by lia. cbn [obind].
        set (e := mk_ereg (length er) i (v i) (e_shortcut junk) (g_area g) (e_variation junk) (e_stable junk)).
        destruct (IH (er ++ [e]) (upd link i (Some (length er))) Hb' ND') as (link' & X1 & X2 & X3 & X4 & X5).
        { now rewrite upd_length. } { rewrite app_length. cbn. lia. }
        exists link'. split; [rewrite X1; f_equal; f_equal|].
        { rewrite <- app_assoc. f_equal. cbn [app ers]. rewrite app_length. cbn [length]. rewrite Nat.add_1_r.
          f_equal. unfold e, area_of, ar. now rewrite Eg. }
        split; [auto|]. split; [|split].
        * intros p Np. cbn in Np. rewrite X3 by tauto. rewrite nth_error_upd_neq by tauto. reflexivity.
        * intros p [<-|Ip] Ep; [congruence|auto].
        * intros k Hk. destruct k as [|k]; cbn [nth].
          -- rewrite X3 by auto. rewrite nth_error_upd_eq by lia. now rewrite Nat.add_0_r.
          -- rewrite X5 by (cbn in Hk; lia). rewrite app_length. cbn. do 2 f_equal. lia.
      + rewrite aset_lt by lia. cbn [obind].
        destruct (IH er (upd link i None) Hb' ND') as (link' & X1 & X2 & X3 & X4 & X5); auto.
        { now rewrite upd_length. }
        exists link'. split; [exact X1|]. split; [auto|]. split; [|split; [|exact X5]].
        * intros p Np. cbn in Np. rewrite X3 by tauto. rewrite nth_error_upd_neq by tauto. reflexivity.
        * intros p [<-|Ip] Ep; [|auto]. rewrite X3 by auto. now rewrite nth_error_upd_eq by lia.
  Qed.

  (** * Linking *)
  Variable link : list (option nat).
  Hypothesis Llen : length link = length im.
  Hypothesis Lno : forall p, p < length im -> exb p = false -> nth_error link p = Some None.
  Hypothesis Lyes : forall k, k < length regions -> nth_error link (nth k regions 0) = Some (Some k).

  Lemma exb_pos p : exb p = true -> exists k, k < length regions /\ nth k regions 0 = p.
  Proof. intro H. apply regions_in in H. apply In_nth with (d := 0) in H. destruct H as (k & A & B). eauto. Qed.

  Lemma par_get p : p < length im -> exists g, aget r p = Some g /\ g_parent g = P p.
  Proof.
    intro H. pose proof (inv_len _ _ _ _ _ _ _ HI) as Lr. unfold aget.
    destruct (nth_error r p) as [g|] eqn:Eg; [|apply nth_error_None in Eg; lia]. exists g. split; [auto|].
    rewrite <- (inv_P _ _ _ _ _ _ _ HI). unfold par. now rewrite Eg.
  Qed.

  Lemma find_parent_ok x : P x = Some x -> forall m p, ancn P m p x -> forall fuel, m < fuel ->
    exists t q, find_parent fuel r link p = Some t /\ t < length regions /\ P p = Some q /\
                anc P q (nth t regions 0) /\ v (nth t regions 0) = v q.
  Proof.
    intros R m. induction m as [|m IH]; intros p X fuel Hf.
    - inversion X; subst. destruct fuel as [|fuel]; [lia|]. cbn [find_parent].
      assert (Lx : x < length im) by (apply HD; congruence).
      destruct (par_get x Lx) as (g & G1 & G2). rewrite G1. cbn [obind]. rewrite G2, R. cbn [obind].
      assert (Ex : exb x = true) by (unfold exb; rewrite R, Nat.eqb_refl; apply orb_true_r).
      destruct (exb_pos x Ex) as (k & K1 & K2). unfold aget. pose proof (Lyes k K1) as LY. rewrite K2 in LY. rewrite LY. cbn [obind].
      exists k, x. rewrite K2. repeat split; auto. apply anc_refl. congruence.
    - inversion X as [|m' p' q x' E N X']; subst. destruct fuel as [|fuel]; [lia|]. cbn [find_parent].
      assert (Lp : p < length im) by (apply HD; congruence).
      destruct (par_get p Lp) as (g & G1 & G2). rewrite G1. cbn [obind]. rewrite G2, E. cbn [obind].
      assert (Lq : q < length im) by (apply HD; exact (proj1 (ancn_dom _ _ _ _ X'))).
      destruct (exb q) eqn:Eq.
      + destruct (exb_pos q Eq) as (k & K1 & K2). unfold aget. pose proof (Lyes k K1) as LY. rewrite K2 in LY. rewrite LY. cbn [obind].
        exists k, q. rewrite K2. repeat split; auto. apply anc_refl. now apply HD.
      + unfold aget. rewrite (Lno q Lq Eq). cbn [obind].
        destruct (IH q X' fuel ltac:(lia)) as (t & q2 & T1 & T2 & T3 & T4 & T5).
        exists t, q. split; [auto|]. split; [auto|]. split; [auto|].
        unfold exb in Eq. rewrite T3 in Eq. apply orb_false_iff in Eq. destruct Eq as [Eq1 Eq2].
        apply Nat.ltb_ge in Eq1. apply Nat.eqb_neq in Eq2.
        destruct (inv_par _ _ _ _ _ _ _ HI _ _ T3) as (_ & V' & _). change (v q <= v q2) in V'.
        split; [eapply anc_step; eauto|lia].
  Qed.

  Lemma find_parent_regions p : p < length im ->
    exists t q, find_parent (S (length r)) r link p = Some t /\ t < length regions /\ P p = Some q /\
                anc P q (nth t regions 0) /\ v (nth t regions 0) = v q.
  Proof.
    intro Hp. destruct one_root as (x & R & AX). destruct (AX p Hp) as [m X].
    apply (find_parent_ok x R m p X). destruct (ancn_nodes P m p x X R) as (l & A & B & C).
    rewrite (inv_len _ _ _ _ _ _ _ HI).
    assert (H : length l <= length (seq 0 (length im))).
    { apply NoDup_incl_length; auto. intros q Hq. apply in_seq. destruct (C q Hq) as (k & _ & K).
      apply ancn_dom in K. destruct K as [K _]. apply HD in K. lia. }
    rewrite seq_length in H. lia.
  Qed.

  (** The region t found for each region k. *)
  Definition linked_to (k t : nat) : Prop :=
    t < length regions /\ exists q, P (nth k regions 0) = Some q /\ anc P q (nth t regions 0) /\ v (nth t regions 0) = v q.

  Lemma link_ok : forall n i er, n + i = length regions -> length er = length regions ->
    (forall k, k < length regions -> e_index (nth k er junk) = nth k regions 0 /\ e_value (nth k er junk) = v (nth k regions 0) /\
       e_area (nth k er junk) = area_of (nth k regions 0)) ->
    (forall k, k < i -> e_shortcut (nth k er junk) = k /\ linked_to k (e_parent (nth k er junk))) ->
    exists er', link_regions n i r link er = Some er' /\ length er' = length regions /\
    (forall k, k < length regions -> e_index (nth k er' junk) = nth k regions 0 /\ e_value (nth k er' junk) = v (nth k regions 0) /\
       e_area (nth k er' junk) = area_of (nth k regions 0)) /\
    (forall k, k < length regions -> e_shortcut (nth k er' junk) = k /\ linked_to k (e_parent (nth k er' junk))).
  Proof.
    induction n as [|n IH]; intros i er HN L F D.
    - exists er. cbn [link_regions]. split; [auto|]. split; [auto|]. split; [auto|]. intros k Hk. apply D. lia.
    - cbn [link_regions]. assert (Hi : i < length regions) by lia. rewrite (aget_nth er i junk) by lia. cbn [obind].
      destruct (F i Hi) as (F1 & F2 & F3). rewrite F1.
      assert (Hp : nth i regions 0 < length im).
      { pose proof (nth_In regions 0 Hi) as X. apply regions_in, exb_spec in X. tauto. }
      destruct (find_parent_regions _ Hp) as (t & q & T1 & T2 & T3 & T4 & T5). rewrite T1. cbn [obind].
      rewrite aset_lt by lia. cbn [obind]. apply IH.
      + lia.
      + now rewrite upd_length.
      + intros k Hk. rewrite nth_upd by lia. destruct (Nat.eqb_spec k i) as [->|]; [cbn; auto|auto].
      + intros k Hk. rewrite nth_upd by lia. destruct (Nat.eqb_spec k i) as [->|]; [cbn|apply D; lia].
        split; [auto|]. split; [auto|]. exists q. auto.
  Qed.

  (** * The tree *)
  Lemma linked_wf k t : k < length regions -> linked_to k t ->
    t < length regions /\ k <= t /\
    (P (nth k regions 0) = Some (nth k regions 0) -> t = k) /\
    (P (nth k regions 0) <> Some (nth k regions 0) -> v (nth k regions 0) < v (nth t regions 0)).
  Proof.
    intros Hk (Ht & q & E & A & EV). split; [auto|].
    assert (Ek : exb (nth k regions 0) = true) by (apply regions_in, nth_In; auto).
    apply exb_spec in Ek. destruct Ek as (Lk & _ & T).
    assert (RC : P (nth k regions 0) = Some (nth k regions 0) -> t = k).
    { intro R. assert (q = nth k regions 0) by congruence. subst q. apply anc_root in A; auto.
      apply (proj1 (NoDup_nth regions 0) regions_nodup); auto. }
    assert (NR : P (nth k regions 0) <> Some (nth k regions 0) -> v (nth k regions 0) < v (nth t regions 0)).
    { intro NR. destruct T as [T|(q' & E' & L)]; [contradiction|]. assert (q' = q) by congruence. subst q'. lia. }
    split; [|auto]. destruct T as [T|(q' & E' & L)]; [rewrite RC; auto|].
    assert (q' = q) by congruence. subst q'. destruct (le_lt_dec k t) as [|G]; [auto|exfalso].
    pose proof (regions_sorted t k G Hk). lia.
  Qed.

  Lemma region_component k w : k < length regions -> top_at w (nth k regions 0) -> v (nth k regions 0) <= w ->
    forall s, conn w (nth k regions 0) s <-> conn (v (nth k regions 0)) (nth k regions 0) s.
  Proof.
    intros Hk T L s. assert (Ek : exb (nth k regions 0) = true) by (apply regions_in, nth_In; auto).
    apply exb_spec in Ek. destruct Ek as (Lk & T'). rewrite <- !desc_component; auto. tauto.
  Qed.
End Extract.
