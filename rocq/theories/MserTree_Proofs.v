(** Variations, selection and filtering of the extremal regions of MSER. *)
From Coq Require Import List Arith ZArith Lia Bool.
From Verif Require Import Base Mser_Model MserTree_Spec MserSort_Proofs.
Import ListNotations.

Lemma nth_error_nth_lt {A} (l : list A) i d : i < length l -> nth_error l i = Some (nth i l d).
Proof. apply nth_error_nth'. Qed.

Section TreeProofs.
  Context {V : Type}.
  Variable variation : nat -> nat -> V.
  Variable vlt : V -> V -> bool.
  Variable junk : @ereg V.
  Variable er0 : list (@ereg V).
  Let N := length er0.
  Let up i := e_parent (nth i er0 junk).
  Let value i := e_value (nth i er0 junk).
  Let area i := e_area (nth i er0 junk).
  Hypothesis WF : forall i, i < N -> up i < N /\ i <= up i /\ (up i <> i -> value i < value (up i)).

  Lemma above_in i j : i < N -> above up i j -> j < N /\ i <= j /\ value i <= value j.
  Proof.
    intros Hi. induction 1 as [|j A (B & C & D)]; [auto|].
    destruct (WF j B) as (X & Y & Z). split; [auto|]. split; [lia|].
    destruct (Nat.eq_dec (up j) j) as [E|E]; [rewrite E; auto|]. specialize (Z E). lia.
  Qed.
  Lemma above_trans i j k : above up i j -> above up j k -> above up i k.
  Proof. intros A B. induction B; auto. now constructor. Qed.
  Lemma above_step i j : above up (up i) j -> above up i j.
  Proof. intro A. eapply above_trans; [|exact A]. constructor. constructor. Qed.
  Lemma above_case i j : above up i j -> j = i \/ above up (up i) j.
  Proof. induction 1 as [|j A [->|IH]]; [auto|right; constructor|right; now constructor]. Qed.
  Lemma above_root i j : up i = i -> above up i j -> j = i.
  Proof. intros E A. induction A; auto. congruence. Qed.
  Lemma above_cmp i a b : above up i a -> above up i b -> above up a b \/ above up b a.
  Proof.
    intros A. induction A as [|a A IH]; intro B; [auto|]. destruct (IH B) as [C|C].
    - apply above_case in C. destruct C as [->|C]; [right; constructor; constructor|auto].
    - right. now constructor.
  Qed.

  Definition frame (er : list (@ereg V)) : Prop :=
    length er = N /\ forall i, i < N ->
      e_parent (nth i er junk) = up i /\ e_index (nth i er junk) = e_index (nth i er0 junk) /\
      e_value (nth i er junk) = value i /\ e_area (nth i er junk) = area i.

  Lemma frame_upd er i e : frame er -> i < N -> e_parent e = up i -> e_index e = e_index (nth i er0 junk) ->
    e_value e = value i -> e_area e = area i -> frame (upd er i e).
  Proof.
    intros [L F] Hi E1 E2 E3 E4. split; [now rewrite upd_length|]. intros k Hk.
    rewrite nth_upd by lia. destruct (Nat.eqb_spec k i) as [->|Nk]; auto.
  Qed.

  Lemma find_top_ok er w : frame er -> forall fuel s, s < N -> value s <= w -> N - s < fuel ->
    exists t, find_top fuel er w s = Some t /\ above up s t /\ value t <= w /\ (up t = t \/ w < value (up t)).
  Proof.
    intros [L F]. induction fuel as [|fuel IH]; intros s Hs Hv Hf; [lia|]. cbn [find_top].
    destruct (WF s Hs) as (B & C & D). destruct (F s Hs) as (F1 & _ & F3 & _).
    rewrite (aget_nth er s junk) by lia. cbn [obind]. rewrite F1.
    rewrite (aget_nth er (up s) junk) by lia. cbn [obind].
    destruct (F (up s) B) as (_ & _ & G3 & _). rewrite G3.
    destruct (Nat.eqb_spec (up s) s) as [E|E]; cbn [orb].
    - exists s. split; [reflexivity|]. split; [constructor|]. auto.
    - destruct (Nat.ltb_spec w (value (up s))) as [X|X].
      + exists s. split; [reflexivity|]. split; [constructor|]. auto.
      + destruct (IH (up s)) as (t & T1 & T2 & T3); auto; [lia|]. exists t. split; [auto|]. split; [|auto].
        now apply above_step.
  Qed.

  Variable delta : nat.
  Definition sc_ok (er : list (@ereg V)) : Prop :=
    forall k, k < N -> above up k (e_shortcut (nth k er junk)) /\ value (e_shortcut (nth k er junk)) <= value k + delta.
  Definition var_ok (er : list (@ereg V)) (k : nat) : Prop :=
    e_stable (nth k er junk) = true /\
    exists t, top_of up value delta k t /\ e_variation (nth k er junk) = variation (area k) (area t).

  Lemma variations_ok : forall n i er, n + i = N -> frame er -> sc_ok er -> (forall k, k < i -> var_ok er k) ->
    exists er', variations variation n i delta er = Some er' /\ frame er' /\ forall k, k < N -> var_ok er' k.
  Proof.
    induction n as [|n IH]; intros i er HN F S Hd.
    - exists er. split; [reflexivity|]. split; [auto|]. intros k Hk. apply Hd. lia.
    - cbn [variations]. assert (Hi : i < N) by lia. pose proof F as [L F']. destruct (F' i Hi) as (F1 & F2 & F3 & F4).
      destruct (WF i Hi) as (B & C & D).
      rewrite (aget_nth er i junk) by lia. cbn [obind].
      destruct (S i Hi) as [S1 S2]. destruct (above_in _ _ Hi S1) as (S3 & S4 & S5).
      rewrite F1, F3, F4.
      destruct (find_top_ok er (value i + delta) F (1 + length er) (e_shortcut (nth i er junk))) as (t & T1 & T2 & T3 & T4); auto; [lia|].
      cbn [Nat.add] in T1. rewrite T1. cbn [obind].
      assert (At : above up i t) by (eapply above_trans; eauto).
      destruct (above_in _ _ Hi At) as (T5 & T6 & T7).
      rewrite (aget_nth er t junk) by lia. cbn [obind]. rewrite aset_lt by lia. cbn [obind].
      destruct (F' t T5) as (_ & _ & _ & G4). rewrite G4.
      set (e1 := mk_ereg (up i) (e_index (nth i er junk)) (value i) (e_shortcut (nth i er junk)) (area i) (variation (area i) (area t)) true).
      rewrite (aget_nth (upd er i e1) (up i) junk) by (rewrite upd_length; lia). cbn [obind].
      rewrite aset_lt by (rewrite upd_length; lia). cbn [obind].
      assert (Fr1 : frame (upd er i e1)) by (apply frame_upd; auto; cbn; auto).
      set (q := nth (up i) (upd er i e1) junk).
      pose proof Fr1 as [_ Fr1']. destruct (Fr1' (up i) B) as (Q1 & Q2 & Q3 & Q4). fold q in Q1, Q2, Q3, Q4.
      assert (Qsc : e_shortcut q = e_shortcut (nth (up i) er junk)).
      { unfold q. rewrite nth_upd by lia. destruct (Nat.eqb_spec (up i) i) as [E|E]; [cbn; now rewrite E|reflexivity]. }
      set (e2 := mk_ereg (e_parent q) (e_index q) (e_value q) (Nat.max t (e_shortcut q)) (e_area q) (e_variation q) (e_stable q)).
      apply IH; [lia|apply frame_upd; auto| |].
      + intros k Hk. rewrite nth_upd by (rewrite upd_length; lia). destruct (Nat.eqb_spec k (up i)) as [->|Nk].
        * cbn [e2 e_shortcut]. rewrite Qsc. destruct (S (up i) B) as [U1 U2]. destruct (above_in _ _ B U1) as (U3 & U4 & U5).
          assert (M : Nat.max t (e_shortcut (nth (up i) er junk)) = e_shortcut (nth (up i) er junk) \/
                      (above up (up i) t /\ Nat.max t (e_shortcut (nth (up i) er junk)) = t)).
          { apply above_case in At. destruct At as [->|At]; [left; lia|].
            destruct (Nat.max_spec t (e_shortcut (nth (up i) er junk))) as [[_ X]|[_ X]]; rewrite X; auto. }
          destruct M as [->|[M ->]]; [auto|]. split; [auto|].
          destruct (Nat.eq_dec (up i) i) as [E|E]; [rewrite E; auto|]. specialize (D E). lia.
        * rewrite nth_upd by lia. destruct (Nat.eqb_spec k i) as [->|Nk']; [cbn [e1 e_shortcut]; auto|auto].
      + assert (Vi : forall k, k < Datatypes.S i -> var_ok (upd er i e1) k).
        { intros k Hk. unfold var_ok. rewrite nth_upd by lia. destruct (Nat.eqb_spec k i) as [->|Nk].
          - cbn. split; [reflexivity|]. exists t. split; [|reflexivity]. split; auto.
          - apply Hd. lia. }
        intros k Hk. unfold var_ok. rewrite nth_upd by (rewrite upd_length; lia).
        destruct (Nat.eqb_spec k (up i)) as [->|Nk]; [cbn [e2 e_stable e_variation]|]; apply Vi; auto.
  Qed.

  (** * Selection *)
  Variable vr : nat -> V.
  Definition vframe (er : list (@ereg V)) : Prop :=
    frame er /\ forall i, i < N -> e_variation (nth i er junk) = vr i.
  Definition fl (er : list (@ereg V)) (i : nat) : bool := e_stable (nth i er junk).
  Definition nstable (er : list (@ereg V)) : nat := length (filter e_stable er).

  Lemma vframe_upd er i b : vframe er -> i < N -> vframe (upd er i (set_stable (nth i er junk) b)).
  Proof.
    intros [F G] Hi. pose proof F as [L F']. destruct (F' i Hi) as (F1 & F2 & F3 & F4). split.
    - apply frame_upd; auto.
    - intros k Hk. rewrite nth_upd by lia. destruct (Nat.eqb_spec k i) as [->|]; cbn; auto.
  Qed.

  Lemma fl_upd er i b k : i < length er -> fl (upd er i (set_stable (nth i er junk) b)) k = if k =? i then b else fl er k.
  Proof. intro Hi. unfold fl. rewrite nth_upd by auto. now destruct (k =? i). Qed.

  Lemma nstable_upd er i : i < length er -> fl er i = true ->
    nstable (upd er i (set_stable (nth i er junk) false)) = nstable er - 1 /\ 0 < nstable er.
  Proof.
    unfold nstable, fl. revert i. induction er as [|e er IH]; intros [|i] Hi E; cbn [length] in Hi; try lia; cbn [nth upd] in *.
    - cbn [filter set_stable e_stable]. rewrite E. cbn. lia.
    - destruct (IH i) as [A B]; [lia|auto|]. cbn [filter]. destruct (e_stable e); cbn [length]; lia.
  Qed.

  Definition loser (j : nat) : option nat :=
    if value j + 1 <? value (up j) then None else Some (if vlt (vr j) (vr (up j)) then up j else j).

  Lemma select_ok : forall n i er nmer, n + i = N -> vframe er -> nmer = nstable er ->
    (forall k, k < N -> (fl er k = true <-> forall j, j < i -> loser j <> Some k)) ->
    exists er', select_stable vlt n i er nmer = Some (er', nstable er') /\ vframe er' /\
      forall k, k < N -> (fl er' k = true <-> forall j, j < N -> loser j <> Some k).
  Proof.
    induction n as [|n IH]; intros i er nmer HN F Hm Hd.
    - exists er. cbn [select_stable]. rewrite Hm. split; [reflexivity|]. split; [auto|]. intros k Hk. rewrite Hd by auto.
      replace i with N by lia. reflexivity.
    - cbn [select_stable]. assert (Hi : i < N) by lia. pose proof F as [[L F'] G]. destruct (F' i Hi) as (F1 & F2 & F3 & F4).
      destruct (WF i Hi) as (B & C & D). destruct (F' _ B) as (_ & _ & U3 & _).
      rewrite (aget_nth er i junk) by lia. cbn [obind]. rewrite F1.
      rewrite (aget_nth er (up i) junk) by lia. cbn [obind]. rewrite F3, U3, (G i Hi), (G _ B).
      assert (Step : forall k, (forall j, j < Datatypes.S i -> loser j <> Some k) <->
                     (forall j, j < i -> loser j <> Some k) /\ loser i <> Some k).
      { intro k. split; [intro H; split; [intros j Hj; apply H; lia|apply H; lia]|].
        intros [H1 H2] j Hj. destruct (Nat.eq_dec j i) as [->|]; [auto|apply H1; lia]. }
      destruct (value i + 1 <? value (up i)) eqn:EL.
      + apply IH; auto; [lia|]. intros k Hk. rewrite Step, Hd by auto. unfold loser at 3. rewrite EL.
        split; [intro H; split; [auto|discriminate]|tauto].
      + set (w := if vlt (vr i) (vr (up i)) then up i else i).
        assert (Hw : w < N) by (unfold w; destruct (vlt _ _); auto).
        assert (Lw : loser i = Some w) by (unfold loser; now rewrite EL).
        rewrite (aget_nth er w junk) by lia. cbn [obind]. fold (fl er w). destruct (fl er w) eqn:EW.
        * rewrite aset_lt by lia. cbn [obind]. destruct (nstable_upd er w ltac:(lia) EW) as [X Y].
          apply IH; [lia|now apply vframe_upd|congruence|].
          intros k Hk. rewrite fl_upd by lia. rewrite Step, Lw. destruct (Nat.eqb_spec k w) as [->|Nk].
          -- split; [discriminate|]. intros [_ H]. congruence.
          -- rewrite Hd by auto. split; [intro H; split; [auto|congruence]|tauto].
        * apply IH; auto; [lia|]. intros k Hk. rewrite Step, Hd, Lw by auto.
          split; [intro H; split; [auto|]|tauto]. intro E. inversion E; subst k. apply Hd in H; auto. congruence.
  Qed.

  Lemma loser_stable k : k < N -> ((forall j, j < N -> loser j <> Some k) <-> stable N up value vlt vr k).
  Proof.
    intro Hk. unfold stable, loser. split.
    - intro H. split.
      + intro Hv. specialize (H k Hk). destruct (Nat.ltb_spec (value k + 1) (value (up k))); [lia|].
        destruct (vlt (vr k) (vr (up k))); congruence.
      + intros j Hj E Hv. specialize (H j Hj). rewrite E in H. destruct (Nat.ltb_spec (value j + 1) (value k)); [lia|].
        destruct (vlt (vr j) (vr k)); congruence.
    - intros [H1 H2] j Hj E. destruct (Nat.ltb_spec (value j + 1) (value (up j))) as [|Hv]; [discriminate|].
      destruct (vlt (vr j) (vr (up j))) eqn:EV; inversion E; subst k.
      + rewrite (H2 j Hj eq_refl Hv) in EV. discriminate.
      + rewrite H1 in EV by auto. discriminate.
  Qed.

  (** * Filtering *)
  Variable too_variable : V -> bool.
  Variable too_big too_small : nat -> bool.
  Variable check_dups : bool.
  Variable too_similar : nat -> nat -> bool.

  Lemma stable_parent_ok er : frame er -> forall fuel p, p < N -> N - p < fuel ->
    exists t, stable_parent fuel er p = Some t /\ nearest up (fun k => fl er k = true) p t.
  Proof.
    intros [L F]. induction fuel as [|fuel IH]; intros p Hp Hf; [lia|]. cbn [stable_parent].
    destruct (WF p Hp) as (B & C & D). destruct (F p Hp) as (F1 & _).
    rewrite (aget_nth er p junk) by lia. cbn [obind]. fold (fl er p). rewrite F1.
    assert (Self : forall s, above up p s -> above up s p -> s = p).
    { intros s A1 A2. destruct (above_in _ _ Hp A1) as (X & Y & _). destruct (above_in _ _ X A2) as (_ & Z & _). lia. }
    destruct (fl er p) eqn:E.
    - exists p. split; [reflexivity|]. split; [constructor|]. split; [auto|]. intros s A1 A2 Ns. exfalso. apply Ns. auto.
    - destruct (Nat.eqb_spec (up p) p) as [R|R].
      + exists p. split; [reflexivity|]. split; [constructor|]. split; [right; split; [congruence|auto]|].
        intros s A1 A2 Ns. exfalso. apply Ns. auto.
      + destruct (IH (up p)) as (t & T1 & T2 & T3 & T4); [auto|lia|]. exists t. split; [auto|].
        split; [now apply above_step|]. split; [auto|]. intros s A1 A2 Ns. apply above_case in A1.
        destruct A1 as [->|A1]; [congruence|]. apply T4; auto.
  Qed.

  Lemma nearest_fun (sel : nat -> Prop) p t t' : p < N -> nearest up sel p t -> nearest up sel p t' -> t = t'.
  Proof.
    intros Hp (A1 & A2 & A3) (B1 & B2 & B3). destruct (Nat.eq_dec t t') as [|Nt]; [auto|exfalso].
    destruct (above_cmp _ _ _ A1 B1) as [C|C].
    - destruct A2 as [A2|[A2 R]]; [apply (B3 t A1 C Nt A2)|]. apply Nt. symmetry. now apply above_root.
    - destruct B2 as [B2|[B2 R]]; [apply (A3 t' B1 C (not_eq_sym Nt) B2)|]. apply Nt. now apply above_root.
  Qed.

  Lemma nearest_ext (S T : nat -> Prop) p t : p < N -> (forall k, p <= k -> k < N -> (S k <-> T k)) -> nearest up S p t -> nearest up T p t.
  Proof.
    intros Hp H (A1 & A2 & A3).
    assert (Q : forall s, above up p s -> (S s <-> T s)).
    { intros s A. destruct (above_in _ _ Hp A) as (X & Y & _). auto. }
    split; [auto|]. split.
    - rewrite <- (Q t A1). exact A2.
    - intros s X Y Z. rewrite <- (Q s X). auto.
  Qed.

  Let HF := has_fate up area vr too_variable too_big too_small check_dups too_similar.
  Let DUP := duplicate up area check_dups too_similar.

  Lemma dup_ext (S T : nat -> Prop) i : i < N -> (forall k, i < k -> k < N -> (S k <-> T k)) -> DUP S i -> DUP T i.
  Proof.
    intros Hi H (A & B & t & C & D). split; [auto|]. split; [auto|]. exists t. split; [|auto].
    destruct (WF i Hi) as (X & Y & _). eapply nearest_ext; eauto. intros k K1 K2. apply H; lia.
  Qed.

  Lemma fate_ext (S T : nat -> Prop) i w : i < N -> (forall k, i < k -> k < N -> (S k <-> T k)) -> HF S i w -> HF T i w.
  Proof.
    intros Hi H. assert (H' : forall k, i < k -> k < N -> (T k <-> S k)) by (intros; symmetry; auto).
    destruct w; cbn; auto; intros (A & B & C & D); (split; [exact A|split; [exact B|split; [exact C|]]]).
    - intro X. apply D. eapply dup_ext; eauto.
    - eapply dup_ext; eauto.
  Qed.

  Definition fate_of (v : option reason) : fate :=
    match v with
    | None => Kept | Some RBad => Unstable | Some RBig => TooBig | Some RSmall => TooSmall | Some RDup => Duplicate
    end.

  Lemma fate_fun S i w w' : HF S i w -> HF S i w' -> w = w'.
  Proof. destruct w, w'; cbn; intros; intuition congruence. Qed.

  Lemma verdict_ok er i : vframe er -> i < N ->
    exists v, verdict too_variable too_big too_small check_dups too_similar er i (nth i er junk) = Some v /\
              HF (fun k => fl er k = true) i (fate_of v).
  Proof.
    intros [F G] Hi. pose proof F as [L F']. destruct (F' i Hi) as (F1 & F2 & F3 & F4). destruct (WF i Hi) as (B & C & D).
    unfold verdict. rewrite (G i Hi), F4, F1.
    destruct (too_variable (vr i)) eqn:T1; [eexists; split; [reflexivity|exact T1]|].
    destruct (too_big (area i)) eqn:T2; [eexists; split; [reflexivity|cbn; auto]|].
    destruct (too_small (area i)) eqn:T3; [eexists; split; [reflexivity|cbn; auto]|].
    destruct check_dups eqn:T4.
    2: { eexists. split; [reflexivity|]. cbn. split; [exact T1|split; [exact T2|split; [exact T3|]]]. intros (X & _). congruence. }
    destruct (Nat.eqb_spec (up i) i) as [R|R].
    { eexists. split; [reflexivity|]. cbn. split; [exact T1|split; [exact T2|split; [exact T3|]]]. intros (_ & X & _). congruence. }
    destruct (stable_parent_ok er F (1 + length er) (up i) B) as (t & E1 & E2); [lia|]. cbn [Nat.add] in E1. rewrite E1. cbn [obind].
    pose proof E2 as (X & _). destruct (above_in _ _ B X) as (Ht & _ & _).
    rewrite (aget_nth er t junk) by lia. cbn [obind]. destruct (F' t Ht) as (_ & _ & _ & A4). rewrite A4.
    destruct (too_similar (area i) (area t)) eqn:T5; eexists; (split; [reflexivity|]); cbn; (split; [exact T1|split; [exact T2|split; [exact T3|]]]).
    - split; [reflexivity|]. split; [exact R|]. exists t. auto.
    - intros (_ & _ & t' & E3 & E4). rewrite (nearest_fun _ _ _ _ B E2 E3) in T5. congruence.
  Qed.

  Definition counter (s : stats) (w : fate) : nat :=
    match w with Kept => 0 | Unstable => st_bad s | TooBig => st_big s | TooSmall => st_small s | Duplicate => st_dup s end.
  Definition total (s : stats) : nat := st_bad s + st_big s + st_small s + st_dup s.

  Lemma filter_ok : forall n er s, n <= N -> vframe er ->
    exists er' s', filter_regions too_variable too_big too_small check_dups too_similar n er (nstable er) s = Some (er', nstable er', s') /\
      vframe er' /\
      (forall k, n <= k -> fl er' k = fl er k) /\
      (forall k, k < n -> (fl er' k = true <-> fl er k = true /\ HF (fun k => fl er' k = true) k Kept)) /\
      (forall w, w <> Kept -> exists c, counter s' w = counter s w + c /\
          counts (fun k => k < n /\ fl er k = true /\ HF (fun k => fl er' k = true) k w) c) /\
      nstable er' + total s' = nstable er + total s.
  Proof.
    induction n as [|i IH]; intros er s HN F.
    - exists er, s. split; [reflexivity|]. split; [auto|]. split; [auto|]. split; [lia|]. split; [|auto].
      intros w _. exists 0. split; [lia|]. exists []. split; [constructor|]. split; [|reflexivity].
      intro q. split; [intros []|intros [X _]; lia].
    - cbn [filter_regions]. pose proof F as [[L F'] G]. rewrite (aget_nth er i junk) by lia. cbn [obind]. fold (fl er i).
      assert (Hi : i < N) by lia. destruct (fl er i) eqn:E.
      + destruct (verdict_ok er i F Hi) as (v & V1 & V2). rewrite V1. cbn [obind].
        destruct v as [w|].
        * rewrite aset_lt by lia. cbn [obind]. destruct (nstable_upd er i ltac:(lia) E) as [X Y]. rewrite <- X.
          destruct (IH _ (count_reason s w) ltac:(lia) (vframe_upd er i false F Hi)) as (er' & s' & H1 & H2 & H3 & H4 & H5 & H6).
          set (er1 := upd er i (set_stable (nth i er junk) false)) in *.
          assert (U : forall k, fl er1 k = if k =? i then false else fl er k) by (intro k; apply fl_upd; lia).
          exists er', s'. split; [exact H1|]. split; [exact H2|].
          assert (Hhi : forall k, Datatypes.S i <= k -> fl er' k = fl er k).
          { intros k Hk. rewrite H3 by lia. rewrite U. destruct (Nat.eqb_spec k i); [lia|auto]. }
          assert (Vi : HF (fun k => fl er' k = true) i (fate_of (Some w))).
          { eapply fate_ext; [exact Hi| |exact V2]. intros k K1 K2. cbn. now rewrite Hhi. }
          assert (Ei : fl er' i = false) by (rewrite H3, U, Nat.eqb_refl by lia; auto).
          split; [exact Hhi|]. split; [|split].
          -- intros k Hk. destruct (Nat.eq_dec k i) as [->|Nk].
             ++ rewrite Ei. split; [discriminate|]. intros [_ X']. pose proof (fate_fun _ _ _ _ Vi X'). destruct w; discriminate.
             ++ rewrite H4 by lia. rewrite U. destruct (Nat.eqb_spec k i); [lia|]. tauto.
          -- intros w' Nw'. destruct (H5 w' Nw') as (c & C1 & l & C2 & C3 & C4).
             assert (Dec : w' = fate_of (Some w) \/ w' <> fate_of (Some w)) by (destruct w', w; cbn; auto; right; discriminate).
             destruct Dec as [->|Dw].
             ++ exists (Datatypes.S c). split; [rewrite C1; destruct w; cbn; lia|].
                exists (i :: l). split; [constructor; auto; intro Q; apply C3 in Q; lia|]. split; [|cbn; lia].
                intro q. cbn [In]. rewrite C3, U. split.
                ** intros [<-|(Q1 & Q2 & Q3)]; [auto|]. destruct (Nat.eqb_spec q i); [lia|]. split; [lia|auto].
                ** intros (Q1 & Q2 & Q3). destruct (Nat.eqb_spec q i) as [->|]; [auto|]. right. split; [lia|auto].
             ++ exists c. split; [rewrite C1; destruct w, w'; cbn in *; congruence || lia|].
                exists l. split; [auto|]. split; [|auto]. intro q. rewrite C3, U. split.
                ** intros (Q1 & Q2 & Q3). destruct (Nat.eqb_spec q i); [lia|]. split; [lia|auto].
                ** intros (Q1 & Q2 & Q3). destruct (Nat.eqb_spec q i) as [->|].
                   --- exfalso. apply Dw. exact (fate_fun _ _ _ _ Q3 Vi).
                   --- split; [lia|auto].
          -- rewrite H6. assert (total (count_reason s w) = total s + 1) by (destruct w; unfold total; cbn; lia). lia.
        * destruct (IH er s ltac:(lia) F) as (er' & s' & H1 & H2 & H3 & H4 & H5 & H6).
          exists er', s'. split; [exact H1|]. split; [exact H2|].
          assert (Hhi : forall k, Datatypes.S i <= k -> fl er' k = fl er k) by (intros k Hk; apply H3; lia).
          assert (Vi : HF (fun k => fl er' k = true) i Kept).
          { eapply fate_ext; [exact Hi| |exact V2]. intros k K1 K2. cbn. now rewrite Hhi. }
          split; [exact Hhi|]. split; [|split; [|exact H6]].
          -- intros k Hk. destruct (Nat.eq_dec k i) as [->|Nk]; [rewrite H3 by lia; rewrite E; tauto|apply H4; lia].
          -- intros w' Nw'. destruct (H5 w' Nw') as (c & C1 & l & C2 & C3 & C4). exists c. split; [auto|].
             exists l. split; [auto|]. split; [|auto]. intro q. rewrite C3. split.
             ++ intros (Q1 & Q2 & Q3). split; [lia|auto].
             ++ intros (Q1 & Q2 & Q3). destruct (Nat.eq_dec q i) as [->|].
                ** exfalso. apply Nw'. exact (fate_fun _ _ _ _ Q3 Vi).
                ** split; [lia|auto].
      + destruct (IH er s ltac:(lia) F) as (er' & s' & H1 & H2 & H3 & H4 & H5 & H6).
        exists er', s'. split; [exact H1|]. split; [exact H2|].
        assert (Hhi : forall k, Datatypes.S i <= k -> fl er' k = fl er k) by (intros k Hk; apply H3; lia).
        split; [exact Hhi|]. split; [|split; [|exact H6]].
        * intros k Hk. destruct (Nat.eq_dec k i) as [->|Nk]; [rewrite H3 by lia; rewrite E; split; [discriminate|intros [X _]; discriminate]|apply H4; lia].
        * intros w' Nw'. destruct (H5 w' Nw') as (c & C1 & l & C2 & C3 & C4). exists c. split; [auto|].
          exists l. split; [auto|]. split; [|auto]. intro q. rewrite C3. split.
          -- intros (Q1 & Q2 & Q3). split; [lia|auto].
          -- intros (Q1 & Q2 & Q3). destruct (Nat.eq_dec q i) as [->|]; [congruence|]. split; [lia|auto].
  Qed.
End TreeProofs.

Lemma save_ok {V} (er : list (@ereg V)) : forall mer cap, length mer + length (filter e_stable er) <= cap ->
  save_regions er cap mer = Some (mer ++ map e_index (filter e_stable er)).
Proof.
  induction er as [|e er IH]; intros mer cap H; cbn [save_regions filter].
  - cbn. now rewrite app_nil_r.
  - cbn [filter] in H. destruct (e_stable e); cbn [length map] in *; [|apply IH; lia].
    destruct (Nat.ltb_spec (length mer) cap); [|lia]. rewrite IH by (rewrite app_length; cbn; lia).
    now rewrite <- app_assoc.
Qed.
