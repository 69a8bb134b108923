(** The whole of vl_mser_process. *)
From Coq Require Import List Arith ZArith Lia Bool Permutation Sorted.
From Verif Require Import Base Mser_Model Mser_Spec MserTree_Spec MserSort_Proofs MserNbr_Proofs MserForest_Proofs
  MserUnion_Proofs MserExtract_Proofs MserTree_Proofs.
Import ListNotations.

Lemma nstable_fl {V} (junk : @ereg V) (er : list (@ereg V)) :
  nstable er = length (filter (fl junk er) (seq 0 (length er))).
Proof.
  unfold nstable, fl. induction er as [|e er IH]; [reflexivity|]. cbn [length seq filter nth].
  rewrite <- seq_shift.
  assert (X : forall l, length (filter (fun i => e_stable match i with 0 => e | S m => nth m er junk end) (map S l)) =
              length (filter (fun i => e_stable (nth i er junk)) l)).
  { clear IH. induction l as [|i l IH]; cbn [map filter nth]; [reflexivity|]. destruct (e_stable (nth i er junk)); cbn; lia. }
  destruct (e_stable e); cbn [length]; rewrite X, IH; reflexivity.
Qed.

Lemma filter_neg {A} (f : A -> bool) l : length (filter f l) + length (filter (fun x => negb (f x)) l) = length l.
Proof. induction l as [|a l IH]; cbn; [reflexivity|]. destruct (f a); cbn; lia. Qed.

Section Main.
  Context {V : Type}.
  Variable variation : nat -> nat -> V.
  Variable vlt : V -> V -> bool.
  Variable too_variable : V -> bool.
  Variable too_big too_small : nat -> bool.
  Variable check_dups : bool.
  Variable too_similar : nat -> nat -> bool.
  Variable junk : @ereg V.
  Variable dims : list nat.
  Variable delta : nat.
  Variable perm0 : list nat.
  Variable r0 : list reg.
  Variable im : list nat.
  Hypothesis Hdims : pos_dims dims.
  Hypothesis Hlen : length im = nel_of dims.
  Hypothesis Hval : Forall (fun x => x < MAXVAL) im.
  Hypothesis Lperm : length perm0 = length im.
  Hypothesis Lr : length r0 = length im.
  Let v (p : nat) : nat := nth p im 0.

  (** The tree in terms of the image. *)
  Definition tree_ok (er : list (@ereg V)) : Prop :=
    let N := length er in
    let up k := e_parent (nth k er junk) in
    let idx k := e_index (nth k er junk) in
    let value k := e_value (nth k er junk) in
    let area k := e_area (nth k er junk) in
    (forall k, k < N -> idx k < length im /\ value k = v (idx k) /\
       exists l, component dims im (value k) (idx k) l /\ length l = area k) /\
    (forall p w, p < length im -> v p <= w ->
       exists k, (k < N /\ value k <= w /\ forall q, connected dims im w p q <-> connected dims im (value k) (idx k) q) /\
         forall k', k' < N -> (forall q, connected dims im w p q <-> connected dims im (value k') (idx k') q) -> k' = k) /\
    (forall k, k < N -> up k < N /\
       ((up k = k /\ forall q, q < length im -> connected dims im (value k) (idx k) q) \/
        (k < up k /\ value k < value (up k) /\ connected dims im (value (up k)) (idx (up k)) (idx k) /\
         forall w q, value k <= w -> w < value (up k) ->
           (connected dims im w (idx k) q <-> connected dims im (value k) (idx k) q)))).

  Definition selection_ok (er : list (@ereg V)) (unstable : nat) (s : stats) (mer : list nat) : Prop :=
    let N := length er in
    let up k := e_parent (nth k er junk) in
    let value k := e_value (nth k er junk) in
    let area k := e_area (nth k er junk) in
    let var k := e_variation (nth k er junk) in
    let sel k := e_stable (nth k er junk) = true in
    let st := stable N up value vlt var in
    let fate := has_fate up area var too_variable too_big too_small check_dups too_similar sel in
    (forall k, k < N -> exists t, top_of up value delta k t /\ var k = variation (area k) (area t)) /\
    (forall k, k < N -> (sel k <-> st k /\ fate k Kept)) /\
    mer = map e_index (filter e_stable er) /\
    counts (fun k => k < N /\ ~ st k) unstable /\
    counts (fun k => k < N /\ st k /\ fate k Unstable) (st_bad s) /\
    counts (fun k => k < N /\ st k /\ fate k TooBig) (st_big s) /\
    counts (fun k => k < N /\ st k /\ fate k TooSmall) (st_small s) /\
    counts (fun k => k < N /\ st k /\ fate k Duplicate) (st_dup s) /\
    N = unstable + st_bad s + st_big s + st_small s + st_dup s + length mer.

  Lemma main_ok : exists res P val ner,
    mser_process variation vlt too_variable too_big too_small check_dups too_similar junk dims delta perm0 r0 im = Some res /\
    in_stable_order im (m_perm res) /\
    m_num_extremal res = length (m_er res) /\
    tree_ok (m_er res) /\ selection_ok (m_er res) (m_num_unstable res) (m_stats res) (m_mer res) /\
    Inv dims im (m_r res) P val (m_joins res) ner /\ all_joined dims im P /\ (forall p, P p <> None <-> p < length im) /\
    (forall k, k < length (m_er res) -> exb im P (e_index (nth k (m_er res) junk)) = true).
  Proof.
    unfold mser_process. destruct (sort_pixels_ok im perm0 Hval Lperm) as (perm & E1 & SO). rewrite E1. cbn [obind].
    destruct (union_ok dims im Hdims Hlen perm r0 SO Lr) as (r & joins & ner & P & val & E2 & I & AJ & HD).
    rewrite E2. cbn [obind]. rewrite Nat.add_1_r.
    set (R := regions im P perm).
    assert (RN : length R = ner + 1) by (eapply regions_number; eauto).
    destruct (extract_ok dims im Hlen r P val ner joins I HD junk (S ner) perm [] (map (fun g => Some (g_shortcut g)) r))
      as (link & X1 & X2 & X3 & X4 & X5).
    { intros i Hi. eapply perm_in; eauto. }
    { eapply perm_nodup; eauto. }
    { rewrite map_length. apply I. }
    { change (filter (exb im P) perm) with R. cbn [length]. lia. }
    rewrite X1. cbn [obind app length]. change (filter (exb im P) perm) with R in *.
    set (erA := ers im r junk 0 R). assert (LA : length erA = length R) by apply ers_length. rewrite LA.
    assert (ERA : forall k, k < length R -> nth k erA junk =
       mk_ereg k (nth k R 0) (v (nth k R 0)) (e_shortcut junk) (area_of r (nth k R 0)) (e_variation junk) (e_stable junk)).
    { intros k Hk. unfold erA. rewrite (ers_nth dims im Hlen r) by auto. reflexivity. }
    destruct (link_ok dims im Hdims Hlen r P val ner joins I AJ HD perm SO junk link X2) with (n := length R) (i := 0) (er := erA)
      as (er & Y1 & Y2 & Y3 & Y4); auto.
    { intros p Hp Ep. apply X4; auto. eapply perm_in; eauto. }
    { intros k Hk. rewrite ERA by auto. cbn. auto. }
    { intros k Hk. lia. }
    rewrite Y1. cbn [obind]. fold R in Y2, Y3, Y4.
    set (up := fun k => e_parent (nth k er junk)).
    set (value := fun k => e_value (nth k er junk)).
    set (area := fun k => e_area (nth k er junk)).
    assert (WF : forall i, i < length er -> up i < length er /\ i <= up i /\ (up i <> i -> value i < value (up i))).
    { intros i Hi. rewrite Y2 in Hi. destruct (Y4 i Hi) as (_ & LT).
      destruct (linked_wf dims im Hlen P val HD perm SO link X2 i (up i) Hi LT) as (W1 & W2 & W3 & W4).
      rewrite Y2. split; [exact W1|]. split; [exact W2|]. intro NE.
      destruct (Y3 i Hi) as (_ & V1 & _). destruct (Y3 (up i) W1) as (_ & V2 & _). unfold value. rewrite V1, V2.
      apply W4. intro Q. apply NE. apply W3. exact Q. }
    (* variations *)
    destruct (variations_ok variation junk er WF delta (length er) 0 er) as (er1 & Z1 & Z2 & Z3).
    { lia. }
    { split; [reflexivity|]. auto. }
    { intros k Hk. rewrite Y2 in Hk. destruct (Y4 k Hk) as (SK & _). rewrite SK. split; [constructor|lia]. }
    { intros k Hk. lia. }
    rewrite Z1. cbn [obind]. pose proof Z2 as [L1 F1].
    set (vr := fun k => e_variation (nth k er1 junk)).
    assert (NS1 : nstable er1 = length er1).
    { rewrite (nstable_fl junk). rewrite <- (seq_length (length er1) 0) at 2. f_equal.
      assert (H : forall k, In k (seq 0 (length er1)) -> fl junk er1 k = true).
      { intros k Hk. apply in_seq in Hk. apply Z3. lia. }
      revert H. generalize (seq 0 (length er1)). induction l as [|a l IH]; intro H; cbn; [reflexivity|].
      rewrite H by (cbn; auto). rewrite IH; [reflexivity|]. intros k Hk. apply H. cbn; auto. }
    destruct (select_ok variation vlt junk er WF vr (length er) 0 er1 (length er1)) as (er2 & S1 & S2 & S3).
    { lia. }
    { split; [exact Z2|]. auto. }
    { auto. }
    { intros k Hk. split; [intros _ j Hj; lia|intros _; apply Z3; lia]. }
    rewrite L1 in S1 |- *. rewrite S1. cbn [obind]. pose proof S2 as [[L2 F2] G2].
    destruct (filter_ok variation vlt junk er WF vr too_variable too_big too_small check_dups too_similar (length er) er2 (mk_stats 0 0 0 0) (le_n _) S2)
      as (er3 & s & T1 & T2 & T3 & T4 & T5 & T6).
    rewrite L2. rewrite T1. cbn [obind].
    rewrite save_ok by (cbn; unfold nstable; lia). cbn [obind app].
    pose proof T2 as [[L3 F3] G3].
    eexists. exists P, val, ner. split; [reflexivity|]. cbn [m_perm m_num_extremal m_er m_num_unstable m_stats m_mer m_r m_joins].
    split; [auto|]. split; [lia|].
    assert (UP : forall k, k < length er -> e_parent (nth k er3 junk) = up k) by (intros; apply F3; auto).
    assert (IX : forall k, k < length er -> e_index (nth k er3 junk) = nth k R 0).
    { intros k Hk. destruct (F3 k Hk) as (_ & -> & _). apply Y3. lia. }
    assert (VL : forall k, k < length er -> e_value (nth k er3 junk) = v (nth k R 0)).
    { intros k Hk. destruct (F3 k Hk) as (_ & _ & -> & _). apply Y3. lia. }
    assert (AR : forall k, k < length er -> e_area (nth k er3 junk) = area_of r (nth k R 0)).
    { intros k Hk. destruct (F3 k Hk) as (_ & _ & _ & ->). apply Y3. lia. }
    assert (RE : forall k, k < length er -> exb im P (nth k R 0) = true).
    { intros k Hk. eapply regions_in; eauto. apply nth_In. fold R. lia. }
    assert (RT : forall k, k < length er -> nth k R 0 < length im /\ top_at im P (v (nth k R 0)) (nth k R 0)).
    { intros k Hk. exact (proj1 (exb_spec im P HD (nth k R 0)) (RE k Hk)). }
    split; [|split; [|split; [exact I|split; [exact AJ|split; [exact HD|]]]]].
    3: { intros k Hk. rewrite IX by lia. apply RE. lia. }
    - (* the tree *)
      unfold tree_ok. rewrite L3. cbn zeta. split; [|split].
      + intros k Hk. rewrite IX, VL, AR by auto. destruct (RT k Hk) as [Lk Tk]. split; [auto|]. split; [auto|].
        destruct (ar r (nth k R 0)) as [a|] eqn:Ea.
        2: { unfold ar in Ea. destruct (nth_error r (nth k R 0)) eqn:E; [discriminate|]. apply nth_error_None in E.
             rewrite (inv_len _ _ _ _ _ _ _ I) in E. lia. }
        destruct (inv_area _ _ _ _ _ _ _ I _ _ (proj2 (HD _) Lk) Ea) as (l & A & B & C).
        exists l. unfold area_of. rewrite Ea. split; [|auto]. split; [auto|]. intro q. rewrite B.
        apply (desc_component dims im Hlen r P val ner joins I AJ HD); auto.
      + intros p w Hp Vp.
        destruct (top_exists dims im Hdims Hlen r P val ner joins I AJ HD w p Hp Vp) as (a & A1 & A2).
        assert (La : a < length im) by (apply HD; exact (proj2 (anc_dom _ _ _ A1))).
        assert (Ea : exb im P a = true).
        { apply (exb_spec im P HD). split; [auto|]. destruct A2 as [V1 [Q|(q & Q1 & Q2)]]; (split; [auto|]); [auto|].
          right. exists q. split; [auto|]. unfold v in *. lia. }
        destruct (exb_pos dims im Hlen P val HD perm SO a Ea) as (k & K1 & K2). fold R in K1, K2.
        assert (CA : forall q, connected dims im w p q <-> connected dims im (v a) a q).
        { intro q. assert (T0 : top_at im P (v a) a) by (apply (exb_spec im P HD) in Ea; tauto).
          rewrite <- (desc_component dims im Hlen r P val ner joins I AJ HD (v a) a La T0).
          rewrite (desc_component dims im Hlen r P val ner joins I AJ HD w a La A2).
          assert (PA : connected dims im w a p) by (apply (desc_component dims im Hlen r P val ner joins I AJ HD w a La A2); auto).
          split; intro C; [eapply conn_trans; eauto|]. eapply conn_trans; [apply conn_sym; exact PA|exact C]. }
        exists k. rewrite <- K2 in CA, A2. split.
        * split; [lia|]. rewrite IX, VL by lia. split; [exact (proj1 A2)|exact CA].
        * intros k' Hk' CK. rewrite IX, VL in CK by lia.
          destruct (RT k' Hk') as [Lk' Tk']. destruct (RT k ltac:(lia)) as [Lk Tk].
          assert (Q1 : anc P (nth k' R 0) (nth k R 0)).
          { apply (desc_component dims im Hlen r P val ner joins I AJ HD _ _ Lk Tk). apply CA, CK. constructor; auto. }
          assert (Q2 : anc P (nth k R 0) (nth k' R 0)).
          { apply (desc_component dims im Hlen r P val ner joins I AJ HD _ _ Lk' Tk'). apply CK, CA. constructor; auto. }
          destruct (one_root dims im Hdims Hlen r P val ner joins I AJ HD) as (x & RX & AX).
          pose proof (anc_antisym P _ _ x Q1 Q2 (AX _ Lk') RX) as EQ.
          apply (proj1 (NoDup_nth R 0) (regions_nodup im P perm SO)); auto; lia.
      + intros k Hk. destruct (WF k Hk) as (W1 & W2 & W3). rewrite UP by auto. split; [auto|].
        destruct (Y4 k ltac:(lia)) as (_ & LT).
        destruct (linked_wf dims im Hlen P val HD perm SO link X2 k (up k) ltac:(fold R; lia) LT) as (_ & _ & RW & NRW).
        destruct LT as (_ & q & Q1 & Q2 & Q3).
        destruct (RT k Hk) as [Lk Tk]. rewrite (IX k), (VL k), (IX (up k)), (VL (up k)) by auto.
        fold R in Q1, Q2, Q3, RW, NRW. fold (up k) in Q2, Q3.
        destruct (Nat.eq_dec q (nth k R 0)) as [->|NQ].
        * left. split; [auto|]. intros s' Hs.
          apply (desc_component dims im Hlen r P val ner joins I AJ HD _ _ Lk Tk).
          destruct (one_root dims im Hdims Hlen r P val ner joins I AJ HD) as (x & RX & AX).
          rewrite (anc_root P _ _ Q1 (AX _ Lk)) in AX. auto.
        * right. assert (LTV : v (nth k R 0) < v (nth (up k) R 0)) by (apply NRW; congruence).
          split. { destruct (Nat.eq_dec (up k) k) as [E|E]; [rewrite E in LTV; lia|lia]. }
          split; [exact LTV|]. split.
          -- destruct (RT (up k) W1) as [Lu Tu].
             apply (desc_component dims im Hlen r P val ner joins I AJ HD _ _ Lu Tu). eapply anc_step; eauto.
          -- intros w s' Hw1 Hw2. apply (region_component dims im Hlen r P val ner joins I AJ HD perm SO); auto; [fold R; lia|].
             split; [exact Hw1|]. right. exists q. split; [auto|]. change (v (nth (up k) R 0) = v q) in Q3. change (w < v q). rewrite <- Q3. exact Hw2.
    - (* the selection *)
      unfold selection_ok. rewrite L3. cbn zeta.
      assert (UPx : forall k, k < length er -> e_parent (nth k er3 junk) = up k) by auto.
      assert (VLx : forall k, k < length er -> e_value (nth k er3 junk) = value k) by (intros; apply F3; auto).
      assert (ARx : forall k, k < length er -> e_area (nth k er3 junk) = area k) by (intros; apply F3; auto).
      assert (VRx : forall k, k < length er -> e_variation (nth k er3 junk) = vr k) by (intros; apply G3; auto).
      set (up3 := fun k => e_parent (nth k er3 junk)). set (value3 := fun k => e_value (nth k er3 junk)).
      set (area3 := fun k => e_area (nth k er3 junk)). set (var3 := fun k => e_variation (nth k er3 junk)).
      (* the same notions on er and er3 *)
      assert (AB : forall i j, i < length er -> (above up i j <-> above up3 i j)).
      { intros i j Hi. split; intro A.
        - induction A as [|j A IH]; [constructor|]. destruct (above_in junk er WF i j Hi A) as (J & _). fold up in J.
          change (above up3 i (up j)). rewrite <- (UPx j J). now apply (ab_step up3).
        - induction A as [|j A IH]; [constructor|]. destruct (above_in junk er WF i j Hi IH) as (J & _).
          unfold up3. rewrite (UPx j J). now constructor. }
      assert (ST : forall k, k < length er -> (stable (length er) up3 value3 vlt var3 k <-> stable (length er) up value vlt vr k)).
      { intros k Hk. destruct (WF k Hk) as (W1 & _). unfold stable, up3, value3, var3.
        rewrite (UPx k Hk), (VLx k Hk), (VRx k Hk), (VLx _ W1), (VRx _ W1).
        split; intros [H1 H2]; (split; [exact H1|]); intros j Hj E Hv.
        - specialize (H2 j Hj). rewrite (UPx j Hj), (VLx j Hj), (VRx j Hj) in H2. auto.
        - rewrite (UPx j Hj) in E. rewrite (VLx j Hj) in Hv. rewrite (VRx j Hj). auto. }
      assert (NE : forall sel p t, p < length er -> (nearest up sel p t <-> nearest up3 sel p t)).
      { intros sel p t Hp. unfold nearest. rewrite (AB p t Hp). split; intros (A1 & A2 & A3); (split; [auto|]).
        - assert (Ht : t < length er) by (apply AB in A1; auto; now apply (above_in junk er WF p t Hp)).
          unfold up3 at 1. rewrite (UPx t Ht). split; [auto|]. intros s' B1 B2. apply AB in B1; auto.
          apply AB in B2; [auto|]. now apply (above_in junk er WF p s' Hp).
        - assert (Ht : t < length er) by (apply AB in A1; auto; now apply (above_in junk er WF p t Hp)).
          unfold up3 in A2 at 1. rewrite (UPx t Ht) in A2. split; [auto|]. intros s' B1 B2.
          assert (Hs : s' < length er) by now apply (above_in junk er WF p s' Hp).
          apply AB in B1; auto. apply AB in B2; auto. }
      assert (FT : forall sel k w, k < length er ->
         (has_fate up area vr too_variable too_big too_small check_dups too_similar sel k w <->
          has_fate up3 area3 var3 too_variable too_big too_small check_dups too_similar sel k w)).
      { intros sel k w Hk. destruct (WF k Hk) as (W1 & _).
        assert (DU : duplicate up area check_dups too_similar sel k <-> duplicate up3 area3 check_dups too_similar sel k).
        { assert (EU : up3 k = up k) by (apply UPx; auto). assert (EA : forall t, t < length er -> area3 t = area t) by exact ARx.
          unfold duplicate. rewrite EU, (EA k Hk).
          split; intros (D1 & D2 & t & D3 & D4); (split; [auto|]); (split; [auto|]); exists t.
          - assert (Ht : t < length er) by (apply (above_in junk er WF (up k) t W1); apply D3).
            rewrite (EA t Ht). split; [|auto]. apply NE; auto.
          - apply NE in D3; auto.
            assert (Ht : t < length er) by (apply (above_in junk er WF (up k) t W1); apply D3).
            rewrite (EA t Ht) in D4. auto. }
        unfold has_fate. fold (duplicate up area check_dups too_similar sel k).
        unfold var3. rewrite (VRx k Hk). change (area3 k) with (e_area (nth k er3 junk)). rewrite (ARx k Hk).
        destruct w; rewrite ?DU; tauto. }
      assert (FS : forall k, k < length er -> (fl junk er2 k = true <-> stable (length er) up value vlt vr k)).
      { intros k Hk. rewrite S3 by auto. apply (loser_stable vlt junk er vr k Hk). }
      split; [|split; [|split; [reflexivity|split]]].
      + intros k Hk. destruct (Z3 k Hk) as (_ & t & (T7 & T8 & T9) & T10). exists t.
        assert (Ht : t < length er) by now apply (above_in junk er WF k t Hk).
        unfold top_of. rewrite <- (AB k t Hk). destruct (WF t Ht) as (W1 & _).
        unfold up3, value3. rewrite (UPx t Ht), (VLx k Hk), (VLx t Ht), (VLx _ W1), (VRx k Hk), (ARx k Hk), (ARx t Ht).
        split; [|exact T10]. split; [exact T7|]. split; [exact T8|exact T9].
      + intros k Hk. change (e_stable (nth k er3 junk) = true) with (fl junk er3 k = true).
        rewrite T4 by auto. rewrite FS by auto. rewrite ST by auto.
        pose proof (FT (fun k => fl junk er3 k = true) k Kept Hk) as X.
        split; intros [A B]; (split; [exact A|apply X; exact B]).
      + exists (filter (fun k => negb (fl junk er2 k)) (seq 0 (length er))). split; [apply NoDup_filter, seq_NoDup|].
        split.
        * intro k. rewrite filter_In, in_seq, negb_true_iff. cbn [Nat.add]. split.
          -- intros [Q1 Q2]. split; [lia|]. rewrite ST, <- FS by lia. congruence.
          -- intros [Q1 Q2]. split; [lia|]. rewrite ST, <- FS in Q2 by lia. now destruct (fl junk er2 k).
        * pose proof (filter_neg (fl junk er2) (seq 0 (length er))) as X. rewrite seq_length in X.
          rewrite (nstable_fl junk er2), L2. lia.
      + assert (CT : forall w, w <> Kept -> counts (fun k => k < length er /\ stable (length er) up3 value3 vlt var3 k /\
             has_fate up3 area3 var3 too_variable too_big too_small check_dups too_similar (fun k => e_stable (nth k er3 junk) = true) k w) (counter s w)).
        { intros w Nw. destruct (T5 w Nw) as (c & C1 & l & C2 & C3 & C4). exists l. split; [auto|]. split.
          - intro k. rewrite C3. split.
            + intros (Q1 & Q2 & Q3). split; [auto|]. rewrite ST, <- FS by auto. split; [auto|]. now apply FT.
            + intros (Q1 & Q2 & Q3). split; [auto|]. rewrite ST, <- FS in Q2 by auto. split; [auto|]. now apply FT.
          - rewrite C1. destruct w; cbn; lia. }
        split; [exact (CT Unstable ltac:(discriminate))|]. split; [exact (CT TooBig ltac:(discriminate))|].
        split; [exact (CT TooSmall ltac:(discriminate))|]. split; [exact (CT Duplicate ltac:(discriminate))|].
        rewrite map_length. fold (nstable er3). unfold total in T6. cbn in T6.
        pose proof (filter_neg (fl junk er2) (seq 0 (length er))) as X. rewrite seq_length in X.
        pose proof (nstable_fl junk er2) as Y. rewrite L2 in Y. lia.
  Qed.
End Main.
