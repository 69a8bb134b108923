(** Proofs about the searcher list: the links always spell the live searchers
    in creation order. *)
From Coq Require Import List Arith Lia Permutation.
From Verif Require Import Base KdSearchers_Model KdSearchers_Spec.
Import ListNotations.

Definition hdo (l : list nat) (n : option nat) : option nat :=
  match l with [] => n | b :: _ => Some b end.

Fixpoint lasto (p : option nat) (l : list nat) : option nat :=
  match l with [] => p | a :: t => lasto (Some a) t end.

(** [seg m p l n] : the objects [l] are linked in this order, with [p] before
    and [n] after. *)
Fixpoint seg (m : nat -> option snode) (p : option nat) (l : list nat) (n : option nat) : Prop :=
  match l with
  | [] => True
  | a :: t => m a = Some (mk_snode (hdo t n) p) /\ seg m (Some a) t n
  end.

Definition sinv (f : sforest) (l : list nat) : Prop :=
  NoDup l /\ f_head f = hdo l None /\ f_num f = length l /\
  seg (f_mem f) None l None /\ (forall b, ~ In b l -> f_mem f b = None).

Lemma mset_eq m a v : mset m a v a = v.
Proof. unfold mset. now rewrite Nat.eqb_refl. Qed.
Lemma mset_neq m a b v : b <> a -> mset m a v b = m b.
Proof. intro H. unfold mset. destruct (Nat.eqb_spec b a); congruence. Qed.

Lemma seg_ext m m' n l : forall p, (forall a, In a l -> m' a = m a) -> seg m p l n -> seg m' p l n.
Proof.
  induction l as [|a t IH]; cbn; intros p H; auto. intros [H1 H2].
  split; [rewrite H; auto|]. apply IH; auto.
Qed.

Lemma hdo_app l1 l2 n : hdo (l1 ++ l2) n = hdo l1 (hdo l2 n).
Proof. destruct l1; reflexivity. Qed.

Lemma seg_app m l1 l2 n : forall p,
  seg m p (l1 ++ l2) n <-> seg m p l1 (hdo l2 n) /\ seg m (lasto p l1) l2 n.
Proof.
  induction l1 as [|x t IH]; intros p; cbn [app seg lasto]; [tauto|].
  rewrite IH, hdo_app. tauto.
Qed.

Lemma lasto_app p l a : lasto p (l ++ [a]) = Some a.
Proof. revert p; induction l; cbn; auto. Qed.

Lemma find_last_seg m l : forall p a fuel, seg m p (a :: l) None -> length l < fuel ->
  find_last fuel m a = lasto (Some a) l.
Proof.
  induction l as [|b t IH]; intros p a fuel [H1 H2] Hf; (destruct fuel; [cbn in Hf; lia|]);
    cbn [find_last]; rewrite H1; cbn [obind s_next hdo lasto].
  - reflexivity.
  - apply (IH (Some a) b fuel H2). cbn in Hf; lia.
Qed.

Lemma snoc_cases (l : list nat) : l = [] \/ exists l' x, l = l' ++ [x].
Proof. destruct l using rev_ind; eauto. Qed.

Lemma NoDup_mid l1 (a : nat) l2 : NoDup (l1 ++ a :: l2) ->
  NoDup (l1 ++ l2) /\ ~ In a l1 /\ ~ In a l2.
Proof.
  intro H. pose proof (NoDup_remove_1 _ _ _ H). pose proof (NoDup_remove_2 _ _ _ H) as X.
  split; auto. split; intro; apply X, in_or_app; auto.
Qed.

Lemma NoDup_snoc (l : list nat) a : NoDup l -> ~ In a l -> NoDup (l ++ [a]).
Proof.
  intros H1 H2. apply (Permutation_NoDup (Permutation_cons_append l a)). now constructor.
Qed.

Lemma new_ok f l a : sinv f l -> ~ In a l ->
  exists f', new_searcher f a = Some f' /\ sinv f' (l ++ [a]).
Proof.
  intros (ND & Hh & Hn & HL & Hf) Ha. unfold new_searcher.
  rewrite (Hf a Ha). pose proof (NoDup_snoc _ _ ND Ha) as ND2.
  destruct (snoc_cases l) as [->|(t & last & ->)].
  - rewrite Hn. cbn [length Nat.eqb]. eexists. split; [reflexivity|].
    split; [exact ND2|].
    cbn [app hdo length f_head f_num f_mem seg]. rewrite mset_eq. repeat split; auto.
    intros b Hb. rewrite mset_neq; [|cbn in Hb; intuition congruence]. apply Hf, in_nil.
  - destruct (Nat.eqb_spec (f_num f) 0) as [E|_].
    { rewrite app_length in Hn; cbn in Hn; lia. }
    assert (HL0 : seg (mset (f_mem f) a (Some (mk_snode None None))) None (t ++ [last]) None).
    { eapply seg_ext; [|exact HL]. intros b Hb. apply mset_neq. intro; subst; auto. }
    assert (Hh' : exists h r, t ++ [last] = h :: r) by (destruct t; cbn; eauto).
    destruct Hh' as (h & r & E). rewrite Hh, E. cbn [hdo obind].
    rewrite (find_last_seg _ r None h) by (rewrite <- ?E; auto; rewrite Hn, E; cbn; lia).
    assert (El : lasto (Some h) r = Some last).
    { change (lasto None (h :: r) = Some last). rewrite <- E. apply lasto_app. }
    rewrite El. cbn [obind].
    assert (Hla : last <> a).
    { intro; subst; apply Ha, in_or_app; right; now left. }
    assert (Hlt : ~ In last t) by (apply NoDup_mid in ND; tauto).
    rewrite mset_neq by auto.
    apply seg_app in HL. destruct HL as [HL1 [HL2 _]]. rewrite HL2. cbn [obind s_previous].
    eexists. split; [reflexivity|]. rewrite <- ?E.
    split; [exact ND2|]. cbn [f_head f_num f_mem]. split; [|split; [|split]].
    + rewrite hdo_app, E. reflexivity.
    + rewrite Hn, (app_length (t ++ [last])). reflexivity.
    + rewrite <- app_assoc. apply seg_app. split.
      * eapply seg_ext; [|exact HL1]. intros b Hb.
        assert (b <> a) by (intro; subst; apply Ha, in_or_app; now left).
        assert (b <> last) by (intro; subst; auto).
        now rewrite !mset_neq by auto.
      * cbn [app seg hdo]. rewrite mset_eq, (mset_neq _ a last), mset_eq by auto. auto.
    + intros b Hb. assert (b <> a) by (intro; subst; apply Hb, in_or_app; right; now left).
      assert (Hb2 : ~ In b (t ++ [last])) by (intro; apply Hb, in_or_app; now left).
      assert (b <> last) by (intro; subst; apply Hb2, in_or_app; right; now left).
      rewrite !mset_neq by auto. auto.
Qed.

Lemma delete_ok f l1 a l2 : sinv f (l1 ++ a :: l2) ->
  exists f', searcher_delete f a = Some f' /\ sinv f' (l1 ++ l2).
Proof.
  intros (ND & Hh & Hn & HL & Hf). unfold searcher_delete.
  pose proof (NoDup_mid _ _ _ ND) as (ND' & Ha1 & Ha2).
  apply seg_app in HL. destruct HL as [HL1 [Ha HL2]]. cbn [hdo] in HL1.
  rewrite Ha. cbn [obind s_previous s_next].
  assert (Hnum : f_num f <> 0) by (rewrite Hn, app_length; cbn; lia).
  assert (Hfree : forall b, ~ In b (l1 ++ l2) -> b <> a -> f_mem f b = None).
  { intros b Hb Hba. apply Hf. intro X. apply Hb. apply in_app_or in X. apply in_or_app.
    destruct X as [X|[X|X]]; auto. congruence. }
  assert (Hlen : f_num f - 1 = length (l1 ++ l2)).
  { rewrite Hn, !app_length. cbn. lia. }
  assert (E0 : (f_num f =? 0) = false) by (apply Nat.eqb_neq; auto).
  destruct (snoc_cases l1) as [->|(t1 & p & ->)].
  - cbn [app lasto] in *. destruct l2 as [|q t2]; cbn [hdo obind].
    + rewrite E0. eexists. split; [reflexivity|].
      split; [auto|]. cbn. repeat split; auto.
      intros b Hb. unfold mset. destruct (Nat.eqb_spec b a); auto.
    + cbn [seg] in HL2. destruct HL2 as [Hq HL2]. rewrite Hq. cbn [obind].
      rewrite E0. eexists. split; [reflexivity|].
      split; [auto|]. cbn [f_head f_num f_mem hdo s_next]. repeat split; auto.
      * rewrite mset_neq, mset_eq; auto. intro; subst; apply Ha2; now left.
      * eapply seg_ext; [|exact HL2]. intros b Hb.
        rewrite !mset_neq; auto.
        -- inversion ND'; subst. intro; subst; auto.
        -- intro; subst; apply Ha2; now right.
      * intros b Hb. unfold mset at 1. destruct (Nat.eqb_spec b a); auto.
        rewrite mset_neq; auto. intro; subst; apply Hb; now left.
  - rewrite lasto_app in *. apply seg_app in HL1. destruct HL1 as [HL1 [Hp _]].
    cbn [hdo] in Hp, HL1.
    assert (Hpa : p <> a) by (intro; subst; apply Ha1, in_or_app; right; now left).
    assert (Hpt : ~ In p t1 /\ ~ In p l2).
    { rewrite <- app_assoc in ND'. apply NoDup_mid in ND'. tauto. }
    destruct l2 as [|q t2]; cbn [hdo].
    + rewrite Hp. cbn [obind]. rewrite E0. eexists. split; [reflexivity|].
      split; [auto|]. cbn [f_head f_num f_mem]. split; [|split; [|split]]; auto.
      * rewrite Hh. destruct t1; reflexivity.
      * rewrite app_nil_r. apply seg_app. cbn [seg hdo s_previous]. split; [|split; auto].
        -- eapply seg_ext; [|exact HL1]. intros b Hb. rewrite !mset_neq; auto.
           ++ intro; subst; tauto.
           ++ intro; subst; apply Ha1, in_or_app; now left.
        -- rewrite mset_neq, mset_eq; auto.
      * intros b Hb. unfold mset at 1. destruct (Nat.eqb_spec b a); auto.
        rewrite mset_neq; auto. intro; subst; apply Hb. rewrite app_nil_r. apply in_or_app; right; now left.
    + cbn [seg] in HL2. destruct HL2 as [Hq HL2]. rewrite Hp. cbn [obind].
      assert (Hqp : q <> p) by (intro; subst; apply (proj2 Hpt); now left).
      assert (Hqa : q <> a) by (intro; subst; apply Ha2; now left).
      assert (Hq1 : ~ In q t1 /\ ~ In q t2).
      { rewrite <- app_assoc in ND'. cbn in ND'. change (p :: q :: t2) with ([p] ++ q :: t2) in ND'.
        rewrite app_assoc in ND'. apply NoDup_mid in ND'.
        split; [|tauto]. intro. apply (proj1 (proj2 ND')), in_or_app; now left. }
      rewrite mset_neq, Hq by auto. cbn [obind]. rewrite E0.
      eexists. split; [reflexivity|].
      split; [auto|]. cbn [f_head f_num f_mem]. split; [|split; [|split]]; auto.
      * rewrite Hh. destruct t1; reflexivity.
      * apply seg_app. split; [apply seg_app; split|]; cbn [seg hdo s_previous s_next].
        -- eapply seg_ext; [|exact HL1]. intros b Hb. rewrite !mset_neq; auto.
           ++ intro; subst; tauto.
           ++ intro; subst; tauto.
           ++ intro; subst; apply Ha1, in_or_app; now left.
        -- split; auto. rewrite mset_neq, mset_neq, mset_eq; auto.
        -- rewrite lasto_app. split.
           ++ rewrite mset_neq, mset_eq; auto.
           ++ eapply seg_ext; [|exact HL2]. intros b Hb. rewrite !mset_neq; auto.
              ** intro; subst. apply (proj2 Hpt). now right.
              ** intro; subst; tauto.
              ** intro; subst; apply Ha2; now right.
      * intros b Hb. unfold mset at 1. destruct (Nat.eqb_spec b a); auto.
        rewrite !mset_neq; auto; intro; subst; apply Hb, in_or_app.
        -- left; apply in_or_app; right; now left.
        -- right; now left.
Qed.

Lemma srun_ok ops : forall f l l', sinv f l -> live_after l ops l' ->
  exists f', srun f ops = Some f' /\ sinv f' l'.
Proof.
  induction ops as [|o r IH]; intros f l l' I H; inversion H; subst; cbn [srun sstep].
  - eauto.
  - destruct (new_ok _ _ a I) as (f1 & -> & I1); auto. cbn [obind]. eauto.
  - destruct (delete_ok _ _ _ _ I) as (f1 & -> & I1). cbn [obind]. eauto.
Qed.

Lemma get_from_ok m l : forall p pos, seg m p l None ->
  get_from m (hdo l None) pos = Some (nth_error l pos).
Proof.
  induction l as [|a t IH]; intros p pos H; cbn [hdo].
  - destruct pos; reflexivity.
  - destruct H as [H1 H2]. destruct pos; cbn [get_from nth_error]; [reflexivity|].
    rewrite H1. cbn [obind s_next]. eauto.
Qed.

Lemma get_ok f l pos : sinv f l -> get_searcher f pos = Some (nth_error l pos).
Proof.
  intros (_ & Hh & _ & HL & _). unfold get_searcher. rewrite Hh. eapply get_from_ok; eauto.
Qed.

Lemma delete_all_ok l : forall f fuel, sinv f l -> length l < fuel ->
  exists f', delete_all fuel f = Some f' /\ sinv f' [].
Proof.
  induction l as [|a t IH]; intros f fuel I Hf; (destruct fuel; [cbn in Hf; lia|]); cbn [delete_all];
    rewrite (get_ok _ _ 0 I); cbn [obind nth_error].
  - eauto.
  - destruct (delete_ok f [] a t I) as (f1 & -> & I1). cbn [obind app] in *.
    apply IH; auto. cbn in Hf; lia.
Qed.

Lemma sinv_new : sinv sforest_new [].
Proof. repeat split; auto. constructor. Qed.
