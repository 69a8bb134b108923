(** The levels of a scale space: proofs. *)
From Coq Require Import ZArith Reals Lra Lia Bool Arith.
From Verif Require Import Base Loop ScaleBuild_Model ScaleBuild_Spec.
Local Open Scope R_scope.

Section Proofs.
Context {A : Type} (down : Z -> A -> A) (up : A -> A) (smooth : R -> A -> A) (at_ : Z -> R -> A -> Prop).
Hypothesis HS : sampled down up smooth at_.
Variable g : space_geometry.
Hypothesis Hfl : (g_first g <= g_last g)%Z.
Hypothesis Hres : (1 <= g_res g)%Z.
Hypothesis Hsub : (g_fsub g <= g_lsub g)%Z.
Hypothesis Hbase : 0 <= g_base g.
Hypothesis Hnom : 0 <= g_nominal g.
Hypothesis Hlast : (0 <= g_last g)%Z.
Let sg (o s : Z) : R := nominal (g_base g) (g_res g) o s.
Let v2 (o s : Z) : R := sg o s * sg o s.

Lemma level_sigma_nominal o s : level_sigma g o s = sg o s.
Proof. reflexivity. Qed.
Lemma step_pow o : octave_step o = powerRZ 2 o.
Proof. unfold octave_step. symmetry. apply powerRZ_Rpower. lra. Qed.
Lemma res_pos : 0 < IZR (g_res g).
Proof. apply IZR_lt. lia. Qed.
Lemma sg_nonneg o s : 0 <= sg o s.
Proof. unfold sg, nominal. apply Rmult_le_pos; [exact Hbase|]. left. apply exp_pos. Qed.
Lemma sg_mono o s o' s' : (o * g_res g + s <= o' * g_res g + s')%Z -> sg o s <= sg o' s'.
Proof.
  intro H. unfold sg, nominal. apply Rmult_le_compat_l; [exact Hbase|]. pose proof res_pos as P.
  assert (X : (IZR o + IZR s / IZR (g_res g)) * ln 2 <= (IZR o' + IZR s' / IZR (g_res g)) * ln 2).
  { apply Rmult_le_compat_r; [left; apply ln_lt_2 || (rewrite <- ln_1; apply ln_increasing; lra)|].
    apply IZR_le in H. rewrite !plus_IZR, !mult_IZR in H.
    replace (IZR o + IZR s / IZR (g_res g)) with ((IZR o * IZR (g_res g) + IZR s) / IZR (g_res g)) by (field; lra).
    replace (IZR o' + IZR s' / IZR (g_res g)) with ((IZR o' * IZR (g_res g) + IZR s') / IZR (g_res g)) by (field; lra).
    apply Rmult_le_compat_r; [left; now apply Rinv_0_lt_compat|exact H]. }
  destruct X as [X|X]; [left; now apply exp_increasing|rewrite X; lra].
Qed.
Lemma v2_mono o s o' s' : (o * g_res g + s <= o' * g_res g + s')%Z -> v2 o s <= v2 o' s'.
Proof. intro H. pose proof (sg_mono _ _ _ _ H). pose proof (sg_nonneg o s). unfold v2. nra. Qed.

(** smoothing by the missing amount *)
Lemma smooth_more o v a x y : 0 <= x -> 0 <= y -> x * x <= y * y -> at_ o v a ->
  at_ o (v + (y * y - x * x)) (smooth (sqrt (y * y - x * x) / octave_step o) a).
Proof.
  intros X Y L H. pose proof (powerRZ_lt 2 o ltac:(lra)) as P.
  assert (D : 0 <= sqrt (y * y - x * x) / octave_step o).
  { rewrite step_pow. apply Rmult_le_pos; [apply sqrt_pos|]. left. now apply Rinv_0_lt_compat. }
  pose proof (sampled_smooth _ _ _ _ HS o v a _ D H) as S. rewrite step_pow in *.
  replace (sqrt (y * y - x * x) / powerRZ 2 o * powerRZ 2 o * (sqrt (y * y - x * x) / powerRZ 2 o * powerRZ 2 o)) with (sqrt (y * y - x * x) * sqrt (y * y - x * x)) in S by (field; lra).
  rewrite sqrt_sqrt in S by lra. exact S.
Qed.

Definition good (o s : Z) : Prop := (g_first g <= o <= g_last g)%Z /\ (g_fsub g <= s <= g_lsub g)%Z.
Lemma valid_good o s : good o s -> valid_level g o s = true.
Proof. intros [H1 H2]. unfold valid_level. rewrite !andb_true_iff, !Z.leb_le. lia. Qed.
Lemma get_ok (st : levels (A := A)) o s : good o s -> get_level g st o s = Some (st o s).
Proof. intro H. unfold get_level. now rewrite valid_good. Qed.
Lemma set_ok (st : levels) o s (a : A) : good o s -> exists st', set_level g st o s a = Some st' /\ st' o s = a /\ forall o' s', (o' <> o \/ s' <> s) -> st' o' s' = st o' s'.
Proof.
  intro H. unfold set_level. rewrite valid_good by exact H. eexists. split; [reflexivity|]. split.
  - now rewrite !Z.eqb_refl.
  - intros o' s' N. destruct (Z.eqb_spec o' o), (Z.eqb_spec s' s); cbn [andb]; try reflexivity. destruct N; contradiction.
Qed.

(** the first level of an octave gives the others, and nothing else changes *)
Lemma fill_ok o st e : (g_first g <= o <= g_last g)%Z -> at_ o (v2 o (g_fsub g) + e) (st o (g_fsub g)) ->
  exists st', fill_octave smooth g o st = Some st' /\ (forall s, (g_fsub g <= s <= g_lsub g)%Z -> at_ o (v2 o s + e) (st' o s)) /\
    forall o' s, o' <> o -> st' o' s = st o' s.
Proof.
  intros Ho H. unfold fill_octave.
  destruct (iter_inv (fun i (st' : levels) => (forall s, (g_fsub g <= s <= g_fsub g + Z.of_nat i)%Z -> at_ o (v2 o s + e) (st' o s)) /\ forall o' s, o' <> o -> st' o' s = st o' s)
    (fill_step smooth g o) (Z.to_nat (g_lsub g - g_fsub g)) st) as (st' & E & H1 & H2).
  - split; [|auto]. intros s Hs. replace s with (g_fsub g) by lia. exact H.
  - intros i st1 Li [I1 I2]. unfold fill_step. cbv zeta. set (s := (g_fsub g + 1 + Z.of_nat i)%Z).
    rewrite get_ok by (split; unfold s; lia). cbn [obind]. rewrite !level_sigma_nominal.
    destruct (set_ok st1 o s (smooth (sqrt (sg o s * sg o s - sg o (s - 1) * sg o (s - 1)) / octave_step o) (st1 o (s - 1)%Z))) as (st2 & E2 & V2 & O2); [split; unfold s; lia|].
    exists st2. split; [exact E2|]. split.
    + intros s' Hs'. destruct (Z.eq_dec s' s) as [->|N].
      * rewrite V2. replace (v2 o s + e) with (v2 o (s - 1) + e + (sg o s * sg o s - sg o (s - 1) * sg o (s - 1))) by (unfold v2; ring).
        apply smooth_more; [apply sg_nonneg|apply sg_nonneg| |].
        -- apply (v2_mono o (s - 1) o s). lia.
        -- apply I1. unfold s. lia.
      * rewrite O2 by now right. apply I1. unfold s in N. lia.
    + intros o' s' N. rewrite O2 by now left. now apply I2.
  - exists st'. split; [exact E|]. split; [|exact H2]. intros s Hs. apply H1. lia.
Qed.

Definition excess : R := Rmax 0 (g_nominal g * g_nominal g - v2 (g_first g) (g_fsub g)).

Lemma start_image_ok image st : at_ 0 (g_nominal g * g_nominal g) image ->
  exists st', start_from_image down up smooth g image (g_first g) st = Some st' /\ at_ (g_first g) (v2 (g_first g) (g_fsub g) + excess) (st' (g_first g) (g_fsub g)).
Proof.
  intro H. unfold start_from_image. set (o := g_first g).
  replace ((o <=? o)%Z && (o <=? g_last g)%Z) with true by (symmetry; rewrite andb_true_iff, !Z.leb_le; unfold o; lia).
  destruct (set_ok st (Z.max 0 o) (g_fsub g) (down (Z.max 0 o) image)) as (st1 & E1 & V1 & _); [split; unfold o in *; lia|].
  rewrite E1. cbn [obind].
  assert (H1 : at_ (Z.max 0 o) (g_nominal g * g_nominal g) (st1 (Z.max 0 o) (g_fsub g))).
  { rewrite V1. replace (Z.max 0 o) with (0 + Z.max 0 o)%Z at 1 by lia. apply (sampled_down _ _ _ _ HS); [lia|exact H]. }
  destruct (iter_inv (fun i (st' : levels) => at_ (Z.max 0 o - Z.of_nat i)%Z (g_nominal g * g_nominal g) (st' (Z.max 0 o - Z.of_nat i)%Z (g_fsub g)))
    (up_step up g) (Z.to_nat (- o)) st1) as (st2 & E2 & H2).
  - replace (Z.max 0 o - Z.of_nat 0)%Z with (Z.max 0 o) by lia. exact H1.
  - intros i st' Li I. unfold up_step. cbv zeta. assert (M : Z.max 0 o = 0%Z) by lia. rewrite M in *.
    rewrite get_ok by (split; unfold o in *; lia). cbn [obind].
    destruct (set_ok st' (-1 - Z.of_nat i) (g_fsub g) (up (st' (-1 - Z.of_nat i + 1)%Z (g_fsub g)))) as (st3 & E3 & V3 & _); [split; unfold o in *; lia|].
    exists st3. split; [exact E3|]. replace (0 - Z.of_nat (i + 1))%Z with (-1 - Z.of_nat i)%Z by lia. rewrite V3.
    replace (-1 - Z.of_nat i + 1)%Z with (0 - Z.of_nat i)%Z by lia. replace (-1 - Z.of_nat i)%Z with (0 - Z.of_nat i - 1)%Z by lia.
    apply (sampled_up _ _ _ _ HS). exact I.
  - rewrite E2. cbn [obind]. replace (Z.max 0 o - Z.of_nat (Z.to_nat (- o)))%Z with o in H2 by lia.
    rewrite level_sigma_nominal. pose proof (sg_nonneg o (g_fsub g)) as P. destruct (Rlt_dec (g_nominal g) (sg o (g_fsub g))) as [L|L].
    + rewrite get_ok by (split; unfold o; lia). cbn [obind].
      destruct (set_ok st2 o (g_fsub g) (smooth (sqrt (sg o (g_fsub g) * sg o (g_fsub g) - g_nominal g * g_nominal g) / octave_step o) (st2 o (g_fsub g)))) as (st3 & E3 & V3 & _); [split; unfold o; lia|].
      exists st3. split; [exact E3|]. rewrite V3.
      assert (N : g_nominal g * g_nominal g <= sg o (g_fsub g) * sg o (g_fsub g)) by nra.
      replace (v2 o (g_fsub g) + excess) with (g_nominal g * g_nominal g + (sg o (g_fsub g) * sg o (g_fsub g) - g_nominal g * g_nominal g)).
      * apply smooth_more; auto.
      * unfold excess. fold o. rewrite Rmax_left by (unfold v2; lra). unfold v2. ring.
    + exists st2. split; [reflexivity|]. unfold excess. fold o. rewrite Rmax_right by (unfold v2; nra).
      replace (v2 o (g_fsub g) + (g_nominal g * g_nominal g - v2 o (g_fsub g))) with (g_nominal g * g_nominal g) by ring. exact H2.
Qed.

Lemma start_previous_ok o st e : (g_first g < o <= g_last g)%Z -> (forall s, (g_fsub g <= s <= g_lsub g)%Z -> at_ (o - 1)%Z (v2 (o - 1) s + e) (st (o - 1)%Z s)) ->
  exists st', start_from_previous down smooth g o st = Some st' /\ at_ o (v2 o (g_fsub g) + e) (st' o (g_fsub g)) /\ forall o' s, o' <> o -> st' o' s = st o' s.
Proof.
  intros Ho H. unfold start_from_previous.
  replace ((g_first g <? o)%Z && (o <=? g_last g)%Z) with true by (symmetry; rewrite andb_true_iff, Z.leb_le, Z.ltb_lt; lia). cbv zeta.
  set (k := Z.min (g_fsub g + g_res g) (g_lsub g)).
  rewrite get_ok by (split; unfold k; lia). cbn [obind].
  destruct (set_ok st o (g_fsub g) (down 1%Z (st (o - 1)%Z k))) as (st1 & E1 & V1 & O1); [split; lia|]. rewrite E1. cbn [obind].
  assert (H1 : at_ o (v2 (o - 1) k + e) (st1 o (g_fsub g))).
  { rewrite V1. replace o with (o - 1 + 1)%Z at 1 by lia. apply (sampled_down _ _ _ _ HS); [lia|]. apply H. unfold k. lia. }
  assert (M : v2 (o - 1) k <= v2 o (g_fsub g)) by (apply v2_mono; unfold k; nia).
  assert (M' : sg (o - 1) k <= sg o (g_fsub g)) by (apply sg_mono; unfold k; nia).
  change (level_sigma g o (g_fsub g)) with (sg o (g_fsub g)). change (level_sigma g (o - 1) k) with (sg (o - 1) k). destruct (Rlt_dec (sg (o - 1) k) (sg o (g_fsub g))) as [L|L].
  - rewrite get_ok by (split; lia). cbn [obind].
    destruct (set_ok st1 o (g_fsub g) (smooth (sqrt (sg o (g_fsub g) * sg o (g_fsub g) - sg (o - 1) k * sg (o - 1) k) / octave_step o) (st1 o (g_fsub g)))) as (st2 & E2 & V2 & O2); [split; lia|].
    exists st2. split; [exact E2|]. split.
    + rewrite V2. replace (v2 o (g_fsub g) + e) with (v2 (o - 1) k + e + (sg o (g_fsub g) * sg o (g_fsub g) - sg (o - 1) k * sg (o - 1) k)) by (unfold v2; ring).
      apply smooth_more; try apply sg_nonneg; [exact M|exact H1].
    + intros o' s N. rewrite O2 by now left. apply O1. now left.
  - exists st1. split; [reflexivity|]. split; [|intros; apply O1; now left].
    assert (EQ : sg (o - 1) k = sg o (g_fsub g)) by lra. unfold v2 in *. rewrite EQ in H1. exact H1.
Qed.

Lemma put_image_ok image st : at_ 0 (g_nominal g * g_nominal g) image ->
  exists st', put_image down up smooth g image st = Some st' /\
    forall o s, (g_first g <= o <= g_last g)%Z -> (g_fsub g <= s <= g_lsub g)%Z -> at_ o (v2 o s + excess) (st' o s).
Proof.
  intro H. unfold put_image.
  destruct (start_image_ok image st H) as (st1 & E1 & H1). rewrite E1. cbn [obind].
  destruct (fill_ok (g_first g) st1 excess ltac:(lia) H1) as (st2 & E2 & H2 & _). rewrite E2. cbn [obind].
  destruct (iter_inv (fun i (st' : levels) => forall o s, (g_first g <= o <= g_first g + Z.of_nat i)%Z -> (g_fsub g <= s <= g_lsub g)%Z -> at_ o (v2 o s + excess) (st' o s))
    (next_octave down smooth g) (Z.to_nat (g_last g - g_first g)) st2) as (st' & E & I).
  - intros o s Ho Hs. replace o with (g_first g) by lia. now apply H2.
  - intros i st3 Li I. unfold next_octave. cbv zeta. set (o := (g_first g + 1 + Z.of_nat i)%Z).
    destruct (start_previous_ok o st3 excess) as (st4 & E4 & H4 & O4); [unfold o; lia|intros s Hs; apply I; unfold o; lia|].
    rewrite E4. cbn [obind].
    destruct (fill_ok o st4 excess) as (st5 & E5 & H5 & O5); [unfold o; lia|exact H4|].
    exists st5. split; [exact E5|]. intros o' s Ho' Hs. destruct (Z.eq_dec o' o) as [->|N]; [now apply H5|].
    rewrite O5, O4 by exact N. apply I; [|exact Hs]. unfold o in N. lia.
  - exists st'. split; [exact E|]. intros o s Ho Hs. apply I; [lia|exact Hs].
Qed.
End Proofs.
