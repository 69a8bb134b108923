(** Properties of the construction of a scale space. *)
From Coq Require Import ZArith Reals Lra Lia Bool.
From Verif Require Import Base Loop ScaleBuild_Model ScaleBuild_Spec ScaleBuild_Proofs.
Local Open Scope R_scope.

(** C241.  For an image of the nominal scale of the geometry, the level s of the octave o is sampled with step 2^o and has the documented scale, in squares, plus the same excess for all levels: what the nominal scale exceeds that of the first level, none in general. *)
Theorem C241_levels {A : Type} (down : Z -> A -> A) up smooth (at_ : Z -> R -> A -> Prop) g image st : sampled down up smooth at_ ->
  (g_first g <= g_last g)%Z -> (1 <= g_res g)%Z -> (g_fsub g <= g_lsub g)%Z -> 0 <= g_base g -> 0 <= g_nominal g -> (0 <= g_last g)%Z ->
  at_ 0%Z (g_nominal g * g_nominal g) image ->
  exists st', put_image down up smooth g image st = Some st' /\
    forall o s, (g_first g <= o <= g_last g)%Z -> (g_fsub g <= s <= g_lsub g)%Z ->
      let n := nominal (g_base g) (g_res g) in let x := n (g_first g) (g_fsub g) in
      at_ o (n o s * n o s + Rmax 0 (g_nominal g * g_nominal g - x * x)) (st' o s).
Proof. intros HS H1 H2 H3 H4 H5 H6 H. exact (put_image_ok down up smooth at_ HS g H1 H2 H3 H4 H5 H6 image st H). Qed.
Print Assumptions C241_levels.

(** C241, continued: no excess if the first level is not finer than the image. *)
Theorem C241_exact {A : Type} (down : Z -> A -> A) up smooth (at_ : Z -> R -> A -> Prop) g image st : sampled down up smooth at_ ->
  (g_first g <= g_last g)%Z -> (1 <= g_res g)%Z -> (g_fsub g <= g_lsub g)%Z -> 0 <= g_base g -> 0 <= g_nominal g -> (0 <= g_last g)%Z ->
  g_nominal g <= nominal (g_base g) (g_res g) (g_first g) (g_fsub g) ->
  at_ 0%Z (g_nominal g * g_nominal g) image ->
  exists st', put_image down up smooth g image st = Some st' /\
    forall o s, (g_first g <= o <= g_last g)%Z -> (g_fsub g <= s <= g_lsub g)%Z ->
      let n := nominal (g_base g) (g_res g) o s in at_ o (n * n) (st' o s).
Proof.
  intros HS H1 H2 H3 H4 H5 H6 L H. destruct (C241_levels down up smooth at_ g image st HS H1 H2 H3 H4 H5 H6 H) as (st' & E & X).
  exists st'. split; [exact E|]. intros o s Ho Hs. specialize (X o s Ho Hs). cbv zeta in *.
  rewrite Rmax_left in X by nra. now rewrite Rplus_0_r in X.
Qed.
Print Assumptions C241_exact.

(** images as pairs of the octave of their step and their variance *)
Definition pdown (n : Z) (a : Z * R) : Z * R := ((fst a + n)%Z, snd a).
Definition pup (a : Z * R) : Z * R := ((fst a - 1)%Z, snd a).
Definition psmooth (sigma : R) (a : Z * R) : Z * R := (fst a, snd a + (sigma * powerRZ 2 (fst a)) * (sigma * powerRZ 2 (fst a))).
Definition pat (o : Z) (v : R) (a : Z * R) : Prop := a = (o, v).
Lemma psampled : sampled pdown pup psmooth pat.
Proof. split; unfold pat, pdown, pup, psmooth; intros; subst; reflexivity. Qed.
(** one octave of upsampling, base scale two, nominal scale one half *)
Definition doubled : space_geometry := mk_space (-1) 2 3 (-1) 4 2 (/ 2).
Example C241_ex : exists st', put_image pdown pup psmooth doubled (0%Z, / 2 * / 2) (fun _ _ => (0%Z, 0)) = Some st' /\ st' 2%Z 0%Z = (2%Z, 64).
Proof.
  assert (N0 : / 2 <= nominal 2 3 (-1) (-1)).
  { unfold nominal. assert (X : exp ((IZR (-1) + IZR (-1) / IZR 3) * ln 2) >= / 4).
    { apply Rle_ge. replace (/ 4) with (exp ((-2) * ln 2)).
      - left. apply exp_increasing. assert (0 < ln 2) by (rewrite <- ln_1; apply ln_increasing; lra). lra.
      - replace ((-2) * ln 2) with (- (ln 2 + ln 2)) by ring. rewrite exp_Ropp, exp_plus, exp_ln by lra. field. }
    lra. }
  destruct (C241_exact pdown pup psmooth pat doubled (0%Z, / 2 * / 2) (fun _ _ => (0%Z, 0)) psampled) as (st' & E & X);
    try (cbn; lia); try (cbn; lra); try exact N0; try reflexivity.
  exists st'. split; [exact E|]. specialize (X 2%Z 0%Z ltac:(cbn; lia) ltac:(cbn; lia)). cbv zeta in X. unfold pat in X. rewrite X. f_equal. cbn [g_base g_res doubled].
  unfold nominal. replace ((IZR 2 + IZR 0 / IZR 3) * ln 2) with (ln 2 + ln 2) by field. rewrite exp_plus, exp_ln by lra. ring.
Qed.

(** C242.  A valid geometry all of whose octaves are negative: the image is first copied to the octave zero, which does not exist. *)
Theorem C242_negative_refuted {A : Type} (down : Z -> A -> A) up smooth g image st : (g_first g <= g_last g)%Z -> (g_last g < 0)%Z ->
  put_image down up smooth g image st = None.
Proof.
  intros H L. unfold put_image, start_from_image.
  destruct ((g_first g <=? g_first g)%Z && (g_first g <=? g_last g)%Z); [|reflexivity].
  unfold set_level, valid_level. replace (Z.max 0 (g_first g)) with 0%Z by lia.
  replace (0 <=? g_last g)%Z with false by (symmetry; apply Z.leb_gt; exact L). rewrite andb_false_r. reflexivity.
Qed.
Print Assumptions C242_negative_refuted.
Example C242_ex : (g_first (mk_space (-1) (-1) 3 0 2 2 (/ 2)) <= g_last (mk_space (-1) (-1) 3 0 2 2 (/ 2)))%Z /\ (g_last (mk_space (-1) (-1) 3 0 2 2 (/ 2)) < 0)%Z.
Proof. cbn. lia. Qed.
