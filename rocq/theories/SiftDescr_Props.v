(** C120 to C132 and C52: gradients, orientations and descriptors of SIFT keypoints. *)
From Coq Require Import List Arith ZArith Lia Bool QArith Qcanon Qcabs Sorted.
Import ListNotations.
From Verif Require Import Base Loop Rat ImOp_Spec Kmeans_Spec MserSort_Proofs Gauss_Proofs Homker_Proofs KmeansEnergy_Proofs Sift_Model Sift_Spec Sift_Proofs Sift_Props
  SiftDescr_Spec SiftDescr_Model SiftDescr_Proofs.
From Verif Require Gauss_Model SiftDetect_Model SiftDetect_Spec SiftDetect_Props.
Local Open Scope nat_scope.
Local Notation qlt := Gauss_Model.qlt.

Lemma reached_pairs pow root expo magn angl c b f : fits c -> sane pow root (c_S c) -> reached pow root expo magn angl c b f ->
  forall k, k < c_O c -> f_grado f = (c_omin c + Z.of_nat k)%Z -> pairs magn angl (f_grad f) (wide c k * high c k * c_S c).
Proof.
  intros F SN R. pose proof (fits_O c F) as HO. induction R as [junk|b f im r f' R IH LI E|f r f' R IH E|f f' R IH Hw Hh E|f dog keys R IH LD]; intros k Lk G.
  - cbn [sift_new f_grado] in G. lia.
  - destruct (reached_inv _ _ _ _ _ _ _ _ F SN R) as (WF & C & _). destruct (process_first_ok pow root expo f im) as (f2 & E2 & _ & (_ & _ & K1 & K2 & _) & _); rewrite ?C; auto.
    rewrite E in E2. injection E2 as -> ->. rewrite K1. apply IH; auto. congruence.
  - destruct (reached_inv _ _ _ _ _ _ _ _ F SN R) as (WF & C & S). destruct (S eq_refl) as (j & Lj & Z). destruct (Nat.eq_dec (j + 1) (c_O c)) as [Ej|Nj].
    + rewrite (process_next_end pow root expo f j Z ltac:(now rewrite C)) in E. injection E as <- <-. auto.
    + destruct (fits_wide c (Datatypes.S j) F ltac:(lia)) as [PW PH].
      destruct (process_next_ok pow root expo f j) as (f2 & E2 & _ & (_ & _ & K1 & K2 & _) & _); rewrite ?C; auto; [apply F|].
      rewrite E in E2. injection E2 as -> ->. rewrite K1. apply IH; auto. congruence.
  - destruct (reached_inv _ _ _ _ _ _ _ _ F SN R) as (WF & C & S). destruct (S eq_refl) as (j & Lj & (Zo & Zw & Zh)). rewrite C in *.
    destruct (update_ok expo magn angl f WF Hw Hh) as (f2 & E2 & _ & G2 & _ & _ & _ & _ & _ & _ & _ & H2); [rewrite Zw, Zh, C; apply wide_nel|].
    rewrite E in E2. injection E2 as <-. destruct (Z.eqb_spec (f_grado f) (f_ocur f)) as [EQ|NE].
    + rewrite H2. apply IH; auto. congruence.
    + assert (k = j) by lia. subst j. rewrite H2, C, <- Zw, <- Zh. intros i Hi.
      pose proof (wf_grad _ _ WF) as LG. rewrite C in LG. pose proof (wide_nel c k) as N. rewrite <- Zw, <- Zh in N.
      assert (2 * i + 1 < 2 * (f_ow f * f_oh f) * c_S c) by lia. assert (2 * (f_ow f * f_oh f) * c_S c <= length (f_grad f)) by (rewrite LG; nia).
      rewrite !nth_put by lia. replace (2 * i <? 0 + 2 * (f_ow f * f_oh f) * c_S c) with true by (symmetry; apply Nat.ltb_lt; lia).
      replace (2 * i + 1 <? 0 + 2 * (f_ow f * f_oh f) * c_S c) with true by (symmetry; apply Nat.ltb_lt; lia). cbn [Nat.leb andb]. rewrite !Nat.sub_0_r.
      apply gradient_pairs. nia.
  - cbn [f_grad f_grado] in *. apply IH; auto.
Qed.

(** what a gradient update leaves *)
Lemma updated pow root expo magn angl c f : fits c -> sane pow root (c_S c) -> reached pow root expo magn angl c true f -> 2 <= f_ow f -> 2 <= f_oh f ->
  exists f', update_gradient magn angl f = Some f' /\ reached pow root expo magn angl c true f' /\ f_cfg f = c /\ f_cfg f' = c /\ f_ocur f' = f_ocur f /\ f_ow f' = f_ow f /\ f_oh f' = f_oh f /\
    f_grado f' = f_ocur f /\ f_octave f' = f_octave f /\ f_keys f' = f_keys f /\
    2 * (f_ow f * f_oh f) * c_S c <= length (f_grad f') /\
    forall l px py, l < c_S c -> px < f_ow f -> py < f_oh f -> let base := 2 * (f_ow f * f_oh f) * l in
      (exists a b, mag (f_grad f') base (f_ow f) px py = magn a b /\ ang (f_grad f') base (f_ow f) px py = angl a b) /\
      (f_grado f <> f_ocur f ->
        let I := stored (f_octave f) ((l + 1) * (f_ow f * f_oh f)) (f_ow f) in
        let gx := slope (f_ow f) (fun x => I x py) px in let gy := slope (f_oh f) (fun y => I px y) py in
        mag (f_grad f') base (f_ow f) px py = magn gx gy /\ ang (f_grad f') base (f_ow f) px py = angl gx gy).
Proof.
  intros F SN R Hw Hh. destruct (reached_inv _ _ _ _ _ _ _ _ F SN R) as (WF & C & S). destruct (S eq_refl) as (k & Lk & (Zo & Zw & Zh)). rewrite C in *. clear S.
  pose proof (wide_nel c k) as N.
  destruct (update_ok expo magn angl f WF Hw Hh) as (f2 & E2 & W2 & G2 & C2 & O2 & A2 & B2 & D2 & _ & K2 & H2); [rewrite Zw, Zh, C; apply wide_nel|].
  assert (R2 : reached pow root expo magn angl c true f2) by (eapply R_gradient; eassumption).
  exists f2. rewrite <- Zw, <- Zh in N. pose proof (wf_grad _ _ W2) as LG2. pose proof (wf_grad _ _ WF) as LG. rewrite C2 in LG2. rewrite C in C2, LG, LG2, H2.
  split; [exact E2|]. split; [exact R2|]. split; [reflexivity|]. split; [exact C2|]. repeat (split; [assumption|]). split; [rewrite LG2; nia|].
  intros l px py Hl Hx Hy base. assert (PI : py * f_ow f + px < f_ow f * f_oh f) by nia. split.
  - assert (P : pairs magn angl (f_grad f2) (wide c k * high c k * c_S c)).
    { eapply reached_pairs; [exact F|exact SN|exact R2|exact Lk|]. congruence. }
    rewrite <- Zw, <- Zh in P. destruct (P ((f_ow f * f_oh f) * l + (py * f_ow f + px))) as (a & b & X & Y); [nia|]. exists a, b. unfold mag, ang, base.
    replace (2 * (f_ow f * f_oh f * l + (py * f_ow f + px))) with (2 * (f_ow f * f_oh f) * l + 2 * (py * f_ow f + px)) in X, Y by lia. auto.
  - intros NE I gx gy. destruct (Z.eqb_spec (f_grado f) (f_ocur f)) as [EQ|_]; [contradiction|].
    destruct (G_at magn angl (f_octave f) (f_ow f) (f_oh f) Hw Hh l px py Hx Hy) as [X Y].
    assert (B1 : base + 2 * (py * f_ow f + px) + 1 < 2 * (f_ow f * f_oh f) * c_S c) by (unfold base; nia).
    assert (B2' : 2 * (f_ow f * f_oh f) * c_S c <= length (f_grad f)) by (rewrite LG; nia).
    unfold mag, ang. rewrite H2. rewrite !nth_put by lia.
    replace (base + 2 * (py * f_ow f + px) <? 0 + 2 * (f_ow f * f_oh f) * c_S c) with true by (symmetry; apply Nat.ltb_lt; lia).
    replace (base + 2 * (py * f_ow f + px) + 1 <? 0 + 2 * (f_ow f * f_oh f) * c_S c) with true by (symmetry; apply Nat.ltb_lt; lia). cbn [Nat.leb andb]. rewrite !Nat.sub_0_r.
    split; [exact X|exact Y].
Qed.

(** C120.  A gradient update on an octave of at least 2 by 2 pixels, whose gradients are not those
    computed last, stores for every level 0, ..., S - 1 and every pixel the magnitude and the angle
    of the central differences, one-sided at the border, in this order. *)
Theorem C120_gradients : forall pow root expo magn angl c f,
  fits c -> sane pow root (c_S c) -> reached pow root expo magn angl c true f -> 2 <= f_ow f -> 2 <= f_oh f -> f_grado f <> f_ocur f ->
  exists f', update_gradient magn angl f = Some f' /\ f_grado f' = f_ocur f /\ f_octave f' = f_octave f /\
    forall l px py, l < c_S c -> px < f_ow f -> py < f_oh f ->
      let base := 2 * (f_ow f * f_oh f) * l in
      let I := stored (f_octave f) ((l + 1) * (f_ow f * f_oh f)) (f_ow f) in
      let gx := slope (f_ow f) (fun x => I x py) px in let gy := slope (f_oh f) (fun y => I px y) py in
      mag (f_grad f') base (f_ow f) px py = magn gx gy /\ ang (f_grad f') base (f_ow f) px py = angl gx gy.
Proof.
  intros pow root expo magn angl c f F SN R Hw Hh NE. destruct (updated _ _ _ _ _ _ _ F SN R Hw Hh) as (f' & U & _ & _ & _ & _ & _ & _ & G & O & _ & _ & H).
  exists f'. repeat (split; [assumption|]). intros l px py Hl Hx Hy. now apply (H l px py Hl Hx Hy).
Qed.
Print Assumptions C120_gradients.

(** the keypoints with orientations, and with a descriptor *)
Definition usable (pow : Qc -> Qc -> Qc) (f : sift) (k : keypoint) (h : nat) : Prop :=
  let scale := pow (nq 2) (zq (f_ocur f)) in
  k_o k = f_ocur f /\ on_image (f_ow f) (k_x k / scale) /\ on_image h (k_y k / scale) /\ (0 <= k_is k < Z.of_nat (c_S (f_cfg f)))%Z.
Lemma usable_dec pow f k h (scale := pow (nq 2) (zq (f_ocur f))) (b : bool) : 0 < h ->
  (b = negb (k_o k =? f_ocur f)%Z || ((nearest (k_x k / scale) <? 0)%Z || (Z.of_nat (f_ow f) - 1 <? nearest (k_x k / scale))%Z ||
     (nearest (k_y k / scale) <? 0)%Z || (Z.of_nat h - 1 <? nearest (k_y k / scale))%Z || (k_is k <? 0)%Z || (Z.of_nat (c_S (f_cfg f)) - 1 <? k_is k)%Z)) ->
  b = false <-> usable pow f k h.
Proof.
  intros Hh ->. unfold usable. fold scale. rewrite !orb_false_iff, negb_false_iff, Z.eqb_eq, !Z.ltb_ge. split.
  - intros (A & ((((B & C) & D) & E) & G) & H). split; [exact A|]. split; [apply nearest_in; lia|]. split; [apply nearest_in; lia|lia].
  - intros (A & B & C & D). apply nearest_out in B, C. repeat split; lia.
Qed.

Lemma in_firstn_in {T} n (l : list T) a : In a (firstn n l) -> In a l.
Proof. intros H. rewrite <- (firstn_skipn n l). apply in_or_app. now left. Qed.
(** C121.  The orientations of a keypoint of the current octave, on the octave and with a level in
    0, ..., S - 1: the histogram of 36 bins sums the gradients of the pixels close to the keypoint,
    with linear interpolation between bins; it is smoothed six times; and the angles are those at the
    tops of the parabolas through its peaks above 80% of the maximum, in the order of the bins, the
    first four if there are more.  Other keypoints have none.  The rest of the array is unchanged.
    The argument of the tabulated exponential must not be exactly 25 (see C129). *)
Theorem C121_orientations : forall pow root expo magn angl pi c f k angles,
  fits c -> sane pow root (c_S c) -> reached pow root expo magn angl c true f -> 2 <= f_ow f -> 2 <= f_oh f ->
  (0 < pi)%Qc -> (forall a b, 0 <= angl a b /\ angl a b <= nq 2 * pi)%Qc -> (0 < k_sigma k)%Qc -> 4 <= length angles ->
  let scale := pow (nq 2) (zq (f_ocur f)) in
  let w := f_ow f in let h := f_oh f in let x := (k_x k / scale)%Qc in let y := (k_y k / scale)%Qc in let sigma := (k_sigma k / scale)%Qc in
  (forall px py, px < w -> py < h -> ori_inside x y sigma px py -> ori_argument x y sigma px py <> nq 25) ->
  (usable pow f k h -> exists f' peaks,
    update_gradient magn angl f = Some f' /\
    let H := averaged_times 6 (ori_bin expo pi (f_grad f') (2 * (w * h) * Z.to_nat (k_is k)) w h x y sigma) in
    StronglySorted lt peaks /\ (forall b, In b peaks <-> peak H b) /\
    let bins := firstn 4 peaks in
    orientations pow expo magn angl pi f angles k = Some (f', length bins, map (bin_angle pi H) bins ++ skipn (length bins) angles)) /\
  (~ usable pow f k h -> orientations pow expo magn angl pi f angles k = Some (f, 0, angles)).
Proof.
  intros pow root expo magn angl pi c f k angles F SN R Hw Hh Hp HA Hs LA scale w h x y sigma NE.
  unfold orientations. fold scale. fold x y sigma w h.
  set (o := negb (k_o k =? f_ocur f)%Z). set (b := _ || _ || _ || _ || _ || _).
  pose proof (usable_dec pow f k h (o || b) ltac:(unfold h; lia) eq_refl) as UD. fold scale in UD.
  assert (Sp : (0 < scale)%Qc) by (apply (sane_pow _ _ _ SN); reflexivity).
  assert (Ps : (0 < sigma)%Qc) by (unfold sigma, Qcdiv; apply Qc_mul_pos; [exact Hs|now apply Qcinv_pos]).
  split; intros U.
  - pose proof U as (_ & Ux & Uy & Ui). apply UD in U. apply orb_false_iff in U. destruct U as [Uo Ub]. rewrite Uo, Ub.
    destruct (updated _ _ _ _ _ _ _ F SN R Hw Hh) as (f' & E & _ & C & C' & _ & _ & _ & _ & _ & _ & LG & HG). rewrite E. cbn [obind].
    pose proof (nearest_out _ _ Ux) as Nx. pose proof (nearest_out _ _ Uy) as Ny. fold scale in Nx, Ny, Ux, Uy. fold x y in Nx, Ny, Ux, Uy.
    destruct (nearest_in _ _ Nx) as [_ Ex]. destruct (nearest_in _ _ Ny) as [_ Ey]. rewrite Ex, Ey in *. rewrite C in Ui.
    set (base := 2 * (w * h) * Z.to_nat (k_is k)). replace (2 * Z.of_nat (w * h) * k_is k)%Z with (Z.of_nat base) by (unfold base; nia).
    replace (Z.max (qfloor (nq 3 * (nq 3 / nq 2 * sigma))) 1) with (ori_reach sigma).
    2:{ unfold ori_reach. rewrite Z.max_comm. do 2 f_equal. replace (nq 9) with (nq 3 * nq 3)%Qc by reflexivity. unfold Qcdiv. ring. }
    assert (LB : base + 2 * (w * h) <= length (f_grad f')).
    { unfold base. apply Nat.le_trans with (2 * (w * h) * c_S c); [|exact LG]. nia. }
    change 0%Z with (Z.of_nat 0) at 1.
    destruct (window_ok 36 (ori_reach sigma) 0 w h x y (fun b px py => if Qclt_le_dec (dist2 x y px py) (zq (ori_reach sigma * ori_reach sigma) + zq 6 / zq 10)%Qc then
      (tabulated expo (ori_argument x y sigma px py) * mag (f_grad f') base w px py * tent (wrap 36 (nq 36 * ang (f_grad f') base w px py / (nq 2 * pi) - 1 / nq 2 - nq b)))%Qc else 0%Qc)
      (ori_pixel expo pi (f_grad f') (Z.of_nat base) w x y (nq 3 / nq 2 * sigma) (ori_reach sigma)) (repeat 0%Qc 36)) as (hist & EH & LH & HH).
    { apply Nx. } { apply Ny. } { apply repeat_length. }
    { intros px py h1 Hx Hy _ _ L1. destruct (HG (Z.to_nat (k_is k)) px py ltac:(lia) Hx Hy) as ((a & b' & _ & EA) & _). fold w h base in EA.
      apply (ori_pixel_ok expo pi (f_grad f') base w h); auto; rewrite EA; apply HA. }
    rewrite EH. cbn [obind].
    destruct (smooth_times 6 hist (ori_bin expo pi (f_grad f') base w h x y sigma) LH) as (h6 & E6 & L6 & H6).
    { intros b' Hb. rewrite HH by exact Hb. rewrite (nth_repeat 0%Qc 36 b'). unfold ori_bin. ring. }
    rewrite E6. cbn [obind]. rewrite (find_peaks_ok pi h6 angles L6 LA). cbn [obind].
    exists f', (filter (peakb h6) (seq 0 36)). split; [reflexivity|].
    assert (EX : forall g g', (forall b, b < 36 -> g b = g' b) -> forall b, peak g b <-> peak g' b).
    { assert (X : forall g g', (forall b, b < 36 -> g b = g' b) -> forall b, peak g b -> peak g' b).
      { intros g g' Eg b' (A1 & A2 & A3 & A4 & A5). assert (M1 : (b' + 35) mod 36 < 36) by (apply Nat.mod_upper_bound; lia). assert (M2 : (b' + 1) mod 36 < 36) by (apply Nat.mod_upper_bound; lia).
        unfold peak. rewrite <- !Eg by assumption. repeat (split; [assumption|]). split; [|split; assumption]. intros b2 Hb2. rewrite <- !Eg by assumption. now apply A3. }
      intros g g' Eg b'. split; apply X; auto. intros; symmetry; auto. }
    set (H := averaged_times 6 (ori_bin expo pi (f_grad f') base w h x y sigma)) in *.
    assert (PK : forall b', In b' (filter (peakb h6) (seq 0 36)) <-> peak H b').
    { intros b'. rewrite filter_In, in_seq. rewrite <- (EX _ _ H6). split.
      - intros [[_ L] P]. apply peak_bool; auto.
      - intros P. assert (b' < 36) by apply P. split; [lia|]. apply peak_bool; auto. }
    split; [|split; [exact PK|]].
    + assert (G : forall n a, StronglySorted lt (filter (peakb h6) (seq a n))).
      { clear. induction n as [|n IH]; intros a; [constructor|]. cbn [seq filter]. destruct (peakb h6 a); [|apply IH]. constructor; [apply IH|].
        apply Forall_forall. intros z Hz. apply filter_In in Hz. destruct Hz as [Hz _]. apply in_seq in Hz. lia. }
      apply G.
    + cbv zeta. do 2 f_equal. f_equal. apply map_ext_in. intros b' Hb'.
      assert (b' < 36).
      { apply (in_firstn_in) in Hb'. apply PK in Hb'. apply Hb'. }
      assert (M1 : (b' + 35) mod 36 < 36) by (apply Nat.mod_upper_bound; lia). assert (M2 : (b' + 1) mod 36 < 36) by (apply Nat.mod_upper_bound; lia).
      unfold bin_angle, vertex. rewrite !H6 by assumption. reflexivity.
  - destruct o eqn:Eo; [reflexivity|]. destruct b eqn:Eb; [reflexivity|]. destruct U. apply UD. reflexivity.
Qed.
Print Assumptions C121_orientations.

(** C122.  At most four angles are returned; they lie strictly between 0 and 2 pi and are strictly
    increasing. *)
Theorem C122_angles : forall pow root expo magn angl pi c f k angles f' n out,
  fits c -> sane pow root (c_S c) -> reached pow root expo magn angl c true f -> 2 <= f_ow f -> 2 <= f_oh f ->
  (0 < pi)%Qc -> (forall a b, 0 <= angl a b /\ angl a b <= nq 2 * pi)%Qc -> (0 < k_sigma k)%Qc -> 4 <= length angles ->
  (let scale := pow (nq 2) (zq (f_ocur f)) in let x := (k_x k / scale)%Qc in let y := (k_y k / scale)%Qc in let sigma := (k_sigma k / scale)%Qc in
   forall px py, px < f_ow f -> py < f_oh f -> ori_inside x y sigma px py -> ori_argument x y sigma px py <> nq 25) ->
  orientations pow expo magn angl pi f angles k = Some (f', n, out) ->
  n <= 4 /\ length out = length angles /\ skipn n out = skipn n angles /\
  Forall (fun a => 0 < a /\ a < nq 2 * pi)%Qc (firstn n out) /\ StronglySorted Qclt (firstn n out).
Proof.
  intros pow root expo magn angl pi c f k angles f' n out F SN R Hw Hh Hp HA Hs LA NE E.
  destruct (C121_orientations pow root expo magn angl pi c f k angles F SN R Hw Hh Hp HA Hs LA NE) as [U1 U2].
  assert (DEC : usable pow f k (f_oh f) \/ ~ usable pow f k (f_oh f)).
  { match goal with |- ?u \/ _ => pose proof (usable_dec pow f k (f_oh f) _ ltac:(lia) eq_refl) as [UD1 UD2] end.
    match type of UD1 with ?b = false -> _ => destruct b eqn:EB end; [right; intros U; apply UD2 in U; discriminate|left; now apply UD1]. }
  destruct DEC as [U|U].
  - destruct (U1 U) as (f2 & peaks & _ & SP & PK & E2). cbv zeta in E2, PK. rewrite E in E2. clear U1 U2 E.
    set (H := averaged_times 6 _) in *. clearbody H. set (bins := firstn 4 peaks) in *. assert (LB : length bins <= 4) by apply firstn_le_length.
    assert (SB : StronglySorted lt bins).
    { unfold bins. clear - SP. generalize 4. intros n. revert peaks SP. induction n as [|n IH]; intros p SP; [constructor|]. destruct SP as [|b p SP FP]; [constructor|]. cbn [firstn].
      constructor; [now apply IH|]. rewrite Forall_forall in FP |- *. intros z Hz. apply FP. eapply in_firstn_in; exact Hz. }
    assert (PB : forall b, In b bins -> peak H b) by (intros b Hb; apply PK; eapply in_firstn_in; exact Hb). clearbody bins. clear PK SP peaks. injection E2 as _ -> ->.
    assert (PP : (0 < nq 2 * pi / nq 36)%Qc) by (unfold Qcdiv; repeat apply Qc_mul_pos; auto; reflexivity). set (u := (nq 2 * pi / nq 36)%Qc) in *.
    assert (BD : forall b, peak H b -> (u * nq b < bin_angle pi H b /\ bin_angle pi H b < u * nq (b + 1))%Qc).
    { intros b Pb. destruct (vertex_bounds H b Pb) as (V1 & V2 & _). unfold bin_angle. fold u. rewrite !(Qcmult_comm u). rewrite nq_S. set (v := vertex H b) in *. set (z := (1 / nq 2)%Qc) in *.
      assert (Z2 : (z + z = 1)%Qc) by (apply Qc_is_canon; reflexivity). clearbody v z. split; apply Qcmult_lt_compat_r; auto; [|rewrite <- Z2]; clear - V1 V2; set (q := nq b); clearbody q; qn. }
    split; [exact LB|]. split; [rewrite app_length, map_length, skipn_length; lia|].
    assert (LM : length (map (bin_angle pi H) bins) = length bins) by apply map_length. split.
    { rewrite <- LM at 1. rewrite skipn_app. rewrite skipn_all. rewrite Nat.sub_diag. reflexivity. }
    assert (FE : firstn (length bins) (map (bin_angle pi H) bins ++ skipn (length bins) angles) = map (bin_angle pi H) bins).
    { rewrite firstn_app, LM, Nat.sub_diag. cbn [firstn]. rewrite app_nil_r. rewrite <- LM. apply firstn_all. }
    rewrite FE. clear FE. split.
    + apply Forall_forall. intros a Ha. apply in_map_iff in Ha. destruct Ha as (b & <- & Hb). apply PB in Hb. destruct (BD b Hb) as [B1 B2].
      assert (L36 : b < 36) by apply Hb. split.
      * apply Qcle_lt_trans with (u * nq b)%Qc; [|exact B1]. apply Qc_mult_nonneg; [now apply Qclt_le_weak|apply nq_nonneg].
      * apply Qclt_le_trans with (u * nq (b + 1))%Qc; [exact B2|]. replace (nq 2 * pi)%Qc with (nq 36 * u)%Qc by (unfold u; field; discriminate).
        rewrite (Qcmult_comm u). apply Qcmult_le_compat_r; [apply nq_le; lia|now apply Qclt_le_weak].
    + clear LB LM. induction SB as [|b bins SB IH FB]; [constructor|]. cbn [map]. constructor; [apply IH; intros; apply PB; now right|].
      apply Forall_forall. intros a Ha. apply in_map_iff in Ha. destruct Ha as (b2 & <- & Hb2). rewrite Forall_forall in FB. specialize (FB b2 Hb2).
      destruct (BD b (PB b ltac:(now left))) as [_ X]. destruct (BD b2 (PB b2 ltac:(now right))) as [Y _].
      apply Qclt_trans with (u * nq (b + 1))%Qc; [exact X|]. apply Qcle_lt_trans with (u * nq b2)%Qc; [|exact Y].
      rewrite !(Qcmult_comm u). apply Qcmult_le_compat_r; [apply nq_le; lia|now apply Qclt_le_weak].
  - rewrite (U2 U) in E. injection E as _ <- <-. split; [lia|]. split; [reflexivity|]. split; [reflexivity|]. cbn [firstn]. split; constructor.
Qed.
Print Assumptions C122_angles.

(** *** Descriptors *)
Lemma descr_window expo sine cosine pi grad base w h x y angle0 size wsigma W border : (0 < pi)%Qc -> base + 2 * (w * h) <= length grad ->
  (pixel_of x < Z.of_nat w)%Z -> (pixel_of y < Z.of_nat h)%Z ->
  (forall px py, px < w -> py < h -> descr_argument sine cosine x y angle0 size wsigma px py <> nq 25) ->
  exists hist, window W (Z.of_nat border) w h (pixel_of x) (pixel_of y) (descr_pixel expo sine cosine pi grad (Z.of_nat base) w x y angle0 size wsigma) (repeat 0%Qc 128) = Some hist /\
    length hist = 128 /\ forall i, i < 128 -> hist@i = descr_bin expo sine cosine pi grad base w h x y angle0 size wsigma W border i.
Proof.
  intros Hp LG Px Py NE.
  destruct (window_ok 128 W border w h x y (fun i px py => (tabulated expo (descr_argument sine cosine x y angle0 size wsigma px py) * mag grad base w px py *
     tent (frame_x sine cosine x y angle0 size px py - (nq (i / 8 mod 4) - nq 3 / nq 2)) *
     tent (frame_y sine cosine x y angle0 size px py - (nq (i / 32) - nq 3 / nq 2)) *
     tent (wrap 8 (nq 8 * (ang grad base w px py - angle0) / (nq 2 * pi) - nq (i mod 8))))%Qc)
     (descr_pixel expo sine cosine pi grad (Z.of_nat base) w x y angle0 size wsigma) (repeat 0%Qc 128) Px Py (repeat_length _ _)) as (hist & E & L & H).
  - intros px py h1 Hx Hy _ _ L1. apply (descr_pixel_ok expo sine cosine pi grad base w h); auto.
  - exists hist. split; [exact E|]. split; [exact L|]. intros i Hi. rewrite H by exact Hi. rewrite (nth_repeat 0%Qc 128 i). unfold descr_bin. ring.
Qed.
(** the result of a descriptor computation from the histogram [H] *)
Definition described (fsqrt : Qc -> Qc) (eps thresh samples : Qc) (H : nat -> Qc) (descr out : list Qc) : Prop :=
  length out = length descr /\ skipn 128 out = skipn 128 descr /\
  (below fsqrt eps 128 thresh samples H -> forall i, i < 128 -> nth i out 0%Qc = 0%Qc) /\
  (~ below fsqrt eps 128 thresh samples H -> forall i, i < 128 -> nth i out 0%Qc = final fsqrt eps 128 H i).
Lemma finish_described fsqrt eps thresh samples H hist descr : length hist = 128 -> 128 <= length descr -> (forall i, i < 128 -> hist@i = H i) ->
  described fsqrt eps thresh samples H descr (finish fsqrt eps thresh samples hist ++ skipn 128 descr).
Proof.
  intros L LD E. destruct (finish_ok fsqrt eps thresh samples hist 128 H L E) as (LF & Z & N). split; [rewrite app_length, skipn_length; lia|]. split.
  { rewrite skipn_app. rewrite LF. replace (128 - 128) with 0 by lia. rewrite skipn_all2 by lia. reflexivity. }
  split; intros B i Hi; rewrite app_nth1 by lia; auto.
Qed.

(** C124.  The descriptor of a keypoint of the current octave whose pixel is on the octave, not in
    the last row, and whose level is one of 0, ..., S - 1: all 128 entries are written.  Before the
    normalisations, entry 32 by + 8 bx + bt sums the gradients of the pixels close to the keypoint
    that are not on the border, with trilinear weights in the frame of the keypoint and a Gaussian
    window; then the vector is normalised, cut at 0.2 and normalised, or zero if its norm is below
    the threshold.  For other keypoints nothing is written.  The array is not written elsewhere. *)
Theorem C124_descriptor : forall pow root fsqrt expo sine cosine magn angl pi eps_d eps_f c f k angle0 descr,
  fits c -> sane pow root (c_S c) -> reached pow root expo magn angl c true f -> 2 <= f_ow f -> 2 <= f_oh f -> (0 < pi)%Qc -> 128 <= length descr ->
  let scale := pow (nq 2) (zq (f_ocur f)) in
  let w := f_ow f in let h := f_oh f in let x := (k_x k / scale)%Qc in let y := (k_y k / scale)%Qc in
  let size := (c_magnif c * (k_sigma k / scale) + eps_d)%Qc in
  let reach := qfloor (root (nq 2) * (nq 5 / nq 2 * size) + 1 / nq 2)%Qc in
  (forall px py, px < w -> py < h -> descr_argument sine cosine x y angle0 size (c_window c) px py <> nq 25) ->
  (usable pow f k (h - 1) -> exists f' out, update_gradient magn angl f = Some f' /\
     keypoint_descriptor pow root fsqrt expo sine cosine magn angl pi eps_d eps_f f descr k angle0 = Some (f', out) /\
     described fsqrt eps_f (c_norm c) 1
       (descr_bin expo sine cosine pi (f_grad f') (2 * (w * h) * Z.to_nat (k_is k)) w h x y angle0 size (c_window c) reach 1) descr out) /\
  (~ usable pow f k (h - 1) -> keypoint_descriptor pow root fsqrt expo sine cosine magn angl pi eps_d eps_f f descr k angle0 = Some (f, descr)).
Proof.
  intros pow root fsqrt expo sine cosine magn angl pi eps_d eps_f c f k angle0 descr F SN R Hw Hh Hp LD scale w h x y size reach NE.
  destruct (updated _ _ _ _ _ _ _ F SN R Hw Hh) as (f' & E & _ & C & C' & _ & _ & _ & _ & _ & _ & LG & HG).
  unfold keypoint_descriptor. fold scale. fold x y w h. unfold bin_size. rewrite C. fold size.
  set (b := _ || _ || _ || _ || _ || _ || _).
  pose proof (usable_dec pow f k (h - 1) b ltac:(unfold h; lia)) as UD. fold scale in UD.
  assert (UD' : b = false <-> usable pow f k (h - 1)).
  { apply UD. unfold b. fold x y w. rewrite C. replace (Z.of_nat w <=? nearest x)%Z with (Z.of_nat w - 1 <? nearest x)%Z by (destruct (Z.ltb_spec (Z.of_nat w - 1) (nearest x)), (Z.leb_spec (Z.of_nat w) (nearest x)); auto; lia).
    replace (Z.of_nat h - 1 <=? nearest y)%Z with (Z.of_nat (h - 1) - 1 <? nearest y)%Z by (unfold h; destruct (Z.ltb_spec (Z.of_nat (f_oh f - 1) - 1) (nearest y)), (Z.leb_spec (Z.of_nat (f_oh f) - 1) (nearest y)); auto; lia).
    rewrite !orb_assoc. reflexivity. }
  clear UD. clearbody b. split; intros U.
  - pose proof U as (_ & Ux & Uy & Ui). apply UD' in U. subst b. rewrite E. cbn [obind]. rewrite C'. replace (length descr <? 128) with false by (symmetry; apply Nat.ltb_ge; exact LD).
    pose proof (nearest_out _ _ Ux) as Nx. pose proof (nearest_out _ _ Uy) as Ny. fold scale in Nx, Ny. fold x y in Nx, Ny.
    destruct (nearest_in _ _ Nx) as [_ Ex]. destruct (nearest_in _ _ Ny) as [_ Ey]. rewrite Ex, Ey in *. rewrite C in Ui.
    set (base := 2 * (w * h) * Z.to_nat (k_is k)). replace (2 * Z.of_nat (w * h) * k_is k)%Z with (Z.of_nat base) by (unfold base; nia).
    assert (LB : base + 2 * (w * h) <= length (f_grad f')) by (unfold base; apply Nat.le_trans with (2 * (w * h) * c_S c); [nia|exact LG]).
    change 1%Z with (Z.of_nat 1).
    replace (bin_reach root size) with reach by (unfold reach, bin_reach, half; do 2 f_equal; unfold Qcdiv; ring).
    destruct (descr_window expo sine cosine pi (f_grad f') base w h x y angle0 size (c_window c) reach 1 Hp LB) as (hist & EH & LH & HH); [apply Nx|fold h in Ny; lia|exact NE|].
    rewrite EH. cbn [obind]. exists f'. eexists. split; [reflexivity|]. split; [reflexivity|]. apply finish_described; auto.
  - destruct b; [reflexivity|]. destruct U. now apply UD'.
Qed.
Print Assumptions C124_descriptor.

(** C125.  The descriptor of raw gradients, for a position on the image and not in the last row: the
    same with all pixels and the threshold multiplied by the number of pixels of the window. *)
Theorem C125_raw_descriptor : forall root fsqrt expo sine cosine pi eps_d eps_f f grad descr w h x y sigma angle0,
  (0 < pi)%Qc -> 128 <= length descr -> length grad = 2 * (w * h) ->
  let c := f_cfg f in
  let size := (c_magnif c * sigma + eps_d)%Qc in
  let reach := qfloor (root (nq 2) * (nq 5 / nq 2 * size) + 1 / nq 2)%Qc in
  (forall px py, px < w -> py < h -> descr_argument sine cosine x y angle0 size (c_window c) px py <> nq 25) ->
  (on_image w x /\ on_image (h - 1) y -> exists out, raw_descriptor root fsqrt expo sine cosine pi eps_d eps_f f grad descr w h x y sigma angle0 = Some out /\
     ((0 <= reach)%Z -> described fsqrt eps_f (c_norm c) (around_sum reach 0 w h x y (fun _ _ => 1%Qc))
       (descr_bin expo sine cosine pi grad 0 w h x y angle0 size (c_window c) reach 0) descr out)) /\
  (~ (on_image w x /\ on_image (h - 1) y) -> raw_descriptor root fsqrt expo sine cosine pi eps_d eps_f f grad descr w h x y sigma angle0 = Some descr).
Proof.
  intros root fsqrt expo sine cosine pi eps_d eps_f f grad descr w h x y sigma angle0 Hp LD LG c size reach NE.
  unfold raw_descriptor. unfold bin_size. fold c size. replace (bin_reach root size) with reach by (unfold reach, bin_reach, half; do 2 f_equal; unfold Qcdiv; ring).
  set (b := _ || _ || _ || _). assert (UD : b = false <-> on_image w x /\ on_image (h - 1) y).
  { unfold b. rewrite !orb_false_iff, !Z.ltb_ge, !Z.leb_gt. split.
    - intros (((A & B) & D) & E). split; apply nearest_in; lia.
    - intros (A & B). apply nearest_out in A, B. lia. }
  clearbody b. split; intros U.
  - pose proof U as (Ux & Uy). apply UD in U. subst b. replace (length descr <? 128) with false by (symmetry; apply Nat.ltb_ge; exact LD).
    pose proof (nearest_out _ _ Ux) as Nx. pose proof (nearest_out _ _ Uy) as Ny. destruct (nearest_in _ _ Nx) as [_ Ex]. destruct (nearest_in _ _ Ny) as [_ Ey]. rewrite Ex, Ey in *.
    change 0%Z with (Z.of_nat 0) at 1 2.
    destruct (descr_window expo sine cosine pi grad 0 w h x y angle0 size (c_window c) reach 0 Hp) as (hist & EH & LH & HH); [lia|lia|lia|exact NE|].
    rewrite EH. cbn [obind]. eexists. split; [reflexivity|]. intros RP.
    match goal with |- context [zq (?a * ?d)] => assert (ES : around_sum reach 0 w h x y (fun _ _ => 1%Qc) = zq (a * d)) end.
    { unfold around_sum.
      assert (CS : forall n z, (0 <= pixel_of z < Z.of_nat n)%Z -> ksum n (fun q => if close reach 0 n z q then 1%Qc else 0%Qc) = zq (Z.min reach (Z.of_nat n - pixel_of z - 1) - Z.max (- reach) (- pixel_of z) + 1)).
      { intros n z Hz. rewrite <- (window_line reach 0 n z (fun _ => 1%Qc)) by lia.
        match goal with |- ksum ?m _ = zq ?t => replace t with (Z.of_nat m) by lia; fold (nq m); generalize m end.
        clear. intros m. induction m as [|m IH]; [reflexivity|]. cbn [sum]. rewrite IH, <- nq_S. f_equal. lia. }
      rewrite zq_mult, <- (CS w x), <- (CS h y) by lia. clear.
      set (X := ksum w (fun q => if close reach 0 w x q then 1%Qc else 0%Qc)).
      assert (GEN : forall m, ksum m (fun py => ksum w (fun px => if close reach 0 w x px && close reach 0 h y py then 1%Qc else 0%Qc)) = (X * ksum m (fun q => if close reach 0 h y q then 1%Qc else 0%Qc))%Qc).
      { induction m as [|m IH]; [cbn [sum]; ring|]. cbn [sum]. rewrite IH. destruct (close reach 0 h y m).
        - replace (ksum w (fun px => if close reach 0 w x px && true then 1%Qc else 0%Qc)) with X; [ring|]. apply ksum_ext. intros i _. now rewrite andb_true_r.
        - replace (ksum w (fun px => if close reach 0 w x px && false then 1%Qc else 0%Qc)) with 0%Qc; [ring|]. symmetry. generalize w at 1. clear. intros n. induction n as [|n IH]; [reflexivity|]. cbn [sum]. rewrite IH, andb_false_r. ring. }
      apply GEN. }
    rewrite ES. apply finish_described; auto.
  - destruct b; [reflexivity|]. destruct U. now apply UD.
Qed.
Print Assumptions C125_raw_descriptor.

(** *** Size of descriptors *)
Lemma nonneg_sum m f : (forall i, i < m -> (0 <= f i)%Qc) -> (0 <= ksum m f)%Qc.
Proof.
  induction m as [|m IH]; intros H; cbn [sum]; [apply Qcle_refl|]. pose proof (IH (fun i Hi => H i (Nat.lt_lt_succ_r _ _ Hi))) as A. pose proof (H m (Nat.lt_succ_diag_r m)) as B.
  set (u := ksum m f) in *. set (v := f m) in *. clearbody u v. clear - A B. qn.
Qed.
Lemma tabulated_nonneg expo x : (forall a, 0 <= expo a)%Qc -> (0 <= tabulated expo x)%Qc.
Proof.
  intros P. unfold tabulated. destruct (Qclt_le_dec (nq 25) x); [apply Qcle_refl|]. cbv zeta. set (t := (x * nq 256 / nq 25)%Qc).
  pose proof (qfloor_le t) as A. pose proof (qfloor_lt t) as B.
  set (a := expo _). set (b := expo _). assert (Pa : (0 <= a)%Qc) by apply P. assert (Pb : (0 <= b)%Qc) by apply P.
  replace (a + (t - zq (qfloor t)) * (b - a))%Qc with ((1 + zq (qfloor t) - t) * a + (t - zq (qfloor t)) * b)%Qc by ring.
  set (z := zq (qfloor t)) in *. clearbody a b z t. assert (0 <= 1 + z - t /\ 0 <= t - z)%Qc as [X Y] by (split; qn).
  pose proof (Qc_mult_nonneg _ _ X Pa) as X1. pose proof (Qc_mult_nonneg _ _ Y Pb) as Y1.
  set (u := ((1 + z - t) * a)%Qc) in *. set (v := ((t - z) * b)%Qc) in *. clearbody u v. clear - X1 Y1. qn.
Qed.
Lemma tent_nonneg u : (0 <= tent u)%Qc.
Proof. unfold tent. destruct (Qclt_le_dec (Qcabs u) 1) as [L|L]; [|apply Qcle_refl]. set (q := Qcabs u) in *. clearbody q. qn. Qed.
Lemma around_nonneg W border w h x y g : (forall px py, px < w -> py < h -> (0 <= g px py)%Qc) -> (0 <= around_sum W border w h x y g)%Qc.
Proof. intros P. apply nonneg_sum. intros py Hy. apply nonneg_sum. intros px Hx. destruct (_ && _); [now apply P|apply Qcle_refl]. Qed.
Lemma descr_bin_nonneg expo sine cosine pi grad base w h x y angle0 size wsigma reach border i : (forall a, 0 <= expo a)%Qc ->
  (forall px py, px < w -> py < h -> (0 <= mag grad base w px py)%Qc) -> (0 <= descr_bin expo sine cosine pi grad base w h x y angle0 size wsigma reach border i)%Qc.
Proof.
  intros PE PM. apply around_nonneg. intros px py Hx Hy. repeat apply Qc_mult_nonneg; try apply tent_nonneg; [now apply tabulated_nonneg|now apply PM].
Qed.
Lemma norm_pos fsqrt eps n h : (forall a, 0 <= a -> 0 <= fsqrt a)%Qc -> (0 < eps)%Qc -> (0 < norm_of fsqrt eps n h)%Qc.
Proof. intros P E. unfold norm_of. set (a := fsqrt _). assert (Pa : (0 <= a)%Qc) by (apply P, nonneg_sum; intros; apply Qc_square_nonneg). clearbody a. clear - Pa E. qn. Qed.
Lemma final_nonneg fsqrt eps n h i : (forall a, 0 <= a -> 0 <= fsqrt a)%Qc -> (0 < eps)%Qc -> (0 <= h i)%Qc -> (0 <= final fsqrt eps n h i)%Qc.
Proof.
  intros P E H. unfold final, normal. assert (D : forall a g, (0 <= a -> 0 <= a / norm_of fsqrt eps n g)%Qc).
  { intros a g Ha. apply Qc_mult_nonneg; [exact Ha|]. apply Qclt_le_weak, Qcinv_pos, norm_pos; auto. }
  apply D. unfold cut. destruct (Qclt_le_dec _ _); [discriminate|now apply D].
Qed.
Lemma sum_scale n g c : ksum n (fun i => g i * c)%Qc = (ksum n g * c)%Qc.
Proof. induction n as [|n IH]; [cbn [sum]; ring|]. cbn [sum]. rewrite IH. ring. Qed.
Lemma normal_size fsqrt eps n h K : (forall a, 0 <= a -> 0 <= fsqrt a)%Qc -> (0 < eps)%Qc -> (0 <= K)%Qc -> (forall a, 0 <= a -> a <= K * (fsqrt a * fsqrt a))%Qc ->
  (ksum n (fun i => normal fsqrt eps n h i * normal fsqrt eps n h i) <= K)%Qc.
Proof.
  intros P E PK HK. set (N := norm_of fsqrt eps n h). assert (PN : (0 < N)%Qc) by now apply norm_pos. assert (NN : N <> 0%Qc) by now apply qc_pos_neq.
  rewrite (ksum_ext n _ (fun i => (h i * h i) * (/ N * / N))%Qc) by (intros i _; unfold normal, Qcdiv; fold N; ring). rewrite sum_scale.
  set (s := ksum n (fun i => h i * h i)%Qc). assert (Ps : (0 <= s)%Qc) by (apply nonneg_sum; intros; apply Qc_square_nonneg).
  replace K with (K * (N * N) * (/ N * / N))%Qc at 1 by (field; exact NN). apply Qcmult_le_compat_r.
  2:{ apply Qc_mult_nonneg; apply Qclt_le_weak, Qcinv_pos, PN. }
  apply Qcle_trans with (K * (fsqrt s * fsqrt s))%Qc; [now apply HK|]. rewrite !(Qcmult_comm K). apply Qcmult_le_compat_r; [|exact PK].
  unfold N, norm_of. fold s. pose proof (P s Ps) as Pf. set (r := fsqrt s) in *. clearbody r.
  replace ((r + eps) * (r + eps))%Qc with (r * r + (r * eps + (r + eps) * eps))%Qc by ring.
  assert (X : (0 <= r * eps + (r + eps) * eps)%Qc).
  { assert (0 <= r * eps)%Qc as X1 by (apply Qc_mult_nonneg; [exact Pf|now apply Qclt_le_weak]).
    assert (0 <= (r + eps) * eps)%Qc as X2 by (apply Qc_mult_nonneg; [clear - Pf E; qn|now apply Qclt_le_weak]). set (u := (r * eps)%Qc) in *. set (v := ((r + eps) * eps)%Qc) in *. clearbody u v. clear - X1 X2. qn. }
  set (u := (r * r)%Qc). set (v := (r * eps + (r + eps) * eps)%Qc) in *. clearbody u v. clear - X. qn.
Qed.
Lemma described_size fsqrt eps thresh samples H descr out K : described fsqrt eps thresh samples H descr out ->
  (forall a, 0 <= a -> 0 <= fsqrt a)%Qc -> (0 < eps)%Qc -> (forall i, i < 128 -> (0 <= H i)%Qc) -> (0 <= K)%Qc -> (forall a, 0 <= a -> a <= K * (fsqrt a * fsqrt a))%Qc ->
  (forall i, i < 128 -> (0 <= nth i out 0)%Qc) /\ (ksum 128 (fun i => nth i out 0 * nth i out 0) <= K)%Qc.
Proof.
  intros (_ & _ & Z & N) P E PH PK HK.
  assert (DEC : below fsqrt eps 128 thresh samples H \/ ~ below fsqrt eps 128 thresh samples H).
  { unfold below. destruct (Qc_eq_dec thresh 0) as [T|T]; [right; tauto|]. destruct (Qclt_le_dec (norm_of fsqrt eps 128 H) (thresh * samples)) as [L|L]; [left; auto|].
    right. intros [_ L']. apply Qclt_not_le in L'. auto. }
  destruct DEC as [B|B].
  - split; [intros i Hi; rewrite Z by auto; apply Qcle_refl|]. rewrite (ksum_ext 128 _ (fun _ => 0%Qc * 0%Qc)%Qc) by (intros i Hi; now rewrite Z). 
    rewrite sum_scale, Qcmult_0_r. exact PK.
  - split; [intros i Hi; rewrite N by auto; apply final_nonneg; auto|].
    rewrite (ksum_ext 128 _ (fun i => final fsqrt eps 128 H i * final fsqrt eps 128 H i)%Qc) by (intros i Hi; now rewrite N by auto). apply normal_size; auto.
Qed.

(** C126.  Descriptors of keypoints and of raw gradients have no negative entries, and their norm is
    at most one up to the relative error of the square root. *)
Theorem C126_descriptor_size : forall pow root fsqrt expo sine cosine magn angl pi eps_d eps_f c f k angle0 descr f' out K,
  fits c -> sane pow root (c_S c) -> reached pow root expo magn angl c true f -> 2 <= f_ow f -> 2 <= f_oh f -> (0 < pi)%Qc -> 128 <= length descr ->
  (let scale := pow (nq 2) (zq (f_ocur f)) in forall px py, px < f_ow f -> py < f_oh f ->
    descr_argument sine cosine (k_x k / scale) (k_y k / scale) angle0 (c_magnif c * (k_sigma k / scale) + eps_d) (c_window c) px py <> nq 25) ->
  (forall a, 0 <= expo a)%Qc -> (forall a b, 0 <= magn a b)%Qc -> (forall a, 0 <= a -> 0 <= fsqrt a)%Qc -> (0 < eps_f)%Qc ->
  (0 <= K)%Qc -> (forall a, 0 <= a -> a <= K * (fsqrt a * fsqrt a))%Qc ->
  usable pow f k (f_oh f - 1) -> keypoint_descriptor pow root fsqrt expo sine cosine magn angl pi eps_d eps_f f descr k angle0 = Some (f', out) ->
  (forall i, i < 128 -> (0 <= nth i out 0)%Qc) /\ (ksum 128 (fun i => nth i out 0 * nth i out 0) <= K)%Qc.
Proof.
  intros pow root fsqrt expo sine cosine magn angl pi eps_d eps_f c f k angle0 descr f' out K F SN R Hw Hh Hp LD NE PE PM PF Pe PK HK U E.
  destruct (C124_descriptor pow root fsqrt expo sine cosine magn angl pi eps_d eps_f c f k angle0 descr F SN R Hw Hh Hp LD NE) as [D _].
  destruct (D U) as (f2 & out2 & UG & E2 & DS). rewrite E in E2. injection E2 as <- <-. clear D E.
  destruct (updated _ _ _ _ _ _ _ F SN R Hw Hh) as (f3 & E3 & _ & C & _ & _ & _ & _ & _ & _ & _ & _ & HG). rewrite UG in E3. injection E3 as <-.
  eapply described_size; [exact DS|auto..]. intros i _. apply descr_bin_nonneg; [exact PE|]. intros px py Hx Hy.
  destruct U as (_ & _ & _ & Ui). rewrite C in Ui.
  destruct (HG (Z.to_nat (k_is k)) px py ltac:(lia) Hx Hy) as ((a & b & EM & _) & _). cbv zeta in EM |- *. rewrite EM. apply PM.
Qed.
Print Assumptions C126_descriptor_size.
Theorem C126_raw_descriptor_size : forall root fsqrt expo sine cosine pi eps_d eps_f f grad descr w h x y sigma angle0 out K,
  (0 < pi)%Qc -> 128 <= length descr -> length grad = 2 * (w * h) ->
  (let size := (c_magnif (f_cfg f) * sigma + eps_d)%Qc in
   (0 <= qfloor (root (nq 2) * (nq 5 / nq 2 * size) + 1 / nq 2)%Qc)%Z /\
   forall px py, px < w -> py < h -> descr_argument sine cosine x y angle0 size (c_window (f_cfg f)) px py <> nq 25) ->
  (forall a, 0 <= expo a)%Qc -> (forall i, i < w * h -> (0 <= nth (2 * i)%nat grad 0)%Qc) -> (forall a, 0 <= a -> 0 <= fsqrt a)%Qc -> (0 < eps_f)%Qc ->
  (0 <= K)%Qc -> (forall a, 0 <= a -> a <= K * (fsqrt a * fsqrt a))%Qc ->
  on_image w x -> on_image (h - 1) y -> raw_descriptor root fsqrt expo sine cosine pi eps_d eps_f f grad descr w h x y sigma angle0 = Some out ->
  (forall i, i < 128 -> (0 <= nth i out 0)%Qc) /\ (ksum 128 (fun i => nth i out 0 * nth i out 0) <= K)%Qc.
Proof.
  intros root fsqrt expo sine cosine pi eps_d eps_f f grad descr w h x y sigma angle0 out K Hp LD LG (RP & NE) PE PM PF Pe PK HK Ox Oy E.
  destruct (C125_raw_descriptor root fsqrt expo sine cosine pi eps_d eps_f f grad descr w h x y sigma angle0 Hp LD LG NE) as [D _].
  destruct (D (conj Ox Oy)) as (out2 & E2 & DS). rewrite E in E2. injection E2 as <-. eapply described_size; [exact (DS RP)|auto..].
  intros i _. apply descr_bin_nonneg; [exact PE|]. intros px py Hx Hy. unfold mag. cbn [Nat.add]. apply PM. nia.
Qed.
Print Assumptions C126_raw_descriptor_size.

(** *** The tabulated exponential *)
(** C128.  At x from 0 on, except 25, the tabulated exponential is defined; it is 0 above 25, it
    equals exp(-x) at the multiples of 25/256 and elsewhere lies between the values at the adjacent
    multiples, if [expo] is increasing. *)
Theorem C128_exponential : forall expo x, (0 <= x)%Qc -> x <> nq 25 ->
  exists v, fast_expn expo x = Some v /\ ((nq 25 < x)%Qc -> v = 0%Qc) /\
    forall k, k < 256 -> (nq k * nq 25 / nq 256 <= x)%Qc -> (x <= nq (k + 1) * nq 25 / nq 256)%Qc ->
      let a := expo (- (nq k * nq 25 / nq 256))%Qc in let b := expo (- (nq (k + 1) * nq 25 / nq 256))%Qc in
      (x = nq k * nq 25 / nq 256 -> v = a)%Qc /\ (b <= a -> b <= v /\ v <= a)%Qc.
Proof.
  intros expo x P NE. rewrite (fast_expn_ok expo x P NE). eexists. split; [reflexivity|]. unfold tabulated. split.
  { intros L. destruct (Qclt_le_dec (nq 25) x) as [_|L']; [reflexivity|]. now apply Qclt_not_le in L. }
  intros k Hk L1 L2. cbv zeta. destruct (Qclt_le_dec (nq 25) x) as [L|L].
  { exfalso. apply Qclt_not_le in L. apply L. apply Qcle_trans with (1 := L2). apply Qcle_trans with (nq 256 * nq 25 / nq 256)%Qc; [|replace (nq 256 * nq 25 / nq 256)%Qc with (nq 25) by (field; discriminate); apply Qcle_refl].
    unfold Qcdiv. apply Qcmult_le_compat_r; [|discriminate]. apply Qcmult_le_compat_r; [apply nq_le; lia|discriminate]. }
  set (t := (x * nq 256 / nq 25)%Qc).
  assert (T1 : (nq k <= t)%Qc).
  { replace (nq k) with (nq k * nq 25 / nq 256 * (nq 256 / nq 25))%Qc by (field; split; discriminate). replace t with (x * (nq 256 / nq 25))%Qc by (unfold t, Qcdiv; ring).
    apply Qcmult_le_compat_r; [exact L1|discriminate]. }
  assert (T2 : (t <= nq (k + 1))%Qc).
  { replace (nq (k + 1)) with (nq (k + 1) * nq 25 / nq 256 * (nq 256 / nq 25))%Qc by (field; split; discriminate). replace t with (x * (nq 256 / nq 25))%Qc by (unfold t, Qcdiv; ring).
    apply Qcmult_le_compat_r; [exact L2|discriminate]. }
  destruct (Qclt_le_dec t (nq (k + 1))) as [T3|T3].
  - assert (FL : qfloor t = Z.of_nat k). { apply qfloor_unique; [exact T1|]. fold (nq k). rewrite <- nq_S. exact T3. }
    rewrite FL. fold (nq k). replace (Z.of_nat k + 1)%Z with (Z.of_nat (k + 1)) by lia. fold (nq (k + 1)). set (a := expo _). set (b := expo _). split.
    + intros ->. assert (t = nq k) as -> by (unfold t; field; split; discriminate). ring.
    + intros AB. rewrite nq_S in T2. set (z := nq k) in *. clearbody a b t z. clear - T1 T2 AB. split.
      * replace (a + (t - z) * (b - a))%Qc with (b + (z + 1 - t) * (a - b))%Qc by ring. assert (X : (0 <= (z + 1 - t) * (a - b))%Qc) by (apply Qc_mult_nonneg; qn).
        set (u := ((z + 1 - t) * (a - b))%Qc) in *. clearbody u. clear - X. qn.
      * replace (a + (t - z) * (b - a))%Qc with (a - (t - z) * (a - b))%Qc by ring. assert (X : (0 <= (t - z) * (a - b))%Qc) by (apply Qc_mult_nonneg; qn).
        set (u := ((t - z) * (a - b))%Qc) in *. clearbody u. clear - X. qn.
  - assert (TE : t = nq (k + 1)) by (apply Qcle_antisym; assumption).
    assert (FL : qfloor t = Z.of_nat (k + 1)). { rewrite TE. apply qfloor_unique; [apply Qcle_refl|]. set (z := zq _). change (nq (k + 1)) with z. clearbody z. qn. }
    rewrite FL. fold (nq (k + 1)). rewrite TE. set (a := expo (- (nq k * nq 25 / nq 256))%Qc). set (b := expo (- (nq (k + 1) * nq 25 / nq 256))%Qc). set (b2 := expo _).
    replace (b + (nq (k + 1) - nq (k + 1)) * (b2 - b))%Qc with b by ring. split.
    + intros EX. exfalso. assert (t = nq k) as T4 by (unfold t; rewrite EX; field; split; discriminate). rewrite TE, nq_S in T4. set (z := nq k) in *. clearbody z. clear - T4.
      assert (1 = 0)%Qc as X by (replace 1%Qc with (z + 1 - z)%Qc by ring; rewrite T4; ring). discriminate.
    + intros AB. split; [apply Qcle_refl|exact AB].
Qed.
Print Assumptions C128_exponential.

(** C129, refuted: the table covers the documented range.  At 25 its end is exceeded: in a window
    scaled by 1/2, a pixel 2.5 bins away in both directions is looked up there, and the descriptor is
    undefined. *)
Definition no_trig (a : Qc) : Qc := if Qc_eq_bool a 0 then 1%Qc else 0%Qc.
Definition ex_wide : sift :=
  {| f_cfg := {| c_w := 8; c_h := 8; c_O := 1; c_S := 1; c_omin := 0; c_peak := 0; c_edge := nq 10; c_norm := 0; c_magnif := nq 2; c_window := (1 / nq 2)%Qc |};
     f_ocur := 0; f_ow := 8; f_oh := 8; f_temp := []; f_octave := []; f_dog := []; f_grad := []; f_grado := 0;
     f_filt := []; f_fsigma := 0; f_fwidth := 0; f_keys := [] |}.
Theorem C129_exponential_range_refuted :
  ~ (forall expo x, (0 <= x)%Qc -> (x <= nq 25)%Qc -> exists v, fast_expn expo x = Some v) /\
  ~ (forall root fsqrt expo sine cosine pi eps_d eps_f f grad descr w h x y sigma angle0,
       (0 < pi)%Qc -> 128 <= length descr -> length grad = 2 * (w * h) -> (0 < sigma)%Qc -> (0 < c_magnif (f_cfg f))%Qc -> (0 < c_window (f_cfg f))%Qc ->
       exists out, raw_descriptor root fsqrt expo sine cosine pi eps_d eps_f f grad descr w h x y sigma angle0 = Some out).
Proof.
  split.
  - intros H. destruct (H (fun _ => 0%Qc) (nq 25)) as (v & E); [discriminate|apply Qcle_refl|]. rewrite fast_expn_end in E. discriminate.
  - intros H.
    destruct (H (fun _ => zq 14 / zq 10)%Qc (fun a => a) (fun _ => 0%Qc) (fun _ => 0%Qc) no_trig (nq 3) 0%Qc 1%Qc ex_wide (repeat 0%Qc 128) (repeat 0%Qc 128) 8 8 0%Qc 0%Qc 1%Qc 0%Qc) as (out & E); try reflexivity.
    match type of E with ?t = Some _ => assert (X : match t with None => true | Some _ => false end = true) by (vm_compute; reflexivity) end.
    rewrite E in X. discriminate.
Qed.
Print Assumptions C129_exponential_range_refuted.

(** *** Keypoints of the user *)
Lemma nearest_pos q : (0 <= q + 1 / nq 2)%Qc -> nearest q = qfloor (q + 1 / nq 2)%Qc.
Proof. intros P. unfold nearest. change (half 1) with (1 / nq 2)%Qc. now apply trunc_pos. Qed.
Lemma nearest_neg q : (q + 1 / nq 2 <= 0)%Qc -> (nearest q <= 0)%Z.
Proof.
  intros P. unfold nearest. change (half 1) with (1 / nq 2)%Qc. set (z := (q + 1 / nq 2)%Qc) in *. clearbody z. replace z with (- - z)%Qc by ring. rewrite trunc_opp.
  assert (N : (0 <= - z)%Qc) by qn. rewrite trunc_pos by exact N. assert (0 <= qfloor (- z))%Z by (apply qfloor_iff; exact N). lia.
Qed.
(** C130.  A keypoint made from a position and a scale is assigned an octave of the filter and a level
    0, ..., S - 1, such that the level is the nearest one to the scale, or the first or last octave
    and level if the scale is out of range. *)
Theorem C130_keypoint_init : forall pow lg eps_d f x y sigma,
  let c := f_cfg f in let S := c_S c in let k := keypoint_init pow lg eps_d f x y sigma in
  0 < S -> 0 < c_O c ->
  let phi := lg ((sigma + eps_d) / (zq 16 / zq 10 * pow (nq 2) (1 / nq S)))%Qc in
  let lo := (zq (c_omin c) - 1 / (nq 2 * nq S))%Qc in let hi := (lo + nq (c_O c))%Qc in
  let scale := pow (nq 2) (zq (k_o k)) in
  k_x k = x /\ k_y k = y /\ k_sigma k = sigma /\
  (c_omin c <= k_o k < c_omin c + Z.of_nat (c_O c))%Z /\ (0 <= k_is k < Z.of_nat S)%Z /\
  (zq (k_o k) + k_s k / nq S = phi)%Qc /\
  ((lo <= phi)%Qc -> (phi < hi)%Qc -> (- (1 / nq 2) <= k_s k - zq (k_is k) /\ k_s k - zq (k_is k) < 1 / nq 2)%Qc) /\
  ((phi < lo)%Qc -> k_o k = c_omin c /\ k_is k = 0%Z) /\
  ((hi <= phi)%Qc -> k_o k = (c_omin c + Z.of_nat (c_O c) - 1)%Z /\ k_is k = (Z.of_nat S - 1)%Z) /\
  ((0 <= x / scale)%Qc -> k_ix k = qfloor (x / scale + 1 / nq 2)) /\ ((0 <= y / scale)%Qc -> k_iy k = qfloor (y / scale + 1 / nq 2)).
Proof.
  intros pow lg eps_d f x y sigma c n k Hn HO phi lo hi scale.
  assert (PS : (0 < nq n)%Qc) by now apply nq_pos. assert (NS : nq n <> 0%Qc) by now apply qc_pos_neq.
  set (o1 := qfloor (phi + 1 / (nq 2 * nq n))%Qc).
  set (o := Z.max (Z.min o1 (c_omin c + Z.of_nat (c_O c) - 1)) (c_omin c)).
  assert (Eo : k_o k = o).
  { unfold k, keypoint_init. cbn [k_o]. fold c. fold n. unfold sigma0, sigmak. fold phi. unfold o. do 2 f_equal. unfold o1. f_equal.
    change (zq (-1) + half 1)%Qc with (- (1 / nq 2))%Qc. field. split; [exact NS|discriminate]. }
  set (s := (nq n * (phi - zq o))%Qc). assert (Es : k_s k = s).
  { unfold s. rewrite <- Eo. reflexivity. }
  assert (Ei : k_is k = Z.max (Z.min (nearest s) (Z.of_nat n - 1)) 0) by (rewrite <- Es; reflexivity).
  split; [reflexivity|]. split; [reflexivity|]. split; [reflexivity|]. split; [rewrite Eo; unfold o; lia|]. split; [rewrite Ei; lia|].
  split. { rewrite Eo, Es. unfold s. field. exact NS. }
  set (h := (1 / nq 2)%Qc). set (u := (1 / (nq 2 * nq n))%Qc) in *.
  assert (HU : (nq n * u = h)%Qc) by (unfold u, h; field; split; first [exact NS|discriminate]).
  assert (H2 : (h + h = 1)%Qc) by (apply Qc_is_canon; reflexivity).
  assert (PH : (0 < h)%Qc) by reflexivity.
  assert (F1 : (zq o1 <= phi + u)%Qc) by apply qfloor_le. assert (F2 : (phi + u < zq o1 + 1)%Qc) by apply qfloor_lt.
  split; [|split; [|split]].
  - intros L1 L2. assert (O1 : (c_omin c <= o1)%Z). { apply qfloor_iff. unfold lo in L1. clear - L1. set (z := zq (c_omin c)) in *. clearbody z u phi. qn. }
    assert (O2 : (o1 < c_omin c + Z.of_nat (c_O c))%Z).
    { apply qfloor_lt_iff. rewrite zq_plus. fold (nq (c_O c)). unfold hi, lo in L2. clear - L2. set (z := zq (c_omin c)) in *. set (z2 := nq (c_O c)) in *. clearbody z z2 u phi. qn. }
    assert (EO : o = o1) by (unfold o; lia).
    assert (S1 : (0 <= s + h)%Qc).
    { replace (s + h)%Qc with (nq n * (phi + u - zq o1))%Qc by (unfold s; rewrite EO, <- HU; ring). apply Qc_mult_nonneg; [now apply Qclt_le_weak|]. clear - F1. set (z := zq o1) in *. set (p := (phi + u)%Qc) in *. clearbody z p. qn. }
    assert (S2 : (s + h < nq n)%Qc).
    { replace (s + h)%Qc with (nq n * (phi + u - zq o1))%Qc by (unfold s; rewrite EO, <- HU; ring). rewrite (Qcmult_comm (nq n)).
      apply Qclt_le_trans with (1 * nq n)%Qc; [|rewrite Qcmult_1_l; apply Qcle_refl]. apply Qcmult_lt_compat_r; [exact PS|]. clear - F2. set (z := zq o1) in *. set (p := (phi + u)%Qc) in *. clearbody z p. qn. }
    assert (EN : nearest s = qfloor (s + h)%Qc) by (apply nearest_pos; exact S1).
    assert (0 <= nearest s)%Z as N0 by (rewrite EN; apply qfloor_iff; exact S1).
    assert (nearest s < Z.of_nat n)%Z as N1 by (rewrite EN; apply qfloor_lt_iff; exact S2).
    rewrite Ei, Es. replace (Z.max (Z.min (nearest s) (Z.of_nat n - 1)) 0) with (nearest s) by lia. rewrite EN.
    pose proof (qfloor_le (s + h)) as G1. pose proof (qfloor_lt (s + h)) as G2. clear - G1 G2 H2. set (z := zq (qfloor (s + h))) in *. clearbody z h s. split; qn.
  - intros L. assert (O1 : (o1 < c_omin c)%Z). { apply qfloor_lt_iff. unfold lo in L. clear - L. set (z := zq (c_omin c)) in *. clearbody z u phi. qn. }
    assert (EO : o = c_omin c) by (unfold o; lia). split; [congruence|]. rewrite Ei. assert (nearest s <= 0)%Z; [|lia]. apply nearest_neg. fold h.
    replace (s + h)%Qc with (- ((zq (c_omin c) - (phi + u)) * nq n))%Qc by (unfold s; rewrite EO, <- HU; ring).
    assert (X : (0 <= (zq (c_omin c) - (phi + u)) * nq n)%Qc).
    { apply Qc_mult_nonneg; [|now apply Qclt_le_weak]. unfold lo in L. clear - L. set (z := zq (c_omin c)) in *. clearbody z u phi. qn. }
    set (w := ((zq (c_omin c) - (phi + u)) * nq n)%Qc) in *. clearbody w. clear - X. qn.
  - intros L. assert (O1 : (c_omin c + Z.of_nat (c_O c) <= o1)%Z).
    { apply qfloor_iff. rewrite zq_plus. fold (nq (c_O c)). unfold hi, lo in L. clear - L. set (z := zq (c_omin c)) in *. set (z2 := nq (c_O c)) in *. clearbody z z2 u phi. qn. }
    assert (EO : o = (c_omin c + Z.of_nat (c_O c) - 1)%Z) by (unfold o; lia). split; [congruence|]. rewrite Ei. assert (Z.of_nat n <= nearest s)%Z; [|lia].
    assert (X : (nq n <= s + h)%Qc).
    { replace (s + h)%Qc with ((phi + u - zq o) * nq n)%Qc by (unfold s; rewrite <- HU; ring). apply Qcle_trans with (1 * nq n)%Qc; [rewrite Qcmult_1_l; apply Qcle_refl|]. apply Qcmult_le_compat_r; [|now apply Qclt_le_weak].
      rewrite EO. replace (c_omin c + Z.of_nat (c_O c) - 1)%Z with (c_omin c + Z.of_nat (c_O c) + -1)%Z by lia. rewrite !zq_plus. fold (nq (c_O c)). change (zq (-1)) with (- (1))%Qc. unfold hi, lo in L. clear - L.
      set (z := zq (c_omin c)) in *. set (z2 := nq (c_O c)) in *. clearbody z z2 u phi. qn. }
    rewrite nearest_pos; [apply qfloor_iff; exact X|]. fold h. apply Qcle_trans with (nq n); [now apply Qclt_le_weak|exact X].
  - assert (G : forall z, (0 <= z / scale)%Qc -> nearest (z / scale) = qfloor (z / scale + h)%Qc).
    { intros z Hz. apply nearest_pos. fold h. set (q := (z / scale)%Qc) in *. clearbody q. clear - Hz PH. clearbody h. qn. }
    split; intros P; rewrite <- G by exact P; reflexivity.
Qed.
Print Assumptions C130_keypoint_init.

(** *** Keypoints of the detector *)
(** C131.  Every detected keypoint can be given orientations, and those not in the last half pixel of
    rows also a descriptor. *)
Theorem C131_detected_usable : forall pow root expo magn angl c f f',
  fits c -> sane pow root (c_S c) -> reached pow root expo magn angl c true f -> (0 <= c_edge c)%Qc -> SiftDetect_Model.detect pow f = Some f' ->
  Forall (fun k => usable pow f' k (f_oh f') /\
    (usable pow f' k (f_oh f' - 1) <-> (k_y k < (nq (f_oh f') - nq 3 / nq 2) * pow (nq 2) (zq (f_ocur f')))%Qc)) (f_keys f').
Proof.
  intros pow root expo magn angl c f f' F SN R HE E. pose proof (SiftDetect_Props.C119_keypoints pow root expo magn angl c f f' F SN R HE E) as K.
  destruct (SiftDetect_Props.C118_detection pow root expo magn angl c f F SN R HE) as (f2 & _ & _ & E2 & R2 & _ & Eo & Ew & Eh & _). rewrite E in E2. injection E2 as <-.
  destruct (reached_inv pow root expo magn angl c true f' F SN R2) as (_ & C' & _). rewrite Eh, Eo. eapply Forall_impl; [|exact K]. cbv beta zeta. clear K.
  intros k (Ko & (Ix1 & Ix2) & (Iy1 & Iy2) & Ks & (X0 & X1 & Y0 & Y1 & _) & _). unfold usable. rewrite Eo, Ew, C'.
  set (scale := pow (nq 2) (zq (f_ocur f))) in *. assert (Sp : (0 < scale)%Qc) by (apply (sane_pow _ _ _ SN); reflexivity). assert (Sn : scale <> 0%Qc) by now apply qc_pos_neq.
  assert (D : forall a b, (a <= b * scale -> a / scale <= b)%Qc).
  { intros a b L. replace b with (b * scale / scale)%Qc by (field; exact Sn). unfold Qcdiv. apply Qcmult_le_compat_r; [exact L|now apply Qclt_le_weak, Qcinv_pos]. }
  assert (D2 : forall a b, (a < b * scale -> a / scale < b)%Qc).
  { intros a b L. replace b with (b * scale / scale)%Qc by (field; exact Sn). unfold Qcdiv. apply Qcmult_lt_compat_r; [now apply Qcinv_pos|exact L]. }
  assert (P : forall a, (0 <= a -> 0 <= a / scale)%Qc) by (intros a L; apply Qc_mult_nonneg; [exact L|now apply Qclt_le_weak, Qcinv_pos]).
  assert (ON : forall n a, 2 < n -> (0 <= a)%Qc -> (a <= zq (Z.of_nat n - 1) * scale)%Qc -> on_image n (a / scale)).
  { intros n a Hn A B. split; [lia|]. apply D in B. apply P in A. set (q := (a / scale)%Qc) in *. clearbody q. replace (Z.of_nat n - 1)%Z with (Z.of_nat n + -1)%Z in B by lia. rewrite zq_plus in B. fold (nq n) in B.
    change (zq (-1)) with (- (1))%Qc in B. assert (T : (0 < nq 3 / nq 2)%Qc) by reflexivity. assert (H1 : (1 / nq 2 < 1)%Qc) by reflexivity. set (t := (nq 3 / nq 2)%Qc) in *. set (h := (1 / nq 2)%Qc) in *. set (m := nq n) in *.
    clearbody t h m. clear - A B T H1. split; qn. }
  split. { split; [exact Ko|]. split; [apply ON; auto; lia|]. split; [apply ON; auto; lia|exact Ks]. }
  assert (HH : (nq (f_oh f - 1) - 1 / nq 2 = nq (f_oh f) - nq 3 / nq 2)%Qc).
  { replace (f_oh f) with (f_oh f - 1 + 1) at 2 by lia. rewrite nq_S. set (m := nq (f_oh f - 1)). assert (X : (nq 3 / nq 2 = 1 + 1 / nq 2)%Qc) by (apply Qc_is_canon; reflexivity). rewrite X. ring. }
  split.
  - intros (_ & _ & (_ & _ & U) & _). rewrite HH in U. replace (k_y k) with (k_y k / scale * scale)%Qc by (field; exact Sn). apply Qcmult_lt_compat_r; [exact Sp|exact U].
  - intros L. split; [exact Ko|]. split; [apply ON; auto; lia|]. split; [|exact Ks]. split; [lia|]. rewrite HH. split.
    + apply P in Y0. set (q := (k_y k / scale)%Qc) in *. clearbody q. apply Qclt_le_trans with 0%Qc; [reflexivity|exact Y0].
    + now apply D2.
Qed.
Print Assumptions C131_detected_usable.

(** C132, refuted: the descriptor of every detected keypoint is written.  A keypoint in the last half
    pixel of rows is skipped, and the array keeps its contents. *)
Definition ex_pow2 (a b : Qc) : Qc := if Qc_eq_bool a (nq 2) then (nq 3 / nq 2)%Qc else if Qc_eq_bool b 1 then nq 2 else (1 / nq 2)%Qc.
Definition ex_im2 : list Qc := map nq [0; 0; 0; 1; 0; 1; 0; 2; 9; 9; 9; 2; 1; 9; 1].
Lemma ex_sane2 : fits (new_config 3 5 1 1 0) /\ sane ex_pow2 ex_root 1.
Proof.
  split; [constructor; vm_compute; lia|]. constructor; [|reflexivity|intros; reflexivity].
  intros a b P. unfold ex_pow2. destruct (Qc_eq_bool a (nq 2)); [reflexivity|]. destruct (Qc_eq_bool b 1); reflexivity.
Qed.
(** checks of the results of computations *)
Definition also {T} (o : option T) (g : T -> bool) : bool := match o with Some v => g v | None => false end.
Definition ran (o : option (code * sift)) (g : sift -> bool) : bool := match o with Some (OK, f) => g f | _ => false end.
Lemma also_inv {T} (o : option T) g : also o g = true -> exists v, o = Some v /\ g v = true.
Proof. destruct o as [v|]; [eauto|discriminate]. Qed.
Lemma ran_inv o g : ran o g = true -> exists f, o = Some (OK, f) /\ g f = true.
Proof. destruct o as [[[] f]|]; [eauto|discriminate..]. Qed.
Definition ex_zero (a : Qc) : Qc := 0%Qc.
Theorem C132_descriptor_of_detected_refuted :
  ~ (forall pow root fsqrt expo sine cosine magn angl pi eps_d eps_f c f f' k angle0 descr1 descr2 f1 f2 out1 out2,
       fits c -> sane pow root (c_S c) -> reached pow root expo magn angl c true f -> (0 <= c_edge c)%Qc -> SiftDetect_Model.detect pow f = Some f' -> In k (f_keys f') ->
       128 <= length descr1 -> 128 <= length descr2 ->
       keypoint_descriptor pow root fsqrt expo sine cosine magn angl pi eps_d eps_f f' descr1 k angle0 = Some (f1, out1) ->
       keypoint_descriptor pow root fsqrt expo sine cosine magn angl pi eps_d eps_f f' descr2 k angle0 = Some (f2, out2) ->
       firstn 128 out1 = firstn 128 out2).
Proof.
  intros H. set (c := new_config 3 5 1 1 0).
  assert (X : ran (process_first ex_pow2 ex_root ex_expo (sift_new nq c) ex_im2) (fun f => also (SiftDetect_Model.detect ex_pow2 f) (fun f' => also (hd_error (f_keys f')) (fun k =>
    also (keypoint_descriptor ex_pow2 ex_root ex_zero ex_expo ex_zero ex_zero ex_magn ex_angl 1 0 1 f' (repeat 0%Qc 128) k 0) (fun r1 =>
    also (keypoint_descriptor ex_pow2 ex_root ex_zero ex_expo ex_zero ex_zero ex_magn ex_angl 1 0 1 f' (repeat 1%Qc 128) k 0) (fun r2 =>
      Qc_eq_bool (nth 0 (firstn 128 (snd r1)) 1%Qc) 0 && negb (Qc_eq_bool (nth 0 (firstn 128 (snd r2)) 0%Qc) 0)))))) = true) by (vm_compute; reflexivity).
  apply ran_inv in X. destruct X as (f & E1 & X). apply also_inv in X. destruct X as (f' & E2 & X). apply also_inv in X. destruct X as (k & E3 & X).
  apply also_inv in X. destruct X as ([f1 o1] & E4 & X). apply also_inv in X. destruct X as ([f2 o2] & E5 & X). cbn [snd] in X.
  assert (IK : In k (f_keys f')) by (destruct (f_keys f'); [discriminate|left; cbn [hd_error] in E3; congruence]).
  assert (R : reached ex_pow2 ex_root ex_expo ex_magn ex_angl c true f) by (eapply R_first with (im := ex_im2); [apply R_new|reflexivity|exact E1]).
  pose proof (H ex_pow2 ex_root ex_zero ex_expo ex_zero ex_zero ex_magn ex_angl 1%Qc 0%Qc 1%Qc c f f' k 0%Qc (repeat 0%Qc 128) (repeat 1%Qc 128) f1 f2 o1 o2
    (proj1 ex_sane2) (proj2 ex_sane2) R ltac:(discriminate) E2 IK ltac:(rewrite repeat_length; apply le_n) ltac:(rewrite repeat_length; apply le_n) E4 E5) as Y.
  apply andb_true_iff in X. destruct X as [X1 X2]. apply Qc_eq_bool_correct in X1. apply negb_true_iff in X2. rewrite <- Y in X2.
  destruct (firstn 128 o1) as [|v l]; [cbn [nth] in X1; discriminate|]. cbn [nth] in X1, X2. rewrite X1 in X2. discriminate.
Qed.
Print Assumptions C132_descriptor_of_detected_refuted.

(** C123, refuted: the strongest orientation is among those returned.  Only the first four in the
    order of the bins are: with five directions of similar strength the strongest may be the fifth. *)
Lemma peak_ext g g' : (forall b, b < 36 -> g b = g' b) -> forall b, peak g b -> peak g' b.
Proof.
  intros Eg b' (A1 & A2 & A3 & A4 & A5). assert (M1 : (b' + 35) mod 36 < 36) by (apply Nat.mod_upper_bound; lia). assert (M2 : (b' + 1) mod 36 < 36) by (apply Nat.mod_upper_bound; lia).
  unfold peak. rewrite <- !Eg by assumption. repeat (split; [assumption|]). split; [|split; assumption]. intros b2 Hb2. rewrite <- !Eg by assumption. now apply A3.
Qed.
Lemma bin_angle_bounds pi H b : (0 < pi)%Qc -> peak H b -> let u := (nq 2 * pi / nq 36)%Qc in (u * nq b < bin_angle pi H b /\ bin_angle pi H b < u * nq (b + 1))%Qc.
Proof.
  intros Hp Pb u. assert (PP : (0 < u)%Qc) by (unfold u, Qcdiv; repeat apply Qc_mul_pos; auto; reflexivity).
  destruct (vertex_bounds H b Pb) as (V1 & V2 & _). unfold bin_angle. fold u. rewrite !(Qcmult_comm u). rewrite nq_S. set (v := vertex H b) in *. set (z := (1 / nq 2)%Qc) in *.
  assert (Z2 : (z + z = 1)%Qc) by (apply Qc_is_canon; reflexivity). clearbody v z. split; apply Qcmult_lt_compat_r; auto; [|rewrite <- Z2]; clear - V1 V2; set (q := nq b); clearbody q; qn.
Qed.
Lemma sorted_first4 p b l : StronglySorted lt p -> In b p -> NoDup l -> length l = 4 -> (forall a, In a l -> a < b /\ In a p) -> ~ In b (firstn 4 p).
Proof.
  intros SP Ib ND LL HL IB. assert (INC : incl (b :: l) (firstn 4 p)).
  { intros a [<-|Ia]; [exact IB|]. destruct (HL a Ia) as [Lt Ip]. rewrite <- (firstn_skipn 4 p) in Ip. apply in_app_or in Ip. destruct Ip as [I1|I2]; [exact I1|exfalso].
    rewrite <- (firstn_skipn 4 p) in SP. revert SP IB I2. generalize (firstn 4 p) (skipn 4 p). clear - Lt. intros p q SP IB I2. induction p as [|c p IH]; [destruct IB|]. cbn [app] in SP. inversion SP as [|? ? SP' FP]; subst.
    destruct IB as [->|IB]; [|now apply IH]. rewrite Forall_forall in FP. specialize (FP a (in_or_app _ _ _ (or_intror I2))). lia. }
  assert (ND' : NoDup (b :: l)) by (constructor; [|exact ND]; intros I; apply HL in I; lia). pose proof (NoDup_incl_length ND' INC) as L. cbn [length] in L. pose proof (firstn_le_length 4 p). lia.
Qed.
Definition ex_row : list Qc := map nq [0; 0; 0; 0; 16; 0; 0; 0; 0; 16].
(** five directions, depending on the horizontal difference *)
Definition ex_dir (a b : Qc) : Qc :=
  (nq (if qlt a (zq 9 / zq 10) then 7 else if qlt a (zq 16 / zq 10) then 21 else if qlt a (zq 29 / zq 10) then 35 else if qlt a (zq 39 / zq 10) then 49 else 63) / nq 12)%Qc.
Definition ex_len (a b : Qc) : Qc := if qlt a (zq 39 / zq 10) then 1%Qc else (zq 11 / zq 10)%Qc.
Definition ex_key : keypoint := {| k_o := 0; k_ix := 2; k_iy := 0; k_is := 0; k_x := nq 3; k_y := 0%Qc; k_s := 0%Qc; k_sigma := nq 15 |}.
Definition ex_hist (g : list Qc) : list Qc := map (ori_bin ex_expo (nq 3) g 0 5 2 (nq 3 / (nq 3 / nq 2)) (0 / (nq 3 / nq 2)) (nq 15 / (nq 3 / nq 2)))%Qc (seq 0 36).
Theorem C123_strongest_refuted :
  ~ (forall pow root expo magn angl pi c f k angles f' n out b,
      fits c -> sane pow root (c_S c) -> reached pow root expo magn angl c true f -> 2 <= f_ow f -> 2 <= f_oh f ->
      (0 < pi)%Qc -> (forall a b, 0 <= angl a b /\ angl a b <= nq 2 * pi)%Qc -> (0 < k_sigma k)%Qc -> 4 <= length angles ->
      let scale := pow (nq 2) (zq (f_ocur f)) in
      let w := f_ow f in let h := f_oh f in let x := (k_x k / scale)%Qc in let y := (k_y k / scale)%Qc in let sigma := (k_sigma k / scale)%Qc in
      (forall px py, px < w -> py < h -> ori_inside x y sigma px py -> ori_argument x y sigma px py <> nq 25) ->
      usable pow f k h -> update_gradient magn angl f = Some f' -> orientations pow expo magn angl pi f angles k = Some (f', n, out) ->
      let H := averaged_times 6 (ori_bin expo pi (f_grad f') (2 * (w * h) * Z.to_nat (k_is k)) w h x y sigma) in
      peak H b -> (forall b', b' < 36 -> (H b' <= H b)%Qc) -> In (bin_angle pi H b) (firstn n out)).
Proof.
  intros CL. set (c := new_config 5 2 1 1 0).
  assert (X : ran (process_first ex_pow ex_root ex_expo (sift_new nq c) ex_row) (fun f => (f_ow f =? 5) && (f_oh f =? 2) && (f_ocur f =? 0)%Z && (c_S (f_cfg f) =? 1) &&
    also (update_gradient ex_len ex_dir f) (fun f' => also (iter 6 (fun _ hist => smooth_once hist) (ex_hist (f_grad f'))) (fun h6 =>
      peakb h6 3 && peakb h6 10 && peakb h6 17 && peakb h6 24 && peakb h6 31 && forallb (fun b => negb (qlt (h6@31) (h6@b))) (seq 0 36)))) = true) by (vm_compute; reflexivity).
  apply ran_inv in X. destruct X as (f & E1 & X). rewrite !andb_true_iff, !Nat.eqb_eq, Z.eqb_eq in X. destruct X as ((((Ew & Eh) & Eo) & ES) & X).
  apply also_inv in X. destruct X as (f' & E2 & X). apply also_inv in X. destruct X as (h6 & E3 & X).
  assert (R : reached ex_pow ex_root ex_expo ex_len ex_dir c true f) by (eapply R_first with (im := ex_row); [apply R_new|reflexivity|exact E1]).
  assert (F : fits c) by (constructor; vm_compute; lia). assert (SN : sane ex_pow ex_root (c_S c)) by (constructor; [intros; reflexivity|reflexivity|intros; reflexivity]).
  assert (HA : (forall a b, 0 <= ex_dir a b /\ ex_dir a b <= nq 2 * nq 3)%Qc) by (intros a b; unfold ex_dir; repeat destruct (qlt a _); split; discriminate).
  assert (U : usable ex_pow f ex_key (f_oh f)).
  { unfold usable. rewrite Ew, Eh, Eo, ES. split; [reflexivity|]. split; [split; [lia|split; reflexivity]|]. split; [split; [lia|split; reflexivity]|]. cbn. lia. }
  assert (NE : let scale := ex_pow (nq 2) (zq (f_ocur f)) in forall px py, px < f_ow f -> py < f_oh f ->
      ori_inside (k_x ex_key / scale) (k_y ex_key / scale) (k_sigma ex_key / scale) px py -> ori_argument (k_x ex_key / scale) (k_y ex_key / scale) (k_sigma ex_key / scale) px py <> nq 25).
  { cbv zeta. rewrite Ew, Eh, Eo. intros px py Hx Hy _.
    assert (B : forallb (fun py => forallb (fun px => negb (Qc_eq_bool (ori_argument (nq 3 / (nq 3 / nq 2)) (0 / (nq 3 / nq 2)) (nq 15 / (nq 3 / nq 2)) px py) (nq 25))) (seq 0 5)) (seq 0 2) = true) by (vm_compute; reflexivity).
    rewrite forallb_forall in B. specialize (B py ltac:(apply in_seq; lia)). rewrite forallb_forall in B. specialize (B px ltac:(apply in_seq; lia)). apply negb_true_iff in B.
    intros Q. change (ex_pow (nq 2) (zq 0)) with (nq 3 / nq 2)%Qc in Q. cbn [k_x k_y k_sigma ex_key] in Q. rewrite Q in B. discriminate. }
  destruct (C121_orientations ex_pow ex_root ex_expo ex_len ex_dir (nq 3) c f ex_key (repeat 0%Qc 4) F SN R ltac:(lia) ltac:(lia) ltac:(reflexivity) HA ltac:(reflexivity) ltac:(cbn; lia) NE) as [OR _].
  destruct (OR U) as (f2 & peaks & E4 & SP & PK & EO). rewrite E2 in E4. injection E4 as <-. clear OR. cbv zeta in PK, EO.
  specialize (CL ex_pow ex_root ex_expo ex_len ex_dir (nq 3) c f ex_key (repeat 0%Qc 4) f' _ _ 31 F SN R ltac:(lia) ltac:(lia) ltac:(reflexivity) HA ltac:(reflexivity) ltac:(cbn; lia) NE U E2 EO). cbv zeta in CL.
  set (H := averaged_times 6 _) in *.
  destruct (smooth_times 6 (ex_hist (f_grad f')) (ori_bin ex_expo (nq 3) (f_grad f') (2 * (f_ow f * f_oh f) * Z.to_nat (k_is ex_key)) (f_ow f) (f_oh f)
    (k_x ex_key / ex_pow (nq 2) (zq (f_ocur f))) (k_y ex_key / ex_pow (nq 2) (zq (f_ocur f))) (k_sigma ex_key / ex_pow (nq 2) (zq (f_ocur f))))) as (h6' & E5 & L6 & H6).
  { unfold ex_hist. now rewrite map_length, seq_length. }
  { intros b Hb. unfold ex_hist. rewrite nth_map_seq by exact Hb. rewrite Ew, Eh, Eo. reflexivity. }
  rewrite E3 in E5. injection E5 as <-. fold H in H6. clearbody H.
  rewrite !andb_true_iff in X. destruct X as (((((P3 & P10) & P17) & P24) & P31) & MX).
  assert (PP : forall b, b < 36 -> peakb h6 b = true -> peak H b) by (intros b Hb Pb; apply (peak_ext (fun b => h6@b)); [exact H6|now apply peak_bool]).
  assert (K31 : peak H 31) by (apply PP; [lia|exact P31]).
  assert (IN : In (bin_angle (nq 3) H 31) (map (bin_angle (nq 3) H) (firstn 4 peaks))).
  { assert (LM : length (map (bin_angle (nq 3) H) (firstn 4 peaks)) = length (firstn 4 peaks)) by apply map_length.
    set (bins := firstn 4 peaks) in *. clearbody bins. rewrite firstn_app, LM, Nat.sub_diag in CL. cbn [firstn] in CL. rewrite app_nil_r, <- LM, firstn_all in CL. apply CL; [exact K31|].
    intros b' Hb'. rewrite <- !H6 by lia. rewrite forallb_forall in MX. specialize (MX b' ltac:(apply in_seq; lia)). apply negb_true_iff in MX. now apply qlt_false in MX. }
  apply in_map_iff in IN. destruct IN as (b & EB & IB).
  assert (Kb : peak H b) by (apply PK; eapply in_firstn_in; exact IB).
  assert (b = 31).
  { destruct (bin_angle_bounds (nq 3) H b ltac:(reflexivity) Kb) as [A1 A2]. destruct (bin_angle_bounds (nq 3) H 31 ltac:(reflexivity) K31) as [B1 B2]. rewrite EB in A1, A2.
    set (v := bin_angle (nq 3) H 31) in *. clearbody v. set (u := (nq 2 * nq 3 / nq 36)%Qc) in *. assert (PU : (0 < u)%Qc) by reflexivity. clearbody u.
    assert (G : forall i j, (u * nq i < v)%Qc -> (v < u * nq j)%Qc -> i < j).
    { intros i j L1 L2. destruct (Nat.lt_ge_cases i j) as [L|L]; [exact L|exfalso]. pose proof (Qclt_trans _ _ _ L1 L2) as L3. apply Qclt_not_le in L3. apply L3.
      rewrite !(Qcmult_comm u). apply Qcmult_le_compat_r; [now apply nq_le|now apply Qclt_le_weak]. }
    pose proof (G _ _ A1 B2). pose proof (G _ _ B1 A2). lia. }
  subst b. revert IB. apply (sorted_first4 peaks 31 [3; 10; 17; 24]); auto; [apply PK; exact K31|repeat constructor; cbn; lia|].
  intros a Ha. cbn [In] in Ha. destruct Ha as [<-|[<-|[<-|[<-|[]]]]]; (split; [lia|apply PK, PP; [lia|assumption]]).
Qed.
Print Assumptions C123_strongest_refuted.

Lemma C52_gradients_at pow root expo magn angl c b f junk im j : fits c -> sane pow root (c_S c) -> reached pow root expo magn angl c b f -> length im = c_w c * c_h c -> j < c_O c ->
  f_grado f <> (c_omin c + Z.of_nat j)%Z ->
  forall f1 g1 f2 g2, process_first pow root expo f im = Some (OK, f1) -> process_first pow root expo (sift_new junk c) im = Some (OK, g1) ->
    advance pow root expo j f1 = Some f2 -> advance pow root expo j g1 = Some g2 -> 2 <= f_ow f2 -> 2 <= f_oh f2 ->
  exists f3 g3, update_gradient magn angl f2 = Some f3 /\ update_gradient magn angl g2 = Some g3 /\
    forall l px py, l < c_S c -> px < f_ow f2 -> py < f_oh f2 -> let base := 2 * (f_ow f2 * f_oh f2) * l in
      mag (f_grad f3) base (f_ow f2) px py = mag (f_grad g3) base (f_ow f2) px py /\ ang (f_grad f3) base (f_ow f2) px py = ang (f_grad g3) base (f_ow f2) px py.
Proof.
  intros F SN R LI Lj NG f1 g1 f2 g2 E1 E2 E3 E4 Hw Hh.
  destruct (reached_inv pow root expo magn angl c b f F SN R) as (WF & C & _).
  destruct (process_first_ok pow root expo f im) as (f1' & X1 & W1 & (C1 & _ & _ & _ & K1) & Z1 & _); rewrite ?C; auto.
  rewrite E1 in X1. injection X1 as <-. rewrite C in C1.
  destruct (advance_ok pow root expo c F SN j f1 W1 C1 Z1 K1 Lj) as (f2' & X3 & _ & C3 & (_ & A2 & A3) & _).
  rewrite E3 in X3. injection X3 as <-. rewrite C3 in *. destruct (size_wide c j) as [S1 S2].
  destruct (C52_gradients pow root expo magn angl c b f junk im j F SN R LI Lj ltac:(lia) ltac:(lia) NG f1 g1 f2 g2 E1 E2 E3 E4) as (f3 & g3 & U1 & U2 & _ & SG & _).
  exists f3, g3. split; [exact U1|]. split; [exact U2|].
  assert (R2 : reached pow root expo magn angl c true f2).
  { assert (A : forall j a a', reached pow root expo magn angl c true a -> advance pow root expo j a = Some a' -> reached pow root expo magn angl c true a').
    { clear. induction j as [|j IH]; intros a a' Ra Ea; cbn [advance] in Ea; [congruence|]. destruct (advance pow root expo j a) as [a1|] eqn:Ej; [|discriminate].
      destruct (process_next pow root expo a1) as [[[] a2]|] eqn:En; try discriminate. injection Ea as <-. eapply R_next; [eapply IH; eauto|exact En]. }
    eapply A; [eapply R_first; eauto|exact E3]. }
  destruct (updated pow root expo magn angl c f2 F SN R2 Hw Hh) as (f3' & X5 & _ & _ & C5 & _ & Ow & Oh & _). rewrite U1 in X5. injection X5 as <-.
  intros l px py Hl Hx Hy base. unfold same_gradients in SG. rewrite C5, Ow, Oh in SG. assert (PB : py * f_ow f2 + px < f_ow f2 * f_oh f2) by nia.
  assert (BB : base + 2 * (py * f_ow f2 + px) + 1 < 2 * (f_ow f2 * f_oh f2) * c_S c) by (unfold base; nia). unfold mag, ang. split; apply SG; lia.
Qed.

Lemma nth_first {T} (d : T) l : forall n i, i < n -> nth i (firstn n l) d = nth i l d.
Proof. induction l as [|a l IH]; intros n i H; [now rewrite firstn_nil|]. destruct n as [|n]; [lia|]. destruct i as [|i]; [reflexivity|]. cbn [firstn nth]. apply IH. lia. Qed.
Lemma nth_rest {T} (d : T) n : forall l i, nth i (skipn n l) d = nth (n + i) l d.
Proof. induction n as [|n IH]; intros l i; [reflexivity|]. destruct l as [|a l]; [destruct i; reflexivity|]. cbn [skipn Nat.add nth]. apply IH. Qed.

(** *** Raw descriptors and descriptors of keypoints *)
Lemma around_ext W b1 b2 w h x y g1 g2 : (forall px, px < w -> close W b1 w x px = close W b2 w x px) -> (forall py, py < h -> close W b1 h y py = close W b2 h y py) ->
  (forall px py, px < w -> py < h -> g1 px py = g2 px py) -> around_sum W b1 w h x y g1 = around_sum W b2 w h x y g2.
Proof.
  intros Cx Cy G. unfold around_sum. apply ksum_ext. intros py Hy. apply ksum_ext. intros px Hx. rewrite Cx, Cy by assumption. now rewrite G.
Qed.
Lemma descr_bin_ext expo sine cosine pi g1 base1 g2 base2 w h x y angle0 size wsigma W b1 b2 i :
  (forall px, px < w -> close W b1 w x px = close W b2 w x px) -> (forall py, py < h -> close W b1 h y py = close W b2 h y py) ->
  (forall px py, px < w -> py < h -> mag g1 base1 w px py = mag g2 base2 w px py /\ ang g1 base1 w px py = ang g2 base2 w px py) ->
  descr_bin expo sine cosine pi g1 base1 w h x y angle0 size wsigma W b1 i = descr_bin expo sine cosine pi g2 base2 w h x y angle0 size wsigma W b2 i.
Proof. intros Cx Cy G. apply around_ext; auto. intros px py Hx Hy. destruct (G px py Hx Hy) as [-> ->]. reflexivity. Qed.
Lemma norm_ext fsqrt eps n h g : (forall i, i < n -> h i = g i) -> norm_of fsqrt eps n h = norm_of fsqrt eps n g.
Proof. intros E. unfold norm_of. do 2 f_equal. apply ksum_ext. intros i Hi. now rewrite E. Qed.
Lemma final_ext fsqrt eps n h g : (forall i, i < n -> h i = g i) -> forall i, i < n -> final fsqrt eps n h i = final fsqrt eps n g i.
Proof.
  intros E i Hi. assert (X : forall i, i < n -> cut (normal fsqrt eps n h i) = cut (normal fsqrt eps n g i)) by (intros j Hj; unfold normal; now rewrite (norm_ext fsqrt eps n h g E), E).
  unfold final, normal at 1 3. rewrite X by exact Hi. f_equal. now apply norm_ext.
Qed.
Lemma described_same fsqrt eps thresh s1 s2 H1 H2 d1 d2 o1 o2 : described fsqrt eps thresh s1 H1 d1 o1 -> described fsqrt eps thresh s2 H2 d2 o2 ->
  (forall i, i < 128 -> H1 i = H2 i) -> thresh = 0%Qc \/ s1 = s2 -> 128 <= length d1 -> 128 <= length d2 -> firstn 128 o1 = firstn 128 o2.
Proof.
  intros (L1 & _ & Z1 & N1) (L2 & _ & Z2 & N2) E TS LD1 LD2.
  assert (B : below fsqrt eps 128 thresh s1 H1 <-> below fsqrt eps 128 thresh s2 H2) by (unfold below; rewrite (norm_ext fsqrt eps 128 H1 H2 E); destruct TS as [->| ->]; tauto).
  apply nth_ext with 0%Qc 0%Qc; [rewrite !firstn_length; lia|]. intros i Hi. rewrite firstn_length in Hi. rewrite !nth_first by lia.
  assert (DEC : below fsqrt eps 128 thresh s1 H1 \/ ~ below fsqrt eps 128 thresh s1 H1).
  { unfold below. destruct (Qc_eq_dec thresh 0) as [T|T]; [right; tauto|]. destruct (Qclt_le_dec (norm_of fsqrt eps 128 H1) (thresh * s1)) as [L|L]; [left; auto|].
    right. intros [_ L']. apply Qclt_not_le in L'. auto. }
  destruct DEC as [Y|Y].
  - rewrite Z1, Z2 by (try lia; tauto). reflexivity.
  - rewrite N1, N2 by (try lia; tauto). apply final_ext; [exact E|lia].
Qed.
(** C127.  Without a norm threshold, the descriptor of a keypoint whose window stays inside the border
    equals the raw descriptor computed from the gradients of its level, at its position and scale in
    the octave. *)
Theorem C127_raw_agrees : forall pow root fsqrt expo sine cosine magn angl pi eps_d eps_f c f k angle0 descr descr' f' out raw,
  fits c -> sane pow root (c_S c) -> reached pow root expo magn angl c true f -> 2 <= f_ow f -> 2 <= f_oh f -> (0 < pi)%Qc -> 128 <= length descr -> 128 <= length descr' ->
  let scale := pow (nq 2) (zq (f_ocur f)) in
  let w := f_ow f in let h := f_oh f in let x := (k_x k / scale)%Qc in let y := (k_y k / scale)%Qc in
  let size := (c_magnif c * (k_sigma k / scale) + eps_d)%Qc in
  let reach := qfloor (root (nq 2) * (nq 5 / nq 2 * size) + 1 / nq 2)%Qc in
  (forall px py, px < w -> py < h -> descr_argument sine cosine x y angle0 size (c_window c) px py <> nq 25) ->
  usable pow f k (h - 1) -> c_norm c = 0%Qc -> (0 <= reach)%Z ->
  (reach < pixel_of x < Z.of_nat w - 1 - reach)%Z -> (reach < pixel_of y < Z.of_nat h - 1 - reach)%Z ->
  keypoint_descriptor pow root fsqrt expo sine cosine magn angl pi eps_d eps_f f descr k angle0 = Some (f', out) ->
  raw_descriptor root fsqrt expo sine cosine pi eps_d eps_f f (firstn (2 * (w * h)) (skipn (2 * (w * h) * Z.to_nat (k_is k)) (f_grad f'))) descr' w h x y (k_sigma k / scale) angle0 = Some raw ->
  firstn 128 out = firstn 128 raw.
Proof.
  intros pow root fsqrt expo sine cosine magn angl pi eps_d eps_f c f k angle0 descr descr' f' out raw F SN R Hw Hh Hp LD LD' scale w h x y size reach NE U T RP Mx My E1 E2.
  destruct (C124_descriptor pow root fsqrt expo sine cosine magn angl pi eps_d eps_f c f k angle0 descr F SN R Hw Hh Hp LD NE) as [D1 _].
  destruct (D1 U) as (f2 & out2 & UG & X1 & S1). rewrite E1 in X1. injection X1 as <- <-. clear D1.
  destruct (updated _ _ _ _ _ _ _ F SN R Hw Hh) as (f3 & E3 & _ & C & _ & _ & _ & _ & _ & _ & _ & LG & _). rewrite UG in E3. injection E3 as <-.
  pose proof U as (_ & Ux & Uy & Ui). rewrite C in Ui. fold w h in LG. fold scale in Ux, Uy. fold x y w h in Ux, Uy.
  set (base := 2 * (w * h) * Z.to_nat (k_is k)) in *. assert (LB : base + 2 * (w * h) <= length (f_grad f')) by (unfold base; apply Nat.le_trans with (2 * (w * h) * c_S c); [nia|exact LG]).
  set (g := firstn (2 * (w * h)) (skipn base (f_grad f'))) in *. assert (Lg : length g = 2 * (w * h)) by (unfold g; rewrite firstn_length, skipn_length; lia).
  destruct (C125_raw_descriptor root fsqrt expo sine cosine pi eps_d eps_f f g descr' w h x y (k_sigma k / scale) angle0 Hp LD' Lg) as [D2 _]; [rewrite C; exact NE|].
  rewrite C in D2. destruct (D2 (conj Ux Uy)) as (raw2 & X2 & S2). rewrite E2 in X2. injection X2 as <-. specialize (S2 RP). fold size reach in S2.
  eapply described_same; [exact S1|exact S2| |now left|exact LD|exact LD'].
  assert (CL : forall n z p, (reach < pixel_of z < Z.of_nat n - 1 - reach)%Z -> p < n -> close reach 1 n z p = close reach 0 n z p).
  { intros n z p M Lp. unfold close. destruct (Z.leb_spec (Z.abs (Z.of_nat p - pixel_of z)) reach) as [L|L]; [|reflexivity]. cbn [andb].
    replace (1 <=? p) with true by (symmetry; apply Nat.leb_le; lia). replace (p + 1 <? n) with true by (symmetry; apply Nat.ltb_lt; lia).
    replace (p + 0 <? n) with true by (symmetry; apply Nat.ltb_lt; lia). reflexivity. }
  intros i _. apply descr_bin_ext; [intros px Hx; now apply CL|intros py Hy; now apply CL|].
  intros px py Hx Hy. assert (PB : 2 * (py * w + px) + 1 < 2 * (w * h)) by nia. unfold mag, ang, g. cbn [Nat.add]. rewrite !nth_first by lia. rewrite !nth_rest. rewrite !Nat.add_assoc. split; reflexivity.
Qed.
Print Assumptions C127_raw_agrees.

(** *** C52 *)
Lemma nat_sorted_unique l : forall l', StronglySorted lt l -> StronglySorted lt l' -> (forall p, In p l <-> In p l') -> l = l'.
Proof.
  induction l as [|a l IH]; intros l' Sl Sl' H.
  - destruct l' as [|b l']; [reflexivity|]. destruct (proj2 (H b) ltac:(now left)).
  - destruct l' as [|b l']; [destruct (proj1 (H a) ltac:(now left))|]. inversion Sl as [|? ? Sa Fa]; subst. inversion Sl' as [|? ? Sb Fb]; subst. rewrite Forall_forall in Fa, Fb.
    assert (a = b).
    { destruct (proj1 (H a) ltac:(now left)) as [->|Ia]; [reflexivity|]. destruct (proj2 (H b) ltac:(now left)) as [->|Ib]; [reflexivity|].
      specialize (Fa b Ib). specialize (Fb a Ia). lia. }
    subst b. f_equal. apply IH; auto. intros p. split; intros I.
    + destruct (proj1 (H p) ltac:(now right)) as [<-|I']; [|exact I']. specialize (Fa a I). lia.
    + destruct (proj2 (H p) ltac:(now right)) as [<-|I']; [|exact I']. specialize (Fb a I). lia.
Qed.
Lemma averaged_same k : forall g g', (forall b, g b = g' b) -> forall b, averaged_times k g b = averaged_times k g' b.
Proof. induction k as [|k IH]; intros g g' E b; [apply E|]. cbn [averaged_times]. unfold averaged. now rewrite !(IH g g' E). Qed.
(** C52.  The orientations and descriptors computed on a filter used before are those of a new filter,
    unless the gradients computed last before the image were those of the same octave (see C117). *)
Theorem C52_orientations : forall pow root expo magn angl pi c b f junk im j k angles f1 g1 f2 g2 f3 g3 n n' out out',
  fits c -> sane pow root (c_S c) -> reached pow root expo magn angl c b f -> length im = c_w c * c_h c -> j < c_O c -> f_grado f <> (c_omin c + Z.of_nat j)%Z ->
  process_first pow root expo f im = Some (OK, f1) -> process_first pow root expo (sift_new junk c) im = Some (OK, g1) ->
  advance pow root expo j f1 = Some f2 -> advance pow root expo j g1 = Some g2 -> 2 <= f_ow f2 -> 2 <= f_oh f2 ->
  (0 < pi)%Qc -> (forall a b, 0 <= angl a b /\ angl a b <= nq 2 * pi)%Qc -> (0 < k_sigma k)%Qc -> 4 <= length angles ->
  (let scale := pow (nq 2) (zq (f_ocur f2)) in let x := (k_x k / scale)%Qc in let y := (k_y k / scale)%Qc in let sigma := (k_sigma k / scale)%Qc in
   forall px py, px < f_ow f2 -> py < f_oh f2 -> ori_inside x y sigma px py -> ori_argument x y sigma px py <> nq 25) ->
  orientations pow expo magn angl pi f2 angles k = Some (f3, n, out) -> orientations pow expo magn angl pi g2 angles k = Some (g3, n', out') -> n = n' /\ out = out'.
Proof.
  intros pow root expo magn angl pi c b f junk im j k angles f1 g1 f2 g2 f3 g3 n n' out out' F SN R LI Lj NG E1 E2 E3 E4 Hw Hh Hp HA Hs LA NE O1 O2.
  assert (A : forall j a a', reached pow root expo magn angl c true a -> advance pow root expo j a = Some a' -> reached pow root expo magn angl c true a').
  { clear. induction j as [|j IH]; intros a a' Ra Ea; cbn [advance] in Ea; [congruence|]. destruct (advance pow root expo j a) as [a1|] eqn:Ej; [|discriminate].
    destruct (process_next pow root expo a1) as [[[] a2]|] eqn:En; try discriminate. injection Ea as <-. eapply R_next; [eapply IH; eauto|exact En]. }
  assert (R2 : reached pow root expo magn angl c true f2) by (eapply A; [eapply R_first; eauto|exact E3]).
  assert (Q2 : reached pow root expo magn angl c true g2) by (eapply A; [eapply R_first; [apply R_new|exact LI|exact E2]|exact E4]).
  destruct (C52_octaves pow root expo magn angl c b f junk im j F SN R LI Lj) as (f1' & g1' & f2' & g2' & D1 & D2 & D3 & D4 & V).
  rewrite E1 in D1. injection D1 as <-. rewrite E2 in D2. injection D2 as <-. rewrite E3 in D3. injection D3 as <-. rewrite E4 in D4. injection D4 as <-.
  destruct (C52_gradients_at pow root expo magn angl c b f junk im j F SN R LI Lj NG f1 g1 f2 g2 E1 E2 E3 E4 Hw Hh) as (f4 & g4 & U1 & U2 & SG).
  destruct V as (V1 & V2 & V3 & V4 & _).
  destruct (C121_orientations pow root expo magn angl pi c f2 k angles F SN R2 Hw Hh Hp HA Hs LA NE) as [Y1 N1].
  destruct (C121_orientations pow root expo magn angl pi c g2 k angles F SN Q2) as [Y2 N2]; [lia|lia|auto|auto|auto|auto|rewrite <- V2, <- V3, <- V4; exact NE|].
  assert (UQ : usable pow f2 k (f_oh f2) <-> usable pow g2 k (f_oh g2)) by (unfold usable; rewrite V1, V2, V3, V4; tauto).
  assert (DEC : usable pow f2 k (f_oh f2) \/ ~ usable pow f2 k (f_oh f2)).
  { match goal with |- ?u \/ _ => pose proof (usable_dec pow f2 k (f_oh f2) _ ltac:(lia) eq_refl) as [UD1 UD2] end.
    match type of UD1 with ?b = false -> _ => destruct b eqn:EB end; [right; intros U; apply UD2 in U; discriminate|left; now apply UD1]. }
  destruct DEC as [U|U].
  - destruct (Y1 U) as (f5 & p1 & W1 & SP1 & PK1 & X1). destruct (Y2 (proj1 UQ U)) as (g5 & p2 & W2 & SP2 & PK2 & X2). cbv zeta in X1, X2, PK1, PK2.
    rewrite U1 in W1. injection W1 as <-. rewrite U2 in W2. injection W2 as <-. rewrite O1 in X1. rewrite O2 in X2. rewrite <- V2, <- V3, <- V4 in PK2, X2.
    destruct U as (_ & _ & _ & Ui). destruct (reached_inv _ _ _ _ _ _ _ _ F SN R2) as (_ & C & _). rewrite C in Ui.
    set (H1 := averaged_times 6 _) in PK1, X1. set (H2 := averaged_times 6 _) in PK2, X2.
    assert (HH : forall b, H1 b = H2 b).
    { apply averaged_same. intros bb. unfold ori_bin. apply around_ext; [reflexivity|reflexivity|]. intros px py Hx Hy.
      destruct (SG (Z.to_nat (k_is k)) px py ltac:(lia) Hx Hy) as [-> ->]. reflexivity. }
    clearbody H1 H2. assert (p1 = p2).
    { apply nat_sorted_unique; auto. intros p. rewrite PK1, PK2. split; [apply (peak_ext H1 H2)|apply (peak_ext H2 H1)]; intros; [apply HH|symmetry; apply HH]. }
    subst p2. assert (BA : map (bin_angle pi H1) (firstn 4 p1) = map (bin_angle pi H2) (firstn 4 p1)) by (apply map_ext; intros bb; unfold bin_angle, vertex; now rewrite !HH).
    set (bins := firstn 4 p1) in *. clearbody bins. injection X1 as _ -> ->. injection X2 as _ -> ->. rewrite BA. split; reflexivity.
  - rewrite (N1 U) in O1. rewrite N2 in O2 by tauto. injection O1 as _ <- <-. injection O2 as _ <- <-. split; reflexivity.
Qed.
Print Assumptions C52_orientations.
Theorem C52_descriptors : forall pow root fsqrt expo sine cosine magn angl pi eps_d eps_f c b f junk im j k angle0 descr f1 g1 f2 g2 f3 g3 out out',
  fits c -> sane pow root (c_S c) -> reached pow root expo magn angl c b f -> length im = c_w c * c_h c -> j < c_O c -> f_grado f <> (c_omin c + Z.of_nat j)%Z ->
  process_first pow root expo f im = Some (OK, f1) -> process_first pow root expo (sift_new junk c) im = Some (OK, g1) ->
  advance pow root expo j f1 = Some f2 -> advance pow root expo j g1 = Some g2 -> 2 <= f_ow f2 -> 2 <= f_oh f2 -> (0 < pi)%Qc -> 128 <= length descr ->
  (let scale := pow (nq 2) (zq (f_ocur f2)) in forall px py, px < f_ow f2 -> py < f_oh f2 ->
    descr_argument sine cosine (k_x k / scale) (k_y k / scale) angle0 (c_magnif c * (k_sigma k / scale) + eps_d) (c_window c) px py <> nq 25) ->
  keypoint_descriptor pow root fsqrt expo sine cosine magn angl pi eps_d eps_f f2 descr k angle0 = Some (f3, out) ->
  keypoint_descriptor pow root fsqrt expo sine cosine magn angl pi eps_d eps_f g2 descr k angle0 = Some (g3, out') -> out = out'.
Proof.
  intros pow root fsqrt expo sine cosine magn angl pi eps_d eps_f c b f junk im j k angle0 descr f1 g1 f2 g2 f3 g3 out out' F SN R LI Lj NG E1 E2 E3 E4 Hw Hh Hp LD NE O1 O2.
  assert (A : forall j a a', reached pow root expo magn angl c true a -> advance pow root expo j a = Some a' -> reached pow root expo magn angl c true a').
  { clear. induction j as [|j IH]; intros a a' Ra Ea; cbn [advance] in Ea; [congruence|]. destruct (advance pow root expo j a) as [a1|] eqn:Ej; [|discriminate].
    destruct (process_next pow root expo a1) as [[[] a2]|] eqn:En; try discriminate. injection Ea as <-. eapply R_next; [eapply IH; eauto|exact En]. }
  assert (R2 : reached pow root expo magn angl c true f2) by (eapply A; [eapply R_first; eauto|exact E3]).
  assert (Q2 : reached pow root expo magn angl c true g2) by (eapply A; [eapply R_first; [apply R_new|exact LI|exact E2]|exact E4]).
  destruct (C52_octaves pow root expo magn angl c b f junk im j F SN R LI Lj) as (f1' & g1' & f2' & g2' & D1 & D2 & D3 & D4 & V).
  rewrite E1 in D1. injection D1 as <-. rewrite E2 in D2. injection D2 as <-. rewrite E3 in D3. injection D3 as <-. rewrite E4 in D4. injection D4 as <-.
  destruct (C52_gradients_at pow root expo magn angl c b f junk im j F SN R LI Lj NG f1 g1 f2 g2 E1 E2 E3 E4 Hw Hh) as (f4 & g4 & U1 & U2 & SG).
  destruct V as (V1 & V2 & V3 & V4 & _).
  destruct (C124_descriptor pow root fsqrt expo sine cosine magn angl pi eps_d eps_f c f2 k angle0 descr F SN R2 Hw Hh Hp LD NE) as [Y1 N1].
  destruct (C124_descriptor pow root fsqrt expo sine cosine magn angl pi eps_d eps_f c g2 k angle0 descr F SN Q2) as [Y2 N2]; [lia|lia|auto|auto|rewrite <- V2, <- V3, <- V4; exact NE|].
  assert (UQ : usable pow f2 k (f_oh f2 - 1) <-> usable pow g2 k (f_oh g2 - 1)) by (unfold usable; rewrite V1, V2, V3, V4; tauto).
  assert (DEC : usable pow f2 k (f_oh f2 - 1) \/ ~ usable pow f2 k (f_oh f2 - 1)).
  { match goal with |- ?u \/ _ => pose proof (usable_dec pow f2 k (f_oh f2 - 1) _ ltac:(lia) eq_refl) as [UD1 UD2] end.
    match type of UD1 with ?b = false -> _ => destruct b eqn:EB end; [right; intros U; apply UD2 in U; discriminate|left; now apply UD1]. }
  destruct DEC as [U|U].
  - destruct (Y1 U) as (f5 & o1 & W1 & X1 & S1). destruct (Y2 (proj1 UQ U)) as (g5 & o2 & W2 & X2 & S2).
    rewrite U1 in W1. injection W1 as <-. rewrite U2 in W2. injection W2 as <-. rewrite O1 in X1. rewrite O2 in X2. injection X1 as _ <-. injection X2 as _ <-. rewrite <- V2, <- V3, <- V4 in S2.
    destruct U as (_ & _ & _ & Ui). destruct (reached_inv _ _ _ _ _ _ _ _ F SN R2) as (_ & C & _). rewrite C in Ui.
    assert (FE : firstn 128 out = firstn 128 out').
    { eapply described_same; [exact S1|exact S2| |now right|exact LD|exact LD]. intros i _. apply descr_bin_ext; auto. intros px py Hx Hy.
      apply (SG (Z.to_nat (k_is k)) px py ltac:(lia) Hx Hy). }
    destruct S1 as (_ & K1 & _). destruct S2 as (_ & K2 & _). rewrite <- (firstn_skipn 128 out), <- (firstn_skipn 128 out'). congruence.
  - rewrite (N1 U) in O1. rewrite N2 in O2 by tauto. congruence.
Qed.
Print Assumptions C52_descriptors.

(** *** Examples *)
(** C120, C121, C122: a filter with an image and no gradients yet; the four angles found for the
    keypoint of C123, and the gradients of a pixel *)
Example C120_ex : exists f, reached ex_pow ex_root ex_expo ex_len ex_dir (new_config 5 2 1 1 0) true f /\ 2 <= f_ow f /\ 2 <= f_oh f /\ f_grado f <> f_ocur f.
Proof.
  assert (X : ran (process_first ex_pow ex_root ex_expo (sift_new nq (new_config 5 2 1 1 0)) ex_row) (fun f => (2 <=? f_ow f) && (2 <=? f_oh f) && negb (f_grado f =? f_ocur f)%Z) = true) by (vm_compute; reflexivity).
  apply ran_inv in X. destruct X as (f & E & X). rewrite !andb_true_iff, negb_true_iff, !Nat.leb_le, Z.eqb_neq in X. exists f.
  split; [eapply R_first with (im := ex_row); [apply R_new|reflexivity|exact E]|tauto].
Qed.
Example C121_ex : ran (process_first ex_pow ex_root ex_expo (sift_new nq (new_config 5 2 1 1 0)) ex_row) (fun f =>
  also (orientations ex_pow ex_expo ex_len ex_dir (nq 3) f (repeat (nq 9) 5) ex_key) (fun r => let '(f', n, out) := r in
    (n =? 4) && (f_grado f' =? 0)%Z && qlt (zq 5 / zq 10) (nth 0 out 0%Qc) && qlt (nth 0 out 0%Qc) (zq 7 / zq 10) && qlt (nth 0 out 0%Qc) (nth 1 out 0%Qc) && Qc_eq_bool (nth 4 out 0%Qc) (nq 9))) = true.
Proof. vm_compute. reflexivity. Qed.
(** C124, C126, C127: the descriptor of a keypoint in a 5 by 5 image is written and has positive
    entries; with a threshold it is zero *)
Definition ex_im5 : list Qc := map (fun i => nq (i * i mod 7)) (seq 0 25).
Definition ex_cfg5 (norm : Qc) : config :=
  {| c_w := 5; c_h := 5; c_O := 1; c_S := 1; c_omin := 0; c_peak := 0; c_edge := nq 10; c_norm := norm; c_magnif := 1%Qc; c_window := nq 2 |}.
Definition ex_key5 (y : Qc) : keypoint := {| k_o := 0; k_ix := 2; k_iy := 2; k_is := 0; k_x := nq 3; k_y := y; k_s := 0%Qc; k_sigma := (nq 3 / nq 2)%Qc |}.
Definition ex_cos (a : Qc) : Qc := if Qc_eq_bool a 0 then 1%Qc else (zq 8 / zq 10)%Qc.
Definition ex_sin (a : Qc) : Qc := if Qc_eq_bool a 0 then 0%Qc else (zq 6 / zq 10)%Qc.
Definition ex_ang (a b : Qc) : Qc := if qlt a b then 1%Qc else if qlt b 0 then nq 3 else nq 5.
Definition ex_mag (a b : Qc) : Qc := if qlt a b then 1%Qc else nq 2.
Definition ex_fsqrt (a : Qc) : Qc := (1 + a)%Qc.
Definition ex_describe (norm y : Qc) (check : list Qc -> bool) : bool :=
  ran (process_first ex_pow ex_root ex_expo (sift_new nq (ex_cfg5 norm)) ex_im5) (fun f =>
    also (keypoint_descriptor ex_pow ex_root ex_fsqrt ex_expo ex_sin ex_cos ex_mag ex_ang (nq 3) 0 1 f (repeat (nq 9) 129) (ex_key5 y) 1) (fun r => check (snd r))).
Example C124_ex_written : ex_describe 0 (nq 3) (fun d => forallb (fun v => negb (qlt v 0)) d && existsb (fun v => qlt 0 v) (firstn 128 d) && forallb (fun v => qlt v 1) (firstn 128 d) && Qc_eq_bool (nth 128 d 0%Qc) (nq 9)) = true.
Proof. vm_compute. reflexivity. Qed.
Example C124_ex_threshold : ex_describe (zq 1000000) (nq 3) (fun d => forallb (fun v => Qc_eq_bool v 0) (firstn 128 d)) = true.
Proof. vm_compute. reflexivity. Qed.
(** in the last row nothing is written *)
Example C124_ex_last_row : ex_describe 0 (nq 6) (fun d => forallb (fun v => Qc_eq_bool v (nq 9)) d) = true.
Proof. vm_compute. reflexivity. Qed.
(** C125: the raw descriptor of a 3 by 3 image *)
Example C125_ex : also (raw_descriptor ex_root ex_fsqrt ex_expo ex_sin ex_cos (nq 3) 0 1 ex_wide (map (fun i => nq (i mod 5)) (seq 0 18)) (repeat (nq 9) 129) 3 3 1 1 1 1)
  (fun d => forallb (fun v => negb (qlt v 0)) d && existsb (fun v => qlt 0 v) (firstn 128 d) && Qc_eq_bool (nth 128 d 0%Qc) (nq 9)) = true.
Proof. vm_compute. reflexivity. Qed.
(** C126: the hypotheses on the square root *)
Example C126_ex : (forall a, 0 <= a -> a <= 1 * (ex_fsqrt a * ex_fsqrt a))%Qc /\ (forall a, 0 <= a -> 0 <= ex_fsqrt a)%Qc.
Proof.
  split; intros a P; unfold ex_fsqrt; [|clear - P; qn]. replace (1 * ((1 + a) * (1 + a)))%Qc with (a + (a * a + (1 + a)))%Qc by ring.
  assert (X : (0 <= a * a)%Qc) by apply Qc_square_nonneg. set (u := (a * a)%Qc) in *. clearbody u. clear - P X. qn.
Qed.
(** C128: halfway between two entries the value is the average *)
Example C128_ex : also (fast_expn ex_expo (nq 25 / nq 512)%Qc) (fun v => Qc_eq_bool v ((1 + ex_expo (- (nq 25 / nq 256))) / nq 2)%Qc) = true.
Proof. vm_compute. reflexivity. Qed.
(** C130: with log2 replaced by a linear function, scales below, in and above the range *)
Definition ex_lg (a : Qc) : Qc := (a - 1)%Qc.
Definition ex_init (sigma : Qc) : keypoint := keypoint_init ex_pow ex_lg 0 (sift_new nq (new_config 4 4 4 3 (-1))) (nq 10) (nq 20) sigma.
Example C130_ex : ((k_o (ex_init 0) =? -1) && (k_is (ex_init 0) =? 0) && (k_o (ex_init (nq 6)) =? 1) && (k_is (ex_init (nq 6)) =? 2) && (k_o (ex_init (nq 100)) =? 2) && (k_is (ex_init (nq 100)) =? 2))%Z = true.
Proof. vm_compute. reflexivity. Qed.
(** C131: the image of C132 has a keypoint *)
Example C131_ex : ran (process_first ex_pow2 ex_root ex_expo (sift_new nq (new_config 3 5 1 1 0)) ex_im2) (fun f => also (SiftDetect_Model.detect ex_pow2 f) (fun f' => length (f_keys f') =? 1)) = true.
Proof. vm_compute. reflexivity. Qed.
