(** C189-C196: the fast functions of mathop.h. *)
From Coq Require Import List Bool Reals ZArith Lra Lia Psatz.
From Flocq Require Import Core.
Import ListNotations.
From Verif Require Import Base Rodrigues_Model Svd_Model Svd_Proofs FastMath_Model FastMath_Spec FastMath_Proofs FastMath2_Proofs FastMath3_Proofs.
Local Open Scope R_scope.

(** C189.  vl_fast_atan2 is within 0.0062 radians of the angle of (x, y), plus the effect of VL_EPSILON,
    which is at most VL_EPSILON divided by the length of (x, y). *)
Theorem C189_atan2 : forall eps x y a, 0 < eps -> (x <> 0 \/ y <> 0) -> angle_of x y a ->
  Rabs (fast_atan2 eps y x - a) <= 62 / 10000 + eps / sqrt (x * x + y * y).
Proof. exact fast_atan2_ok. Qed.
Print Assumptions C189_atan2.
(** The result is in [-pi, pi], up to 10^-5. *)
Theorem C189_range : forall eps x y, 0 < eps -> Rabs (fast_atan2 eps y x) < PI + 1 / 100000.
Proof. intros. now apply fast_atan2_range. Qed.
Print Assumptions C189_range.
(** Mirrored points have opposite angles. *)
Theorem C189_odd : forall eps x y, y <> 0 -> fast_atan2 eps (- y) x = - fast_atan2 eps y x.
Proof.
  intros eps x y N. unfold fast_atan2. rewrite Rabs_Ropp. destruct (if ltb x 0 then _ else _) as [r angle].
  destruct (ltb (- y) 0) eqn:A; destruct (ltb y 0) eqn:B; rewrite ?ltb_true, ?ltb_false in A, B; try lra.
Qed.
Print Assumptions C189_odd.
Lemma atan_angle x y : 0 < x -> angle_of x y (atan (y / x)).
Proof.
  intros X. pose proof (atan_bound (y / x)). pose proof PI_RGT_0. split; [lra|]. assert (E : sqrt (x * x + y * y) = x * sqrt (1 + (y / x)²)).
  { replace (x * x + y * y) with ((x * x) * (1 + (y / x)²)) by (unfold Rsqr; field; lra). rewrite sqrt_mult; [|nra|unfold Rsqr; pose proof (Rle_0_sqr (y / x)); unfold Rsqr in *; lra]. rewrite sqrt_square by lra. reflexivity. }
  assert (P : 0 < sqrt (1 + (y / x)²)) by (apply sqrt_lt_R0; pose proof (Rle_0_sqr (y / x)); lra).
  rewrite E, cos_atan, sin_atan. split; field; repeat split; lra.
Qed.
Example C189_ex : angle_of 1 1 (PI / 4) /\ angle_of (-1) 0 PI /\ Rabs (fast_atan2 (/ 2 ^ 23) 1 1 - PI / 4) <= 63 / 10000.
Proof.
  assert (A : angle_of 1 1 (PI / 4)) by (rewrite <- atan_1; replace (atan 1) with (atan (1 / 1)) by (f_equal; lra); apply atan_angle; lra). split; [exact A|]. split.
  - pose proof PI_RGT_0. split; [lra|]. rewrite cos_PI, sin_PI. replace (-1 * -1 + 0 * 0) with 1 by ring. rewrite sqrt_1. lra.
  - assert (E : / 2 ^ 23 <= 1 / 10000) by (replace (1 / 10000) with (/ 10000) by field; apply Rinv_le_contravar; [lra|cbn; lra]). assert (P : 0 < / 2 ^ 23) by (apply Rinv_0_lt_compat; apply pow_lt; lra).
    eapply Rle_trans; [apply (C189_atan2 _ 1 1 (PI / 4)); [exact P|lra|exact A]|].
    assert (S1 : 1 <= sqrt (1 * 1 + 1 * 1)) by (apply Rle_trans with (sqrt 1); [rewrite sqrt_1; lra|apply sqrt_le_1_alt; lra]). assert (/ 2 ^ 23 / sqrt (1 * 1 + 1 * 1) <= / 2 ^ 23); [|lra].
    unfold Rdiv. rewrite <- (Rmult_1_r (/ 2 ^ 23)) at 2. apply Rmult_le_compat_l; [lra|]. apply Rle_trans with (/ 1); [apply Rinv_le_contravar; lra|rewrite Rinv_1; lra].
Qed.

(** C190.  The documentation gives 0.0061 radians as the largest error; the error at (1827, 173) is larger, though nothing is small there. *)
Theorem C190_bound_refuted : forall eps, 0 < eps <= / 2 ^ 23 -> exists a, angle_of 1827 173 a /\ 61 / 10000 < a - fast_atan2 eps 173 1827.
Proof.
  intros eps [E0 E1]. exists (atan (173 / 1827)). split; [apply atan_angle; lra|].
  assert (E2 : eps <= 1 / 1000000). { eapply Rle_trans; [exact E1|]. replace (1 / 1000000) with (/ 1000000) by field. apply Rinv_le_contravar; [lra|cbn; lra]. }
  pose proof err_827 as [_ E]. unfold err in E. pose proof (atan_turn (1827 / 173) ltac:(lra)) as T. replace ((1827 / 173 - 1) / (1827 / 173 + 1)) with (827 / 1000) in T by field.
  pose proof (atan_inv (173 / 1827) ltac:(lra)) as I. replace (/ (173 / 1827)) with (1827 / 173) in I by field.
  unfold fast_atan2. rewrite (proj2 (ltb_false 1827 0)), (proj2 (ltb_false 173 0)) by lra. rewrite (Rabs_right 173) by lra. set (r := (1827 - (173 + eps)) / (1827 + (173 + eps))).
  assert (R1 : r <= 827 / 1000). { unfold r. apply Rmult_le_reg_r with (2000 + eps); [lra|]. replace ((1827 - (173 + eps)) / (1827 + (173 + eps)) * (2000 + eps)) with (1654 - eps) by (field; lra). lra. }
  assert (R2 : 827 / 1000 - 1 / 100000 <= r). { unfold r. apply Rmult_le_reg_r with (2000 + eps); [lra|]. replace ((1827 - (173 + eps)) / (1827 + (173 + eps)) * (2000 + eps)) with (1654 - eps) by (field; lra). lra. }
  clearbody r. assert (r * r * r <= 827 / 1000 * (827 / 1000) * (827 / 1000)) by (apply Rmult_le_compat; nra). lra.
Qed.
Print Assumptions C190_bound_refuted.

(** C191.  For vectors that are short with respect to VL_EPSILON the result is no approximation of the angle at all:
    the angle of (x, 0) is zero, but the result for small x is nearly pi / 2. *)
Theorem C191_short_refuted : forall eps, 0 < eps -> exists x, 0 < x /\ angle_of x 0 0 /\ 3 / 2 < fast_atan2 eps 0 x.
Proof.
  intros eps E. exists (eps / 100). assert (X : 0 < eps / 100) by lra. split; [exact X|]. split.
  { pose proof (atan_angle (eps / 100) 0 X) as A. replace (0 / (eps / 100)) with 0 in A by (field; lra). now rewrite atan_0 in A. }
  unfold fast_atan2. rewrite (proj2 (ltb_false (eps / 100) 0)), (proj2 (ltb_false 0 0)) by lra. rewrite Rabs_R0.
  replace ((eps / 100 - (0 + eps)) / (eps / 100 + (0 + eps))) with (-99 / 101) by (field; lra). pose proof pi4_bounds. lra.
Qed.
Print Assumptions C191_short_refuted.

(** C192.  Without rounding, vl_mod_2pi returns a number in [0, 2 pi] that differs from its argument by a multiple of 2 pi,
    after at most |x| / 2 pi steps of each loop; numbers in [0, 2 pi] are returned as they are, and the result is 2 pi only for positive multiples of 2 pi. *)
Theorem C192_mod : forall tau fuel x, 0 < tau -> Rabs x <= INR fuel * tau ->
  exists y, mod_2pi (fun v => v) tau fuel x = Some y /\ 0 <= y <= tau /\ same_angle tau y x /\ (0 <= x <= tau -> y = x) /\
    (y = tau -> exists k : nat, x = INR (S k) * tau).
Proof. intros tau fuel x T H. now apply mod_2pi_ok. Qed.
Print Assumptions C192_mod.
Example C192_ex : Rabs (-7) <= INR 2 * 6 /\ mod_2pi (fun v => v) 6 2 (-7) = Some 5 /\ mod_2pi (fun v => v) 6 2 12 = Some 6.
Proof.
  split; [rewrite Rabs_left by lra; cbn; lra|]. unfold mod_2pi. cbn [mod_down mod_up obind]. split.
  - rewrite (proj2 (ltb_false 6 (-7))) by lra. cbn [obind]. rewrite (proj2 (ltb_true (-7) 0)) by lra. rewrite (proj2 (ltb_true (-7 + 6) 0)), (proj2 (ltb_false (-7 + 6 + 6) 0)) by lra. f_equal. lra.
  - rewrite (proj2 (ltb_true 6 12)), (proj2 (ltb_false 6 (12 - 6))) by lra. cbn [obind]. rewrite (proj2 (ltb_false (12 - 6) 0)) by lra. f_equal. lra.
Qed.

(** C193.  With the rounding of floats, vl_mod_2pi_f (2^28) never returns, and with that of doubles neither does vl_mod_2pi_d (2^57):
    subtracting 2 pi has no effect. *)
Theorem C193_hang_refuted : (forall fuel, mod_2pi round_single tau_single fuel (2 ^ 28) = None) /\ (forall fuel, mod_2pi round_double tau_double fuel (2 ^ 57) = None).
Proof.
  assert (B : forall n : nat, bpow radix2 (Z.of_nat n) = 2 ^ n). { intros n. rewrite <- IZR_Zpower by lia. cbn [radix_val radix2]. rewrite <- pow_IZR. reflexivity. }
  assert (T1 : 6 < tau_single < 7) by (unfold tau_single; cbn; lra). assert (T2 : 6 < tau_double < 7) by (unfold tau_double; cbn; lra).
  split; apply stuck.
  - cbn. lra.
  - unfold round_single. rewrite (round_near (-149) 24) by (try lia; change (24 + 4)%Z with (Z.of_nat 28); rewrite B; lra). change (24 + 4)%Z with (Z.of_nat 28). apply B.
  - cbn. lra.
  - unfold round_double. rewrite (round_near (-1074) 53) by (try lia; change (53 + 4)%Z with (Z.of_nat 57); rewrite B; lra). change (53 + 4)%Z with (Z.of_nat 57). apply B.
Qed.
Print Assumptions C193_hang_refuted.

(** C194.  vl_floor returns n exactly when n is the largest integer not above x and fits a long int; otherwise the conversion is undefined. *)
Theorem C194_floor : forall x n, fast_floor x = Some n <-> IZR n <= x < IZR n + 1 /\ (- 2 ^ 63 <= n < 2 ^ 63)%Z.
Proof. exact floor_ok. Qed.
Print Assumptions C194_floor.
Example C194_ex : fast_floor (-1 / 2) = Some (-1)%Z /\ fast_floor (-3) = Some (-3)%Z /\ fast_floor (7 / 2) = Some 3%Z.
Proof. rewrite !C194_floor. repeat split; try lra; try reflexivity; discriminate. Qed.

(** C195.  For positive normal numbers the inverse square root is never too large, and too small by at most 5 parts in a million; rounding in the two steps of Newton is not counted. *)
Lemma single_magic : f_magic single = (190 * 2 ^ 23 + 3627487)%Z.
Proof. reflexivity. Qed.
Lemma double_magic : f_magic double = (1534 * 2 ^ 52 + (0x5fe6ec85e7de30da - 1534 * 2 ^ 52))%Z.
Proof. reflexivity. Qed.
Theorem C195_resqrt : forall F i x, F = single \/ F = double -> normal (f_bits F) (f_bias F) i x ->
  (1 - 5 / 1000000) / sqrt x <= fast_resqrt F i <= 1 / sqrt x.
Proof.
  intros F i x [-> | ->] N; cbn [f_bits f_bias single double] in N.
  - apply (resqrt_ok 23 127 190 3627487 ltac:(lia) ltac:(lia) ltac:(lia) i x N).
  - apply (resqrt_ok 52 1023 1534 (0x5fe6ec85e7de30da - 1534 * 2 ^ 52) ltac:(lia) ltac:(lia) ltac:(lia) i x N).
Qed.
Print Assumptions C195_resqrt.
Lemma value_normal F i x : F = single \/ F = double -> normal (f_bits F) (f_bias F) i x -> value F i = x /\ 0 < x.
Proof.
  intros [-> | ->] N; cbn [f_bits f_bias single double] in N.
  - destruct (resqrt_ok 23 127 190 3627487 ltac:(lia) ltac:(lia) ltac:(lia) i x N) as (A & B & _). auto.
  - destruct (resqrt_ok 52 1023 1534 (0x5fe6ec85e7de30da - 1534 * 2 ^ 52) ltac:(lia) ltac:(lia) ltac:(lia) i x N) as (A & B & _). auto.
Qed.
(** The square root of numbers from 10^-8 up is as precise; the error below is at most 10^-4. *)
Theorem C195_sqrt : forall F i x, F = single \/ F = double -> normal (f_bits F) (f_bias F) i x ->
  (1 / 100000000 <= x -> (1 - 5 / 1000000) * sqrt x <= fast_sqrt F i <= sqrt x) /\ (x < 1 / 100000000 -> fast_sqrt F i = 0 /\ sqrt x <= 1 / 10000).
Proof.
  intros F i x HF N. pose proof (C195_resqrt F i x HF N) as R. destruct (value_normal F i x HF N) as [V X]. unfold fast_sqrt. rewrite V.
  pose proof (sqrt_lt_R0 x X) as Q. pose proof (sqrt_sqrt x ltac:(lra)) as QQ. split; intros L.
  - rewrite (proj2 (ltb_false _ _) L). set (q := sqrt x) in *. clearbody q. rewrite <- QQ.
    replace ((1 - 5 / 1000000) * q) with (q * q * ((1 - 5 / 1000000) / q)) by (field; lra). split; [apply Rmult_le_compat_l; [nra|lra]|]. apply Rle_trans with (q * q * (1 / q)); [apply Rmult_le_compat_l; [nra|lra]|]. right. field. lra.
  - rewrite (proj2 (ltb_true _ _) L). split; [reflexivity|]. set (q := sqrt x) in *. clearbody q. nra.
Qed.
Print Assumptions C195_sqrt.
Example C195_ex : normal 23 127 0x40800000 4 /\ (1 - 5 / 1000000) / 2 <= fast_resqrt single 0x40800000 <= 1 / 2.
Proof.
  assert (N : normal 23 127 0x40800000 4). { exists 129%Z, 0%Z. repeat split; try lia. unfold Rdiv. rewrite Rmult_0_l, Rplus_0_r. unfold powerRZ. simpl. lra. }
  split; [exact N|]. pose proof (C195_resqrt single 0x40800000 4 (or_introl eq_refl) N) as H. replace (sqrt 4) with 2 in H; [exact H|]. replace 4 with (2 * 2) by ring. symmetry. apply sqrt_square. lra.
Qed.

(** C196.  Below 10^-8 the square root has no relative precision: the result for the positive number 2^-27 is zero. *)
Theorem C196_small_refuted : exists i x, normal 23 127 i x /\ 0 < x /\ fast_sqrt single i = 0.
Proof.
  exists (100 * 2 ^ 23 + 0)%Z, (powerRZ 2 (-27)). assert (N : normal 23 127 (100 * 2 ^ 23 + 0) (powerRZ 2 (-27))). { exists 100%Z, 0%Z. repeat split; try lia. unfold Rdiv. rewrite Rmult_0_l, Rplus_0_r, Rmult_1_l. reflexivity. }
  split; [exact N|]. split; [apply powerRZ_lt; lra|]. apply (C195_sqrt single _ _ (or_introl eq_refl) N). unfold powerRZ. simpl. lra.
Qed.
Print Assumptions C196_small_refuted.
