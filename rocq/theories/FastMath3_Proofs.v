(** Lemmas on the inverse square root, the reduction of angles and rounding down. *)
From Coq Require Import List Bool Reals ZArith Lra Lia Psatz.
From Flocq Require Import Core.
Import ListNotations.
From Verif Require Import Base Rodrigues_Model Svd_Model Svd_Proofs FastMath_Model FastMath_Spec.
Local Open Scope R_scope.

Lemma sq_within u k : - k <= u <= k -> 0 <= u * u <= k * k.
Proof. intros H. assert (0 <= (k - u) * (k + u)) by (apply Rmult_le_pos; lra). split; [apply Rle_0_sqr|lra]. Qed.
(** one step of Newton: the error is squared, and the result is from below *)
Lemma newton_ok q y : newton (5 / 10 * (q * q)) y * q = 1 - (y * q - 1) * (y * q - 1) * (y * q + 2) / 2.
Proof. unfold newton. field. Qed.
Lemma newton_twice q y : 0 < q -> 0 < y -> 932 / 1000 <= y * y * (q * q) <= 107 / 100 ->
  1 - 5 / 1000000 <= newton (5 / 10 * (q * q)) (newton (5 / 10 * (q * q)) y) * q <= 1.
Proof.
  intros Q Y H. rewrite newton_ok. set (b := newton (5 / 10 * (q * q)) y * q). assert (B : b = 1 - (y * q - 1) * (y * q - 1) * (y * q + 2) / 2) by apply newton_ok. clearbody b.
  assert (A0 : 0 < y * q) by nra. replace (y * y * (q * q)) with ((y * q) * (y * q)) in H by ring. generalize dependent (y * q). intros a H B A0.
  assert (L : 9653 / 10000 <= a) by nra. assert (U : a <= 10345 / 10000) by nra.
  assert (S1 : 0 <= (a - 1) * (a - 1) <= 347 / 10000 * (347 / 10000)) by (apply sq_within; lra).
  assert (B1 : 1 - 181 / 100000 <= b <= 1).
  { rewrite B. destruct (Rle_dec a 1).
    - assert ((a - 1) * (a - 1) * (a + 2) <= 347 / 10000 * (347 / 10000) * 3) by (apply Rmult_le_compat; lra). assert (0 <= (a - 1) * (a - 1) * (a + 2)) by (apply Rmult_le_pos; lra). split; lra.
    - assert ((a - 1) * (a - 1) <= 345 / 10000 * (345 / 10000)) by (apply sq_within; lra). assert ((a - 1) * (a - 1) * (a + 2) <= 345 / 10000 * (345 / 10000) * (30345 / 10000)) by (apply Rmult_le_compat; lra). assert (0 <= (a - 1) * (a - 1) * (a + 2)) by (apply Rmult_le_pos; lra). split; lra. }
  assert (S2 : 0 <= (b - 1) * (b - 1) <= 181 / 100000 * (181 / 100000)) by (apply sq_within; lra).
  assert ((b - 1) * (b - 1) * (b + 2) <= 181 / 100000 * (181 / 100000) * 3) by (apply Rmult_le_compat; lra). assert (0 <= (b - 1) * (b - 1) * (b + 2)) by (apply Rmult_le_pos; lra). split; lra.
Qed.
(** the products in the three cases of the exponents; c is the fraction of the constant, t that of x, h half of it *)
Lemma am_gm s A : 0 <= s -> 0 <= A -> s * s * (A - 2 * s) <= A * A * A / 27.
Proof. intros S0 A0. assert (0 <= (s - A / 3) * (s - A / 3) * (2 * s + A / 3)) by (apply Rmult_le_pos; [apply Rle_0_sqr|lra]). lra. Qed.
Lemma cube_le a b : 0 <= a <= b -> a * a * a <= b * b * b.
Proof. intros H. apply Rmult_le_compat; try nra. Qed.
Section cases.
  Variables c t h : R.
  Hypotheses (C : 4324 / 10000 <= c <= 4328 / 10000) (H0 : 0 <= h) (T : 2 * h <= t <= 2 * h + 1 / 1000000) (T1 : t <= 1).
  Lemma case_even : h <= c -> 932 / 1000 <= (1 + (c - h)) * (1 + (c - h)) * (1 + t) * / 2 <= 107 / 100.
  Proof.
    intros L. set (s := 1 + (c - h)). assert (S1 : 1 <= s <= 1 + c) by (unfold s; lra). assert (E : h = 1 + c - s) by (unfold s; ring). clearbody s. subst h.
    assert (s2 : 0 <= s * s) by nra. split.
    - assert (K : s * s * (3 + 2 * c - 2 * s) <= s * s * (1 + t)) by (apply Rmult_le_compat_l; lra).
      assert (G : 0 <= (s - 1) * ((1 + 2 * c) * (s + 1) - 2 * (s * s))). { apply Rmult_le_pos; [lra|]. assert (0 <= (s - 1) * (1 + c - s)) by (apply Rmult_le_pos; lra). lra. } lra.
    - assert (K : s * s * (1 + t) <= s * s * ((3 + 2 * c + 1 / 1000000) - 2 * s)) by (apply Rmult_le_compat_l; lra).
      pose proof (am_gm s (3 + 2 * c + 1 / 1000000) ltac:(lra) ltac:(lra)). pose proof (cube_le (3 + 2 * c + 1 / 1000000) (38657 / 10000) ltac:(lra)). lra.
  Qed.
  Lemma case_even_low : c < h -> 932 / 1000 <= (1 + (1 + (c - h))) * (1 + (1 + (c - h))) * (1 + t) * / 8 <= 107 / 100.
  Proof.
    intros L. set (s := 1 + (1 + (c - h))). assert (S1 : 15 / 10 + c <= s <= 2) by (unfold s; lra). assert (E : h = 2 + c - s) by (unfold s; ring). clearbody s. subst h.
    assert (s2 : 0 <= s * s) by nra. split.
    - assert (K : s * s * (5 + 2 * c - 2 * s) <= s * s * (1 + t)) by (apply Rmult_le_compat_l; lra). assert (K2 : s * s * (58648 / 10000 - 2 * s) <= s * s * (5 + 2 * c - 2 * s)) by (apply Rmult_le_compat_l; lra).
      assert (7456 / 1000 <= s * s * (58648 / 10000 - 2 * s)); [|lra]. assert (S3 : 19324 / 10000 <= s <= 2) by lra. clear - S3.
      assert (0 <= (s - 19324 / 10000) * (2 - s)) by (apply Rmult_le_pos; lra). nra.
    - assert (K : s * s * (1 + t) <= s * s * ((5 + 2 * c + 1 / 1000000) - 2 * s)) by (apply Rmult_le_compat_l; lra).
      pose proof (am_gm s (5 + 2 * c + 1 / 1000000) ltac:(lra) ltac:(lra)). pose proof (cube_le (5 + 2 * c + 1 / 1000000) (58657 / 10000) ltac:(lra)). lra.
  Qed.
  Lemma case_odd : 932 / 1000 <= (1 + (1 / 2 + (c - h))) * (1 + (1 / 2 + (c - h))) * (1 + t) * / 4 <= 107 / 100.
  Proof.
    set (s := 1 + (1 / 2 + (c - h))). assert (S1 : 1 + c <= s <= 15 / 10 + c) by (unfold s; lra). assert (E : h = 15 / 10 + c - s) by (unfold s; field). clearbody s. subst h.
    assert (s2 : 0 <= s * s) by nra. split.
    - assert (K : s * s * (4 + 2 * c - 2 * s) <= s * s * (1 + t)) by (apply Rmult_le_compat_l; lra). assert (K2 : s * s * (48648 / 10000 - 2 * s) <= s * s * (4 + 2 * c - 2 * s)) by (apply Rmult_le_compat_l; lra).
      assert (3728 / 1000 <= s * s * (48648 / 10000 - 2 * s)); [|lra]. assert (S3 : 14324 / 10000 <= s <= 19328 / 10000) by lra. clear - S3.
      assert (0 <= (s - 14324 / 10000) * (19328 / 10000 - s)) by (apply Rmult_le_pos; lra). nra.
    - assert (K : s * s * (1 + t) <= s * s * ((4 + 2 * c + 1 / 1000000) - 2 * s)) by (apply Rmult_le_compat_l; lra).
      pose proof (am_gm s (4 + 2 * c + 1 / 1000000) ltac:(lra) ltac:(lra)). pose proof (cube_le (4 + 2 * c + 1 / 1000000) (48657 / 10000) ltac:(lra)). lra.
  Qed.
End cases.

Lemma value_bits bits bias magic e m : (0 <= bits)%Z -> (0 <= m < 2 ^ bits)%Z ->
  value (Format bits bias magic) (e * 2 ^ bits + m) = (1 + IZR m / IZR (2 ^ bits)) * powerRZ 2 (e - bias).
Proof.
  intros B M. unfold value. cbn [f_bits f_bias]. assert (P : (0 < 2 ^ bits)%Z) by (apply Z.pow_pos_nonneg; lia).
  rewrite Z.add_comm, Z.mod_add, Z.div_add by lia. rewrite Z.mod_small, Z.div_small by exact M. now rewrite Z.add_0_l.
Qed.
Section guess.
  (** the constant is B 2^bits + C, with 2 B = 3 bias - 1 and C / 2^bits about 0.4325 *)
  Variables bits bias B C : Z.
  Hypotheses (HB : (20 <= bits)%Z) (HBB : (2 * B = 3 * bias - 1)%Z) (HC : (4324 * 2 ^ bits <= 10000 * C <= 4328 * 2 ^ bits)%Z).
  Let F := Format bits bias (B * 2 ^ bits + C).
  Lemma guess_ok e m : (0 <= m < 2 ^ bits)%Z ->
    let x := value F (e * 2 ^ bits + m) in let y := value F (f_magic F - Z.shiftr (e * 2 ^ bits + m) 1) in
    0 < x /\ 0 < y /\ 932 / 1000 <= y * y * x <= 107 / 100.
  Proof.
    intros M x y. set (P := (2 ^ bits)%Z) in *. assert (P0 : (2 ^ 20 <= P)%Z) by (apply Z.pow_le_mono_r; lia).
    assert (PH : exists Q, P = (2 * Q)%Z). { exists (2 ^ (bits - 1))%Z. unfold P. rewrite <- Z.pow_succ_r by lia. f_equal. lia. } destruct PH as [Q PQ].
    assert (HP : 2 ^ 20 <= IZR P). { replace (2 ^ 20) with (IZR (2 ^ 20)) by (cbn; lra). now apply IZR_le. } assert (PP : 0 < IZR P) by (assert (0 < 2 ^ 20) by (apply pow_lt; lra); lra).
    assert (RM : 0 <= IZR m <= IZR P) by (split; apply IZR_le; lia).
    assert (RC : 4324 / 10000 <= IZR C / IZR P <= 4328 / 10000).
    { destruct HC as [c1 c2]. apply IZR_le in c1. apply IZR_le in c2. rewrite !mult_IZR in c1, c2. split; apply Rmult_le_reg_r with (IZR P); auto; unfold Rdiv at 2; rewrite ?Rmult_assoc, ?Rinv_l by lra; [|unfold Rdiv at 1; rewrite Rmult_assoc, Rinv_l by lra]; lra. }
    set (h := (m / 2)%Z). assert (Hh : (2 * h <= m <= 2 * h + 1)%Z) by (unfold h; pose proof (Z.div_mod m 2 ltac:(lia)); pose proof (Z.mod_pos_bound m 2 ltac:(lia)); lia).
    set (t := IZR m / IZR P). set (hr := IZR h / IZR P). assert (HH : 0 <= hr). { apply Rmult_le_pos; [apply IZR_le; lia|left; now apply Rinv_0_lt_compat]. }
    assert (HT : 2 * hr <= t <= 2 * hr + 1 / 1000000).
    { destruct Hh as [h1 h2]. apply IZR_le in h1. apply IZR_le in h2. rewrite plus_IZR in h2. rewrite mult_IZR in h1, h2. unfold t, hr. split.
      - unfold Rdiv. rewrite <- Rmult_assoc. apply Rmult_le_compat_r; [left; now apply Rinv_0_lt_compat|lra].
      - apply Rle_trans with ((2 * IZR h + 1) * / IZR P); [apply Rmult_le_compat_r; [left; now apply Rinv_0_lt_compat|lra]|]. rewrite Rmult_plus_distr_r, Rmult_1_l. unfold Rdiv at 1. rewrite <- Rmult_assoc. apply Rplus_le_compat_l.
        replace (1 / 1000000) with (/ 1000000) by field. apply Rinv_le_contravar; [lra|]. apply Rle_trans with (2 ^ 20); [cbn; lra|exact HP]. }
    assert (T1 : t <= 1). { unfold t. apply Rmult_le_reg_r with (IZR P); auto. unfold Rdiv. rewrite Rmult_assoc, Rinv_l by lra. lra. }
    assert (T0 : 0 <= t) by lra.
    assert (EX : x = (1 + t) * powerRZ 2 (e - bias)) by (unfold x, F; apply value_bits; [lia|exact M]).
    assert (PW : forall n, 0 < powerRZ 2 n) by (intros; apply powerRZ_lt; lra). assert (X0 : 0 < x) by (rewrite EX; apply Rmult_lt_0_compat; [lra|apply PW]).
    split; [exact X0|].
    (* the bits of the guess *)
    assert (G : exists E M', (0 <= M' < P)%Z /\ y = (1 + IZR M' / IZR P) * powerRZ 2 (E - bias) /\
      ((2 * (E - bias) + (e - bias) = -1 /\ h <= C /\ M' = C - h) \/ (2 * (E - bias) + (e - bias) = -3 /\ C < h /\ M' = P + (C - h)) \/ (2 * (E - bias) + (e - bias) = -2 /\ M' = Q + (C - h)))%Z).
    { unfold y. rewrite Z.shiftr_div_pow2 by lia. change (2 ^ 1)%Z with 2%Z. cbn [F f_magic]. destruct (Z.Even_or_Odd e) as [[k K]|[k K]].
      - assert (D : ((e * P + m) / 2 = k * P + h)%Z). { replace (e * P + m)%Z with (m + (k * P) * 2)%Z by (rewrite K; ring). rewrite Z.div_add by lia. unfold h. lia. }
        fold P. rewrite D. destruct (Z_le_gt_dec h C) as [L|L].
        + exists (B - k)%Z, (C - h)%Z. split; [lia|]. split; [|left; lia]. replace (B * P + C - (k * P + h))%Z with ((B - k) * P + (C - h))%Z by ring. apply value_bits; [lia|]. fold P. lia.
        + exists (B - k - 1)%Z, (P + (C - h))%Z. split; [lia|]. split; [|right; left; lia]. replace (B * P + C - (k * P + h))%Z with ((B - k - 1) * P + (P + (C - h)))%Z by ring. apply value_bits; [lia|]. fold P. lia.
      - assert (D : ((e * P + m) / 2 = k * P + Q + h)%Z). { replace (e * P + m)%Z with (m + (k * P + Q) * 2)%Z by (rewrite K, PQ; ring). rewrite Z.div_add by lia. unfold h. lia. }
        fold P. rewrite D. exists (B - k - 1)%Z, (Q + (C - h))%Z. split; [lia|]. split; [|right; right; lia].
        replace (B * P + C - (k * P + Q + h))%Z with ((B - k - 1) * P + (Q + (C - h)))%Z by (rewrite PQ; ring). apply value_bits; [lia|]. fold P. lia. }
    destruct G as (E & M' & RM' & EY & G). assert (M0 : 0 <= IZR M' / IZR P) by (apply Rmult_le_pos; [apply IZR_le; lia|left; now apply Rinv_0_lt_compat]).
    split; [rewrite EY; apply Rmult_lt_0_compat; [lra|apply PW]|].
    assert (EP : y * y * x = (1 + IZR M' / IZR P) * (1 + IZR M' / IZR P) * (1 + t) * powerRZ 2 (2 * (E - bias) + (e - bias))).
    { rewrite EY, EX. replace (2 * (E - bias) + (e - bias))%Z with ((E - bias) + (E - bias) + (e - bias))%Z by ring. rewrite !(powerRZ_add 2) by lra. ring. }
    rewrite EP. destruct G as [(-> & L & ->)|[(-> & L & ->)|(-> & ->)]].
    - rewrite minus_IZR. replace ((IZR C - IZR h) / IZR P) with (IZR C / IZR P - hr) by (unfold hr; field; lra). replace (powerRZ 2 (-1)) with (/ 2) by (unfold powerRZ; simpl; lra).
      apply case_even; auto. unfold hr. apply Rmult_le_compat_r; [left; now apply Rinv_0_lt_compat|now apply IZR_le].
    - rewrite plus_IZR, minus_IZR. replace ((IZR P + (IZR C - IZR h)) / IZR P) with (1 + (IZR C / IZR P - hr)) by (unfold hr; field; lra). replace (powerRZ 2 (-3)) with (/ 8) by (unfold powerRZ; simpl; lra).
      apply case_even_low; auto. unfold hr. apply Rmult_lt_compat_r; [now apply Rinv_0_lt_compat|now apply IZR_lt].
    - assert (QR : IZR Q = IZR P / 2) by (rewrite PQ, mult_IZR; field). rewrite plus_IZR, minus_IZR, QR. replace ((IZR P / 2 + (IZR C - IZR h)) / IZR P) with (1 / 2 + (IZR C / IZR P - hr)) by (unfold hr; field; lra). replace (powerRZ 2 (-2)) with (/ 4) by (unfold powerRZ; simpl; lra).
      apply case_odd; auto.
  Qed.
  Lemma resqrt_ok i x : normal bits bias i x -> value F i = x /\ 0 < x /\ (1 - 5 / 1000000) / sqrt x <= fast_resqrt F i <= 1 / sqrt x.
  Proof.
    intros (e & m & _ & M & -> & EX). pose proof (guess_ok e m M) as G. cbv zeta in G. unfold fast_resqrt.
    assert (EV : value F (e * 2 ^ bits + m) = x) by (rewrite EX; unfold F; apply value_bits; [lia|exact M]). rewrite EV in *. destruct G as (X0 & Y0 & G). split; [reflexivity|]. split; [exact X0|].
    set (q := sqrt x). assert (Q0 : 0 < q) by (apply sqrt_lt_R0; exact X0). assert (QQ : x = q * q) by (symmetry; apply sqrt_sqrt; lra). clearbody q. rewrite QQ in G |- *. clear QQ.
    pose proof (newton_twice q _ Q0 Y0 G) as [N1 N2]. split; (apply Rmult_le_reg_r with q; [exact Q0|]).
    - replace ((1 - 5 / 1000000) / q * q) with (1 - 5 / 1000000) by (field; lra). exact N1.
    - replace (1 / q * q) with 1 by (field; lra). exact N2.
  Qed.
End guess.

(** the reduction of angles, without rounding *)
Section reduction.
  Variable tau : R.
  Hypothesis TP : 0 < tau.
  Lemma same_refl a : same_angle tau a a.
  Proof. exists 0%Z. ring. Qed.
  Lemma mod_down_ok fuel x : x <= (INR fuel + 1) * tau -> exists y, mod_down (fun v => v) tau fuel x = Some y /\ y <= tau /\ (x <= tau -> y = x) /\ (tau < x -> 0 < y) /\
    exists k : nat, x = y + INR k * tau.
  Proof.
    revert x. induction fuel as [|fuel IH]; intros x H; cbn [mod_down].
    - cbn in H. rewrite (proj2 (ltb_false tau x)) by lra. exists x. repeat split; try lra. exists 0%nat. cbn. ring.
    - rewrite S_INR in H. destruct (ltb tau x) eqn:L.
      + apply ltb_true in L. destruct (IH (x - tau)) as (y & E & Y & A & B & k & K); [lra|]. exists y. split; [exact E|]. split; [exact Y|]. split; [lra|]. split.
        * intros _. destruct (Rlt_dec tau (x - tau)); [auto|]. rewrite A by lra. lra.
        * exists (S k). rewrite S_INR. lra.
      + apply ltb_false in L. exists x. repeat split; try lra. exists 0%nat. cbn. ring.
  Qed.
  Lemma mod_up_ok fuel x : - (INR fuel * tau) <= x -> exists y, mod_up (fun v => v) tau fuel x = Some y /\ 0 <= y /\ (0 <= x -> y = x) /\ (x < 0 -> y < tau) /\
    exists k : nat, y = x + INR k * tau.
  Proof.
    revert x. induction fuel as [|fuel IH]; intros x H; cbn [mod_up].
    - cbn in H. rewrite (proj2 (ltb_false x 0)) by lra. exists x. repeat split; try lra. exists 0%nat. cbn. ring.
    - rewrite S_INR in H. destruct (ltb x 0) eqn:L.
      + apply ltb_true in L. destruct (IH (x + tau)) as (y & E & Y & A & B & k & K); [lra|]. exists y. split; [exact E|]. split; [exact Y|]. split; [lra|]. split.
        * intros _. destruct (Rlt_dec (x + tau) 0); [auto|]. rewrite A by lra. lra.
        * exists (S k). rewrite S_INR. lra.
      + apply ltb_false in L. exists x. repeat split; try lra. exists 0%nat. cbn. ring.
  Qed.
  Lemma mod_2pi_ok fuel x : Rabs x <= INR fuel * tau -> exists y, mod_2pi (fun v => v) tau fuel x = Some y /\ 0 <= y <= tau /\ same_angle tau y x /\ (0 <= x <= tau -> y = x) /\
    (y = tau -> exists k : nat, x = INR (S k) * tau).
  Proof.
    intros H. assert (H2 : - (INR fuel * tau) <= x <= INR fuel * tau) by (unfold Rabs in H; destruct (Rcase_abs x); lra). clear H.
    destruct (mod_down_ok fuel x ltac:(lra)) as (y & E & Y & A & B & k & K). assert (LO : - (INR fuel * tau) <= y) by (destruct (Rle_dec x tau); [rewrite A by lra; lra|pose proof (pos_INR fuel); assert (0 < y) by (apply B; lra); nra]).
    destruct (mod_up_ok fuel y LO) as (z & E2 & Z & A2 & B2 & l & K2). exists z. unfold mod_2pi. rewrite E. cbn [obind]. rewrite E2. split; [reflexivity|].
    assert (ZT : z <= tau) by (destruct (Rlt_dec y 0); [left; auto|rewrite A2 by lra; lra]).
    split; [lra|]. split; [exists (Z.of_nat l - Z.of_nat k)%Z; rewrite minus_IZR, <- !INR_IZR_INZ; lra|]. split.
    - intros [X0 X1]. rewrite A2; [now apply A|]. rewrite A; lra.
    - intros ->. exists k. rewrite S_INR. assert (y = tau); [|lra]. destruct (Rlt_dec y 0) as [N|N]; [specialize (B2 N); lra|]. symmetry. apply A2. lra.
  Qed.
End reduction.
Lemma stuck rnd tau x : tau < x -> rnd (x - tau) = x -> forall fuel, mod_2pi rnd tau fuel x = None.
Proof.
  intros L W fuel. unfold mod_2pi. replace (mod_down rnd tau fuel x) with (@None R); [reflexivity|]. symmetry.
  induction fuel as [|fuel IH]; cbn [mod_down]; rewrite (proj2 (ltb_true tau x) L); [reflexivity|]. now rewrite W.
Qed.
(** rounding a number just below 2^(p + 4), to p bits *)
Lemma round_near emin p v : (0 < p)%Z -> (emin <= 4)%Z -> bpow radix2 (p + 4) - 8 < v < bpow radix2 (p + 4) -> round radix2 (FLT_exp emin p) ZnearestE v = bpow radix2 (p + 4).
Proof.
  intros P E V. assert (B0 : bpow radix2 (p + 4) = 16 * bpow radix2 p) by (rewrite bpow_plus; cbn; lra).
  assert (B1 : bpow radix2 (p + 4) = 2 * bpow radix2 (p + 3)) by (replace (p + 4)%Z with (1 + (p + 3))%Z by ring; rewrite bpow_plus; cbn; lra).
  assert (B2 : 1 <= bpow radix2 p) by (change 1 with (bpow radix2 0); apply bpow_le; lia).
  assert (M : mag radix2 v = (p + 4)%Z :> Z). { apply mag_unique. replace (p + 4 - 1)%Z with (p + 3)%Z by ring. rewrite Rabs_right by lra. lra. }
  assert (CE : cexp radix2 (FLT_exp emin p) v = 4%Z) by (unfold cexp, FLT_exp; rewrite M; lia).
  unfold round, scaled_mantissa. rewrite CE. rewrite (Znearest_imp _ _ (2 ^ p)).
  - unfold F2R. cbn [Fnum Fexp]. rewrite B0. change (2 ^ p)%Z with (radix2 ^ p)%Z. rewrite IZR_Zpower by lia. change (bpow radix2 4) with 16. ring.
  - change (2 ^ p)%Z with (radix2 ^ p)%Z. rewrite IZR_Zpower by lia. change (bpow radix2 (- (4))) with (/ 16). apply Rabs_def1; lra.
Qed.

Lemma int_part_eq x n : IZR n <= x < IZR n + 1 -> Int_part x = n.
Proof.
  intros H. pose proof (base_Int_part x) as B. assert (IZR (Int_part x) < IZR (n + 1)) by (rewrite plus_IZR; lra). assert (IZR n < IZR (Int_part x + 1)) by (rewrite plus_IZR; lra).
  apply lt_IZR in H0. apply lt_IZR in H1. lia.
Qed.
Lemma floor_ok x n : fast_floor x = Some n <-> IZR n <= x < IZR n + 1 /\ (- 2 ^ 63 <= n < 2 ^ 63)%Z.
Proof.
  unfold fast_floor, to_long. set (N := (2 ^ 63)%Z). assert (NP : (0 < N)%Z) by (unfold N; reflexivity). clearbody N.
  destruct (ltb x 0) eqn:X; [apply ltb_true in X|apply ltb_false in X].
  - pose proof (base_Int_part (- x)) as B. set (k := Int_part (- x)) in *. clearbody k. cbn [negb orb].
    assert (K0 : (0 <= k)%Z). { assert (IZR (-1) < IZR k) by lra. apply lt_IZR in H. lia. }
    assert (U : forall m, IZR m <= x < IZR m + 1 <-> m = (if eqb (IZR (- k)) x then - k else - k - 1)%Z).
    { intros m. rewrite opp_IZR. destruct (eqb (- IZR k) x) eqn:Q; [apply eqb_true in Q|apply eqb_false in Q]; split.
      - intros H. assert (IZR m <= IZR (- k)) by (rewrite opp_IZR; lra). assert (IZR (- k) < IZR (m + 1)) by (rewrite plus_IZR, opp_IZR; lra). apply le_IZR in H0. apply lt_IZR in H1. lia.
      - intros ->. rewrite opp_IZR. lra.
      - intros H. assert (IZR m < IZR (- k)) by (rewrite opp_IZR; lra). assert (IZR (- k - 1) < IZR (m + 1)) by (rewrite plus_IZR, minus_IZR, opp_IZR; lra). apply lt_IZR in H0. apply lt_IZR in H1. lia.
      - intros ->. rewrite minus_IZR, opp_IZR. lra. }
    destruct (eqb (IZR (- k)) x) eqn:Q; rewrite ?Q in U; destruct ((- N <=? - k) && (- k <? N))%Z eqn:R; cbn [obind]; rewrite ?Q.
    + apply andb_true_iff in R. destruct R as [R1 R2]. apply Z.leb_le in R1. apply Z.ltb_lt in R2. rewrite U. split; [intros W; injection W as W; lia|intros [-> _]; reflexivity].
    + split; [discriminate|]. rewrite U. intros [-> H]. apply andb_false_iff in R. destruct R as [R|R]; [apply Z.leb_gt in R|apply Z.ltb_ge in R]; lia.
    + apply andb_true_iff in R. destruct R as [R1 R2]. apply Z.leb_le in R1. apply Z.ltb_lt in R2. rewrite U. destruct (- k - 1 <? - N)%Z eqn:W; [apply Z.ltb_lt in W|apply Z.ltb_ge in W].
      * split; [discriminate|]. intros [-> H]. lia.
      * split; [intros Y; injection Y as Y; lia|intros [-> _]; reflexivity].
    + split; [discriminate|]. rewrite U. intros [-> H]. apply andb_false_iff in R. destruct R as [R|R]; [apply Z.leb_gt in R|apply Z.ltb_ge in R]; lia.
  - cbn [negb orb]. pose proof (base_Int_part x) as B. split.
    + destruct ((- N <=? Int_part x) && (Int_part x <? N))%Z eqn:R; [|discriminate]. cbn. intros [= <-]. apply andb_true_iff in R. destruct R as [R1 R2]. apply Z.leb_le in R1. apply Z.ltb_lt in R2. split; [lra|lia].
    + intros [H R]. rewrite (int_part_eq x n H). replace ((- N <=? n) && (n <? N))%Z with true; [reflexivity|]. symmetry. apply andb_true_iff. split; [apply Z.leb_le|apply Z.ltb_lt]; lia.
Qed.
