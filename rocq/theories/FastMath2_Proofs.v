(** Lemmas on the angle of a point, the reduction of angles, rounding down and the inverse square root. *)
From Coq Require Import List Bool Reals ZArith Lra Lia Psatz Machin.
Import ListNotations.
From Verif Require Import Base Rodrigues_Model Svd_Model Svd_Proofs FastMath_Model FastMath_Spec FastMath_Proofs.
Local Open Scope R_scope.

Lemma Rabs_def2_le a b : Rabs a <= b -> - b <= a <= b.
Proof. intros H. unfold Rabs in H. destruct (Rcase_abs a); lra. Qed.
(** the angle of (x, b), for b positive, is PI / 2 - atan (x / b) *)
Lemma upper_angle eps y x : 0 < eps -> Rabs ((if ltb y 0 then - fast_atan2 eps y x else fast_atan2 eps y x) - (PI / 2 - atan (x / (Rabs y + eps)))) <= 62 / 10000.
Proof.
  intros E. pose proof (Rabs_pos y) as Y. unfold fast_atan2. set (b := Rabs y + eps). assert (B : 0 < b) by (unfold b; lra). clearbody b. pose proof PI_RGT_0.
  assert (K : forall r angle, -1 <= r <= 1 -> atan (x / b) = PI / 2 - angle + atan r ->
    Rabs ((if ltb y 0 then - (if ltb y 0 then - (angle + (1821 / 10000 * r * r - 9675 / 10000) * r) else angle + (1821 / 10000 * r * r - 9675 / 10000) * r)
      else if ltb y 0 then - (angle + (1821 / 10000 * r * r - 9675 / 10000) * r) else angle + (1821 / 10000 * r * r - 9675 / 10000) * r) - (PI / 2 - atan (x / b))) <= 62 / 10000).
  { intros r angle R A. rewrite A. replace ((if ltb y 0 then _ else _) - _) with (err r); [now apply err_small|]. unfold err. destruct (ltb y 0); ring. }
  destruct (ltb x 0) eqn:X.
  - apply ltb_true in X. apply K.
    + split; [apply Rmult_le_reg_r with (b - x)|apply Rmult_le_reg_r with (b - x)]; try lra; unfold Rdiv; rewrite Rmult_assoc, Rinv_l by lra; lra.
    + pose proof (atan_turn (- x / b)) as T. assert (P : 0 <= - x / b) by (apply Rmult_le_pos; [lra|left; now apply Rinv_0_lt_compat]). specialize (T P).
      replace ((- x / b - 1) / (- x / b + 1)) with (- ((x + b) / (b - x))) in T by (field; split; lra). replace (- x / b) with (- (x / b)) in T by (field; lra). rewrite !atan_opp in T. lra.
  - apply ltb_false in X. apply K.
    + split; [apply Rmult_le_reg_r with (x + b)|apply Rmult_le_reg_r with (x + b)]; try lra; unfold Rdiv; rewrite Rmult_assoc, Rinv_l by lra; lra.
    + pose proof (atan_turn (x / b)) as T. assert (P : 0 <= x / b) by (apply Rmult_le_pos; [lra|left; now apply Rinv_0_lt_compat]). specialize (T P).
      replace ((x / b - 1) / (x / b + 1)) with ((x - b) / (x + b)) in T by (field; split; lra). lra.
Qed.
Lemma norm_pos x y : x <> 0 \/ y <> 0 -> 0 < sqrt (x * x + y * y).
Proof. intros N. apply sqrt_lt_R0. destruct N as [N|N]; pose proof (Rsqr_pos_lt _ N); unfold Rsqr in *; nra. Qed.
Lemma norm_abs x : sqrt (x * x + 0 * 0) = Rabs x.
Proof. replace (x * x + 0 * 0) with (x²) by (unfold Rsqr; ring). apply sqrt_Rsqr_abs. Qed.
Lemma angle_pos x y a : 0 < y -> angle_of x y a -> a = PI / 2 - atan (x / y).
Proof.
  intros Y (A & EX & EY). pose proof (norm_pos x y (or_intror (Rgt_not_eq _ _ Y))) as N. set (n := sqrt (x * x + y * y)) in *. clearbody n. pose proof PI_RGT_0.
  assert (SP : 0 < sin a) by nra. assert (P : 0 < a).
  { destruct (Rlt_dec 0 a); [auto|]. assert (0 <= sin (- a)) by (apply sin_ge_0; lra). rewrite sin_neg in *. lra. }
  assert (Q : a < PI). { destruct (Rlt_dec a PI); [auto|]. assert (a = PI) by lra. subst a. rewrite sin_PI in SP. lra. }
  replace (x / y) with (tan (PI / 2 - a)). { rewrite atan_tan by lra. ring. }
  unfold tan. rewrite sin_shift, cos_shift. rewrite EX, EY. field. split; lra.
Qed.
Lemma angle_neg x y a : y < 0 -> angle_of x y a -> angle_of x (- y) (- a).
Proof.
  intros Y (A & EX & EY). unfold angle_of. replace (x * x + - y * - y) with (x * x + y * y) by ring. rewrite cos_neg, sin_neg. split; [|split; lra].
  split; [|lra]. destruct (Rlt_dec a PI); [lra|]. assert (a = PI) by lra. subst a. rewrite sin_PI in EY. lra.
Qed.
Lemma angle_zero x a : x <> 0 -> angle_of x 0 a -> a = if ltb x 0 then PI else 0.
Proof.
  intros N (A & EX & EY). rewrite norm_abs in *. pose proof (Rabs_pos_lt x N). assert (S0 : sin a = 0) by nra. pose proof PI_RGT_0.
  assert (Z : a = 0 \/ a = PI).
  { destruct (Rtotal_order a 0) as [L|[E|G]]; [|auto|].
    - assert (0 < sin (- a)) by (apply sin_gt_0; lra). rewrite sin_neg in *. lra.
    - destruct (Rlt_dec a PI); [|right; lra]. assert (0 < sin a) by (apply sin_gt_0; lra). lra. }
  destruct (ltb x 0) eqn:X; [apply ltb_true in X|apply ltb_false in X]; destruct Z as [->| ->]; auto; exfalso; rewrite ?cos_0, ?cos_PI in EX; lra.
Qed.
(** moving the second coordinate turns the point by no more than the move divided by the distance *)
Lemma turn_small x b eps : 0 < b -> 0 < eps -> Rabs (atan (x / b) - atan (x / (b + eps))) <= eps / sqrt (x * x + b * b).
Proof.
  intros B E. set (u := x / b). set (v := x / (b + eps)). assert (N : 0 < sqrt (x * x + b * b)) by (apply norm_pos; right; lra).
  assert (UV : 0 <= u * v). { unfold u, v. replace (x / b * (x / (b + eps))) with (x * x / (b * (b + eps))) by (field; split; lra). apply Rmult_le_pos; [nra|]. left. apply Rinv_0_lt_compat. nra. }
  assert (D : atan u = atan v + atan (atan_sub u v)).
  { apply atan_sub_correct; [lra| |pose proof (atan_bound (atan_sub u v)); lra]. pose proof (atan_bound u). pose proof (atan_bound v).
    destruct (Rle_dec 0 x) as [X|X].
    - assert (U0 : 0 <= u) by (apply Rmult_le_pos; [lra|left; apply Rinv_0_lt_compat; lra]). assert (V0 : 0 <= v) by (apply Rmult_le_pos; [lra|left; apply Rinv_0_lt_compat; lra]).
      assert (0 <= atan u) by (destruct (Req_dec u 0) as [->|]; [rewrite atan_0; lra|rewrite <- atan_0; left; apply atan_increasing; lra]).
      assert (0 <= atan v) by (destruct (Req_dec v 0) as [->|]; [rewrite atan_0; lra|rewrite <- atan_0; left; apply atan_increasing; lra]). lra.
    - assert (U0 : u < 0) by (assert (0 < - u); [unfold u; replace (- (x / b)) with (- x / b) by (field; lra); apply Rmult_lt_0_compat; [lra|apply Rinv_0_lt_compat; lra]|lra]).
      assert (V0 : v < 0) by (assert (0 < - v); [unfold v; replace (- (x / (b + eps))) with (- x / (b + eps)) by (field; lra); apply Rmult_lt_0_compat; [lra|apply Rinv_0_lt_compat; lra]|lra]).
      assert (atan u < 0) by (rewrite <- atan_0; apply atan_increasing; lra). assert (atan v < 0) by (rewrite <- atan_0; apply atan_increasing; lra). lra. }
  rewrite D. replace (atan v + atan (atan_sub u v) - atan v) with (atan (atan_sub u v)) by ring. eapply Rle_trans; [apply atan_le_abs|].
  set (n := sqrt (x * x + b * b)) in *. assert (NN : n * n = x * x + b * b) by (apply sqrt_sqrt; nra). clearbody n.
  assert (Q : 0 < x * x + b * (b + eps)) by nra.
  unfold atan_sub, u, v. replace ((x / b - x / (b + eps)) / (1 + x / b * (x / (b + eps)))) with (eps * x / (x * x + b * (b + eps))).
  - unfold Rdiv. rewrite Rabs_mult, (Rabs_right (/ _)) by (left; now apply Rinv_0_lt_compat). rewrite Rabs_mult, (Rabs_right eps) by lra.
    assert (XN : Rabs x <= n). { apply Rabs_le. split; nra. }
    rewrite Rmult_assoc. apply Rmult_le_compat_l; [lra|]. apply Rmult_le_reg_r with (x * x + b * (b + eps)); [exact Q|]. rewrite Rmult_assoc, Rinv_l, Rmult_1_r by lra.
    apply Rmult_le_reg_l with n; [exact N|]. replace (n * (/ n * (x * x + b * (b + eps)))) with (x * x + b * (b + eps)) by (field; lra). pose proof (Rabs_pos x). nra.
  - field. split; [lra|]. split; [lra|]. nra.
Qed.
Lemma eps_angle x eps : 0 < x -> 0 < eps -> 0 <= PI / 2 - atan (x / eps) <= eps / x.
Proof.
  intros X E. assert (P : 0 < eps / x) by (apply Rmult_lt_0_compat; [lra|now apply Rinv_0_lt_compat]). pose proof (atan_inv _ P) as I. replace (/ (eps / x)) with (x / eps) in I by (field; split; lra).
  rewrite I. replace (PI / 2 - (PI / 2 - atan (eps / x))) with (atan (eps / x)) by ring. split; [|apply atan_below; lra]. rewrite <- atan_0. left. now apply atan_increasing.
Qed.
Lemma fast_atan2_ok eps x y a : 0 < eps -> x <> 0 \/ y <> 0 -> angle_of x y a -> Rabs (fast_atan2 eps y x - a) <= 62 / 10000 + eps / sqrt (x * x + y * y).
Proof.
  intros E N A. pose proof (upper_angle eps y x E) as U. destruct (ltb y 0) eqn:Y; [apply ltb_true in Y|apply ltb_false in Y].
  - pose proof (angle_pos x (- y) (- a) ltac:(lra) (angle_neg x y a Y A)) as H. rewrite (Rabs_left y) in U by lra. pose proof (turn_small x (- y) eps ltac:(lra) E) as T.
    replace (x * x + - y * - y) with (x * x + y * y) in T by ring. apply Rabs_def2_le in U. apply Rabs_def2_le in T. apply Rabs_le. lra.
  - destruct (Req_dec y 0) as [->|Z].
    + assert (X : x <> 0) by tauto. rewrite (angle_zero x a X A). rewrite norm_abs. rewrite Rabs_R0, Rplus_0_l in U. destruct (ltb x 0) eqn:S0; [apply ltb_true in S0|apply ltb_false in S0].
      * rewrite (Rabs_left x) by lra. pose proof (eps_angle (- x) eps ltac:(lra) E) as T. replace (- x / eps) with (- (x / eps)) in T by (field; lra). rewrite atan_opp in T. apply Rabs_def2_le in U. apply Rabs_le. lra.
      * rewrite (Rabs_right x) by lra. pose proof (eps_angle x eps ltac:(lra) E) as T. apply Rabs_def2_le in U. apply Rabs_le. lra.
    + assert (P : 0 < y) by lra. rewrite (angle_pos x y a P A). rewrite (Rabs_right y) in U by lra. pose proof (turn_small x y eps P E) as T. apply Rabs_def2_le in U. apply Rabs_def2_le in T. apply Rabs_le. lra.
Qed.
Lemma fast_atan2_range eps x y : 0 < eps -> Rabs (fast_atan2 eps y x) < PI + 1 / 100000.
Proof.
  intros E. pose proof (Rabs_pos y) as Y. pose proof pi4_bounds. unfold fast_atan2. set (b := Rabs y + eps). assert (B : 0 < b) by (unfold b; lra). clearbody b.
  assert (K : forall r angle, -1 <= r <= 1 -> PI / 4 <= angle <= 3 * PI / 4 -> Rabs (if ltb y 0 then - (angle + (1821 / 10000 * r * r - 9675 / 10000) * r) else angle + (1821 / 10000 * r * r - 9675 / 10000) * r) < PI + 1 / 100000).
  { intros r angle R A. replace (Rabs (if ltb y 0 then _ else _)) with (Rabs (angle + (1821 / 10000 * r * r - 9675 / 10000) * r)) by (destruct (ltb y 0); [now rewrite Rabs_Ropp|reflexivity]).
    assert (R2 : 0 <= r * r <= 1) by nra.
    assert (0 <= (1 - r) * (9675 / 10000 - 1821 / 10000 * (r * r + r + 1))) by (apply Rmult_le_pos; lra). assert (0 <= (1 + r) * (9675 / 10000 - 1821 / 10000 * (r * r - r + 1))) by (apply Rmult_le_pos; lra).
    assert (-7854 / 10000 <= (1821 / 10000 * r * r - 9675 / 10000) * r <= 7854 / 10000) by lra. apply Rabs_def1; lra. }
  destruct (ltb x 0) eqn:X; [apply ltb_true in X|apply ltb_false in X]; (apply K; [|lra]).
  - split; [apply Rmult_le_reg_r with (b - x)|apply Rmult_le_reg_r with (b - x)]; try lra; unfold Rdiv; rewrite Rmult_assoc, Rinv_l by lra; lra.
  - split; [apply Rmult_le_reg_r with (x + b)|apply Rmult_le_reg_r with (x + b)]; try lra; unfold Rdiv; rewrite Rmult_assoc, Rinv_l by lra; lra.
Qed.
