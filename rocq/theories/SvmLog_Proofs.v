(** The logistic loss: proofs. *)
From Coq Require Import Reals List Arith Lra Lia.
Import ListNotations.
From Verif Require Import Base Loop SvmLog_Model SvmLog_Spec.
Local Open Scope R_scope.

Lemma ln_le_sub x : 0 < x -> ln x <= x - 1.
Proof. intro H. pose proof (exp_ineq1_le (ln x)) as E. rewrite exp_ln in E by exact H. lra. Qed.
Lemma loss_softplus z y : logistic_loss z y = softplus y z.
Proof.
  unfold logistic_loss, softplus. cbv zeta. destruct (Rle_dec 0 (y * z)); [reflexivity|].
  set (t := y * z). pose proof (exp_pos t) as P. rewrite <- (ln_exp (- t)) at 1. rewrite <- ln_mult; [|apply exp_pos|lra].
  f_equal. rewrite Rmult_plus_distr_l, <- exp_plus. replace (- t + t) with 0 by ring. rewrite exp_0. ring.
Qed.
Lemma softplus_pos y z : 0 < softplus y z.
Proof. unfold softplus. rewrite <- ln_1. apply ln_increasing; [lra|]. pose proof (exp_pos (- (y * z))). lra. Qed.

Lemma deriv_ok z y : derivable_pt_lim (fun z => logistic_loss z y) z (logistic_deriv z y).
Proof.
  assert (X : derivable_pt_lim (fun z => softplus y z) z (logistic_deriv z y)).
  { unfold softplus. pose proof (exp_pos (- (y * z))) as P.
    assert (I : derivable_pt_lim (fun z => 1 + exp (- (y * z))) z (exp (- (y * z)) * (- y))).
    { replace (exp (- (y * z)) * - y) with (0 + exp (- (y * z)) * (- y)) by ring.
      apply (derivable_pt_lim_plus (fun _ => 1) (fun z => exp (- (y * z)))); [apply derivable_pt_lim_const|].
      apply (derivable_pt_lim_comp (fun z => - (y * z)) exp); [|apply derivable_pt_lim_exp].
      replace (- y) with (- (y * 1)) by ring.
      apply (derivable_pt_lim_opp (fun z => y * z)). apply (derivable_pt_lim_scal id y z 1). apply derivable_pt_lim_id. }
    pose proof (derivable_pt_lim_comp (fun z => 1 + exp (- (y * z))) ln z _ _ I (derivable_pt_lim_ln (1 + exp (- (y * z))) ltac:(lra))) as C.
    unfold comp in C. replace (logistic_deriv z y) with (/ (1 + exp (- (y * z))) * (exp (- (y * z)) * - y)); [exact C|].
    unfold logistic_deriv. cbv zeta. field. lra. }
  intros eps He. destruct (X eps He) as (d & Hd). exists d. intros h Hh0 Hh. rewrite !loss_softplus. now apply Hd.
Qed.

(** Gibbs' inequality *)
Lemma gibbs_term b p : 0 <= b -> 0 < p -> b * ln p <= (if Rle_dec b 0 then 0 else b * ln b) + (p - b).
Proof.
  intros B P. destruct (Rle_dec b 0) as [L|L].
  - replace b with 0 by lra. lra.
  - assert (Q : 0 < b) by lra. pose proof (ln_le_sub (p / b) ltac:(apply Rdiv_lt_0_compat; lra)) as X.
    unfold Rdiv in X. rewrite ln_mult in X by (auto; now apply Rinv_0_lt_compat). rewrite ln_Rinv in X by exact Q.
    assert (Y : b * (ln p + - ln b) <= b * (p * / b - 1)) by (apply Rmult_le_compat_l; lra).
    replace (b * (p * / b - 1)) with (p - b) in Y by (field; lra). lra.
Qed.
Lemma xlogx_above x : 0 <= x <= 1 -> (if Rle_dec x 0 then 0 else x * ln x) <= xlogx x.
Proof.
  intro H. unfold xlogx. destruct (Rle_dec x 0) as [L|L].
  - destruct (Rle_dec x (/ 10 ^ 10)) as [M|M]; [lra|]. exfalso. apply M. assert (0 < / 10 ^ 10) by (apply Rinv_0_lt_compat; lra). lra.
  - destruct (Rle_dec x (/ 10 ^ 10)) as [M|M]; [|lra].
    pose proof (ln_le_sub x ltac:(lra)). nra.
Qed.
Lemma xlogx_near x : 0 <= x <= 1 -> xlogx x <= (if Rle_dec x 0 then 0 else x * ln x) + 2 / 10 ^ 5.
Proof.
  intro H. unfold xlogx. destruct (Rle_dec x 0) as [L|L].
  - destruct (Rle_dec x (/ 10 ^ 10)) as [M|M]; [lra|]. replace x with 0 by lra. lra.
  - destruct (Rle_dec x (/ 10 ^ 10)) as [M|M]; [|lra].
    set (r := sqrt x). assert (R0 : 0 < r) by (apply sqrt_lt_R0; lra). assert (R2 : r * r = x) by (apply sqrt_sqrt; lra).
    assert (R5 : r <= / 10 ^ 5).
    { apply Rsqr_incr_0_var; [|left; apply Rinv_0_lt_compat; lra]. unfold Rsqr. rewrite R2. lra. }
    pose proof (ln_le_sub (/ r) ltac:(now apply Rinv_0_lt_compat)) as X. rewrite ln_Rinv in X by exact R0.
    assert (E : ln x = ln r + ln r) by (rewrite <- R2; apply ln_mult; exact R0).
    assert (Y : r * (- ln r) <= r * (/ r - 1)) by (apply Rmult_le_compat_l; lra). rewrite Rmult_minus_distr_l, Rinv_r in Y by lra.
    assert (Z : - (x * ln x) <= 2 * r).
    { rewrite E, <- R2. assert (r * (r * - ln r) <= r * 1) by (apply Rmult_le_compat_l; lra). lra. }
    lra.
Qed.

Section Conj.
Variables (u y : R).
Hypothesis Hy : y * y = 1.
Let b := - (y * u).
(** the value of u z - loss z in terms of probabilities *)
Lemma fenchel_value z : let p := exp (- (y * z)) / (1 + exp (- (y * z))) in
  0 < p < 1 /\ u * z - softplus y z = b * ln p + (1 - b) * ln (1 - p).
Proof.
  cbv zeta. set (e := exp (- (y * z))). pose proof (exp_pos (- (y * z))) as P. fold e in P.
  assert (Q : 0 < / (1 + e)) by (apply Rinv_0_lt_compat; lra).
  assert (I : 1 - e / (1 + e) = / (1 + e)) by (field; lra).
  assert (S : 0 < e / (1 + e)) by (apply Rmult_lt_0_compat; lra).
  split; [split; [exact S|lra]|]. rewrite I. unfold Rdiv. rewrite ln_mult by lra. rewrite !ln_Rinv by lra. unfold softplus. fold e.
  assert (L : ln e = - (y * z)) by (unfold e; apply ln_exp). rewrite L. unfold b.
  replace (u * z) with (y * y * (u * z)) by (rewrite Hy; ring). ring.
Qed.
Lemma conj_upper c z : logistic_conj u y = Some c -> u * z - logistic_loss z y <= c.
Proof.
  unfold logistic_conj. cbv zeta. destruct (Rle_dec (-1) (y * u)) as [L|]; [|discriminate]. destruct (Rle_dec (y * u) 0) as [M|]; [|discriminate]. intros [= <-].
  rewrite loss_softplus. destruct (fenchel_value z) as [P E]. cbv zeta in *. rewrite E.
  set (p := exp (- (y * z)) / (1 + exp (- (y * z)))) in *.
  pose proof (gibbs_term b p ltac:(unfold b; lra) ltac:(lra)) as G1. pose proof (gibbs_term (1 - b) (1 - p) ltac:(unfold b; lra) ltac:(lra)) as G2.
  pose proof (xlogx_above b ltac:(unfold b; lra)) as X1. pose proof (xlogx_above (1 - b) ltac:(unfold b; lra)) as X2.
  fold b. replace (1 + y * u) with (1 - b) by (unfold b; ring). lra.
Qed.
(** attained *)
Lemma attained : 0 < b < 1 -> exists z, u * z - softplus y z = b * ln b + (1 - b) * ln (1 - b).
Proof.
  intro B. exists (y * - ln (b / (1 - b))). destruct (fenchel_value (y * - ln (b / (1 - b)))) as [_ E]. cbv zeta in E. rewrite E.
  replace (- (y * (y * - ln (b / (1 - b))))) with (y * y * ln (b / (1 - b))) by ring. rewrite Hy, Rmult_1_l.
  rewrite exp_ln by (apply Rdiv_lt_0_compat; lra).
  replace (b / (1 - b) / (1 + b / (1 - b))) with b by (field; lra). reflexivity.
Qed.
Lemma conj_tight c : logistic_conj u y = Some c -> exists z, c - 3 / 10 ^ 5 <= u * z - logistic_loss z y.
Proof.
  unfold logistic_conj. cbv zeta. destruct (Rle_dec (-1) (y * u)) as [L|]; [|discriminate]. destruct (Rle_dec (y * u) 0) as [M|]; [|discriminate]. intros [= <-].
  fold b. replace (1 + y * u) with (1 - b) by (unfold b; ring).
  assert (B : 0 <= b <= 1) by (unfold b; lra).
  assert (T : 0 < / 10 ^ 10 <= / 2) by (split; [apply Rinv_0_lt_compat; lra|lra]).
  destruct (Rle_dec b 0) as [B0|B0]; [|destruct (Rle_dec 1 b) as [B1|B1]].
  - (* t large *)
    exists (y * ln (10 ^ 5)). rewrite loss_softplus. unfold softplus.
    replace (- (y * (y * ln (10 ^ 5)))) with (y * y * - ln (10 ^ 5)) by ring. rewrite Hy, Rmult_1_l.
    rewrite exp_Ropp, exp_ln by lra. pose proof (ln_le_sub (1 + / 10 ^ 5) ltac:(assert (0 < / 10 ^ 5) by (apply Rinv_0_lt_compat; lra); lra)).
    assert (U : u * (y * ln (10 ^ 5)) = 0) by (replace (u * (y * ln (10 ^ 5))) with (- b * ln (10 ^ 5)) by (unfold b; ring); replace b with 0 by lra; ring).
    rewrite U. replace b with 0 by lra. unfold xlogx. destruct (Rle_dec 0 (/ 10 ^ 10)); [|lra]. destruct (Rle_dec (1 - 0) (/ 10 ^ 10)); [lra|].
    rewrite Rminus_0_r, ln_1. lra.
  - exists (y * - ln (10 ^ 5)). rewrite loss_softplus. unfold softplus.
    replace (- (y * (y * - ln (10 ^ 5)))) with (y * y * ln (10 ^ 5)) by ring. rewrite Hy, Rmult_1_l. rewrite exp_ln by lra.
    assert (U : u * (y * - ln (10 ^ 5)) = ln (10 ^ 5)) by (replace (u * (y * - ln (10 ^ 5))) with (b * ln (10 ^ 5)) by (unfold b; ring); replace b with 1 by lra; ring).
    rewrite U.
    assert (D : ln (1 + 10 ^ 5) = ln (10 ^ 5) + ln (1 + / 10 ^ 5)).
    { rewrite <- ln_mult; [f_equal; field; lra|lra|]. assert (0 < / 10 ^ 5) by (apply Rinv_0_lt_compat; lra). lra. }
    rewrite D. pose proof (ln_le_sub (1 + / 10 ^ 5) ltac:(assert (0 < / 10 ^ 5) by (apply Rinv_0_lt_compat; lra); lra)).
    replace b with 1 by lra. unfold xlogx. destruct (Rle_dec 1 (/ 10 ^ 10)); [lra|]. destruct (Rle_dec (1 - 1) (/ 10 ^ 10)); [|lra].
    rewrite ln_1. lra.
  - destruct (attained ltac:(lra)) as (z & E). exists z. rewrite loss_softplus, E.
    unfold xlogx. destruct (Rle_dec b (/ 10 ^ 10)) as [S1|S1], (Rle_dec (1 - b) (/ 10 ^ 10)) as [S2|S2].
    + lra.
    + pose proof (xlogx_near b ltac:(lra)) as N. unfold xlogx in N. destruct (Rle_dec b (/ 10 ^ 10)); [|lra]. destruct (Rle_dec b 0); lra.
    + pose proof (xlogx_near (1 - b) ltac:(lra)) as N. unfold xlogx in N. destruct (Rle_dec (1 - b) (/ 10 ^ 10)); [|lra]. destruct (Rle_dec (1 - b) 0); lra.
    + lra.
Qed.
Lemma conj_exact c : / 10 ^ 10 < b < 1 - / 10 ^ 10 -> logistic_conj u y = Some c -> exists z, c = u * z - logistic_loss z y.
Proof.
  intros B. assert (T : 0 < / 10 ^ 10) by (apply Rinv_0_lt_compat; lra).
  unfold logistic_conj. cbv zeta. destruct (Rle_dec (-1) (y * u)) as [L|]; [|discriminate]. destruct (Rle_dec (y * u) 0) as [M|]; [|discriminate]. intros [= <-].
  fold b. replace (1 + y * u) with (1 - b) by (unfold b; ring).
  destruct (attained ltac:(lra)) as (z & E). exists z. rewrite loss_softplus, E. unfold xlogx.
  destruct (Rle_dec b (/ 10 ^ 10)); [lra|]. destruct (Rle_dec (1 - b) (/ 10 ^ 10)); [lra|]. reflexivity.
Qed.
Lemma conj_infinite M : logistic_conj u y = None -> exists z, M <= u * z - logistic_loss z y.
Proof.
  unfold logistic_conj. cbv zeta. intro H.
  assert (B : b < 0 \/ 1 < b).
  { destruct (Rle_dec (-1) (y * u)); [destruct (Rle_dec (y * u) 0); [discriminate|left]|right]; unfold b; lra. }
  clear H. pose proof (Rabs_pos M) as AP. pose proof (Rle_abs M) as AM.
  destruct B as [B|B].
  - set (t := (Rabs M + 1) / - b). assert (T : 0 < t) by (apply Rdiv_lt_0_compat; lra).
    exists (y * t). rewrite loss_softplus. unfold softplus. replace (- (y * (y * t))) with (y * y * - t) by ring. rewrite Hy, Rmult_1_l.
    pose proof (exp_pos (- t)). assert (E : exp (- t) <= 1) by (rewrite <- exp_0; left; apply exp_increasing; lra).
    pose proof (ln_le_sub (1 + exp (- t)) ltac:(lra)).
    replace (u * (y * t)) with (- b * t) by (unfold b; ring). replace (- b * t) with (Rabs M + 1) by (unfold t; field; lra). lra.
  - set (t := (Rabs M + 1) / (b - 1)). assert (T : 0 < t) by (apply Rdiv_lt_0_compat; lra).
    exists (y * - t). rewrite loss_softplus. unfold softplus. replace (- (y * (y * - t))) with (y * y * t) by ring. rewrite Hy, Rmult_1_l.
    assert (D : ln (1 + exp t) = t + ln (1 + exp (- t))).
    { rewrite <- (ln_exp t) at 2. rewrite <- ln_mult; [|apply exp_pos|pose proof (exp_pos (- t)); lra]. f_equal.
      rewrite Rmult_plus_distr_l, <- exp_plus. replace (t + - t) with 0 by ring. rewrite exp_0. ring. }
    rewrite D. pose proof (exp_pos (- t)). assert (E : exp (- t) <= 1) by (rewrite <- exp_0; left; apply exp_increasing; lra).
    pose proof (ln_le_sub (1 + exp (- t)) ltac:(lra)).
    replace (u * (y * - t)) with (b * t) by (unfold b; ring).
    assert (K : (b - 1) * t = Rabs M + 1) by (unfold t; field; lra). lra.
Qed.
End Conj.

(** ** the update *)
Definition g (n k b : R) : R := n * b + k + (ln b - ln (1 - b)).
Lemma g_mono n k a b : 0 <= n -> 0 < a -> a < b -> b < 1 -> g n k a < g n k b.
Proof.
  intros N A0 AB B1. unfold g.
  pose proof (ln_increasing a b A0 AB). pose proof (ln_increasing (1 - b) (1 - a) ltac:(lra) ltac:(lra)). nra.
Qed.
Lemma g_sym n k b : g n k (1 - b) = - g n (- n - k) b.
Proof. unfold g. replace (1 - (1 - b)) with b by ring. ring. Qed.
Lemma g_lim n k c : 0 < c < 1 -> derivable_pt_lim (g n k) c (n + 1 / (c * (1 - c))).
Proof.
  intro C. unfold g.
  replace (n + 1 / (c * (1 - c))) with (n * 1 + 0 + (/ c - / (1 - c) * (0 - 1))) by (field; lra).
  apply (derivable_pt_lim_plus (fun b => n * b + k) (fun b => ln b - ln (1 - b))).
  - apply (derivable_pt_lim_plus (fun b => n * b) (fun _ => k)); [|apply derivable_pt_lim_const].
    apply (derivable_pt_lim_scal id n c 1). apply derivable_pt_lim_id.
  - apply (derivable_pt_lim_minus ln (fun b => ln (1 - b))); [apply derivable_pt_lim_ln; lra|].
    apply (derivable_pt_lim_comp (fun b => 1 - b) ln); [|apply derivable_pt_lim_ln; lra].
    apply (derivable_pt_lim_minus (fun _ => 1) id); [apply derivable_pt_lim_const|apply derivable_pt_lim_id].
Qed.
Lemma g_root n k : 0 <= n -> exists r, 0 < r < 1 /\ g n k r = 0.
Proof.
  intro N. set (K := n + Rabs k + 1). pose proof (Rabs_pos k) as AP. pose proof (Rle_abs k) as A1. pose proof (Rle_abs (- k)) as A2. rewrite Rabs_Ropp in A2.
  set (e := / 2 * exp (- K)). pose proof (exp_pos (- K)) as P. assert (Q : exp (- K) < 1) by (rewrite <- exp_0; apply exp_increasing; unfold K; lra).
  assert (LE : ln e = - ln 2 - K) by (unfold e; rewrite ln_mult by lra; rewrite ln_exp, ln_Rinv by lra; ring).
  assert (E : 0 < e < / 2) by (unfold e; lra).
  assert (L1 : - ln 2 <= ln (1 - e)) by (rewrite <- ln_Rinv by lra; left; apply ln_increasing; lra).
  assert (L0 : ln (1 - e) <= 0) by (pose proof (ln_le_sub (1 - e)); lra).
  assert (L2 : 0 < ln 2) by (rewrite <- ln_1; apply ln_increasing; lra).
  destruct (Ranalysis5.IVT_interv (g n k) e (1 - e)) as (r & Hr & H0).
  - intros a Ha. apply derivable_continuous_pt. eexists. apply g_lim. lra.
  - lra.
  - unfold g. rewrite LE. assert (n * e <= n * 1) by (apply Rmult_le_compat_l; lra). unfold K in *. lra.
  - unfold g. replace (1 - (1 - e)) with e by ring. rewrite LE. assert (0 <= n * (1 - e)) by (apply Rmult_le_pos; lra). unfold K in *. lra.
  - exists r. split; [lra|exact H0].
Qed.

(** Newton's steps below one half *)
Lemma inv_mono a b : 0 < a -> a <= b -> b <= / 2 -> 1 / (b * (1 - b)) <= 1 / (a * (1 - a)).
Proof.
  intros A AB B. unfold Rdiv. rewrite !Rmult_1_l. apply Rinv_le_contravar; [apply Rmult_lt_0_compat; lra|nra].
Qed.
Lemma epsilon_small : 0 < epsilon < / 64.
Proof. unfold epsilon. split; [apply Rinv_0_lt_compat; lra|apply Rinv_lt_contravar; lra]. Qed.
Lemma clip_id x : 0 <= x <= 1 -> Rmax 0 (Rmin 1 x) = x.
Proof. intro H. rewrite Rmin_right by lra. apply Rmax_right. lra. Qed.
Section Left.
Variables (n k r : R).
Hypothesis N : 0 <= n.
Hypothesis R0 : 0 < r <= / 2.
Hypothesis RR : g n k r = 0.
Lemma below b : 0 <= b <= r -> b <= newton_step (g n k) n b <= r.
Proof.
  intro B. pose proof epsilon_small as E. unfold newton_step. destruct (Rlt_dec epsilon b); [|lra]. destruct (Rlt_dec b (1 - epsilon)); [|lra]. cbv zeta.
  set (D := n + 1 / (b * (1 - b))).
  assert (D0 : 0 < D) by (assert (0 < 1 / (b * (1 - b))) by (apply Rdiv_lt_0_compat; [lra|apply Rmult_lt_0_compat; lra]); unfold D; lra).
  destruct (Req_dec b r) as [->|NE].
  - rewrite RR. unfold Rdiv. rewrite Rmult_0_l, Rminus_0_r. rewrite clip_id; lra.
  - assert (G : g n k b < 0) by (rewrite <- RR; apply g_mono; lra).
    assert (S : 0 < - (g n k b) / D) by (apply Rdiv_lt_0_compat; lra).
    assert (X : b - g n k b / D <= r).
    { destruct (MVT_cor2 (g n k) (fun c => n + 1 / (c * (1 - c))) b r ltac:(lra)) as (c & HE & HC).
      { intros c Hc. apply g_lim. lra. }
      rewrite RR in HE. pose proof (inv_mono b c ltac:(lra) ltac:(lra) ltac:(lra)) as IM.
      assert (Y : - g n k b <= D * (r - b)).
      { replace (- g n k b) with (0 - g n k b) by ring. rewrite HE. apply Rmult_le_compat_r; [lra|]. unfold D. lra. }
      assert (Z : - g n k b / D <= r - b) by (apply Rmult_le_reg_r with D; [exact D0|]; unfold Rdiv; rewrite Rmult_assoc, Rinv_l by lra; lra).
      unfold Rdiv in *. lra. }
    assert (Y : b <= b - g n k b / D) by (unfold Rdiv in *; lra).
    rewrite clip_id; lra.
Qed.
Lemma above b : r < b -> b <= / 2 -> epsilon < b -> 0 <= newton_step (g n k) n b <= r /\ (2 * b <= 3 * r \/ (exists l, l <= r /\ 2 * b <= 3 * l) -> r - newton_step (g n k) n b <= / 2 * (b - r)).
Proof.
  intros B B2 EB. pose proof epsilon_small as E. unfold newton_step. destruct (Rlt_dec epsilon b); [|lra]. destruct (Rlt_dec b (1 - epsilon)); [|lra]. cbv zeta.
  set (D := n + 1 / (b * (1 - b))).
  assert (DB : 0 < 1 / (b * (1 - b))) by (apply Rdiv_lt_0_compat; [lra|apply Rmult_lt_0_compat; lra]).
  assert (D0 : 0 < D) by (unfold D; lra).
  destruct (MVT_cor2 (g n k) (fun c => n + 1 / (c * (1 - c))) r b B) as (c & HE & HC).
  { intros c Hc. apply g_lim. lra. }
  rewrite RR, Rminus_0_r in HE. pose proof (inv_mono c b ltac:(lra) ltac:(lra) ltac:(lra)) as IM.
  assert (X : b - g n k b / D <= r).
  { assert (Y : D * (b - r) <= g n k b) by (rewrite HE; apply Rmult_le_compat_r; [lra|]; unfold D; lra).
    assert (Z : b - r <= g n k b / D) by (apply Rmult_le_reg_r with D; [exact D0|]; unfold Rdiv; rewrite Rmult_assoc, Rinv_l by lra; lra). lra. }
  rewrite Rmin_right by lra. split; [split; [apply Rmax_l|apply Rmax_lub; lra]|].
  intro L. assert (L' : 2 * b <= 3 * r) by (destruct L as [L|(l & L1 & L2)]; lra).
  assert (C3 : 1 / (c * (1 - c)) <= 3 / 2 * (1 / (b * (1 - b)))).
  { apply Rmult_le_reg_r with (c * (1 - c) * (b * (1 - b))); [apply Rmult_lt_0_compat; apply Rmult_lt_0_compat; lra|].
    replace (1 / (c * (1 - c)) * (c * (1 - c) * (b * (1 - b)))) with (b * (1 - b)) by (field; lra).
    replace (3 / 2 * (1 / (b * (1 - b))) * (c * (1 - c) * (b * (1 - b)))) with (3 / 2 * (c * (1 - c))) by (field; lra). nra. }
  assert (Y : g n k b <= 3 / 2 * D * (b - r)).
  { rewrite HE. apply Rmult_le_compat_r; [lra|]. unfold D. lra. }
  assert (Z : g n k b / D <= 3 / 2 * (b - r)) by (apply Rmult_le_reg_r with D; [exact D0|]; unfold Rdiv; rewrite Rmult_assoc, Rinv_l by lra; lra).
  pose proof (Rmax_r 0 (b - g n k b / D)). lra.
Qed.
Lemma left_newton b1 b2 : b2 - b1 = / 32 -> b1 = 0 \/ / 32 <= b1 -> b1 <= r <= b2 -> b2 <= / 2 ->
  Rabs (newton_step (g n k) n (newton_step (g n k) n (/ 2 * (b1 + b2))) - r) <= / 64.
Proof.
  intros W S HR H2. pose proof epsilon_small as E. set (b := / 2 * (b1 + b2)). assert (Eb : b = b1 + / 64) by (unfold b; lra).
  destruct (Rle_dec b r) as [L|L].
  - pose proof (below b ltac:(lra)) as X. pose proof (below (newton_step (g n k) n b) ltac:(lra)) as Y. apply Rabs_le. lra.
  - destruct (above b ltac:(lra) ltac:(lra) ltac:(lra)) as [X X']. pose proof (below (newton_step (g n k) n b) X) as Y.
    apply Rabs_le. destruct S as [S|S].
    + lra.
    + pose proof (X' ltac:(right; exists b1; lra)). lra.
Qed.
End Left.
Lemma newton_sym n k b : newton_step (g n k) n (1 - b) = 1 - newton_step (g n (- n - k)) n b.
Proof.
  unfold newton_step. destruct (Rlt_dec epsilon b), (Rlt_dec b (1 - epsilon)), (Rlt_dec epsilon (1 - b)), (Rlt_dec (1 - b) (1 - epsilon)); try lra.
  cbv zeta. rewrite g_sym. replace (1 - b) with (1 - b) by ring. replace (1 - (1 - b)) with b by ring.
  rewrite (Rmult_comm (1 - b) b). set (D := n + 1 / (b * (1 - b))). set (x := g n (- n - k) b).
  replace (1 - b - - x / D) with (1 - (b - x / D)) by (unfold Rdiv; ring). set (z := b - x / D).
  unfold Rmax, Rmin. destruct (Rle_dec 1 (1 - z)), (Rle_dec 1 z); repeat destruct (Rle_dec _ _); lra.
Qed.
Lemma right_newton n k r b1 b2 : 0 <= n -> / 2 <= r < 1 -> g n k r = 0 -> b2 - b1 = / 32 -> b2 = 1 \/ b2 <= 31 / 32 -> b1 <= r <= b2 -> / 2 <= b1 ->
  Rabs (newton_step (g n k) n (newton_step (g n k) n (/ 2 * (b1 + b2))) - r) <= / 64.
Proof.
  intros N R RR W S HR H1.
  pose proof (left_newton n (- n - k) (1 - r) N ltac:(lra)) as L.
  rewrite <- (Ropp_involutive (g n (- n - k) (1 - r))), <- g_sym in L. replace (1 - (1 - r)) with r in L by ring. rewrite RR, Ropp_0 in L.
  specialize (L eq_refl (1 - b2) (1 - b1) ltac:(lra) ltac:(lra) ltac:(lra) ltac:(lra)).
  replace (/ 2 * (b1 + b2)) with (1 - / 2 * (1 - b2 + (1 - b1))) by field. rewrite newton_sym, newton_sym.
  rewrite Rabs_minus_sym. replace (r - (1 - newton_step (g n (- n - k)) n (newton_step (g n (- n - k)) n (/ 2 * (1 - b2 + (1 - b1))))))
    with (newton_step (g n (- n - k)) n (newton_step (g n (- n - k)) n (/ 2 * (1 - b2 + (1 - b1)))) - (1 - r)) by ring. exact L.
Qed.

(** the bisection *)
Section Bisect.
Variables (n k : R).
Hypothesis N : 0 <= n.
Lemma bracket_ok t : let '(b1, b2, b) := Nat.iter (S t) (bisect_step (g n k)) (0, 1, / 2) in
  0 <= b1 /\ b1 < b2 /\ b2 <= 1 /\ b = / 2 * (b1 + b2) /\ b2 - b1 = (/ 2) ^ (S t) /\ (b1 = 0 \/ (/ 2) ^ (S t) <= b1) /\ (b2 = 1 \/ b2 <= 1 - (/ 2) ^ (S t)) /\
  (b2 <= / 2 \/ / 2 <= b1) /\ forall r, 0 < r < 1 -> g n k r = 0 -> b1 <= r <= b2.
Proof.
  induction t as [|t IH].
  - cbn [Nat.iter nat_rect]. unfold bisect_step. destruct (Rle_dec 0 (g n k (/ 2))) as [D|D]; cbn [pow]; repeat split; try lra.
    + destruct (Rle_dec r (/ 2)) as [|X]; [assumption|exfalso]. pose proof (g_mono n k (/ 2) r N ltac:(lra) ltac:(lra) ltac:(lra)). lra.
    + destruct (Rle_dec (/ 2) r) as [|X]; [assumption|exfalso]. pose proof (g_mono n k r (/ 2) N ltac:(lra) ltac:(lra) ltac:(lra)). lra.
  - change (Nat.iter (S (S t)) (bisect_step (g n k)) (0, 1, / 2)) with (bisect_step (g n k) (Nat.iter (S t) (bisect_step (g n k)) (0, 1, / 2))).
    destruct (Nat.iter (S t) (bisect_step (g n k)) (0, 1, / 2)) as [[b1 b2] b]. destruct IH as (H0 & H1 & H2 & H3 & H4 & H5 & H6 & H7 & H8).
    change ((/ 2) ^ S (S t)) with (/ 2 * (/ 2) ^ S t). assert (W : 0 < (/ 2) ^ S t) by (apply pow_lt; lra). set (w := (/ 2) ^ S t) in *.
    unfold bisect_step. destruct (Rle_dec 0 (g n k b)) as [D|D].
    + repeat split; try lra; [now apply H8|].
      destruct (Rle_dec r b) as [|X]; [assumption|exfalso]. pose proof (g_mono n k b r N ltac:(lra) ltac:(lra) ltac:(lra)). lra.
    + repeat split; try lra; [|now apply H8].
      destruct (Rle_dec b r) as [|X]; [assumption|exfalso]. pose proof (g_mono n k r b N ltac:(lra) ltac:(lra) ltac:(lra)). lra.
Qed.
End Bisect.
Lemma newton_range der n b : 0 <= b <= 1 -> 0 <= newton_step der n b <= 1.
Proof.
  intro H. unfold newton_step. destruct (Rlt_dec epsilon b); [|exact H]. destruct (Rlt_dec b (1 - epsilon)); [|exact H].
  cbv zeta. split; [apply Rmax_l|]. apply Rmax_lub; [lra|apply Rmin_l].
Qed.

Section Dca.
Variables (alpha inner norm2 y : R).
Hypothesis HA : 0 <= norm2.
Hypothesis Hy : y * y = 1.
Let k := y * (inner - norm2 * alpha).
Lemma objective_beta b : update_objective alpha inner norm2 y (y * b - alpha) =
  norm2 / 2 * (b * b) + k * b + entropy b + (norm2 / 2 * (alpha * alpha) - inner * alpha).
Proof.
  unfold update_objective. replace (y * (alpha + (y * b - alpha))) with (y * y * b) by ring.
  replace ((y * b - alpha) * (y * b - alpha)) with (y * y * (b * b) - 2 * y * b * alpha + alpha * alpha) by ring. rewrite Hy, !Rmult_1_l. unfold k. field.
Qed.
Lemma solution r : 0 < r < 1 -> g norm2 k r = 0 -> solves_update alpha inner norm2 y (y * r - alpha).
Proof.
  intros R D. split.
  - unfold feasible. replace (y * (alpha + (y * r - alpha))) with (y * y * r) by ring. rewrite Hy. lra.
  - intros d F. unfold feasible in F. set (b := y * (alpha + d)) in *.
    replace d with (y * b - alpha) by (unfold b; replace (y * (y * (alpha + d))) with (y * y * (alpha + d)) by ring; rewrite Hy; ring).
    rewrite !objective_beta. unfold g in D. unfold entropy.
    pose proof (gibbs_term b r ltac:(lra) ltac:(lra)) as G1. pose proof (gibbs_term (1 - b) (1 - r) ltac:(lra) ltac:(lra)) as G2.
    set (e1 := if Rle_dec b 0 then 0 else b * ln b) in *. set (e2 := if Rle_dec (1 - b) 0 then 0 else (1 - b) * ln (1 - b)) in *. clearbody e1 e2.
    destruct (Rle_dec r 0); [lra|]. destruct (Rle_dec (1 - r) 0); [lra|].
    assert (K : k = - norm2 * r - (ln r - ln (1 - r))) by lra. rewrite K.
    assert (S : 0 <= norm2 * ((b - r) * (b - r))) by (apply Rmult_le_pos; [exact HA|apply Rle_0_sqr]). lra.
Qed.
Lemma dca_ok : exists b r, 0 <= b <= 1 /\ 0 < r < 1 /\ g norm2 k r = 0 /\ Rabs (b - r) <= / 64 /\ logistic_dca alpha inner norm2 y = y * b - alpha.
Proof.
  destruct (g_root norm2 k HA) as (r & Hr & Gr).
  unfold logistic_dca. change (logistic_der alpha inner norm2 y) with (g norm2 k).
  pose proof (bracket_ok norm2 k HA 4) as B.
  destruct (Nat.iter 5 (bisect_step (g norm2 k)) (0, 1, / 2)) as [[b1 b2] b]. destruct B as (H0 & H1 & H2 & H3 & H4 & H5 & H6 & H7 & H8).
  specialize (H8 r Hr Gr). replace ((/ 2) ^ 5) with (/ 32) in * by field.
  exists (Nat.iter 2 (newton_step (g norm2 k) norm2) b), r. cbn [Nat.iter nat_rect].
  split; [apply newton_range, newton_range; lra|]. split; [exact Hr|]. split; [exact Gr|]. split; [|reflexivity]. subst b.
  destruct H7 as [H7|H7]; [apply left_newton|apply right_newton]; auto; lra.
Qed.
End Dca.

(** ** an update that makes the objective worse *)
Lemma ln2_le : ln 2 <= 1.
Proof. pose proof (ln_le_sub 2). lra. Qed.
Lemma ln_ge_m6 b : / 64 <= b -> b < 1 -> -6 <= ln b - ln (1 - b).
Proof.
  intros H H1. pose proof ln2_le as L2.
  assert (E : ln (/ 64) = - (6 * ln 2)).
  { replace 64 with (2 * (2 * (2 * (2 * (2 * 2))))) by ring. rewrite ln_Rinv by lra. rewrite !ln_mult by lra. ring. }
  assert (L : ln (/ 64) <= ln b) by (destruct H as [H| <-]; [left; apply ln_increasing; lra|lra]).
  pose proof (ln_le_sub (1 - b) ltac:(lra)). lra.
Qed.
Definition bad_alpha : R := exp (-15).
Definition bad_inner : R := 14 + exp (-15).
Lemma bad_der b : / 64 <= b -> b < 1 -> 8 <= logistic_der bad_alpha bad_inner 1 1 b.
Proof. intros H H1. pose proof (ln_ge_m6 b H H1). unfold logistic_der, bad_alpha, bad_inner. lra. Qed.
Lemma bad_step b : / 64 <= b -> b < 1 -> bisect_step (logistic_der bad_alpha bad_inner 1 1) (0, b, b) = (0, b, / 2 * b) .
Proof.
  intros H H1. unfold bisect_step. pose proof (bad_der b H H1) as D. destruct (Rle_dec 0 _); [|lra]. f_equal. ring.
Qed.
Lemma bad_step' b2 b : / 64 <= b -> b < 1 -> bisect_step (logistic_der bad_alpha bad_inner 1 1) (0, b2, b) = (0, b, / 2 * b).
Proof.
  intros H H1. unfold bisect_step. pose proof (bad_der b H H1) as D. destruct (Rle_dec 0 _); [|lra]. f_equal. ring.
Qed.
Lemma bad_newton : newton_step (logistic_der bad_alpha bad_inner 1 1) 1 (/ 64) = 0.
Proof.
  pose proof epsilon_small as E. unfold newton_step. destruct (Rlt_dec epsilon (/ 64)); [|lra]. destruct (Rlt_dec (/ 64) (1 - epsilon)); [|lra].
  cbv zeta. pose proof (bad_der (/ 64) ltac:(lra) ltac:(lra)) as D. set (d := logistic_der _ _ _ _ _) in *. clearbody d.
  replace (1 + 1 / (/ 64 * (1 - / 64))) with (4159 / 63) by field.
  assert (N : / 64 - d / (4159 / 63) <= 0) by (unfold Rdiv; rewrite Rinv_mult, Rinv_inv; lra).
  rewrite Rmin_right by lra. apply Rmax_left. exact N.
Qed.
Lemma newton_zero der n2 : newton_step der n2 0 = 0.
Proof. pose proof epsilon_small. unfold newton_step. destruct (Rlt_dec epsilon 0); [lra|reflexivity]. Qed.
Lemma bad_dca : logistic_dca bad_alpha bad_inner 1 1 = - bad_alpha.
Proof.
  unfold logistic_dca. cbn [Nat.iter nat_rect].
  rewrite bad_step' by lra. rewrite bad_step' by lra. rewrite bad_step' by lra. rewrite bad_step' by lra. rewrite bad_step' by lra.
  replace (/ 2 * (/ 2 * (/ 2 * (/ 2 * (/ 2 * / 2))))) with (/ 64) by field.
  rewrite bad_newton, newton_zero. ring.
Qed.
Lemma bad_objective : update_objective bad_alpha bad_inner 1 1 0 < update_objective bad_alpha bad_inner 1 1 (- bad_alpha).
Proof.
  unfold update_objective, entropy. replace (1 * (bad_alpha + 0)) with bad_alpha by ring. replace (1 * (bad_alpha + - bad_alpha)) with 0 by ring.
  unfold bad_inner, bad_alpha. pose proof (exp_pos (-15)) as P. assert (Q : exp (-15) < 1) by (rewrite <- exp_0; apply exp_increasing; lra).
  rewrite ln_exp. pose proof (ln_le_sub (1 - exp (-15)) ltac:(lra)) as L. set (e := exp (-15)) in *. clearbody e.
  destruct (Rle_dec e 0); [lra|]. destruct (Rle_dec (1 - e) 0); [lra|]. destruct (Rle_dec 0 0); [|lra]. destruct (Rle_dec (1 - 0) 0); [lra|].
  rewrite Rminus_0_r, ln_1. assert ((1 - e) * ln (1 - e) <= 0) by nra. nra.
Qed.

(** ** expanded data *)
Section Expanded.
Variables (hom : R -> list R) (hd dim : nat).
Hypothesis Hh : forall x, length (hom x) = hd.
Lemma dot_nil_r a : dot a [] = 0.
Proof. now destruct a. Qed.
Lemma dot_step M : forall V p v m, nth_error V p = Some v -> nth_error M p = Some m ->
  dot (firstn (p + 1) V) M = dot (firstn p V) M + v * m.
Proof.
  induction M as [|a M IH]; intros V p v m HV HM; [destruct p; discriminate|].
  destruct V as [|w V]; [destruct p; discriminate|]. destruct p as [|p].
  - cbn in *. injection HV as ->. injection HM as ->. ring.
  - cbn [nth_error] in *. cbn [Nat.add firstn dot]. rewrite (IH V p v m HV HM). ring.
Qed.
Lemma add_length c : forall V M, length (add_scaled c V M) = length M.
Proof. induction V as [|v V IH]; intros [|m M]; cbn; try reflexivity. now rewrite IH. Qed.
Lemma add_beyond c : forall M V p, nth_error (add_scaled c (firstn p V) M) p = nth_error M p.
Proof.
  induction M as [|m M IH]; intros V p; [destruct p; [|destruct V]; reflexivity|].
  destruct p as [|p]; [reflexivity|]. destruct V as [|v V]; [reflexivity|]. cbn. apply IH.
Qed.
Lemma add_step c : forall M V p v m, nth_error V p = Some v -> nth_error M p = Some m ->
  upd (add_scaled c (firstn p V) M) p (m + v * c) = add_scaled c (firstn (p + 1) V) M.
Proof.
  induction M as [|a M IH]; intros V p v m HV HM; [destruct p; discriminate|].
  destruct V as [|w V]; [destruct p; discriminate|]. destruct p as [|p].
  - cbn in *. injection HV as ->. injection HM as ->. destruct V; reflexivity.
  - cbn [nth_error] in *. cbn [Nat.add firstn add_scaled upd]. now rewrite (IH V p v m HV HM).
Qed.
Lemma expanded_nth : forall l j i x, nth_error l j = Some x -> (i < hd)%nat -> nth_error (expanded hom l) (j * hd + i) = nth_error (hom x) i.
Proof.
  induction l as [|a l IH]; intros j i x H Hi; [destruct j; discriminate|]. unfold expanded in *. cbn [map concat]. destruct j as [|j].
  - cbn in H. injection H as ->. cbn [Nat.mul Nat.add]. apply nth_error_app1. now rewrite Hh.
  - rewrite nth_error_app2; rewrite Hh; [|nia]. cbn [nth_error] in H. rewrite <- (IH j i x H Hi). f_equal. nia.
Qed.
Lemma expanded_length l : length (expanded hom l) = (length l * hd)%nat.
Proof. unfold expanded. induction l as [|a l IH]; cbn; [reflexivity|]. now rewrite app_length, Hh, IH. Qed.

Variables (row : list R) (data : list R) (element : nat).
Hypothesis Hrow : length row = dim.
Hypothesis Hdata : forall j, (j < dim)%nat -> nth_error data (dim * element + j) = nth_error row j.
Lemma inner_hom_ok model : length model = hom_dimension hd dim ->
  inner_product_hom hom hd dim data element model = Some (dot (expanded hom row) model).
Proof.
  unfold hom_dimension. intro HM. unfold inner_product_hom. set (V := expanded hom row).
  assert (LV : length V = (dim * hd)%nat) by (unfold V; now rewrite expanded_length, Hrow).
  destruct (iter_inv (fun j s => s = (dot (firstn (j * hd) V) model, (j * hd)%nat))
    (fun j s => do x <- aget data (dim * element + j);
      iter hd (fun i s => let '(product, p) := s in
        do b <- aget (hom x) i; do m <- aget model p; Some ((product + b * m)%R, (p + 1)%nat)) s) dim (0, 0%nat) eq_refl) as (s & E & ->).
  - intros j s Hj ->. unfold aget at 1. rewrite Hdata by exact Hj.
    destruct (nth_error row j) as [x|] eqn:EX; [cbn [obind]|apply nth_error_None in EX; lia].
    destruct (iter_inv (fun i s => s = (dot (firstn (j * hd + i) V) model, (j * hd + i)%nat))
      (fun i s => let '(product, p) := s in
        do b <- aget (hom x) i; do m <- aget model p; Some ((product + b * m)%R, (p + 1)%nat)) hd (dot (firstn (j * hd) V) model, (j * hd)%nat)) as (s & E & ->).
    + now rewrite Nat.add_0_r.
    + intros i s Hi ->. destruct (aget_lt (hom x) i ltac:(now rewrite Hh)) as (b & EB). rewrite EB. cbn [obind].
      destruct (aget_lt model (j * hd + i) ltac:(nia)) as (m & EM). rewrite EM. cbn [obind]. eexists. split; [reflexivity|].
      rewrite Nat.add_assoc. rewrite (dot_step model V (j * hd + i) b m); [reflexivity| |exact EM].
      unfold V. rewrite (expanded_nth row j i x EX Hi). exact EB.
    + eexists. split; [exact E|]. rewrite Nat.mul_add_distr_r, Nat.mul_1_l. reflexivity.
  - rewrite E. cbn [obind]. rewrite firstn_all2 by lia. reflexivity.
Qed.
Lemma accumulate_hom_ok model c : length model = hom_dimension hd dim ->
  accumulate_hom hom hd dim data element model c = Some (add_scaled c (expanded hom row) model).
Proof.
  unfold hom_dimension. intro HM. unfold accumulate_hom. set (V := expanded hom row).
  assert (LV : length V = (dim * hd)%nat) by (unfold V; now rewrite expanded_length, Hrow).
  destruct (iter_inv (fun j s => s = (add_scaled c (firstn (j * hd) V) model, (j * hd)%nat))
    (fun j s => do x <- aget data (dim * element + j);
      iter hd (fun i s => let '(model, p) := s in
        do b <- aget (hom x) i; do m <- aget model p; do model <- aset model p (m + b * c)%R; Some (model, (p + 1)%nat)) s) dim (model, 0%nat) eq_refl) as (s & E & ->).
  - intros j s Hj ->. unfold aget at 1. rewrite Hdata by exact Hj.
    destruct (nth_error row j) as [x|] eqn:EX; [cbn [obind]|apply nth_error_None in EX; lia].
    destruct (iter_inv (fun i s => s = (add_scaled c (firstn (j * hd + i) V) model, (j * hd + i)%nat))
      (fun i s => let '(model, p) := s in
        do b <- aget (hom x) i; do m <- aget model p; do model <- aset model p (m + b * c)%R; Some (model, (p + 1)%nat)) hd (add_scaled c (firstn (j * hd) V) model, (j * hd)%nat)) as (s & E & ->).
    + now rewrite Nat.add_0_r.
    + intros i s Hi ->. destruct (aget_lt (hom x) i ltac:(now rewrite Hh)) as (b & EB). rewrite EB. cbn [obind].
      destruct (aget_lt model (j * hd + i) ltac:(nia)) as (m & EM). unfold aget at 1. rewrite add_beyond. unfold aget in EM. rewrite EM. cbn [obind].
      rewrite aset_lt by (rewrite add_length; nia). cbn [obind]. eexists. split; [reflexivity|].
      rewrite Nat.add_assoc. rewrite (add_step c model V (j * hd + i) b m); [reflexivity| |exact EM].
      unfold V. rewrite (expanded_nth row j i x EX Hi). exact EB.
    + eexists. split; [exact E|]. rewrite Nat.mul_add_distr_r, Nat.mul_1_l. reflexivity.
  - rewrite E. cbn [obind]. rewrite firstn_all2 by lia. reflexivity.
Qed.
End Expanded.
