(** Proofs about the Gaussian mixtures: an iteration of EM does not lower the likelihood. *)
From Coq Require Import List Arith Lia Bool Reals Lra Permutation.
From Verif Require Import Base Loop Table MserSort_Proofs ImOp_Spec ImOp_Proofs Gmm_Model Gmm_Spec Gmm_Proofs GmmEm_Proofs.
Import ListNotations.
Local Open Scope R_scope.

Lemma ln_below t : 0 < t -> ln t <= t - 1.
Proof.
  intro P. destruct (Req_dec t 1) as [->|N]; [rewrite ln_1; lra|].
  assert (E : 1 + ln t <= exp (ln t)).
  { destruct (Req_dec (ln t) 0) as [Z|Z]; [rewrite Z, exp_0; lra|]. left. now apply exp_ineq1. }
  rewrite exp_ln in E by exact P. lra.
Qed.
Lemma ln_div a b : 0 < a -> 0 < b -> ln (a / b) = ln a - ln b.
Proof. intros A B. unfold Rdiv. rewrite ln_mult by auto using Rinv_0_lt_compat. rewrite ln_Rinv by exact B. lra. Qed.
(** concavity of the logarithm *)
Lemma jensen n (w r : nat -> R) : (forall k, (k < n)%nat -> 0 <= w k) -> (forall k, (k < n)%nat -> 0 < r k) -> total n w = 1 ->
  total n (fun k => w k * ln (r k)) <= ln (total n (fun k => w k * r k)).
Proof.
  intros W P S1. set (s := total n (fun k => w k * r k)).
  assert (Sp : 0 < s).
  { assert (Np : (0 < n)%nat) by (destruct n; [cbn in S1; lra|lia]).
    destruct (some_large n w Np S1) as (k & Lk & Q). assert (0 < INR n) by now apply lt_0_INR.
    assert (0 < 1 / INR n) by (apply Rdiv_lt_0_compat; lra).
    apply (rsum_pos n _ k); [|exact Lk|apply Rmult_lt_0_compat; [lra|now apply P]].
    intros j Lj. apply Rmult_le_pos; [now apply W|left; now apply P]. }
  assert (E : total n (fun k => w k * (ln (r k) - ln s)) <= total n (fun k => w k * (r k / s - 1))).
  { apply rsum_le. intros k Lk. apply Rmult_le_compat_l; [now apply W|]. rewrite <- ln_div by auto.
    apply ln_below. apply Rdiv_lt_0_compat; auto. }
  rewrite (rsum_ext n (fun k => w k * (ln (r k) - ln s)) (fun k => w k * ln (r k) + (- ln s) * w k)) in E by (intros; ring).
  rewrite (rsum_ext n (fun k => w k * (r k / s - 1)) (fun k => / s * (w k * r k) + (-1) * w k)) in E by (intros; unfold Rdiv; ring).
  rewrite !rsum_add, !rsum_scale, S1 in E. fold s in E. rewrite Rinv_l in E by lra. lra.
Qed.
(** the best variance above a bound *)
Lemma best_variance S v b : 0 < b -> b <= v -> 0 <= S -> S / Rmax S b + ln (Rmax S b) <= S / v + ln v.
Proof.
  intros B L P. unfold Rmax. destruct (Rle_dec S b) as [Q|Q].
  - pose proof (ln_below (b / v)) as E. rewrite ln_div in E by lra. specialize (E ltac:(apply Rdiv_lt_0_compat; lra)).
    assert (X : S / b - S / v <= 1 - b / v).
    { replace (S / b - S / v) with (S / b * (1 - b / v)) by (field; lra).
      assert (0 <= 1 - b / v) by (assert (b / v <= 1) by (apply Rmult_le_reg_r with v; [lra|]; unfold Rdiv; rewrite Rmult_assoc, Rinv_l by lra; lra); lra).
      assert (S / b <= 1) by (apply Rmult_le_reg_r with b; [lra|]; unfold Rdiv; rewrite Rmult_assoc, Rinv_l by lra; lra).
      assert ((1 - S / b) * (1 - b / v) >= 0) by (apply Rle_ge, Rmult_le_pos; lra). lra. }
    lra.
  - pose proof (ln_below (S / v)) as E. rewrite ln_div in E by lra. specialize (E ltac:(apply Rdiv_lt_0_compat; lra)).
    replace (S / S) with 1 by (field; lra). lra.
Qed.

Lemma product_ext n f g : (forall i, (i < n)%nat -> f i = g i) -> product n f = product n g.
Proof. induction n as [|n IH]; intro H; [reflexivity|]. cbn [product]. rewrite IH by auto. now rewrite H by lia. Qed.
Lemma density_ext D x mu v mu' v' i k : (forall d, (d < D)%nat -> mu k d = mu' k d /\ v k d = v' k d) -> density D x mu v i k = density D x mu' v' i k.
Proof.
  intro H. unfold density.
  rewrite (rsum_ext D (fun d => (x i d - mu k d) ^ 2 / v k d) (fun d => (x i d - mu' k d) ^ 2 / v' k d))
    by (intros d L; now rewrite (proj1 (H d L)), (proj2 (H d L))).
  now rewrite (product_ext D (fun d => 2 * PI * v k d) (fun d => 2 * PI * v' k d)) by (intros d L; now rewrite (proj2 (H d L))).
Qed.

Section Likelihood.
Variables (D K N : nat) (x mu v : nat -> nat -> R) (pi lb : nat -> R).
Hypothesis Kp : (0 < K)%nat.
Hypothesis Ks : INR K <= 10000.
Hypothesis Np : (0 < N)%nat.
Hypothesis Pb : forall d, (d < D)%nat -> 0 < lb d.
Hypothesis Lv : forall k d, (k < K)%nat -> (d < D)%nat -> lb d <= v k d.
Hypothesis Lp : forall k, (k < K)%nat -> / 1000000 <= pi k.
Hypothesis Sp : total K pi = 1.
Notation q := (posterior D K x mu v pi).
Hypothesis Lq : forall i k, (i < N)%nat -> (k < K)%nat -> / 100 / INR K <= q i k.
Notation mu' := (wmean K N x q).
Notation v' := (fun k d => Rmax (wvar K N x q k d) (lb d)).
Notation pi' := (share K N q).

Lemma vpos k d : (k < K)%nat -> (d < D)%nat -> 0 < v k d.
Proof. intros Lk Ld. pose proof (Lv k d Lk Ld). pose proof (Pb d Ld). lra. Qed.
Lemma vpos' k d : (k < K)%nat -> (d < D)%nat -> 0 < v' k d.
Proof. intros Lk Ld. cbv beta. pose proof (Rmax_r (wvar K N x q k d) (lb d)). pose proof (Pb d Ld). lra. Qed.
Lemma some : exists k, (k < K)%nat /\ / 1000000 <= pi k.
Proof. exists 0%nat. split; [exact Kp|now apply Lp]. Qed.
Lemma lik_kpos : 0 < INR K.
Proof. now apply lt_0_INR. Qed.
Lemma qpos i k : (i < N)%nat -> (k < K)%nat -> 0 < q i k.
Proof. intros Li Lk. pose proof (Lq i k Li Lk). pose proof lik_kpos. assert (0 < / 100 / INR K) by (apply Rdiv_lt_0_compat; lra). lra. Qed.
Lemma used_all i k : (i < N)%nat -> (k < K)%nat -> used K q i k = q i k.
Proof. intros Li Lk. unfold used. destruct (Rlt_dec _ _) as [Z|Z]; [|reflexivity]. pose proof (Lq i k Li Lk). lra. Qed.
Lemma mass_q k : (k < K)%nat -> mass K N q k = total N (fun i => q i k).
Proof. intro Lk. apply rsum_ext. intros i Li. now apply used_all. Qed.
Lemma mass_sum : total K (mass K N q) = INR N.
Proof.
  rewrite (rsum_ext K _ (fun k => total N (fun i => q i k))) by apply mass_q. rewrite <- rsum_swap.
  rewrite (rsum_ext N _ (fun _ => 1)).
  - clear. induction N as [|n IH]; [reflexivity|]. rewrite S_INR. cbn [sum]. rewrite IH. ring.
  - intros i Li. apply posterior_sum; [exact vpos|exact some].
Qed.
Lemma npos : 0 < INR N.
Proof. now apply lt_0_INR. Qed.
Lemma massive_q k : (k < K)%nat -> INR N * (/ 100 / INR K) <= mass K N q k.
Proof.
  intro Lk. rewrite mass_q by exact Lk. replace (INR N * (/ 100 / INR K)) with (total N (fun _ => / 100 / INR K)).
  - apply rsum_le. intros i Li. now apply Lq.
  - clear. induction N as [|n IH]; [cbn; ring|]. rewrite S_INR. cbn [sum]. rewrite IH. ring.
Qed.
Lemma mass_pos k : (k < K)%nat -> 0 < mass K N q k.
Proof.
  intro Lk. pose proof (massive_q k Lk). pose proof npos. pose proof lik_kpos.
  assert (0 < INR N * (/ 100 / INR K)) by (apply Rmult_lt_0_compat; [lra|apply Rdiv_lt_0_compat; lra]). lra.
Qed.
Lemma share_large k : (k < K)%nat -> / 1000000 <= pi' k.
Proof.
  intro Lk. unfold share. rewrite mass_sum. pose proof (massive_q k Lk) as M. pose proof npos. pose proof lik_kpos.
  assert (/ 100 / INR K <= mass K N q k / INR N).
  { apply Rmult_le_reg_r with (INR N); [lra|]. unfold Rdiv at 2. rewrite Rmult_assoc, Rinv_l by lra. lra. }
  assert (/ 10000 <= / INR K) by (apply Rinv_le_contravar; lra).
  assert (/ 100 / INR K = / 100 * / INR K) by reflexivity. lra.
Qed.
Lemma weight_all p k : / 1000000 <= p k -> weight p k = p k.
Proof. intro L. unfold weight. destruct (Rlt_dec _ _); lra. Qed.

(** the logarithm of the joint density *)
Definition joint (mu v : nat -> nat -> R) (p : nat -> R) (i k : nat) : R :=
  ln (p k) - / 2 * total D (fun d => (x i d - mu k d) ^ 2 / v k d + ln (v k d)) - half_dim_log D.
Lemma joint_ok m w p i k : (forall d, (d < D)%nat -> 0 < w k d) -> 0 < p k -> ln (p k * density D x m w i k) = joint m w p i k.
Proof.
  intros W P. unfold density, joint, half_dim_log.
  assert (W2 : forall d, (d < D)%nat -> 0 < 2 * PI * w k d).
  { intros d L. pose proof PI_RGT_0. apply Rmult_lt_0_compat; [lra|now apply W]. }
  pose proof (product_pos D _ W2) as Pp. pose proof (sqrt_lt_R0 _ Pp) as Ps.
  rewrite ln_mult; [|exact P|apply Rdiv_lt_0_compat; [apply exp_pos|exact Ps]].
  rewrite ln_div by (auto using exp_pos). rewrite ln_exp.
  rewrite sqrt_exp by exact Pp. rewrite ln_exp, ln_product by exact W2.
  rewrite (rsum_ext D (fun d => ln (2 * PI * w k d)) (fun d => ln (2 * PI) + ln (w k d))).
  2:{ intros d L. pose proof PI_RGT_0. apply ln_mult; [lra|now apply W]. }
  rewrite !rsum_add.
  assert (C : total D (fun _ => ln (2 * PI)) = INR D * ln (2 * PI)).
  { clear. induction D as [|n IH]; [cbn; ring|]. rewrite S_INR. cbn [sum]. rewrite IH. ring. }
  rewrite C. field.
Qed.

Lemma datum_gain i : (i < N)%nat ->
  total K (fun k => q i k * (joint mu' v' pi' i k - joint mu v pi i k)) <= ln (mixture D K x mu' v' pi' i) - ln (mixture D K x mu v pi i).
Proof.
  intro Li.
  assert (M : 0 < mixture D K x mu v pi i) by (apply mixture_pos; [exact vpos|exact some]).
  assert (M' : 0 < mixture D K x mu' v' pi' i).
  { apply mixture_pos; [exact vpos'|]. exists 0%nat. split; [exact Kp|now apply share_large]. }
  set (a := fun k => pi k * density D x mu v i k). set (b := fun k => pi' k * density D x mu' v' i k).
  assert (A : forall k, (k < K)%nat -> 0 < a k).
  { intros k Lk. apply Rmult_lt_0_compat; [pose proof (Lp k Lk); lra|apply (density_pos D K x mu v vpos i k Lk)]. }
  assert (B : forall k, (k < K)%nat -> 0 < b k).
  { intros k Lk. apply Rmult_lt_0_compat; [pose proof (share_large k Lk); lra|apply (density_pos D K x mu' v' vpos' i k Lk)]. }
  assert (Q : forall k, (k < K)%nat -> q i k = a k / mixture D K x mu v pi i).
  { intros k Lk. unfold posterior. rewrite weight_all by now apply Lp. reflexivity. }
  assert (J : forall k, (k < K)%nat -> joint mu' v' pi' i k - joint mu v pi i k = ln (b k / a k)).
  { intros k Lk. rewrite ln_div by auto. unfold a, b. rewrite !joint_ok; auto.
    - intros d Ld. now apply vpos.
    - pose proof (Lp k Lk). lra.
    - intros d Ld. now apply vpos'.
    - pose proof (share_large k Lk). lra. }
  rewrite (rsum_ext K _ (fun k => q i k * ln (b k / a k))) by (intros k Lk; now rewrite J).
  rewrite <- ln_div by assumption.
  replace (mixture D K x mu' v' pi' i / mixture D K x mu v pi i) with (total K (fun k => q i k * (b k / a k))).
  - apply jensen.
    + intros k Lk. left. now apply qpos.
    + intros k Lk. apply Rdiv_lt_0_compat; auto.
    + apply posterior_sum; [exact vpos|exact some].
  - rewrite (rsum_ext K _ (fun k => / mixture D K x mu v pi i * b k)).
    + rewrite rsum_scale. unfold Rdiv. rewrite Rmult_comm. f_equal. unfold mixture at 1. apply rsum_ext. intros k Lk.
      unfold b. now rewrite weight_all by now apply share_large.
    + intros k Lk. rewrite Q by exact Lk. pose proof (A k Lk). field. split; lra.
Qed.

Lemma mean_eq k d : (k < K)%nat -> total N (fun i => q i k * x i d) = mass K N q k * mu' k d.
Proof.
  intro Lk. pose proof (mass_pos k Lk). unfold wmean.
  rewrite (rsum_ext N (fun i => used K q i k * x i d) (fun i => q i k * x i d)) by (intros i Li; now rewrite used_all). field. lra.
Qed.
Lemma var_eq k d : (k < K)%nat -> total N (fun i => q i k * (x i d - mu' k d) ^ 2) = mass K N q k * wvar K N x q k d.
Proof.
  intro Lk. pose proof (mass_pos k Lk). unfold wvar.
  rewrite (rsum_ext N (fun i => used K q i k * (x i d - mu' k d) ^ 2) (fun i => q i k * (x i d - mu' k d) ^ 2)) by (intros i Li; now rewrite used_all). field. lra.
Qed.
Lemma var_any k d m : (k < K)%nat -> total N (fun i => q i k * (x i d - m) ^ 2) = mass K N q k * (wvar K N x q k d + (mu' k d - m) ^ 2).
Proof.
  intro Lk. set (w := mu' k d).
  rewrite (rsum_ext N _ (fun i => q i k * (x i d - w) ^ 2 + ((2 * (w - m)) * (q i k * x i d) + (m ^ 2 - w ^ 2) * q i k))) by (intros; ring).
  rewrite !rsum_add, !rsum_scale. unfold w. rewrite var_eq, mean_eq by exact Lk. rewrite <- mass_q by exact Lk. ring.
Qed.
Lemma wvar_nonneg k d : (k < K)%nat -> 0 <= wvar K N x q k d.
Proof.
  intro Lk. unfold wvar. apply Rmult_le_pos; [|left; apply Rinv_0_lt_compat; now apply mass_pos].
  apply rsum_nonneg. intros i _. apply Rmult_le_pos; [now apply used_nonneg|apply pow2_ge_0].
Qed.
(** the gain of a mode *)
Definition fit (m w : nat -> nat -> R) (i k d : nat) : R := (x i d - m k d) ^ 2 / w k d + ln (w k d).
Lemma mode_gain k : (k < K)%nat ->
  total N (fun i => q i k * total D (fit mu' v' i k)) <= total N (fun i => q i k * total D (fit mu v i k)).
Proof.
  intro Lk.
  assert (E : forall m w, total N (fun i => q i k * total D (fit m w i k)) =
    total D (fun d => total N (fun i => q i k * (x i d - m k d) ^ 2) / w k d + mass K N q k * ln (w k d))).
  { intros m w. rewrite (rsum_ext N _ (fun i => total D (fun d => q i k * fit m w i k d))) by (intros; now rewrite rsum_scale).
    rewrite rsum_swap. apply rsum_ext. intros d Ld. rewrite mass_q by exact Lk. unfold fit.
    rewrite (rsum_ext N _ (fun i => / w k d * (q i k * (x i d - m k d) ^ 2) + ln (w k d) * q i k)) by (intros; unfold Rdiv; ring).
    rewrite rsum_add, !rsum_scale. unfold Rdiv. ring. }
  rewrite !E. apply rsum_le. intros d Ld. rewrite var_eq, var_any by exact Lk.
  pose proof (mass_pos k Lk) as M. pose proof (wvar_nonneg k d Lk) as W. pose proof (vpos k d Lk Ld) as V.
  pose proof (best_variance _ _ _ (Pb d Ld) (Lv k d Lk Ld) W) as B.
  assert (0 <= (mu' k d - mu k d) ^ 2 / v k d) by (apply Rmult_le_pos; [apply pow2_ge_0|left; now apply Rinv_0_lt_compat]).
  set (S := wvar K N x q k d) in *. set (m := mass K N q k) in *.
  replace (m * S / Rmax S (lb d) + m * ln (Rmax S (lb d))) with (m * (S / Rmax S (lb d) + ln (Rmax S (lb d)))) by (unfold Rdiv; ring).
  replace (m * (S + (mu' k d - mu k d) ^ 2) / v k d + m * ln (v k d)) with (m * (S / v k d + ln (v k d) + (mu' k d - mu k d) ^ 2 / v k d)) by (unfold Rdiv; ring).
  apply Rmult_le_compat_l; lra.
Qed.
Lemma prior_gain : 0 <= total K (fun k => mass K N q k * (ln (pi' k) - ln (pi k))).
Proof.
  assert (E : total K (fun k => mass K N q k * (ln (pi k) - ln (pi' k))) <= total K (fun k => mass K N q k * (pi k / pi' k - 1))).
  { apply rsum_le. intros k Lk. pose proof (Lp k Lk). pose proof (share_large k Lk). apply Rmult_le_compat_l; [left; now apply mass_pos|].
    rewrite <- ln_div by lra. apply ln_below. apply Rdiv_lt_0_compat; lra. }
  rewrite (rsum_ext K (fun k => mass K N q k * (pi k / pi' k - 1)) (fun k => INR N * pi k + (-1) * mass K N q k)) in E.
  2:{ intros k Lk. unfold share. rewrite mass_sum. pose proof (mass_pos k Lk). pose proof npos. field. lra. }
  rewrite rsum_add, !rsum_scale, Sp, mass_sum in E.
  rewrite (rsum_ext K _ (fun k => (-1) * (mass K N q k * (ln (pi k) - ln (pi' k))))) by (intros; ring). rewrite rsum_scale. lra.
Qed.
Lemma em_gain : log_likelihood D K x mu v pi N <= log_likelihood D K x mu' v' pi' N.
Proof.
  unfold log_likelihood.
  assert (G : total N (fun i => total K (fun k => q i k * (joint mu' v' pi' i k - joint mu v pi i k))) <=
    total N (fun i => ln (mixture D K x mu' v' pi' i) - ln (mixture D K x mu v pi i))) by (apply rsum_le; exact datum_gain).
  rewrite rsum_swap in G.
  rewrite (rsum_ext K _ (fun k => mass K N q k * (ln (pi' k) - ln (pi k)) +
    / 2 * (total N (fun i => q i k * total D (fit mu v i k)) + (-1) * total N (fun i => q i k * total D (fit mu' v' i k))))) in G.
  2:{ intros k Lk. rewrite <- !rsum_scale, <- rsum_add, <- rsum_scale, mass_q by exact Lk.
      rewrite (Rmult_comm (total N (fun i => q i k))), <- rsum_scale, <- rsum_add.
      apply rsum_ext. intros i _. unfold joint, fit. field. }
  rewrite rsum_add, rsum_scale in G.
  assert (M : 0 <= total K (fun k => total N (fun i => q i k * total D (fit mu v i k)) + (-1) * total N (fun i => q i k * total D (fit mu' v' i k)))).
  { apply rsum_nonneg. intros k Lk. pose proof (mode_gain k Lk). lra. }
  pose proof prior_gain as P.
  rewrite (rsum_ext N (fun i => ln (mixture D K x mu' v' pi' i) - ln (mixture D K x mu v pi i))
    (fun i => ln (mixture D K x mu' v' pi' i) + (-1) * ln (mixture D K x mu v pi i))) in G by (intros; ring).
  rewrite !rsum_add, !rsum_scale in G. rewrite rsum_add, rsum_scale in M. lra.
Qed.
End Likelihood.
