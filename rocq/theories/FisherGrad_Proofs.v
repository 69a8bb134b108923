(** Proofs about the Fisher vectors: they are scaled gradients of the likelihood. *)
From Coq Require Import List Arith Lia Bool Reals Lra Permutation.
From Coquelicot Require Import Coquelicot.
From Verif Require Import Base Loop Table ImOp_Spec ImOp_Proofs Gmm_Model Gmm_Spec Gmm_Proofs GmmLik_Proofs Fisher_Spec.
Local Open Scope R_scope.

Lemma dl_ext f g t l : (forall s, f s = g s) -> derivable_pt_lim f t l -> derivable_pt_lim g t l.
Proof. intros E H eps P. destruct (H eps P) as [delta B]. exists delta. intros h N L. rewrite <- !E. now apply B. Qed.
Lemma dl_sum n (f : nat -> R -> R) f' t : (forall i, (i < n)%nat -> derivable_pt_lim (f i) t (f' i)) ->
  derivable_pt_lim (fun s => total n (fun i => f i s)) t (total n f').
Proof.
  induction n as [|n IH]; intro H; cbn [sum].
  - apply derivable_pt_lim_const.
  - apply (dl_ext (plus_fct (fun s => total n (fun i => f i s)) (f n))); [reflexivity|].
    apply derivable_pt_lim_plus; [apply IH; auto|apply H; lia].
Qed.
Lemma rsum_one n d f g : (d < n)%nat -> (forall j, (j < n)%nat -> j <> d -> f j = g j) -> total n f = total n g + (f d - g d).
Proof.
  intros L H. rewrite (rsum_ext n f (fun j => g j + if (j =? d)%nat then f d - g d else 0)).
  - now rewrite rsum_add, rsum_single.
  - intros j Lj. destruct (Nat.eqb_spec j d) as [->|Ne]; [ring|]. rewrite H by auto. ring.
Qed.

Section Gradient.
Variables (D K N : nat) (x mu v : nat -> nat -> R) (pi : nat -> R).
Hypothesis Pv : forall k d, (k < K)%nat -> (d < D)%nat -> 0 < v k d.
Hypothesis Some_mode : exists k, (k < K)%nat /\ / 1000000 <= pi k.
Variables (k d : nat).
Hypothesis Lk : (k < K)%nat.
Hypothesis Ld : (d < D)%nat.

Lemma density_exp m w i j : (forall d, (d < D)%nat -> 0 < w j d) ->
  density D x m w i j = exp (- / 2 * total D (fit x m w i j) - half_dim_log D).
Proof.
  intro W. pose proof (joint_ok D x m w (fun _ => 1) i j W Rlt_0_1) as J. rewrite Rmult_1_l in J.
  assert (P : 0 < density D x m w i j).
  { unfold density. apply Rdiv_lt_0_compat; [apply exp_pos|]. apply sqrt_lt_R0, product_pos. intros e Le. pose proof (W e Le). pose proof PI_RGT_0. nra. }
  rewrite <- (exp_ln _ P), J. f_equal. unfold joint, fit. rewrite ln_1. ring.
Qed.
(** the mixture with other parameters of mode k *)
Lemma mixture_other m w i : (forall j, (j < K)%nat -> j <> k -> density D x m w i j = density D x mu v i j) ->
  mixture D K x m w pi i = (mixture D K x mu v pi i - weight pi k * density D x mu v i k) + weight pi k * density D x m w i k.
Proof.
  intro H. unfold mixture. rewrite (rsum_one K k (fun j => weight pi j * density D x m w i j) (fun j => weight pi j * density D x mu v i j) Lk).
  - ring.
  - intros j Lj Ne. now rewrite H.
Qed.
Lemma set2_same f t : set2 f k d t k d = t.
Proof. unfold set2. now rewrite !Nat.eqb_refl. Qed.
Lemma set2_other f t j e : j <> k \/ e <> d -> set2 f k d t j e = f j e.
Proof. intros [N0|N0]; unfold set2; [destruct (Nat.eqb_spec j k)|destruct (Nat.eqb_spec e d); [|rewrite andb_false_r]]; auto; contradiction. Qed.
Lemma other_density m w i : (forall j e, j <> k \/ e <> d -> m j e = mu j e /\ w j e = v j e) ->
  forall j, (j < K)%nat -> j <> k -> density D x m w i j = density D x mu v i j.
Proof. intros H j _ Ne. apply density_ext. intros e _. apply H. now left. Qed.
Lemma density_one m w i : 0 < w k d -> (forall j e, j <> k \/ e <> d -> m j e = mu j e /\ w j e = v j e) ->
  density D x m w i k = exp (- / 2 * (total D (fit x mu v i k) - fit x mu v i k d) - half_dim_log D - / 2 * ((x i d - m k d) ^ 2 / w k d + ln (w k d))).
Proof.
  intros W H. rewrite density_exp.
  - f_equal. rewrite (rsum_one D d (fit x m w i k) (fit x mu v i k) Ld).
    + unfold fit. ring.
    + intros e _ Ne. unfold fit. destruct (H k e (or_intror Ne)) as [-> ->]. reflexivity.
  - intros e Le. destruct (Nat.eq_dec e d) as [->|Ne]; [exact W|]. destruct (H k e (or_intror Ne)) as [_ ->]. now apply Pv.
Qed.

Notation c i := (- / 2 * (total D (fit x mu v i k) - fit x mu v i k d) - half_dim_log D).
Notation rest i := (mixture D K x mu v pi i - weight pi k * density D x mu v i k).
Lemma mixture_at i : rest i + weight pi k * exp (c i - / 2 * fit x mu v i k d) = mixture D K x mu v pi i.
Proof.
  rewrite (density_exp mu v i k) by (intros; now apply Pv).
  replace (c i - / 2 * fit x mu v i k d) with (- / 2 * total D (fit x mu v i k) - half_dim_log D) by field. ring.
Qed.
Lemma post_at i : weight pi k * exp (c i - / 2 * fit x mu v i k d) / mixture D K x mu v pi i = posterior D K x mu v pi i k.
Proof.
  unfold posterior. rewrite (density_exp mu v i k) by (intros; now apply Pv).
  replace (c i - / 2 * fit x mu v i k d) with (- / 2 * total D (fit x mu v i k) - half_dim_log D) by field. reflexivity.
Qed.

Lemma mean_gradient : derivable_pt_lim (fun t => log_likelihood D K x (set2 mu k d t) v pi N) (mu k d)
  (total N (fun i => posterior D K x mu v pi i k * ((x i d - mu k d) / v k d))).
Proof.
  unfold log_likelihood. apply dl_sum with (f := fun i t => ln (mixture D K x (set2 mu k d t) v pi i)). intros i _.
  pose proof (Pv k d Lk Ld) as V. pose proof (mixture_pos D K x mu v pi Pv Some_mode i) as M.
  apply (dl_ext (fun t => ln (rest i + weight pi k * exp (c i - / 2 * ((x i d - t) ^ 2 / v k d + ln (v k d)))))).
  { intro t. f_equal. rewrite (mixture_other (set2 mu k d t) v i).
    - rewrite (density_one (set2 mu k d t) v i V), set2_same; [reflexivity|]. intros j e H. now rewrite set2_other.
    - apply other_density. intros j e H. now rewrite set2_other. }
  pose proof (mixture_at i) as E. pose proof (post_at i) as Q. unfold fit at 3 in E. unfold fit at 3 in Q.
  set (C := rest i) in *. set (w := weight pi k) in *. set (a := c i) in *. set (lv := ln (v k d)) in *. set (V0 := v k d) in *.
  assert (A : a + - (/ 2 * ((x i d + - mu k d) * ((x i d + - mu k d) * 1) * / V0 + lv)) = a - / 2 * ((x i d - mu k d) ^ 2 / V0 + lv)) by (unfold Rdiv; ring).
  rewrite <- Q. apply is_derive_Reals. auto_derive; rewrite A, E; [exact M|]. field. split; lra.
Qed.
(** the derivative in the logarithm of the standard deviation *)
Lemma deviation_gradient : derivable_pt_lim (fun t => log_likelihood D K x mu (set2 v k d (exp (2 * t))) pi N) (/ 2 * ln (v k d))
  (total N (fun i => posterior D K x mu v pi i k * ((x i d - mu k d) ^ 2 / v k d - 1))).
Proof.
  unfold log_likelihood. apply dl_sum with (f := fun i t => ln (mixture D K x mu (set2 v k d (exp (2 * t))) pi i)). intros i _.
  pose proof (Pv k d Lk Ld) as V. pose proof (mixture_pos D K x mu v pi Pv Some_mode i) as M.
  apply (dl_ext (fun t => ln (rest i + weight pi k * exp (c i - / 2 * ((x i d - mu k d) ^ 2 / exp (2 * t) + 2 * t))))).
  { intro t. f_equal. rewrite (mixture_other mu (set2 v k d (exp (2 * t))) i).
    - rewrite (density_one mu (set2 v k d (exp (2 * t))) i), set2_same, ln_exp; [reflexivity|rewrite set2_same; apply exp_pos|].
      intros j e H. now rewrite set2_other.
    - apply other_density. intros j e H. now rewrite set2_other. }
  pose proof (mixture_at i) as E. pose proof (post_at i) as Q. unfold fit at 3 in E. unfold fit at 3 in Q.
  assert (X : exp (2 * (/ 2 * ln (v k d))) = v k d).
  { replace (2 * (/ 2 * ln (v k d))) with (ln (v k d)) by field. now apply exp_ln. }
  assert (L2 : 2 * (/ 2 * ln (v k d)) = ln (v k d)) by field.
  set (C := rest i) in *. set (w := weight pi k) in *. set (a := c i) in *. set (V0 := v k d) in *.
  assert (A : a + - (/ 2 * ((x i d - mu k d) * ((x i d - mu k d) * 1) * / V0 + ln V0)) = a - / 2 * ((x i d - mu k d) ^ 2 / V0 + ln V0)) by (unfold Rdiv; ring).
  rewrite <- Q. apply is_derive_Reals. auto_derive; rewrite !X, L2, A, E.
  - split; [lra|]. split; [exact M|exact I].
  - field. split; lra.
Qed.
End Gradient.
