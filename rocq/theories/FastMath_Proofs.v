(** Lemmas on the fast arc tangent. *)
From Coq Require Import List Bool Reals ZArith Lra Lia Psatz Machin.
Import ListNotations.
From Verif Require Import Base Rodrigues_Model Svd_Model Svd_Proofs FastMath_Model FastMath_Spec.
Local Open Scope R_scope.

Lemma rise f f' a b k : a <= b -> (forall c, a <= c <= b -> derivable_pt_lim f c (f' c)) -> (forall c, a <= c <= b -> k <= f' c) -> k * (b - a) <= f b - f a.
Proof.
  intros L D K. destruct (Req_dec a b) as [->|N]; [lra|].
  destruct (MVT_cor2 f f' a b ltac:(lra) D) as (c & E & C). rewrite E. apply Rmult_le_compat_r; [lra|]. apply K. lra.
Qed.
(** k atan x + a x + b x^3 + c x^5 + d x^7 *)
Definition mix (k a b c d x : R) : R := k * atan x + a * x + b * x ^ 3 + c * x ^ 5 + d * x ^ 7.
Definition mix' (k a b c d x : R) : R := k * / (1 + x ^ 2) + a * 1 + b * (3 * x ^ 2) + c * (5 * x ^ 4) + d * (7 * x ^ 6).
Lemma mix_derivable k a b c d x : derivable_pt_lim (mix k a b c d) x (mix' k a b c d x).
Proof.
  unfold mix, mix'.
  assert (P : forall n, derivable_pt_lim (fun y => y ^ S n) x (INR (S n) * x ^ n)) by (intros n; apply (derivable_pt_lim_pow x (S n))).
  pose proof (P 2%nat) as P3. pose proof (P 4%nat) as P5. pose proof (P 6%nat) as P7. replace (INR 3) with 3 in P3 by (cbn; lra). replace (INR 5) with 5 in P5 by (cbn; lra). replace (INR 7) with 7 in P7 by (cbn; lra).
  apply (derivable_pt_lim_plus (fun y => k * atan y + a * y + b * y ^ 3 + c * y ^ 5) (fun y => d * y ^ 7)); [|now apply (derivable_pt_lim_scal (fun y => y ^ 7))].
  apply (derivable_pt_lim_plus (fun y => k * atan y + a * y + b * y ^ 3) (fun y => c * y ^ 5)); [|now apply (derivable_pt_lim_scal (fun y => y ^ 5))].
  apply (derivable_pt_lim_plus (fun y => k * atan y + a * y) (fun y => b * y ^ 3)); [|now apply (derivable_pt_lim_scal (fun y => y ^ 3))].
  apply (derivable_pt_lim_plus (fun y => k * atan y) (fun y => a * y)).
  - apply (derivable_pt_lim_scal atan). exact (derivable_pt_lim_atan x).
  - apply (derivable_pt_lim_scal id). apply derivable_pt_lim_id.
Qed.
Lemma mix_0 k a b c d : mix k a b c d 0 = 0.
Proof. unfold mix. rewrite atan_0. ring. Qed.
Lemma atan_upper t : 0 <= t -> atan t <= t - t ^ 3 / 3 + t ^ 5 / 5.
Proof.
  intros T. pose proof (rise (mix (-1) 1 (- / 3) (/ 5) 0) (mix' (-1) 1 (- / 3) (/ 5) 0) 0 t 0 T (fun c _ => mix_derivable _ _ _ _ _ c)) as H.
  rewrite mix_0 in H. unfold mix at 1 in H. assert (X : 0 * (t - 0) <= -1 * atan t + 1 * t + - / 3 * t ^ 3 + / 5 * t ^ 5 + 0 * t ^ 7 - 0); [|lra].
  apply H. intros c [C0 _]. unfold mix'. assert (Q : 0 < 1 + c ^ 2) by nra. apply Rmult_le_reg_r with (1 + c ^ 2); [exact Q|].
  replace ((-1 * / (1 + c ^ 2) + 1 * 1 + - / 3 * (3 * c ^ 2) + / 5 * (5 * c ^ 4) + 0 * (7 * c ^ 6)) * (1 + c ^ 2)) with (c ^ 6) by (field; lra).
  rewrite Rmult_0_l. now apply pow_le.
Qed.
Lemma atan_lower t : 0 <= t -> t - t ^ 3 / 3 + t ^ 5 / 5 - t ^ 7 / 7 <= atan t.
Proof.
  intros T. pose proof (rise (mix 1 (-1) (/ 3) (- / 5) (/ 7)) (mix' 1 (-1) (/ 3) (- / 5) (/ 7)) 0 t 0 T (fun c _ => mix_derivable _ _ _ _ _ c)) as H.
  rewrite mix_0 in H. unfold mix at 1 in H. assert (X : 0 * (t - 0) <= 1 * atan t + -1 * t + / 3 * t ^ 3 + - / 5 * t ^ 5 + / 7 * t ^ 7 - 0); [|lra].
  apply H. intros c [C0 _]. unfold mix'. assert (Q : 0 < 1 + c ^ 2) by nra. apply Rmult_le_reg_r with (1 + c ^ 2); [exact Q|].
  replace ((1 * / (1 + c ^ 2) + -1 * 1 + / 3 * (3 * c ^ 2) + - / 5 * (5 * c ^ 4) + / 7 * (7 * c ^ 6)) * (1 + c ^ 2)) with (c ^ 8) by (field; lra).
  rewrite Rmult_0_l. now apply pow_le.
Qed.
Lemma atan_below t : 0 <= t -> atan t <= t.
Proof.
  intros T. pose proof (rise (mix (-1) 1 0 0 0) (mix' (-1) 1 0 0 0) 0 t 0 T (fun c _ => mix_derivable _ _ _ _ _ c)) as H.
  rewrite mix_0 in H. unfold mix at 1 in H. assert (X : 0 * (t - 0) <= -1 * atan t + 1 * t + 0 * t ^ 3 + 0 * t ^ 5 + 0 * t ^ 7 - 0); [|lra].
  apply H. intros c [C0 _]. unfold mix'. assert (Q : 0 < 1 + c ^ 2) by nra. apply Rmult_le_reg_r with (1 + c ^ 2); [exact Q|].
  replace ((-1 * / (1 + c ^ 2) + 1 * 1 + 0 * (3 * c ^ 2) + 0 * (5 * c ^ 4) + 0 * (7 * c ^ 6)) * (1 + c ^ 2)) with (c ^ 2) by (field; lra). nra.
Qed.
Lemma atan_le_abs t : Rabs (atan t) <= Rabs t.
Proof.
  destruct (Rle_dec 0 t) as [T|T].
  - assert (0 <= atan t) by (destruct (Req_dec t 0) as [->|]; [rewrite atan_0; lra|rewrite <- atan_0; left; apply atan_increasing; lra]). rewrite !Rabs_right by lra. now apply atan_below.
  - assert (atan t < 0) by (rewrite <- atan_0; apply atan_increasing; lra). rewrite !Rabs_left by lra. rewrite <- atan_opp. apply atan_below. lra.
Qed.
Lemma pi4_bounds : 785397 / 1000000 <= PI / 4 <= 785406 / 1000000.
Proof.
  rewrite Machin_4_5_239. pose proof (atan_upper (/ 5) ltac:(lra)). pose proof (atan_lower (/ 5) ltac:(lra)). pose proof (atan_upper (/ 239) ltac:(lra)). pose proof (atan_lower (/ 239) ltac:(lra)). lra.
Qed.
(** the angle of (u, 1) seen from the bisector *)
Lemma atan_turn u : 0 <= u -> atan ((u - 1) / (u + 1)) = atan u - PI / 4.
Proof.
  intros U. pose proof (atan_sub_correct u 1) as H. pose proof PI_RGT_0. pose proof (atan_bound u). pose proof (atan_bound (atan_sub u 1)).
  assert (A : 0 <= atan u) by (destruct (Req_dec u 0) as [->|]; [rewrite atan_0; lra|rewrite <- atan_0; left; apply atan_increasing; lra]).
  rewrite atan_1 in H. rewrite H by lra. unfold atan_sub. replace ((u - 1) / (1 + u * 1)) with ((u - 1) / (u + 1)) by (f_equal; ring). lra.
Qed.

(** the error of the cubic *)
Definition err (r : R) : R := atan r - 9675 / 10000 * r + 1821 / 10000 * r ^ 3.
Lemma err_rise a b k : 0 <= a -> a <= b -> (forall c, a <= c <= b -> k * (1 + c ^ 2) <= 1 + (-9675 / 10000 + 5463 / 10000 * c ^ 2) * (1 + c ^ 2)) -> k * (b - a) <= err b - err a.
Proof.
  intros A L H. pose proof (rise (mix 1 (-9675 / 10000) (1821 / 10000) 0 0) (mix' 1 (-9675 / 10000) (1821 / 10000) 0 0) a b k L (fun c _ => mix_derivable _ _ _ _ _ c)) as R.
  replace (err b - err a) with (mix 1 (-9675 / 10000) (1821 / 10000) 0 0 b - mix 1 (-9675 / 10000) (1821 / 10000) 0 0 a) by (unfold mix, err; lra).
  apply R. intros c C. specialize (H c C). assert (Q : 0 < 1 + c ^ 2) by nra. apply Rmult_le_reg_r with (1 + c ^ 2); [exact Q|].
  eapply Rle_trans; [exact H|]. right. unfold mix'. field. lra.
Qed.
Lemma err_fall a b k : 0 <= a -> a <= b -> (forall c, a <= c <= b -> 1 + (-9675 / 10000 + 5463 / 10000 * c ^ 2) * (1 + c ^ 2) <= k * (1 + c ^ 2)) -> err b - err a <= k * (b - a).
Proof.
  intros A L H. pose proof (rise (mix (-1) (9675 / 10000) (-1821 / 10000) 0 0) (mix' (-1) (9675 / 10000) (-1821 / 10000) 0 0) a b (- k) L (fun c _ => mix_derivable _ _ _ _ _ c)) as R.
  assert (X : err a - err b = mix (-1) (9675 / 10000) (-1821 / 10000) 0 0 b - mix (-1) (9675 / 10000) (-1821 / 10000) 0 0 a) by (unfold mix, err; lra).
  rewrite <- X in R. assert (Y : - k * (b - a) <= err a - err b); [|lra].
  apply R. intros c C. specialize (H c C). assert (Q : 0 < 1 + c ^ 2) by nra. apply Rmult_le_reg_r with (1 + c ^ 2); [exact Q|].
  apply Rle_trans with (- (1 + (-9675 / 10000 + 5463 / 10000 * c ^ 2) * (1 + c ^ 2))); [lra|]. right. unfold mix'. field. lra.
Qed.
Lemma err_295 : err (295 / 1000) <= 616 / 100000.
Proof. unfold err. pose proof (atan_upper (295 / 1000) ltac:(lra)). lra. Qed.
Lemma err_827 : -615 / 100000 <= err (827 / 1000) <= -612 / 100000.
Proof.
  unfold err. pose proof pi4_bounds. pose proof (atan_upper (173 / 1827) ltac:(lra)) as U. pose proof (atan_lower (173 / 1827) ltac:(lra)) as L.
  pose proof (atan_turn (1827 / 173) ltac:(lra)) as T. replace ((1827 / 173 - 1) / (1827 / 173 + 1)) with (827 / 1000) in T by field.
  pose proof (atan_inv (173 / 1827) ltac:(lra)) as I. replace (/ (173 / 1827)) with (1827 / 173) in I by field. lra.
Qed.
Lemma err_1 : -1 / 100000 <= err 1 <= 1 / 100000.
Proof. unfold err. rewrite atan_1. pose proof pi4_bounds. lra. Qed.
Lemma sq_between c a b : 0 <= a -> a <= c <= b -> a * a <= c ^ 2 <= b * b.
Proof. intros. nra. Qed.
Lemma err_positive r : 0 <= r <= 1 -> Rabs (err r) <= 62 / 10000.
Proof.
  intros [R0 R1]. assert (E0 : err 0 = 0) by (unfold err; rewrite atan_0; ring).
  pose proof err_295. pose proof err_827. pose proof err_1. apply Rabs_le.
  destruct (Rle_dec r (295 / 1000)) as [A|A]; [|destruct (Rle_dec r (827 / 1000)) as [B|B]].
  - split.
    + pose proof (err_rise 0 r (-1 / 1000) ltac:(lra) R0) as K. assert (X : -1 / 1000 * (r - 0) <= err r - err 0); [|lra]. apply K. intros c C. pose proof (sq_between c 0 (295 / 1000) ltac:(lra) ltac:(lra)). generalize dependent (c ^ 2). intros s ?. nra.
    + pose proof (err_rise r (295 / 1000) (-2 / 100000) R0 A) as K. assert (X : -2 / 100000 * (295 / 1000 - r) <= err (295 / 1000) - err r); [|lra]. apply K. intros c C. pose proof (sq_between c 0 (295 / 1000) ltac:(lra) ltac:(lra)). generalize dependent (c ^ 2). intros s ?. nra.
  - split.
    + pose proof (err_fall r (827 / 1000) 0 R0 B) as K. assert (X : err (827 / 1000) - err r <= 0 * (827 / 1000 - r)); [|lra]. apply K. intros c C. pose proof (sq_between c (295 / 1000) (827 / 1000) ltac:(lra) ltac:(lra)). generalize dependent (c ^ 2). intros s ?. nra.
    + pose proof (err_fall (295 / 1000) r 0 ltac:(lra) ltac:(lra)) as K. assert (X : err r - err (295 / 1000) <= 0 * (r - 295 / 1000)); [|lra]. apply K. intros c C. pose proof (sq_between c (295 / 1000) (827 / 1000) ltac:(lra) ltac:(lra)). generalize dependent (c ^ 2). intros s ?. nra.
  - split.
    + pose proof (err_rise (827 / 1000) r (-1 / 10000) ltac:(lra) ltac:(lra)) as K. assert (X : -1 / 10000 * (r - 827 / 1000) <= err r - err (827 / 1000)); [|lra]. apply K. intros c C. pose proof (sq_between c (827 / 1000) 1 ltac:(lra) ltac:(lra)). generalize dependent (c ^ 2). intros s ?. nra.
    + pose proof (err_rise r 1 (-1 / 10000) R0 R1) as K. assert (X : -1 / 10000 * (1 - r) <= err 1 - err r); [|lra]. apply K. intros c C. pose proof (sq_between c (827 / 1000) 1 ltac:(lra) ltac:(lra)). generalize dependent (c ^ 2). intros s ?. nra.
Qed.
Lemma err_opp r : err (- r) = - err r.
Proof. unfold err. rewrite atan_opp. ring. Qed.
Lemma err_small r : -1 <= r <= 1 -> Rabs (err r) <= 62 / 10000.
Proof. intros H. destruct (Rle_dec 0 r); [apply err_positive; lra|]. replace r with (- - r) by ring. rewrite err_opp, Rabs_Ropp. apply err_positive. lra. Qed.
