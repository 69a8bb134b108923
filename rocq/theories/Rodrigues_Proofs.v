(** Rodrigues' formula: rotations, axis, angle and inverse. *)
From Coq Require Import List Arith Bool Reals Lra Lia Nsatz.
Import ListNotations.
From Verif Require Import Rodrigues_Model Rodrigues_Spec.
Local Open Scope R_scope.

Lemma ltb_true a b : ltb a b = true <-> a < b.
Proof. unfold ltb. destruct (Rlt_dec a b); split; intros; try lra; congruence. Qed.
Lemma ltb_false a b : ltb a b = false <-> b <= a.
Proof. unfold ltb. destruct (Rlt_dec a b); split; intros; try lra; congruence. Qed.
Lemma geb_true a b : geb a b = true <-> b <= a.
Proof. unfold geb. destruct (Rle_dec b a); split; intros; try lra; congruence. Qed.
Lemma geb_false a b : geb a b = false <-> a < b.
Proof. unfold geb. destruct (Rle_dec b a); split; intros; try lra; congruence. Qed.

(** the rotation about the unit vector (x, y, z) with sine s and cosine c *)
Definition matrix (x y z s c : R) : list R :=
  [ 1 - (1 - c) * (y * y + z * z); s * z + (1 - c) * (x * y); - s * y + (1 - c) * (x * z);
    - s * z + (1 - c) * (x * y); 1 - (1 - c) * (z * z + x * x); s * x + (1 - c) * (y * z);
    s * y + (1 - c) * (x * z); - s * x + (1 - c) * (y * z); 1 - (1 - c) * (x * x + y * y) ].

Lemma matrix_rotation x y z s c : x * x + y * y + z * z = 1 -> s * s + c * c = 1 -> rotation (matrix x y z s c).
Proof.
  intros U V. split; [split; [reflexivity|]|].
  - intros i j Hi Hj.
    destruct i as [|[|[|i]]]; [| | |lia]; (destruct j as [|[|[|j]]]; [| | |lia]);
      unfold entry, matrix; cbn [List.nth Nat.add Nat.mul Nat.eqb]; clear Hi Hj; nsatz.
  - unfold det, entry, matrix. cbn [List.nth Nat.add Nat.mul Nat.eqb]. nsatz.
Qed.
Lemma matrix_turn x y z t v : x * x + y * y + z * z = 1 -> apply (matrix x y z (sin t) (cos t)) v = turn (x, y, z) t v.
Proof.
  intros U. destruct v as [[a b] c]. unfold apply, entry, matrix, turn, plus, scale, dot, cross. cbn [List.nth Nat.add Nat.mul Nat.eqb].
  f_equal; [f_equal|]; nsatz.
Qed.
Lemma sc t : sin t * sin t + cos t * cos t = 1.
Proof. pose proof (sin2_cos2 t). unfold Rsqr in H. exact H. Qed.

Lemma small_pos : 0 < small.
Proof. unfold small. apply Rinv_0_lt_compat. lra. Qed.

Definition axis (om : vec) : vec := scale (/ norm om) om.
Lemma angle_norm om : angle om = norm om.
Proof. reflexivity. Qed.
Lemma norm_square o0 o1 o2 : norm (o0, o1, o2) * norm (o0, o1, o2) = o0 * o0 + o1 * o1 + o2 * o2.
Proof. unfold norm. apply sqrt_sqrt. nra. Qed.
Lemma unit_axis o0 o1 o2 : let n := norm (o0, o1, o2) in 0 < n -> o0 / n * (o0 / n) + o1 / n * (o1 / n) + o2 / n * (o2 / n) = 1.
Proof.
  intros n Hn. pose proof (norm_square o0 o1 o2) as E. fold n in E.
  transitivity ((o0 * o0 + o1 * o1 + o2 * o2) / (n * n)); [field; lra|]. rewrite <- E. field. lra.
Qed.
Lemma norm_scale k v : 0 <= k -> norm (scale k v) = k * norm v.
Proof.
  intros Hk. destruct v as [[a b] c]. unfold scale, norm.
  replace (k * a * (k * a) + k * b * (k * b) + k * c * (k * c)) with ((k * k) * (a * a + b * b + c * c)) by ring.
  rewrite sqrt_mult by nra. rewrite sqrt_square by exact Hk. reflexivity.
Qed.

Lemma rodrigues_big o0 o1 o2 : let n := norm (o0, o1, o2) in
  small <= n -> rodrigues (o0, o1, o2) = matrix (o0 / n) (o1 / n) (o2 / n) (sin n) (cos n).
Proof.
  intros n Hn. unfold rodrigues. rewrite angle_norm. fold n.
  rewrite (proj2 (ltb_false n small)) by exact Hn. reflexivity.
Qed.
Lemma rodrigues_small om : norm om < small -> rodrigues om = [1; 0; 0; 0; 1; 0; 0; 0; 1].
Proof. intros H. destruct om as [[a b] c]. unfold rodrigues. rewrite angle_norm, (proj2 (ltb_true _ _)) by exact H. reflexivity. Qed.

(** *** Every vector gives a rotation about itself *)
Lemma identity_rotation : rotation [1; 0; 0; 0; 1; 0; 0; 0; 1].
Proof.
  split; [split; [reflexivity|]|].
  - intros i j Hi Hj. destruct i as [|[|[|i]]]; [| | |lia]; (destruct j as [|[|[|j]]]; [| | |lia]); unfold entry; cbn [List.nth Nat.add Nat.mul Nat.eqb]; ring.
  - unfold det, entry. cbn [List.nth Nat.add Nat.mul Nat.eqb]. ring.
Qed.
Lemma rodrigues_rotation om : rotation (rodrigues om).
Proof.
  destruct om as [[a b] c]. destruct (Rlt_le_dec (norm (a, b, c)) small) as [H|H].
  - rewrite rodrigues_small by exact H. apply identity_rotation.
  - rewrite rodrigues_big by exact H. pose proof small_pos. apply matrix_rotation; [apply unit_axis; lra|apply sc].
Qed.
Lemma rodrigues_turn om v : small <= norm om -> apply (rodrigues om) v = turn (scale (/ norm om) om) (norm om) v.
Proof.
  intros H. pose proof small_pos. destruct om as [[a b] c]. rewrite rodrigues_big by exact H. rewrite matrix_turn by (apply unit_axis; lra).
  unfold scale. f_equal. f_equal; [f_equal|]; unfold Rdiv; ring.
Qed.
Lemma turn_axis k t : dot k k = 1 -> turn k t k = k.
Proof.
  destruct k as [[a b] c]. unfold turn, plus, scale, dot, cross. intros U. rewrite U. f_equal; [f_equal|]; ring.
Qed.
Lemma rodrigues_fixes om : apply (rodrigues om) om = om.
Proof.
  destruct om as [[a b] c]. pose proof small_pos. destruct (Rlt_le_dec (norm (a, b, c)) small) as [H'|H'].
  - rewrite rodrigues_small by exact H'. unfold apply, entry. cbn [List.nth Nat.add Nat.mul Nat.eqb]. f_equal; [f_equal|]; ring.
  - rewrite rodrigues_big by exact H'. set (n := norm (a, b, c)) in *.
    assert (U : a / n * (a / n) + b / n * (b / n) + c / n * (c / n) = 1) by (apply unit_axis; fold n; lra).
    assert (E : (a, b, c) = scale n (a / n, b / n, c / n)) by (unfold scale; f_equal; [f_equal|]; field; lra).
    transitivity (apply (matrix (a / n) (b / n) (c / n) (sin n) (cos n)) (scale n (a / n, b / n, c / n))); [f_equal; exact E|].
    rewrite matrix_turn by exact U.
    unfold turn, plus, scale, dot, cross.
    replace (a / n * (n * (a / n)) + b / n * (n * (b / n)) + c / n * (n * (c / n))) with (n * (a / n * (a / n) + b / n * (b / n) + c / n * (c / n))) by ring.
    rewrite U. f_equal; [f_equal|]; field; lra.
Qed.

(** *** The inverse *)
Lemma matrix_trace x y z s c : x * x + y * y + z * z = 1 -> trace (matrix x y z s c) = 1 + 2 * c.
Proof. intros U. unfold trace, entry, matrix. cbn [List.nth Nat.add Nat.mul Nat.eqb]. nsatz. Qed.
Lemma iangle_trace m : -1 <= trace m -> iangle m = acos ((trace m - 1) / 2).
Proof.
  intros H. unfold iangle. change (at3 m 0 0 + at3 m 1 1 + at3 m 2 2) with (trace m). rewrite Rmax_left by exact H.
  f_equal. field.
Qed.
Lemma iangle_matrix x y z t : x * x + y * y + z * z = 1 -> 0 <= t <= PI -> iangle (matrix x y z (sin t) (cos t)) = t.
Proof.
  intros U Ht. pose proof (COS_bound t). rewrite iangle_trace; rewrite matrix_trace by exact U; [|lra].
  replace ((1 + 2 * cos t - 1) / 2) with (cos t) by field. apply acos_cos. exact Ht.
Qed.
Lemma matrix_back x y z t : x * x + y * y + z * z = 1 -> 0 <= t <= PI -> small <= sin t ->
  irodrigues (matrix x y z (sin t) (cos t)) = (t * x, t * y, t * z).
Proof.
  intros U Ht Hs. pose proof small_pos as P. unfold irodrigues, singular. rewrite iangle_matrix by assumption.
  rewrite Rabs_right by lra.
  rewrite (proj2 (ltb_false (sin t) small)) by exact Hs. cbn [andb].
  unfold at3, matrix. cbn [List.nth Nat.add Nat.mul Nat.eqb]. f_equal; [f_equal|]; field; lra.
Qed.
Lemma irodrigues_back om : small <= norm om -> norm om <= PI -> small <= sin (norm om) -> irodrigues (rodrigues om) = om.
Proof.
  intros H1 H2 H3. pose proof small_pos. destruct om as [[a b] c]. rewrite rodrigues_big by exact H1. set (n := norm (a, b, c)) in *.
  rewrite matrix_back; [|apply unit_axis; fold n; lra|lra|exact H3]. f_equal; [f_equal|]; field; lra.
Qed.
