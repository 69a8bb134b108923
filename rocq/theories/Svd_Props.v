(** C178-C183: singular values of 2 by 2 matrices and affine adaptation. *)
From Coq Require Import List Arith Bool Reals Lra Lia Psatz.
Import ListNotations.
From Verif Require Import Base Rodrigues_Model Svd_Model Svd_Spec Svd_Proofs Svd2_Proofs.
Local Open Scope R_scope.

(** C178.  vl_svd2 writes M as U S V' with U and V rotations and the first entry of S the larger one in absolute value; the entries
    are not negative if the determinant is not.  The first column must not be zero and the matrix must not be nearly singular ([balanced]). *)
Theorem C178_svd : forall M, (m11 M <> 0 \/ m21 M <> 0) -> balanced M ->
  exists d0 d3 U V, svd2 M = Some (d0, d3, U, V) /\ is_rotation U /\ is_rotation V /\ Rabs d3 <= Rabs d0 /\ (0 <= det M -> 0 <= d3 /\ 0 <= d0) /\
    mul (mul U (diagonal d0 d3)) (transpose V) = M.
Proof. exact svd2_ok. Qed.
Print Assumptions C178_svd.
(** The singular values are the smallest and the largest stretch of a unit vector. *)
Theorem C178_values : forall M, tame M -> exists d0 d3 U V, svd2 M = Some (d0, d3, U, V) /\ smallest M d3 /\ largest M d0.
Proof.
  intros M T. destruct (svd2_tame M T) as (d0 & d3 & cu & su & cv & sv & E & P3 & L & HU & HV & EA).
  exists d0, d3, (rotation cu su), (rotation cv sv). split; [exact E|]. rewrite EA. apply product_sizes; auto. lra.
Qed.
Print Assumptions C178_values.
Lemma epsilon_small : epsilon <= 1.
Proof. unfold epsilon. rewrite <- Rinv_1. apply Rinv_le_contravar; [lra|]. apply pow_R1_Rle. lra. Qed.
Example C178_ex_hyps : balanced (Mat 1 1 2 5) /\ tame (Mat 1 1 2 5).
Proof.
  split.
  - unfold balanced, det. cbn [m11 m12 m21 m22]. replace (1 * 2 + 1 * 5) with 7 by ring. replace (1 * 5 - 2 * 1) with 3 by ring. rewrite !Rabs_right by lra.
    apply Rle_trans with 3; [|apply Rmax_r]. assert (epsilon <= / 8); [|lra]. unfold epsilon. apply Rinv_le_contravar; [lra|]. change 52%nat with (3 + 49)%nat. rewrite pow_add. assert (1 <= 2 ^ 49) by (apply pow_R1_Rle; lra). lra.
  - unfold tame, det. cbn [m11 m12 m21 m22]. split; [lra|]. change 52%nat with (10 + 42)%nat. rewrite pow_add. assert (1 <= 2 ^ 42) by (apply pow_R1_Rle; lra). lra.
Qed.
Lemma svd2_diagonal a b : 0 < a -> Rabs b <= a -> svd2 (Mat a 0 0 b) = Some (a, b, Mat 1 0 0 1, Mat 1 0 0 1).
Proof.
  intros P L. unfold svd2. cbn [m11 m12 m21 m22]. replace (a * a + 0 * 0) with (a * a) by ring. rewrite sqrt_square by lra. rewrite eqb_neq by lra. cbv zeta.
  replace (a / a) with 1 by (field; lra). replace (0 / a) with 0 by (field; lra). replace (1 * a + 0 * 0) with a by ring. replace (1 * 0 + 0 * b) with 0 by ring. replace (- 0 * 0 + 1 * b) with b by ring.
  unfold dlasv2. rewrite (Rabs_right a) by lra. rewrite (proj2 (ltb_false a (Rabs b))) by lra. unfold half_svd. rewrite Rabs_R0, eqb_same. cbn [negb andb obind]. rewrite (sign_pos 1), (sign_pos a) by lra. rewrite (Rabs_right a) by lra.
  replace (1 * 1 * 1) with 1 by ring. rewrite (sign_pos 1) by lra. replace (1 * 1 * sign b) with (sign b) by ring. rewrite sign_sign. cbn [l_smax l_smin l_sv l_cv l_su l_cu].
  replace (sign b * Rabs b) with b by (destruct (sign_cases b) as [(A & -> & ->)|(A & -> & ->)]; ring). rewrite !Rmult_1_l. f_equal. f_equal; [f_equal|]; apply mat_eq; ring.
Qed.
Example C178_ex : svd2 (Mat 3 0 0 2) = Some (3, 2, Mat 1 0 0 1, Mat 1 0 0 1).
Proof. apply svd2_diagonal; [lra|]. rewrite Rabs_right; lra. Qed.

(** C179, refuted: the entries of S are not singular values: one is negative for each matrix of negative determinant. *)
Theorem C179_negative_refuted :
  (forall M, (m11 M <> 0 \/ m21 M <> 0) -> balanced M -> det M < 0 -> exists d0 d3 U V, svd2 M = Some (d0, d3, U, V) /\ Rmin d0 d3 < 0) /\
  svd2 (Mat 1 0 0 (-1)) = Some (1, -1, Mat 1 0 0 1, Mat 1 0 0 1).
Proof.
  split.
  - intros M N B D. destruct (svd2_ok M N B) as (d0 & d3 & U & V & E & (cu & su & -> & HU) & (cv & sv & -> & HV) & L & P & EM).
    exists d0, d3, (rotation cu su), (rotation cv sv). split; [exact E|]. assert (DD : d0 * d3 = det M) by (rewrite <- EM; symmetry; now apply product_det).
    unfold Rmin. destruct (Rle_dec d0 d3); destruct (Rlt_dec d0 0); try lra; destruct (Rlt_dec d3 0); try lra; nra.
  - apply svd2_diagonal; [lra|]. rewrite Rabs_left; lra.
Qed.
Print Assumptions C179_negative_refuted.

(** C180, refuted: a matrix whose first column is zero is not decomposed (a division by zero gives results that are not numbers). *)
Theorem C180_total_refuted : forall a b, svd2 (Mat 0 0 a b) = None.
Proof. intros a b. unfold svd2. cbn [m11 m12 m21 m22]. replace (0 * 0 + 0 * 0) with 0 by ring. now rewrite sqrt_0, eqb_same. Qed.
Print Assumptions C180_total_refuted.

(** C181, refuted: when the off-diagonal entry is more than 2^52 times the others the product U S V' is not the matrix, not even nearly: the first entry is [g] for 1. *)
Theorem C181_unbalanced_refuted : forall g, 2 ^ 52 < g -> exists d0 d3 U V, svd2 (Mat 1 0 g 1) = Some (d0, d3, U, V) /\ g < m11 (mul (mul U (diagonal d0 d3)) (transpose V)).
Proof.
  intros g G. assert (P : 1 <= 2 ^ 52) by (apply pow_R1_Rle; lra). assert (I : 0 < / g) by (apply Rinv_0_lt_compat; lra).
  unfold svd2. cbn [m11 m12 m21 m22]. replace (1 * 1 + 0 * 0) with 1 by ring. rewrite sqrt_1, eqb_neq by lra. cbv zeta.
  replace (1 / 1 * 1 + 0 / 1 * 0) with 1 by field. replace (1 / 1 * g + 0 / 1 * 1) with g by field. replace (- (0 / 1) * g + 1 / 1 * 1) with 1 by field.
  unfold dlasv2. rewrite Rabs_R1. rewrite (proj2 (ltb_false 1 1)) by lra. rewrite (Rabs_right g) by lra. rewrite eqb_neq by lra. rewrite ?Rabs_R1. rewrite (proj2 (ltb_true 1 g)) by lra. cbn [negb andb].
  unfold half_svd. rewrite Rabs_R1. rewrite (Rabs_right g) by lra. rewrite eqb_neq by lra. rewrite ?Rabs_R1. rewrite (proj2 (ltb_true 1 g)) by lra.
  assert (E : 1 / g < epsilon). { unfold epsilon. replace (1 / g) with (/ g) by (field; lra). apply Rinv_lt_contravar; [|auto]. apply Rmult_lt_0_compat; lra. }
  rewrite (proj2 (ltb_true (1 / g) epsilon) E). cbn [andb obind]. rewrite (proj2 (ltb_false 1 1)) by lra.
  assert (I' : 0 < 1 / g) by (unfold Rdiv; rewrite Rmult_1_l; exact I). rewrite (sign_pos 1), (sign_pos g), (sign_pos (1 / g)) by lra. replace (1 * 1 * 1) with 1 by ring. rewrite (sign_pos 1) by lra. cbn [l_smax l_smin l_sv l_cv l_su l_cu].
  do 4 eexists. split; [reflexivity|]. unfold mul, diagonal, transpose. cbn [m11 m12 m21 m22].
  rewrite (sign_pos (1 * 1 * 1)) by lra. match goal with |- g < ?t => replace t with (g + (1 / g) * (1 / g) * (1 / g)) by (field; lra) end. assert (0 < 1 / g * (1 / g)) by nra. nra.
Qed.
Print Assumptions C181_unbalanced_refuted.

(** C182.  Affine adaptation ends; unless the extraction of a patch fails, the frame returned keeps the upright direction, and it either has the shape of
    the frame given, or has its smallest singular value and an anisotropy of at most 5. *)
Theorem C182_adaptation : forall moments atan2 solve t frame m,
  (forall A d0 d3 M, moments A d0 d3 = Some M -> tame M \/ m11 M = 0 \/ m22 M = 0) -> direction atan2 ->
  (forall A b, det A <> 0 -> apply A (fst (solve A b)) (snd (solve A b)) = b) -> tame frame -> smallest frame m ->
  exists r, affine_shape moments atan2 solve t frame = Some r /\
    (r = Failed \/ exists B, r = Adapted B /\ (exists k, 0 < k /\ apply B (fst (axis t)) (snd (axis t)) = (k * fst (axis t), k * snd (axis t))) /\
       (gram B = gram frame \/ (smallest B m /\ anisotropy_within 5 B))).
Proof.
  intros moments atan2 solve t frame m HM HD HS HT HSm.
  assert (Pm : 0 < m). { destruct (svd2_tame frame HT) as (d0 & d3 & cu & su & cv & sv & E & P3 & L & HU & HV & EA). rewrite (smallest_unique _ _ d3 HSm); [auto|]. rewrite EA. apply product_sizes; auto. lra. }
  destruct (adapt_ok moments frame m HM 16 0 None frame frame) as (r & E & R); auto; try lia; [now left|].
  unfold affine_shape. rewrite E. cbn [obind]. destruct R as [->|(A & -> & G)]; [eexists; split; [reflexivity|now left]|]. eexists. split; [reflexivity|]. right. eexists. split; [reflexivity|].
  assert (SA : smallest A m) by (destruct G as [->|[G _]]; auto).
  assert (DA : det A <> 0).
  { intros Z. destruct SA as (_ & SA & _). destruct A as [a b c d]. unfold det in Z. cbn [m11 m12 m21 m22] in Z. unfold apply, length2 in SA. cbn [m11 m12 m21 m22 fst snd] in SA.
    destruct (Req_dec (a * a + b * b) 0) as [N|N].
    - assert (a = 0) by nra. assert (b = 0) by nra. subst. specialize (SA 1 0 ltac:(lra)). nra.
    - assert (PN : 0 < a * a + b * b) by nra. set (S := a * a + b * b + (c * c + d * d)). assert (PS : 0 < S) by (unfold S; nra).
      (* the unit vector along (-(a c + b d), a a + b b) is sent to 0 *)
      set (u := - (a * c + b * d)). set (v := a * a + b * b). assert (PU : 0 < u * u + v * v) by (unfold v; nra). pose proof (sqrt_lt_R0 _ PU) as PQ. pose proof (sqrt_sqrt _ (Rlt_le _ _ PU)) as SQ. set (n := sqrt (u * u + v * v)) in *. clearbody n.
      specialize (SA (u / n) (v / n)). assert (UN : u / n * (u / n) + v / n * (v / n) = 1) by (replace (u / n * (u / n) + v / n * (v / n)) with ((u * u + v * v) / (n * n)) by (field; lra); rewrite SQ; field; lra). specialize (SA UN).
      replace (a * (u / n) + c * (v / n)) with (- b * (a * d - c * b) / n) in SA by (unfold u, v; field; lra). replace (b * (u / n) + d * (v / n)) with (a * (a * d - c * b) / n) in SA by (unfold u, v; field; lra).
      rewrite Z in SA. replace (- b * 0 / n) with 0 in SA by (field; lra). replace (a * 0 / n) with 0 in SA by (field; lra). nra. }
  split.
  - apply upright_axis; auto.
  - destruct (upright_turn atan2 t (solve A (if t then (1, 0) else (0, 1))) A) as (c & s & U & ->). destruct G as [->|[G (n & GL & GN)]].
    + left. unfold gram, mul, rotation, transpose. cbn [m11 m12 m21 m22]. destruct frame as [a b c' d]. cbn [m11 m12 m21 m22]. apply mat_eq.
      * transitivity ((c * c + s * s) * (a * a + c' * c')); [ring|rewrite U; ring].
      * transitivity ((c * c + s * s) * (b * a + d * c')); [ring|rewrite U; ring].
      * transitivity ((c * c + s * s) * (a * b + c' * d)); [ring|rewrite U; ring].
      * transitivity ((c * c + s * s) * (b * b + d * d)); [ring|rewrite U; ring].
    + right. split; [now apply smallest_turn|]. exists m, n. split; [now apply smallest_turn|split; [now apply largest_turn|auto]].
Qed.
Print Assumptions C182_adaptation.
(** If the second moments change with the frame as the comment of the code assumes, M = A' N A, the frame found (before it is turned upright) sees second moments of
    anisotropy at most 1.001; unless the frame given, or each frame that sees equal moments, has an anisotropy of more than 5: then the shape is that of the frame given. *)
Theorem C182_isotropic : forall N frame, tame frame ->
  (forall A, gram A = gram frame -> tame (seen N A) /\ symmetric (seen N A) /\ 0 < m11 (seen N A)) ->
  exists A', adapt (fun A _ _ => Some (seen N A)) frame 16 0 None frame frame = Some (Adapted A') /\
    (anisotropy_within (1001 / 1000) (seen N A') \/
     (gram A' = gram frame /\ (~ anisotropy_within 5 frame \/ exists B, seen N B = Mat 1 0 0 1 /\ ~ anisotropy_within 5 B))).
Proof. intros N frame T H. exact (adapt_seen N frame T H). Qed.
Print Assumptions C182_isotropic.
(** An ellipse of axes 2 and 1 on an image whose moments are those of a circle is adapted to the unit circle. *)
Lemma adapt_diagonal_step moments frame n iter ref a b M q : 0 < b -> b <= a -> a <= 5 * b -> 0 < ref ->
  moments (Mat (a * (ref / b)) 0 0 (b * (ref / b))) (a * (ref / b)) (b * (ref / b)) = Some M -> M = Mat q 0 0 q -> 0 < q -> (S iter < 15)%nat -> forall adapted,
  adapt moments frame (S n) iter (Some ref) (Mat a 0 0 b) adapted = Some (Adapted (Mat (a * (ref / b)) 0 0 (b * (ref / b)))).
Proof.
  intros B L A R E -> Q I adapted. cbn [adapt]. unfold rescaled. rewrite svd2_diagonal by (try rewrite Rabs_right; lra). cbn [obind]. rewrite !eqb_neq by lra. cbn [orb].
  replace (anisotropic a b) with false. 2:{ symmetry. unfold anisotropic, max_anisotropy. apply ltb_false. apply Rmax_lub; apply Rmult_le_reg_r with (a * b); try nra; [replace (a / b * (a * b)) with (a * a) by (field; lra)|replace (b / a * (a * b)) with (b * b) by (field; lra)]; nra. }
  rewrite Rmin_right by auto. cbv zeta. cbn [m11 m12 m21 m22]. rewrite (proj2 (Nat.leb_gt max_iterations (S iter))) by (unfold max_iterations; lia).
  replace (Mat (1 * (a * (ref / b))) (0 * (a * (ref / b))) (0 * (b * (ref / b))) (1 * (b * (ref / b)))) with (Mat (a * (ref / b)) 0 0 (b * (ref / b))) by (apply mat_eq; ring).
  rewrite E. cbn [m11 m22]. rewrite !eqb_neq by lra. cbn [orb]. rewrite svd2_diagonal by (try rewrite Rabs_right; lra). cbn [obind]. rewrite !eqb_neq by lra. cbn [orb].
  unfold converged. replace (q / q) with 1 by (field; lra). unfold threshold. rewrite (proj2 (ltb_true 1 (1001 / 1000))) by lra. reflexivity.
Qed.

Example C182_ex : adapt (fun A _ _ => Some (seen (Mat 1 0 0 1) A)) (Mat 2 0 0 1) 16 0 None (Mat 2 0 0 1) (Mat 2 0 0 1) = Some (Adapted (Mat 1 0 0 1)).
Proof.
  remember 15%nat as fuel. cbn [adapt]. unfold rescaled. rewrite svd2_diagonal by (try rewrite Rabs_right; lra). cbn [obind]. rewrite !eqb_neq by lra. cbn [orb].
  replace (anisotropic 2 1) with false by (symmetry; unfold anisotropic, max_anisotropy; apply ltb_false; apply Rmax_lub; lra). rewrite Rmin_right by lra. cbv zeta. cbn [m11 m12 m21 m22]. change (max_iterations <=? 1)%nat with false. cbv match.
  replace (seen (Mat 1 0 0 1) (Mat (1 * (2 * 1)) (0 * (2 * 1)) (0 * (1 * 1)) (1 * (1 * 1)))) with (Mat 4 0 0 1) by (unfold seen, mul, transpose; cbn [m11 m12 m21 m22]; apply mat_eq; ring). cbn [m11 m22]. rewrite !eqb_neq by lra. cbn [orb].
  rewrite svd2_diagonal by (try rewrite Rabs_right; lra). cbn [obind]. rewrite !eqb_neq by lra. cbn [orb].
  replace (converged 4 1) with false by (symmetry; unfold converged, threshold; rewrite (proj2 (ltb_false (4 / 1) (1001 / 1000))) by lra; apply andb_false_r). rewrite (proj2 (ltb_false 4 0)), (proj2 (ltb_false 1 0)) by lra. cbn [orb].
  assert (S4 : sqrt 4 = 2) by (replace 4 with (2 * 2) by ring; apply sqrt_square; lra).
  replace (whitened (Mat (1 * (2 * 1)) (0 * (2 * 1)) (0 * (1 * 1)) (1 * (1 * 1))) (Mat 1 0 0 1) 4 1) with (Mat 1 0 0 1) by (unfold whitened; cbn [m11 m12 m21 m22]; rewrite S4, sqrt_1; apply mat_eq; field).
  subst fuel. rewrite (adapt_diagonal_step _ _ 14 1 1 1 1 (Mat 1 0 0 1) 1); try lra; auto; try lia.
  - f_equal. f_equal. apply mat_eq; field.
  - f_equal. unfold seen, mul, transpose. cbn [m11 m12 m21 m22]. apply mat_eq; field.
Qed.
Example C182_ex_hyps : tame (Mat 2 0 0 1) /\ smallest (Mat 2 0 0 1) 1 /\
  forall A, gram A = gram (Mat 2 0 0 1) -> tame (seen (Mat 1 0 0 1) A) /\ symmetric (seen (Mat 1 0 0 1) A) /\ 0 < m11 (seen (Mat 1 0 0 1) A).
Proof.
  assert (K : 1024 <= 2 ^ 52) by (change 52%nat with (10 + 42)%nat; rewrite pow_add; assert (1 <= 2 ^ 42) by (apply pow_R1_Rle; lra); lra). split; [|split].
  - unfold tame, det. cbn [m11 m12 m21 m22]. split; lra.
  - replace (Mat 2 0 0 1) with (product 1 0 2 1 1 0) by (rewrite product_eq; apply mat_eq; ring). apply product_sizes; lra.
  - intros [a b c d] G. unfold gram, mul, transpose in G. cbn [m11 m12 m21 m22] in G. injection G as G1 G2 _ G4.
    assert (E1 : a * a + c * c = 4) by lra. assert (E2 : b * a + d * c = 0) by lra. assert (E4 : b * b + d * d = 1) by lra.
    assert (D : (a * a + b * b) * (c * c + d * d) - (a * c + b * d) * (a * c + b * d) = 4) by (transitivity ((a * a + c * c) * (b * b + d * d) - (b * a + d * c) * (b * a + d * c)); [ring|rewrite E1, E2, E4; ring]).
    assert (F : (a * a + b * b) * (a * a + b * b) + 2 * ((a * c + b * d) * (a * c + b * d)) + (c * c + d * d) * (c * c + d * d) = 17) by (transitivity ((a * a + c * c) * (a * a + c * c) + 2 * ((b * a + d * c) * (b * a + d * c)) + (b * b + d * d) * (b * b + d * d)); [ring|rewrite E1, E2, E4; ring]).
    assert (N : 0 < a * a + b * b) by (pose proof (sq_nonneg (a * c + b * d)); pose proof (sq_nonneg a); pose proof (sq_nonneg b); destruct (Req_dec (a * a + b * b) 0) as [Z|Z]; [rewrite Z in D; lra|lra]).
    unfold tame, symmetric, det, seen, mul, transpose. cbn [m11 m12 m21 m22].
    split; [split|split].
    + match goal with |- 0 < ?t => replace t with 4 by (rewrite <- D; ring) end. lra.
    + match goal with |- ?l <= _ * ?t => replace t with 4 by (rewrite <- D; ring); replace l with 17 by (rewrite <- F; ring) end. lra.
    + ring.
    + match goal with |- 0 < ?t => replace t with (a * a + b * b) by ring end. exact N.
Qed.

(** C183, refuted: a mirrored frame has a negative entry in S, and the test of the anisotropy does not see it: the frame returned may differ from the one
    given and have an anisotropy of 50. *)
Definition stretch_moments (A : mat) (d0 d3 : R) : option mat := Some (if Req_EM_T (m11 A) 100 then Mat 4 0 0 1 else Mat 1 0 0 1).
Theorem C183_mirrored_refuted : adapt stretch_moments (Mat 100 0 0 (-1)) 16 0 None (Mat 100 0 0 (-1)) (Mat 100 0 0 (-1)) = Some (Adapted (Mat 50 0 0 (-1))) /\
  ~ anisotropy_within 5 (Mat 50 0 0 (-1)) /\ gram (Mat 50 0 0 (-1)) <> gram (Mat 100 0 0 (-1)).
Proof.
  split; [|split].
  - assert (AN : forall a, 0 < a -> anisotropic a (-1) = false).
    { intros a P. unfold anisotropic, max_anisotropy. apply ltb_false. apply Rmax_lub; [unfold Rdiv; replace (/ -1) with (-1) by field; lra|]. apply Rmult_le_reg_r with a; [auto|]. replace (-1 / a * a) with (-1) by (field; lra). lra. }
    assert (M1 : Rabs (-1) = 1) by (rewrite Rabs_left; lra).
    remember 14%nat as fuel. cbn [adapt]. unfold rescaled. rewrite svd2_diagonal by lra. cbn [obind]. rewrite !eqb_neq by lra. cbn [orb]. rewrite AN by lra. rewrite Rmin_right by lra. cbv zeta. cbn [m11 m12 m21 m22].
    change (max_iterations <=? 1)%nat with false. cbv match. replace (Mat (1 * (100 * 1)) (0 * (100 * 1)) (0 * (-1 * 1)) (1 * (-1 * 1))) with (Mat 100 0 0 (-1)) by (apply mat_eq; ring).
    unfold stretch_moments at 1. cbn [m11]. destruct (Req_EM_T 100 100); [|lra]. cbn [m11 m22]. rewrite !eqb_neq by lra. cbn [orb]. rewrite svd2_diagonal by (try rewrite Rabs_right; lra). cbn [obind]. rewrite !eqb_neq by lra. cbn [orb].
    replace (converged 4 1) with false by (symmetry; unfold converged, threshold; rewrite (proj2 (ltb_false (4 / 1) (1001 / 1000))) by lra; apply andb_false_r). rewrite (proj2 (ltb_false 4 0)), (proj2 (ltb_false 1 0)) by lra. cbn [orb].
    assert (S4 : sqrt 4 = 2) by (replace 4 with (2 * 2) by ring; apply sqrt_square; lra).
    replace (whitened (Mat 100 0 0 (-1)) (Mat 1 0 0 1) 4 1) with (Mat 50 0 0 (-1)) by (unfold whitened; cbn [m11 m12 m21 m22]; rewrite S4, sqrt_1; apply mat_eq; field).
    subst fuel. cbn [adapt]. unfold rescaled. rewrite svd2_diagonal by lra. cbn [obind]. rewrite !eqb_neq by lra. cbn [orb]. rewrite AN by lra. rewrite Rmin_right by lra. cbv zeta. cbn [m11 m12 m21 m22].
    change (max_iterations <=? 2)%nat with false. cbv match. replace (-1 / -1) with 1 by field. replace (Mat (1 * (50 * 1)) (0 * (50 * 1)) (0 * (-1 * 1)) (1 * (-1 * 1))) with (Mat 50 0 0 (-1)) by (apply mat_eq; ring).
    unfold stretch_moments at 1. cbn [m11]. destruct (Req_EM_T 50 100); [lra|]. cbn [m11 m22]. rewrite !eqb_neq by lra. cbn [orb]. rewrite svd2_diagonal by (try rewrite Rabs_right; lra). cbn [obind]. rewrite !eqb_neq by lra. cbn [orb].
    unfold converged, threshold. replace (1 / 1) with 1 by field. rewrite (proj2 (ltb_true 1 (1001 / 1000))) by lra. reflexivity.
  - intros (m & n & (Pm & S & _) & (Pn & L & _) & H). specialize (S 0 1 ltac:(lra)). specialize (L 1 0 ltac:(lra)). unfold length2, apply in S, L. cbn [m11 m12 m21 m22 fst snd] in S, L. assert (m <= 1) by (apply sq_le; lra). assert (n * n <= 5 * 5) by (apply sq_mono; lra). lra.
  - unfold gram, mul, transpose. cbn [m11 m12 m21 m22]. intros E. injection E. lra.
Qed.
Print Assumptions C183_mirrored_refuted.
