(** Proofs about the adaptation of covdet.c, Svd_Model.v. *)
From Coq Require Import List Arith Bool Reals Lra Lia Psatz.
Import ListNotations.
From Verif Require Import Base Rodrigues_Model Svd_Model Svd_Spec Svd_Proofs.
Local Open Scope R_scope.

Definition product cu su d0 d3 cv sv : mat := mul (mul (rotation cu su) (diagonal d0 d3)) (transpose (rotation cv sv)).
Lemma mat_eq a b c d a' b' c' d' : a = a' -> b = b' -> c = c' -> d = d' -> Mat a b c d = Mat a' b' c' d'.
Proof. intros; now subst. Qed.
Lemma product_eq cu su d0 d3 cv sv : product cu su d0 d3 cv sv =
  Mat (cu * d0 * cv + su * d3 * sv) (su * d0 * cv - cu * d3 * sv) (cu * d0 * sv - su * d3 * cv) (su * d0 * sv + cu * d3 * cv).
Proof. unfold product, mul, rotation, diagonal, transpose. cbn [m11 m12 m21 m22]. apply mat_eq; ring. Qed.
Lemma product_det cu su d0 d3 cv sv : cu * cu + su * su = 1 -> cv * cv + sv * sv = 1 -> det (product cu su d0 d3 cv sv) = d0 * d3.
Proof. intros U V. rewrite product_eq. unfold det. cbn [m11 m12 m21 m22]. transitivity ((cu * cu + su * su) * (cv * cv + sv * sv) * (d0 * d3)); [ring|rewrite U, V; ring]. Qed.
Lemma product_length cu su d0 d3 cv sv x y : cu * cu + su * su = 1 ->
  length2 (apply (product cu su d0 d3 cv sv) x y) = d0 * d0 * ((cv * x + sv * y) * (cv * x + sv * y)) + d3 * d3 * ((cv * y - sv * x) * (cv * y - sv * x)).
Proof.
  intros U. rewrite product_eq. unfold length2, apply. cbn [m11 m12 m21 m22 fst snd].
  transitivity ((cu * cu + su * su) * (d0 * d0 * ((cv * x + sv * y) * (cv * x + sv * y)) + d3 * d3 * ((cv * y - sv * x) * (cv * y - sv * x)))); [ring|rewrite U; ring].
Qed.
Lemma turned cv sv x y : cv * cv + sv * sv = 1 -> x * x + y * y = 1 -> (cv * x + sv * y) * (cv * x + sv * y) + (cv * y - sv * x) * (cv * y - sv * x) = 1.
Proof. intros V U. transitivity ((cv * cv + sv * sv) * (x * x + y * y)); [ring|rewrite U, V; ring]. Qed.
Lemma weigh a b p q : 0 <= p -> 0 <= q -> p + q = 1 -> b <= a -> b <= a * p + b * q /\ a * p + b * q <= a.
Proof. intros P Q E H. replace q with (1 - p) by lra. split; nra. Qed.
Lemma sq_nonneg x : 0 <= x * x. Proof. nra. Qed.
Lemma sq_mono x y : 0 <= x -> x <= y -> x * x <= y * y. Proof. intros. nra. Qed.
Lemma sq_le x y : 0 <= y -> x * x <= y * y -> x <= y. Proof. intros A B. destruct (Rle_dec x y); [auto|nra]. Qed.
Lemma sq_inj x y : 0 <= x -> 0 <= y -> x * x = y * y -> x = y.
Proof. intros A B E. apply Rle_antisym; apply sq_le; lra. Qed.
Lemma product_sizes cu su d0 d3 cv sv : cu * cu + su * su = 1 -> cv * cv + sv * sv = 1 -> 0 <= d3 <= d0 ->
  smallest (product cu su d0 d3 cv sv) d3 /\ largest (product cu su d0 d3 cv sv) d0.
Proof.
  intros U V D. pose proof (sq_mono d3 d0 ltac:(lra) ltac:(lra)) as DD.
  split; (split; [lra|]); split.
  - intros x y E. rewrite product_length by auto. apply (weigh (d0 * d0) (d3 * d3)); auto using sq_nonneg. now apply turned.
  - exists (- sv), cv. split; [lra|]. rewrite product_length by auto. transitivity (d3 * d3 * ((cv * cv + sv * sv) * (cv * cv + sv * sv))); [ring|rewrite V; ring].
  - intros x y E. rewrite product_length by auto. apply (weigh (d0 * d0) (d3 * d3)); auto using sq_nonneg. now apply turned.
  - exists cv, sv. split; [lra|]. rewrite product_length by auto. transitivity (d0 * d0 * ((cv * cv + sv * sv) * (cv * cv + sv * sv))); [ring|rewrite V; ring].
Qed.
Lemma smallest_unique A m n : smallest A m -> smallest A n -> m = n.
Proof. intros (P & L & x & y & U & E) (P' & L' & x' & y' & U' & E'). specialize (L x' y' U'). specialize (L' x y U). apply sq_inj; lra. Qed.
Lemma largest_unique A m n : largest A m -> largest A n -> m = n.
Proof. intros (P & L & x & y & U & E) (P' & L' & x' & y' & U' & E'). specialize (L x' y' U'). specialize (L' x y U). apply sq_inj; lra. Qed.
Lemma tame_balanced A : tame A -> balanced A.
Proof.
  intros [D F]. unfold balanced. apply Rle_trans with (Rabs (det A)); [|apply Rmax_r]. rewrite (Rabs_right (det A)) by lra. unfold epsilon.
  assert (P : 0 < 2 ^ 52) by (apply pow_lt; lra). set (K := 2 ^ 52) in *. clearbody K.
  apply Rmult_le_reg_l with K; [auto|]. rewrite <- Rmult_assoc, Rinv_r, Rmult_1_l by lra. eapply Rle_trans; [|exact F].
  destruct A as [a b c d]. cbn [m11 m12 m21 m22] in *. clear.
  pose proof (sq_nonneg (a - c)); pose proof (sq_nonneg (b - d)); pose proof (sq_nonneg (a + c)); pose proof (sq_nonneg (b + d)); pose proof (sq_nonneg a); pose proof (sq_nonneg b); pose proof (sq_nonneg c); pose proof (sq_nonneg d).
  unfold Rabs. destruct (Rcase_abs (a * c + b * d)); lra.
Qed.
Lemma svd2_tame M : tame M -> exists d0 d3 cu su cv sv, svd2 M = Some (d0, d3, rotation cu su, rotation cv sv) /\ 0 < d3 /\ d3 <= d0 /\
  cu * cu + su * su = 1 /\ cv * cv + sv * sv = 1 /\ M = product cu su d0 d3 cv sv.
Proof.
  intros T. destruct (svd2_ok M) as (d0 & d3 & U & V & E & (cu & su & -> & HU) & (cv & sv & -> & HV) & L & P & EM).
  { destruct T as [T _]. destruct M as [a b c d]. unfold det in T. cbn [m11 m12 m21 m22] in *. destruct (Req_EM_T a 0); [|auto]. right. intros ->. subst a. lra. }
  { now apply tame_balanced. }
  destruct T as [T _]. destruct (P (Rlt_le _ _ T)) as [P3 P0]. assert (D : d0 * d3 = det M) by (rewrite <- EM; symmetry; now apply product_det).
  exists d0, d3, cu, su, cv, sv. split; [exact E|]. rewrite !Rabs_right in L by lra. repeat split; auto; nra.
Qed.
Lemma rescaled_eq ref A d0 d3 cu su cv sv : svd2 A = Some (d0, d3, rotation cu su, rotation cv sv) -> d3 <= d0 ->
  rescaled ref A = Some (match ref with None => d3 | Some r => r end, let k := match ref with None => 1 | Some r => r / d3 end in product cu su (d0 * k) (d3 * k) 1 0,
    d0 * match ref with None => 1 | Some r => r / d3 end, d3 * match ref with None => 1 | Some r => r / d3 end).
Proof.
  intros E D. unfold rescaled. rewrite E. cbn [obind]. rewrite Rmin_right by auto. cbv zeta. f_equal. f_equal. f_equal. f_equal.
  rewrite product_eq. unfold rotation. cbn [m11 m12 m21 m22]. apply mat_eq; ring.
Qed.
Lemma anisotropic_false d0 d3 : 0 < d3 -> d3 <= d0 -> anisotropic d0 d3 = false -> d0 <= 5 * d3.
Proof.
  intros P L H. unfold anisotropic, max_anisotropy in H. apply ltb_false in H. pose proof (Rmax_l (d0 / d3) (d3 / d0)). assert (E : d0 / d3 <= 5) by lra.
  apply Rmult_le_compat_r with (r := d3) in E; [|lra]. replace (d0 / d3 * d3) with d0 in E by (field; lra). lra.
Qed.
Lemma anisotropic_true d0 d3 : 0 < d3 -> d3 <= d0 -> anisotropic d0 d3 = true -> 5 * d3 < d0.
Proof.
  intros P L H. unfold anisotropic, max_anisotropy in H. apply ltb_true in H. assert (A : d3 / d0 <= 1) by (apply Rmult_le_reg_r with d0; [lra|]; replace (d3 / d0 * d0) with d3 by (field; lra); lra).
  assert (E : 5 < d0 / d3) by (unfold Rmax in H; destruct (Rle_dec (d0 / d3) (d3 / d0)); lra).
  apply Rmult_lt_compat_r with (r := d3) in E; [|lra]. replace (d0 / d3 * d3) with d0 in E by (field; lra). lra.
Qed.
Lemma whitened_tame cu su d0 d3 M q0 q3 pc ps pc' ps' : cu * cu + su * su = 1 -> 0 < d3 -> d3 <= d0 -> d0 <= 5 * d3 -> tame M -> 0 < q3 -> q3 <= q0 ->
  pc * pc + ps * ps = 1 -> pc' * pc' + ps' * ps' = 1 -> M = product pc ps q0 q3 pc' ps' -> tame (whitened (product cu su d0 d3 1 0) (rotation pc ps) q0 q3).
Proof.
  intros U P3 L L5 T Q3 QL HP HP' EM. assert (F : q0 * q0 + q3 * q3 <= 2 ^ 52 * (q0 * q3)).
  { destruct T as [_ T]. rewrite EM in T. rewrite product_det in T by auto. rewrite product_eq in T. cbn [m11 m12 m21 m22] in T. eapply Rle_trans; [|exact T]. right.
    transitivity ((pc * pc + ps * ps) * (pc' * pc' + ps' * ps') * (q0 * q0 + q3 * q3)); [rewrite HP, HP'; ring|ring]. }
  assert (R0 : 0 < sqrt q0) by (apply sqrt_lt_R0; lra). assert (R3 : 0 < sqrt q3) by (apply sqrt_lt_R0; lra).
  pose proof (sqrt_sqrt q0 ltac:(lra)) as S0. pose proof (sqrt_sqrt q3 ltac:(lra)) as S3.
  unfold whitened. set (r0 := sqrt q0) in *. set (r3 := sqrt q3) in *. clearbody r0 r3. clear T EM.
  rewrite product_eq. unfold rotation. cbn [m11 m12 m21 m22].
  assert (DT : det (Mat (((cu * d0 * 1 + su * d3 * 0) * pc + (cu * d0 * 0 - su * d3 * 1) * ps) / r0) (((su * d0 * 1 - cu * d3 * 0) * pc + (su * d0 * 0 + cu * d3 * 1) * ps) / r0)
     (((cu * d0 * 1 + su * d3 * 0) * - ps + (cu * d0 * 0 - su * d3 * 1) * pc) / r3) (((su * d0 * 1 - cu * d3 * 0) * - ps + (su * d0 * 0 + cu * d3 * 1) * pc) / r3)) = d0 * d3 * / (r0 * r3)).
  { unfold det. cbn [m11 m12 m21 m22]. transitivity ((cu * cu + su * su) * (pc * pc + ps * ps) * (d0 * d3) * / (r0 * r3)); [field; lra|rewrite U, HP; ring]. }
  assert (IP : 0 < / (r0 * r3)) by (apply Rinv_0_lt_compat; nra).
  split; rewrite DT; [apply Rmult_lt_0_compat; nra|]. cbn [m11 m12 m21 m22].
  assert (N : 5 * (q0 + q3) <= 2 ^ 52 * (r0 * r3)).
  { apply sq_le; [apply Rmult_le_pos; [apply pow_le; lra|nra]|]. replace (2 ^ 52 * (r0 * r3) * (2 ^ 52 * (r0 * r3))) with (2 ^ 52 * 2 ^ 52 * (q0 * q3)) by (rewrite <- S0, <- S3; ring).
    assert (K : 1000 <= 2 ^ 52) by (change 52%nat with (10 + 42)%nat; rewrite pow_add; assert (1 <= 2 ^ 42) by (apply pow_R1_Rle; lra); lra).
    set (k := 2 ^ 52) in *. clearbody k. assert (G : 0 < q0 * q3) by nra. replace (5 * (q0 + q3) * (5 * (q0 + q3))) with (25 * (q0 * q0 + q3 * q3) + 50 * (q0 * q3)) by ring.
    apply Rle_trans with (25 * (k * (q0 * q3)) + 50 * (q0 * q3)); [lra|]. replace (25 * (k * (q0 * q3)) + 50 * (q0 * q3)) with ((25 * k + 50) * (q0 * q3)) by ring. apply Rmult_le_compat_r; nra. }
  apply Rle_trans with (d0 * d0 * (/ q0 + / q3)).
  - assert (W : forall a b r q, r * r = q -> 0 < r -> 0 < q -> a * a + b * b = 1 -> ((cu * d0 * a - su * d3 * b) / r) * ((cu * d0 * a - su * d3 * b) / r) + ((su * d0 * a + cu * d3 * b) / r) * ((su * d0 * a + cu * d3 * b) / r) <= d0 * d0 * / q).
    { intros a b r q E Hr Hq N1. assert (IQ : 0 < / q) by now apply Rinv_0_lt_compat.
      replace (((cu * d0 * a - su * d3 * b) / r) * ((cu * d0 * a - su * d3 * b) / r) + ((su * d0 * a + cu * d3 * b) / r) * ((su * d0 * a + cu * d3 * b) / r))
        with ((cu * cu + su * su) * (d0 * d0 * (a * a) + d3 * d3 * (b * b)) * / (r * r)) by (field; lra). rewrite U, E, Rmult_1_l. apply Rmult_le_compat_r; [lra|].
      apply (weigh (d0 * d0) (d3 * d3)); auto using sq_nonneg. apply sq_mono; lra. }
    pose proof (W pc ps r0 q0 S0 R0 ltac:(lra) HP) as W0. pose proof (W (- ps) pc r3 q3 S3 R3 ltac:(lra) ltac:(lra)) as W3. rewrite Rmult_plus_distr_l.
    eapply Rle_trans; [|apply Rplus_le_compat; [exact W0|exact W3]]. right. unfold Rdiv. ring.
  - replace (/ q0 + / q3) with ((q0 + q3) * / (r0 * r3) * / (r0 * r3)) by (rewrite <- S0, <- S3; field; lra).
    replace (2 ^ 52 * (d0 * d3 * / (r0 * r3))) with ((2 ^ 52 * (r0 * r3)) * (d0 * d3) * / (r0 * r3) * / (r0 * r3)) by (field; lra). rewrite <- !Rmult_assoc. apply Rmult_le_compat_r; [lra|]. apply Rmult_le_compat_r; [lra|].
    apply Rle_trans with (5 * (q0 + q3) * (d0 * d3)); [|rewrite <- Rmult_assoc; apply Rmult_le_compat_r with (r := d0 * d3) in N; [lra|nra]].
    replace (d0 * d0 * (q0 + q3)) with ((q0 + q3) * (d0 * d0)) by ring. replace (5 * (q0 + q3) * (d0 * d3)) with ((q0 + q3) * (d0 * (5 * d3))) by ring. apply Rmult_le_compat_l; nra.
Qed.
Lemma eqb_neq a b : a <> b -> eqb a b = false.
Proof. intros H. unfold eqb. destruct (Req_EM_T a b); [contradiction|auto]. Qed.
Lemma eqb_same a : eqb a a = true.
Proof. unfold eqb. destruct (Req_EM_T a a); [auto|contradiction]. Qed.
Section Adapt.
Variable moments : mat -> R -> R -> option mat.
Variable frame : mat.
Variable m : R.
Hypothesis tame_moments : forall A d0 d3 M, moments A d0 d3 = Some M -> tame M \/ m11 M = 0 \/ m22 M = 0.
Definition good (A : mat) : Prop := A = frame \/ (smallest A m /\ exists n, largest A n /\ n <= 5 * m).
Lemma adapt_ok fuel : forall iter ref A adapted, (fuel + iter = 16)%nat -> (iter <= 14)%nat -> tame A -> 0 < m -> (ref = None /\ smallest A m \/ ref = Some m) -> good adapted ->
  exists r, adapt moments frame fuel iter ref A adapted = Some r /\ (r = Failed \/ exists A', r = Adapted A' /\ good A').
Proof.
  induction fuel as [|fuel IH]; intros iter ref A adapted EF LI T Pm HR G; [lia|]. cbn [adapt].
  destruct (svd2_tame A T) as (d0 & d3 & cu & su & cv & sv & E & P3 & L & HU & HV & EA). rewrite (rescaled_eq ref A _ _ _ _ _ _ E L). rewrite E. cbn [obind].
  rewrite !eqb_neq by lra. cbn [orb]. destruct (anisotropic d0 d3) eqn:AN; [eexists; split; [reflexivity|]; right; eauto|]. apply anisotropic_false in AN; auto.
  set (k := match ref with None => 1 | Some r => r / d3 end). cbv zeta.
  assert (K : d3 * k = m /\ 0 < k /\ (match ref with None => d3 | Some r => r end) = m).
  { destruct HR as [[HR S]|HR]; subst ref; unfold k.
    - assert (S' : smallest A d3) by (rewrite EA; apply product_sizes; auto; lra). rewrite (smallest_unique _ _ _ S S'). split; [lra|split; lra].
    - split; [field; lra|]. split; [|reflexivity]. apply Rmult_lt_0_compat; [lra|now apply Rinv_0_lt_compat]. }
  destruct K as (K & KP & KR). clearbody k. rewrite KR. clear KR. assert (D : 0 < d3 * k /\ d3 * k <= d0 * k /\ d0 * k <= 5 * (d3 * k)) by (repeat split; nra).
  set (B := product cu su (d0 * k) (d3 * k) 1 0).
  assert (GB : good B) by (right; destruct (product_sizes cu su (d0 * k) (d3 * k) 1 0 HU ltac:(lra) ltac:(lra)) as [S1 S2]; split; [rewrite <- K; exact S1|exists (d0 * k); split; [exact S2|lra]]).
  destruct (max_iterations <=? S iter)%nat eqn:MI; [eexists; split; [reflexivity|]; right; eauto|]. apply Nat.leb_gt in MI. unfold max_iterations in MI.
  destruct (moments B (d0 * k) (d3 * k)) as [M|] eqn:EM; [|eexists; split; [reflexivity|]; now left].
  destruct (eqb (m11 M) 0 || eqb (m22 M) 0) eqn:Z; [eexists; split; [reflexivity|]; right; exists frame; split; [auto|now left]|].
  apply orb_false_iff in Z. destruct Z as [Z1 Z2]. apply eqb_false in Z1. apply eqb_false in Z2. destruct (tame_moments _ _ _ _ EM) as [TM|[Z|Z]]; [|contradiction|contradiction].
  destruct (svd2_tame M TM) as (q0 & q3 & pc & ps & pc' & ps' & EQ & Q3 & QL & HP & HP' & EMM). rewrite EQ. cbn [obind]. rewrite !eqb_neq by lra. cbn [orb].
  destruct (converged q0 q3); [eexists; split; [reflexivity|]; right; eauto|].
  rewrite (proj2 (ltb_false q0 0)), (proj2 (ltb_false q3 0)) by lra. cbn [orb]. apply IH; auto; try lia. unfold B. eapply whitened_tame; eauto; lra.
Qed.
End Adapt.

Lemma smallest_ext A B m : (forall x y, length2 (apply A x y) = length2 (apply B x y)) -> smallest A m -> smallest B m.
Proof. intros E (P & L & x & y & U & H). split; [auto|]. split; [intros; rewrite <- E; auto|exists x, y; now rewrite <- E]. Qed.
Lemma smallest_turn A c s m : c * c + s * s = 1 -> smallest A m -> smallest (mul A (rotation c s)) m.
Proof.
  intros U (P & L & x & y & N & H). split; [auto|].
  assert (EQ : forall x y, apply (mul A (rotation c s)) x y = apply A (c * x - s * y) (s * x + c * y)) by (intros; unfold apply, mul, rotation; cbn [m11 m12 m21 m22]; f_equal; ring). split.
  - intros a b N'. rewrite EQ. apply L. transitivity ((c * c + s * s) * (a * a + b * b)); [ring|rewrite U, N'; ring].
  - exists (c * x + s * y), (c * y - s * x). split; [transitivity ((c * c + s * s) * (x * x + y * y)); [ring|rewrite U, N; ring]|]. rewrite EQ, <- H. f_equal. f_equal.
    + transitivity ((c * c + s * s) * x); [ring|rewrite U; ring].
    + transitivity ((c * c + s * s) * y); [ring|rewrite U; ring].
Qed.
Lemma largest_turn A c s m : c * c + s * s = 1 -> largest A m -> largest (mul A (rotation c s)) m.
Proof.
  intros U (P & L & x & y & N & H). split; [auto|].
  assert (EQ : forall x y, apply (mul A (rotation c s)) x y = apply A (c * x - s * y) (s * x + c * y)) by (intros; unfold apply, mul, rotation; cbn [m11 m12 m21 m22]; f_equal; ring). split.
  - intros a b N'. rewrite EQ. apply L. transitivity ((c * c + s * s) * (a * a + b * b)); [ring|rewrite U, N'; ring].
  - exists (c * x + s * y), (c * y - s * x). split; [transitivity ((c * c + s * s) * (x * x + y * y)); [ring|rewrite U, N; ring]|]. rewrite EQ, <- H. f_equal. f_equal.
    + transitivity ((c * c + s * s) * x); [ring|rewrite U; ring].
    + transitivity ((c * c + s * s) * y); [ring|rewrite U; ring].
Qed.
Lemma upright_turn atan2 t x A : exists c s, c * c + s * s = 1 /\ upright atan2 t x A = mul A (rotation c s).
Proof.
  exists (cos (atan2 (snd x) (fst x) - atan2 (snd (axis t)) (fst (axis t)))), (sin (atan2 (snd x) (fst x) - atan2 (snd (axis t)) (fst (axis t)))).
  split; [pose proof (sin2_cos2 (atan2 (snd x) (fst x) - atan2 (snd (axis t)) (fst (axis t)))) as S; unfold Rsqr in S; lra|].
  unfold upright, axis. destruct t; cbn [fst snd]; unfold mul, rotation; cbn [m11 m12 m21 m22]; apply mat_eq; ring.
Qed.
Lemma upright_axis atan2 t x A : direction atan2 -> apply A (fst x) (snd x) = axis t ->
  exists k, 0 < k /\ apply (upright atan2 t x A) (fst (axis t)) (snd (axis t)) = (k * fst (axis t), k * snd (axis t)).
Proof.
  intros D E. destruct x as [x y]. unfold upright. cbn [fst snd] in *.
  assert (N : x <> 0 \/ y <> 0). { destruct (Req_EM_T x 0); [|auto]. right. intros ->. subst x. unfold apply in E. rewrite !Rmult_0_r, !Rplus_0_r in E. destruct t; injection E; lra. }
  assert (PN : 0 < x * x + y * y) by (destruct N; nra). destruct (D x y N) as [HX HY]. set (r := sqrt (x * x + y * y)) in *. assert (PR : 0 < r) by now apply sqrt_lt_R0. clearbody r.
  set (a := atan2 y x) in *. clearbody a. exists (/ r). split; [now apply Rinv_0_lt_compat|].
  assert (CA : cos a = / r * x) by (rewrite HX; field; lra). assert (SA : sin a = / r * y) by (rewrite HY; field; lra).
  unfold apply in E. unfold axis in *. destruct t; cbn [fst snd] in *.
  - destruct (D 1 0 ltac:(lra)) as [H1 H0]. replace (1 * 1 + 0 * 0) with 1 in H1, H0 by ring. rewrite sqrt_1, Rmult_1_l in H1, H0. set (b := atan2 0 1) in *. clearbody b.
    rewrite cos_minus, sin_minus, <- H1, <- H0, CA, SA. unfold apply. cbn [m11 m12 m21 m22]. injection E as E1 E2. f_equal.
    + transitivity (/ r * (m11 A * x + m12 A * y)); [ring|rewrite E1; ring].
    + transitivity (/ r * (m21 A * x + m22 A * y)); [ring|rewrite E2; ring].
  - destruct (D 0 1 ltac:(lra)) as [H1 H0]. replace (0 * 0 + 1 * 1) with 1 in H1, H0 by ring. rewrite sqrt_1, Rmult_1_l in H1, H0. set (b := atan2 1 0) in *. clearbody b.
    rewrite cos_minus, sin_minus, <- H1, <- H0, CA, SA. unfold apply. cbn [m11 m12 m21 m22]. injection E as E1 E2. f_equal.
    + transitivity (/ r * (m11 A * x + m12 A * y)); [ring|rewrite E1; ring].
    + transitivity (/ r * (m21 A * x + m22 A * y)); [ring|rewrite E2; ring].
Qed.
Lemma symmetric_dec pc ps q0 q3 pc' ps' : pc * pc + ps * ps = 1 -> pc' * pc' + ps' * ps' = 1 -> 0 < q3 -> q3 <= q0 ->
  symmetric (product pc ps q0 q3 pc' ps') -> 0 < m11 (product pc ps q0 q3 pc' ps') -> pc' = pc /\ ps' = ps.
Proof.
  intros HP HP' Q3 QL S T. pose proof (product_det pc ps q0 q3 pc' ps' HP HP') as D. rewrite product_eq in *. unfold symmetric, det in *. cbn [m11 m12 m21 m22] in *.
  assert (Z : pc * ps' - ps * pc' = 0). { assert (E : (q0 + q3) * (pc * ps' - ps * pc') = 0) by lra. apply Rmult_integral in E. destruct E; lra. }
  assert (T2 : 0 < (ps * q0 * ps' + pc * q3 * pc')). { assert (0 < q0 * q3) by nra. rewrite S in D. set (u := pc * q0 * pc' + ps * q3 * ps') in *. set (v := ps * q0 * ps' + pc * q3 * pc') in *. set (w := ps * q0 * pc' - pc * q3 * ps') in *. clearbody u v w. pose proof (sq_nonneg w). destruct (Rlt_dec 0 v); [auto|]. assert (u * v <= 0) by nra. lra. }
  assert (C : 0 < pc * pc' + ps * ps'). { assert (E : (q0 + q3) * (pc * pc' + ps * ps') > 0) by lra. destruct (Rlt_dec 0 (pc * pc' + ps * ps')); [auto|]. nra. }
  assert (C1 : pc * pc' + ps * ps' = 1). { apply sq_inj; [lra|lra|]. transitivity ((pc * pc + ps * ps) * (pc' * pc' + ps' * ps') - (pc * ps' - ps * pc') * (pc * ps' - ps * pc')); [ring|rewrite HP, HP', Z; ring]. }
  split.
  - transitivity ((pc * pc + ps * ps) * pc'); [rewrite HP; ring|]. transitivity (pc * (pc * pc' + ps * ps') - ps * (pc * ps' - ps * pc')); [ring|rewrite C1, Z; ring].
  - transitivity ((pc * pc + ps * ps) * ps'); [rewrite HP; ring|]. transitivity (ps * (pc * pc' + ps * ps') + pc * (pc * ps' - ps * pc')); [ring|rewrite C1, Z; ring].
Qed.
Lemma seen_mul N A B : seen N (mul A B) = seen (seen N A) B.
Proof. unfold seen, mul, transpose. cbn [m11 m12 m21 m22]. apply mat_eq; ring. Qed.
Lemma seen_product pc ps q0 q3 a b : pc * pc + ps * ps = 1 -> seen (product pc ps q0 q3 pc ps) (Mat (pc * a) (ps * a) (- ps * b) (pc * b)) = Mat (q0 * (a * a)) 0 0 (q3 * (b * b)).
Proof.
  intros H. rewrite product_eq. unfold seen, mul, transpose. cbn [m11 m12 m21 m22]. apply mat_eq.
  - transitivity ((pc * pc + ps * ps) * (pc * pc + ps * ps) * (q0 * (a * a))); [ring|rewrite H; ring].
  - ring.
  - ring.
  - transitivity ((pc * pc + ps * ps) * (pc * pc + ps * ps) * (q3 * (b * b))); [ring|rewrite H; ring].
Qed.
Lemma whitened_seen N A pc ps q0 q3 : pc * pc + ps * ps = 1 -> 0 < q0 -> 0 < q3 -> seen N A = product pc ps q0 q3 pc ps -> seen N (whitened A (rotation pc ps) q0 q3) = Mat 1 0 0 1.
Proof.
  intros H P0 P3 E. assert (R0 : 0 < sqrt q0) by (apply sqrt_lt_R0; lra). assert (R3 : 0 < sqrt q3) by (apply sqrt_lt_R0; lra).
  pose proof (sqrt_sqrt q0 ltac:(lra)) as S0. pose proof (sqrt_sqrt q3 ltac:(lra)) as S3.
  replace (whitened A (rotation pc ps) q0 q3) with (mul A (Mat (pc * / sqrt q0) (ps * / sqrt q0) (- ps * / sqrt q3) (pc * / sqrt q3))).
  2:{ unfold whitened, mul, rotation. cbn [m11 m12 m21 m22]. apply mat_eq; field; lra. }
  rewrite seen_mul, E, seen_product by auto. apply mat_eq; auto.
  - rewrite <- S0 at 1. field. lra.
  - rewrite <- S3 at 1. field. lra.
Qed.
Lemma product_gram cu su d0 d3 cv sv : cv * cv + sv * sv = 1 -> gram (product cu su d0 d3 cv sv) = gram (product cu su d0 d3 1 0).
Proof.
  intros H. rewrite !product_eq. unfold gram, mul, transpose. cbn [m11 m12 m21 m22]. apply mat_eq.
  - transitivity ((cv * cv + sv * sv) * (cu * cu * (d0 * d0) + su * su * (d3 * d3))); [ring|rewrite H; ring].
  - transitivity ((cv * cv + sv * sv) * (cu * su * (d0 * d0) - su * cu * (d3 * d3))); [ring|rewrite H; ring].
  - transitivity ((cv * cv + sv * sv) * (cu * su * (d0 * d0) - su * cu * (d3 * d3))); [ring|rewrite H; ring].
  - transitivity ((cv * cv + sv * sv) * (su * su * (d0 * d0) + cu * cu * (d3 * d3))); [ring|rewrite H; ring].
Qed.
Lemma not_within A d0 d3 : smallest A d3 -> largest A d0 -> 5 * d3 < d0 -> ~ anisotropy_within 5 A.
Proof. intros S L H (m & n & S' & L' & E). rewrite (smallest_unique _ _ _ S' S), (largest_unique _ _ _ L' L) in E. lra. Qed.
Lemma within_product t cu su d0 d3 cv sv : cu * cu + su * su = 1 -> cv * cv + sv * sv = 1 -> 0 < d3 -> d3 <= d0 -> d0 / d3 <= t -> anisotropy_within t (product cu su d0 d3 cv sv).
Proof.
  intros U V P L H. destruct (product_sizes cu su d0 d3 cv sv U V ltac:(lra)) as [A B]. exists d3, d0. split; [auto|split; [auto|]].
  apply Rmult_le_compat_r with (r := d3) in H; [|lra]. replace (d0 / d3 * d3) with d0 in H by (field; lra). lra.
Qed.
Section Converge.
Variable N frame : mat.
Hypothesis frame_tame : tame frame.
Hypothesis seen_tame : forall A, gram A = gram frame -> tame (seen N A) /\ symmetric (seen N A) /\ 0 < m11 (seen N A).
Lemma diagonal_tame k : 0 < k -> tame (Mat k 0 0 k).
Proof. intros P. unfold tame, det. cbn [m11 m12 m21 m22]. assert (1024 <= 2 ^ 52) by (change 52%nat with (10 + 42)%nat; rewrite pow_add; assert (1 <= 2 ^ 42) by (apply pow_R1_Rle; lra); lra). set (K := 2 ^ 52) in *. clearbody K. split; nra. Qed.
Lemma adapt_seen : exists A', adapt (fun A _ _ => Some (seen N A)) frame 16 0 None frame frame = Some (Adapted A') /\
  (anisotropy_within threshold (seen N A') \/
   (gram A' = gram frame /\ (~ anisotropy_within 5 frame \/ exists B, seen N B = Mat 1 0 0 1 /\ ~ anisotropy_within 5 B))).
Proof.
  destruct (svd2_tame frame frame_tame) as (d0 & d3 & cu & su & cv & sv & E & P3 & L & HU & HV & EA).
  assert (SL : smallest frame d3 /\ largest frame d0) by (rewrite EA; apply product_sizes; auto; lra).
  remember 14%nat as fuel. cbn [adapt]. rewrite (rescaled_eq None frame _ _ _ _ _ _ E L), E. cbn [obind]. rewrite !eqb_neq by lra. cbn [orb]. cbv zeta.
  destruct (anisotropic d0 d3) eqn:AN.
  { apply anisotropic_true in AN; auto. exists frame. split; [reflexivity|]. right. split; [reflexivity|]. left. now apply (not_within frame d0 d3). }
  apply anisotropic_false in AN; auto. rewrite !Rmult_1_r. change (max_iterations <=? 1)%nat with false. cbv match.
  set (B := product cu su d0 d3 1 0). assert (GB : gram B = gram frame) by (rewrite EA; symmetry; now apply product_gram).
  destruct (seen_tame B GB) as (TM & SM & PM). assert (PM2 : 0 < m22 (seen N B)).
  { destruct TM as [TM _]. unfold det in TM. rewrite SM in TM. pose proof (sq_nonneg (m21 (seen N B))). destruct (Rlt_dec 0 (m22 (seen N B))); [auto|]. assert (m11 (seen N B) * m22 (seen N B) <= 0) by nra. lra. }
  destruct (svd2_tame (seen N B) TM) as (q0 & q3 & pc & ps & pc' & ps' & EQ & Q3 & QL & HP & HP' & EMM). rewrite EQ. cbn [obind]. rewrite !eqb_neq by lra. cbn [orb].
  assert (pc' = pc /\ ps' = ps) as [-> ->] by (apply (symmetric_dec pc ps q0 q3); auto; rewrite <- EMM; auto).
  destruct (converged q0 q3) eqn:CV.
  { exists B. split; [reflexivity|]. left. rewrite EMM. apply within_product; auto. apply andb_true_iff in CV. destruct CV as [_ CV]. apply ltb_true in CV. lra. }
  rewrite (proj2 (ltb_false q0 0)), (proj2 (ltb_false q3 0)) by lra. cbn [orb].
  assert (TA : tame (whitened B (rotation pc ps) q0 q3)) by (unfold B; eapply whitened_tame; eauto; lra).
  pose proof (whitened_seen N B pc ps q0 q3 HP ltac:(lra) Q3 EMM) as W. set (C := whitened B (rotation pc ps) q0 q3) in *. clearbody C. clear EQ EMM TM SM PM PM2 CV q0 q3 QL Q3 pc ps HP HP'.
  destruct (svd2_tame C TA) as (e0 & e3 & cu' & su' & cv' & sv' & EC & PE3 & LE & HU' & HV' & EAC).
  subst fuel. cbn [adapt]. rewrite (rescaled_eq (Some d3) C _ _ _ _ _ _ EC LE), EC. cbn [obind]. rewrite !eqb_neq by lra. cbn [orb]. cbv zeta.
  destruct (anisotropic e0 e3) eqn:AN'.
  { apply anisotropic_true in AN'; auto. exists B. split; [reflexivity|]. right. split; [exact GB|]. right. exists C. split; [exact W|]. apply (not_within C e0 e3); [| |exact AN']; rewrite EAC; apply product_sizes; auto; lra. }
  apply anisotropic_false in AN'; auto. change (max_iterations <=? 2)%nat with false. cbv match. set (k := d3 / e3).
  assert (KP : 0 < k) by (apply Rmult_lt_0_compat; [auto|now apply Rinv_0_lt_compat]). clearbody k.
  assert (SD : seen N (product cu' su' (e0 * k) (e3 * k) 1 0) = Mat (k * k) 0 0 (k * k)).
  { replace (product cu' su' (e0 * k) (e3 * k) 1 0) with (mul C (Mat (cv' * k) (sv' * k) (- sv' * k) (cv' * k))).
    - rewrite seen_mul, W. unfold seen, mul, transpose. cbn [m11 m12 m21 m22]. apply mat_eq; try ring; (transitivity ((cv' * cv' + sv' * sv') * (k * k)); [ring|rewrite HV'; ring]).
    - rewrite EAC, !product_eq. unfold mul. cbn [m11 m12 m21 m22]. apply mat_eq.
      + transitivity ((cv' * cv' + sv' * sv') * (cu' * (e0 * k))); [ring|rewrite HV'; ring].
      + transitivity ((cv' * cv' + sv' * sv') * (su' * (e0 * k))); [ring|rewrite HV'; ring].
      + transitivity ((cv' * cv' + sv' * sv') * (- su' * (e3 * k))); [ring|rewrite HV'; ring].
      + transitivity ((cv' * cv' + sv' * sv') * (cu' * (e3 * k))); [ring|rewrite HV'; ring]. }
  rewrite SD. cbn [m11 m22]. assert (K2 : 0 < k * k) by nra. rewrite !eqb_neq by lra. cbn [orb].
  destruct (svd2_tame _ (diagonal_tame _ K2)) as (q0 & q3 & pc & ps & pc' & ps' & EQ & Q3 & QL & HP & HP' & EMM). rewrite EQ. cbn [obind]. rewrite !eqb_neq by lra. cbn [orb].
  destruct (product_sizes pc ps q0 q3 pc' ps' HP HP' ltac:(lra)) as [S1 S2]. rewrite <- EMM in S1, S2.
  assert (DS : smallest (Mat (k * k) 0 0 (k * k)) (k * k) /\ largest (Mat (k * k) 0 0 (k * k)) (k * k)).
  { set (j := k * k) in *. clearbody j. assert (Z : forall x y, x * x + y * y = 1 -> length2 (apply (Mat j 0 0 j) x y) = j * j).
    { intros x y U. unfold length2, apply. cbn [m11 m12 m21 m22 fst snd]. transitivity (j * j * (x * x + y * y)); [ring|rewrite U; ring]. }
    split; (split; [lra|]); (split; [intros x y U; rewrite Z by auto; lra|exists 1, 0; split; [lra|apply Z; lra]]). }
  destruct DS as [D1 D2]. rewrite (smallest_unique _ _ _ S1 D1) in *. rewrite (largest_unique _ _ _ S2 D2) in *.
  assert (CV : converged (k * k) (k * k) = true). { unfold converged. replace (k * k / (k * k)) with 1 by (field; lra). unfold threshold. rewrite (proj2 (ltb_true 1 (1001 / 1000))) by lra. reflexivity. }
  rewrite CV. eexists. split; [reflexivity|]. left. rewrite SD. exists (k * k), (k * k). split; [auto|split; [auto|]]. unfold threshold. nra.
Qed.
End Converge.
