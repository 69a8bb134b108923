(** Every rotation has an axis and an angle; the inverse formula on every rotation. *)
From Coq Require Import List Arith Bool Reals Lra Lia.
Import ListNotations.
From Verif Require Import Rodrigues_Model Rodrigues_Spec Rodrigues_Proofs.
Local Open Scope R_scope.

(** *** Near pi *)
Lemma signed_abs k q x y : 0 < k -> x <> 0 -> signed (k * (x * y)) (q * Rabs y) = q * (x / Rabs x * y).
Proof.
  intros Hk Hx. unfold signed.
  destruct (Rlt_le_dec x 0) as [X|X]; [rewrite (Rabs_left x) by lra|rewrite (Rabs_right x) by lra; assert (0 < x) by lra];
    (destruct (Rlt_le_dec y 0) as [Y|Y]; [rewrite (Rabs_left y) by lra|rewrite (Rabs_right y) by lra]).
  - rewrite (proj2 (geb_true _ _)) by (assert (0 < x * y) by nra; nra). field. lra.
  - destruct (Req_dec y 0) as [->|]; [destruct (geb _ _); field; lra|].
    rewrite (proj2 (geb_false _ _)) by (assert (x * y < 0) by nra; nra). field. lra.
  - rewrite (proj2 (geb_false _ _)) by (assert (x * y < 0) by nra; nra). field. lra.
  - rewrite (proj2 (geb_true _ _)) by (assert (0 <= x * y) by nra; nra). field. lra.
Qed.
Lemma sign_one x : x <> 0 -> x / Rabs x = 1 \/ x / Rabs x = -1.
Proof.
  intros Hx. destruct (Rlt_le_dec x 0) as [X|X]; [rewrite (Rabs_left x) by lra; right|rewrite (Rabs_right x) by lra; left]; field; lra.
Qed.
Lemma abs_sign x : x <> 0 -> Rabs x = x / Rabs x * x.
Proof.
  intros Hx. destruct (Rlt_le_dec x 0) as [X|X]; [rewrite (Rabs_left x) by lra|rewrite (Rabs_right x) by lra]; field; lra.
Qed.
Lemma abs_zero x : Rabs x <= 0 -> x = 0.
Proof. intros H. destruct (Req_dec x 0); [assumption|]. pose proof (Rabs_pos_lt x H0). lra. Qed.

Lemma matrix_near_pi x y z t : x * x + y * y + z * z = 1 -> 0 <= t <= PI -> sin t < small -> cos t < 0 ->
  exists e, (e = 1 \/ e = -1) /\ irodrigues (matrix x y z (sin t) (cos t)) = (t * (e * x), t * (e * y), t * (e * z)).
Proof.
  intros U Ht Hs Hc. pose proof small_pos as P.
  assert (S0 : 0 <= sin t) by (apply sin_ge_0; lra).
  unfold irodrigues, singular. rewrite iangle_matrix by assumption. rewrite Rabs_right by lra.
  rewrite (proj2 (ltb_true (sin t) small)) by exact Hs. rewrite (proj2 (ltb_true (cos t) 0)) by exact Hc. cbn [andb].
  unfold at3, matrix. cbn [List.nth Nat.add Nat.mul Nat.eqb].
  set (c := cos t) in *. set (s := sin t) in *. set (q := sqrt (1 - c)).
  assert (Q : 0 < q) by (apply sqrt_lt_R0; lra).
  assert (QQ : forall v, sqrt ((1 - c) * (v * v)) = q * Rabs v).
  { intros v. rewrite sqrt_mult by nra. f_equal. rewrite <- (sqrt_Rsqr_abs v). reflexivity. }
  match goal with |- context [sqrt (1 / 2 * ?e)] => replace (1 / 2 * e) with ((1 - c) * (x * x)) by (field_simplify; lra) end.
  match goal with |- context [sqrt (1 / 2 * ?e)] => replace (1 / 2 * e) with ((1 - c) * (y * y)) by (field_simplify; lra) end.
  match goal with |- context [sqrt (1 / 2 * ?e)] => replace (1 / 2 * e) with ((1 - c) * (z * z)) by (field_simplify; lra) end.
  rewrite !QQ.
  replace (1 / 2 * (s * z + (1 - c) * (x * y) + (- s * z + (1 - c) * (x * y))) - 0) with ((1 - c) * (x * y)) by field.
  replace (1 / 2 * (- s * y + (1 - c) * (x * z) + (s * y + (1 - c) * (x * z))) - 0) with ((1 - c) * (x * z)) by field.
  replace (1 / 2 * (s * x + (1 - c) * (y * z) + (- s * x + (1 - c) * (y * z))) - 0) with ((1 - c) * (y * z)) by field.
  assert (K : 0 < 1 - c) by lra.
  destruct (geb (q * Rabs x) (q * Rabs y) && geb (q * Rabs x) (q * Rabs z)) eqn:G1;
    [|destruct (geb (q * Rabs y) (q * Rabs x) && geb (q * Rabs y) (q * Rabs z)) eqn:G2].
  - apply andb_prop in G1. destruct G1 as [A B]. apply geb_true in A, B. apply Rmult_le_reg_l in A, B; try lra.
    assert (X : x <> 0).
    { intros ->. rewrite Rabs_R0 in A, B. apply abs_zero in A, B. subst. lra. }
    exists (x / Rabs x). split; [apply sign_one; exact X|]. rewrite !signed_abs by assumption. rewrite (abs_sign x X) at 1.
    f_equal; [f_equal|]; field; (split; [apply Rabs_no_R0; exact X|lra]).
  - apply andb_prop in G2. destruct G2 as [A B]. apply geb_true in A, B. apply Rmult_le_reg_l in A, B; try lra.
    assert (X : y <> 0).
    { intros ->. rewrite Rabs_R0 in A, B. apply abs_zero in A, B. subst. lra. }
    exists (y / Rabs y). split; [apply sign_one; exact X|]. rewrite (Rmult_comm x y). rewrite !signed_abs by assumption. rewrite (abs_sign y X) at 2.
    f_equal; [f_equal|]; field; (split; [apply Rabs_no_R0; exact X|lra]).
  - assert (X : z <> 0).
    { intros ->. rewrite Rabs_R0 in G1, G2. apply andb_false_iff in G1, G2. rewrite !geb_false in G1, G2.
      pose proof (Rabs_pos x). pose proof (Rabs_pos y). nra. }
    exists (z / Rabs z). split; [apply sign_one; exact X|]. rewrite (Rmult_comm x z), (Rmult_comm y z). rewrite !signed_abs by assumption. rewrite (abs_sign z X) at 3.
    f_equal; [f_equal|]; field; (split; [apply Rabs_no_R0; exact X|lra]).
Qed.
Lemma irodrigues_near_pi om : small <= norm om -> norm om <= PI -> sin (norm om) < small -> cos (norm om) < 0 ->
  irodrigues (rodrigues om) = om \/ irodrigues (rodrigues om) = scale (-1) om.
Proof.
  intros H1 H2 H3 H4. pose proof small_pos. destruct om as [[a b] c]. rewrite rodrigues_big by exact H1. set (n := norm (a, b, c)) in *.
  destruct (matrix_near_pi (a / n) (b / n) (c / n) n) as (e & [-> | ->] & E); [apply unit_axis; fold n; lra|lra|exact H3|exact H4| |];
    rewrite E; [left|right]; unfold scale; (f_equal; [f_equal|]; field; lra).
Qed.

(** *** Rotations *)
Lemma squares_zero a b c : a * a + b * b + c * c = 0 -> a = 0 /\ b = 0 /\ c = 0.
Proof. intros H. repeat split; nra. Qed.
Lemma square_diff a b : (a - b) * (a - b) = 0 -> a = b.
Proof. intros H. apply Rmult_integral in H. lra. Qed.
(** the third of three orthonormal columns is the vector product of the others *)
Lemma third u0 u1 u2 v0 v1 v2 w0 w1 w2 :
  u0 * u0 + u1 * u1 + u2 * u2 = 1 -> v0 * v0 + v1 * v1 + v2 * v2 = 1 -> w0 * w0 + w1 * w1 + w2 * w2 = 1 ->
  u0 * v0 + u1 * v1 + u2 * v2 = 0 ->
  w0 * (u1 * v2 - u2 * v1) + w1 * (u2 * v0 - u0 * v2) + w2 * (u0 * v1 - u1 * v0) = 1 ->
  w0 = u1 * v2 - u2 * v1 /\ w1 = u2 * v0 - u0 * v2 /\ w2 = u0 * v1 - u1 * v0.
Proof.
  intros U V W O D.
  destruct (squares_zero (w0 - (u1 * v2 - u2 * v1)) (w1 - (u2 * v0 - u0 * v2)) (w2 - (u0 * v1 - u1 * v0))) as (A & B & C).
  { transitivity ((w0 * w0 + w1 * w1 + w2 * w2) + ((u0 * u0 + u1 * u1 + u2 * u2) * (v0 * v0 + v1 * v1 + v2 * v2) - (u0 * v0 + u1 * v1 + u2 * v2) * (u0 * v0 + u1 * v1 + u2 * v2))
      - 2 * (w0 * (u1 * v2 - u2 * v1) + w1 * (u2 * v0 - u0 * v2) + w2 * (u0 * v1 - u1 * v0))); [ring|].
    rewrite U, V, W, O, D. ring. }
  lra.
Qed.

Section Rotation.
Variables a d g b e h c f i : R.   (* the columns (a, d, g), (b, e, h), (c, f, i) *)
Hypothesis aa : a * a + d * d + g * g = 1.
Hypothesis bb : b * b + e * e + h * h = 1.
Hypothesis cc : c * c + f * f + i * i = 1.
Hypothesis ab : a * b + d * e + g * h = 0.
Hypothesis ac : a * c + d * f + g * i = 0.
Hypothesis bc : b * c + e * f + h * i = 0.
Hypothesis dt : a * (e * i - f * h) - b * (d * i - f * g) + c * (d * h - e * g) = 1.

Lemma cofactors :
  (c = d * h - g * e /\ f = g * b - a * h /\ i = a * e - d * b) /\
  (a = e * i - h * f /\ d = h * c - b * i /\ g = b * f - e * c) /\
  (b = f * g - i * d /\ e = i * a - c * g /\ h = c * d - f * a).
Proof.
  split; [|split]; apply third; lra.
Qed.
Lemma rows :
  a * a + b * b + c * c = 1 /\ d * d + e * e + f * f = 1 /\ g * g + h * h + i * i = 1 /\
  a * d + b * e + c * f = 0 /\ a * g + b * h + c * i = 0 /\ d * g + e * h + f * i = 0.
Proof.
  destruct cofactors as ((Ec & Ef & Ei) & (Ea & Ed & Eg) & (Eb & Ee & Eh)). clear aa bb cc ab ac bc.
  repeat split.
  - rewrite <- dt. replace (a * a) with (a * (e * i - h * f)) by (rewrite <- Ea; reflexivity).
    replace (b * b) with (b * (f * g - i * d)) by (rewrite <- Eb; reflexivity).
    replace (c * c) with (c * (d * h - g * e)) by (rewrite <- Ec; reflexivity). ring.
  - rewrite <- dt. replace (d * d) with (d * (h * c - b * i)) by (rewrite <- Ed; reflexivity).
    replace (e * e) with (e * (i * a - c * g)) by (rewrite <- Ee; reflexivity).
    replace (f * f) with (f * (g * b - a * h)) by (rewrite <- Ef; reflexivity). ring.
  - rewrite <- dt. replace (g * g) with (g * (b * f - e * c)) by (rewrite <- Eg; reflexivity).
    replace (h * h) with (h * (c * d - f * a)) by (rewrite <- Eh; reflexivity).
    replace (i * i) with (i * (a * e - d * b)) by (rewrite <- Ei; reflexivity). ring.
  - replace (a * d) with (a * (h * c - b * i)) by (rewrite <- Ed; reflexivity).
    replace (b * e) with (b * (i * a - c * g)) by (rewrite <- Ee; reflexivity).
    replace (c * f) with (c * (g * b - a * h)) by (rewrite <- Ef; reflexivity). ring.
  - replace (a * g) with (a * (b * f - e * c)) by (rewrite <- Eg; reflexivity).
    replace (b * h) with (b * (c * d - f * a)) by (rewrite <- Eh; reflexivity).
    replace (c * i) with (c * (a * e - d * b)) by (rewrite <- Ei; reflexivity). ring.
  - replace (d * g) with (d * (b * f - e * c)) by (rewrite <- Eg; reflexivity).
    replace (e * h) with (e * (c * d - f * a)) by (rewrite <- Eh; reflexivity).
    replace (f * i) with (f * (a * e - d * b)) by (rewrite <- Ei; reflexivity). ring.
Qed.
(** the products of the skew components *)
Lemma skew :
  let t := a + e + i in
  (h - f) * (h - f) = (1 + t) * (1 + a - e - i) /\ (c - g) * (c - g) = (1 + t) * (1 + e - a - i) /\ (d - b) * (d - b) = (1 + t) * (1 + i - a - e) /\
  (h - f) * (c - g) = (b + d) * (1 + t) /\ (h - f) * (d - b) = (c + g) * (1 + t) /\ (c - g) * (d - b) = (f + h) * (1 + t).
Proof.
  intros t. destruct rows as (ra & rb & rc & rab & rac & rbc).
  destruct cofactors as ((Ec & Ef & Ei) & (Ea & Ed & Eg) & (Eb & Ee & Eh)). unfold t.
  repeat split.
  - assert (h * f = e * i - a) by lra. assert (h * h + f * f = 1 + a * a - e * e - i * i) by lra.
    transitivity (h * h + f * f - 2 * (h * f)); [ring|]. rewrite H, H0. ring.
  - assert (c * g = i * a - e) by lra. assert (c * c + g * g = 1 + e * e - a * a - i * i) by lra.
    transitivity (c * c + g * g - 2 * (c * g)); [ring|]. rewrite H, H0. ring.
  - assert (d * b = a * e - i) by lra. assert (d * d + b * b = 1 + i * i - a * a - e * e) by lra.
    transitivity (d * d + b * b - 2 * (d * b)); [ring|]. rewrite H, H0. ring.
  - assert (h * c = d + b * i) by lra. assert (h * g = - (a * b + d * e)) by lra. assert (f * c = - (a * d + b * e)) by lra. assert (f * g = b + i * d) by lra.
    transitivity (h * c - h * g - f * c + f * g); [ring|]. rewrite H, H0, H1, H2. ring.
  - assert (h * d = c + g * e) by lra. assert (h * b = - (a * g + c * i)) by lra. assert (f * d = - (a * c + g * i)) by lra. assert (f * b = g + e * c) by lra.
    transitivity (h * d - h * b - f * d + f * b); [ring|]. rewrite H, H0, H1, H2. ring.
  - assert (c * d = h + f * a) by lra. assert (c * b = - (e * f + h * i)) by lra. assert (g * d = - (e * h + f * i)) by lra. assert (g * b = f + a * h) by lra.
    transitivity (c * d - c * b - g * d + g * b); [ring|]. rewrite H, H0, H1, H2. ring.
Qed.
Lemma trace_bounds : -1 <= a + e + i <= 3.
Proof.
  destruct skew as (A & B & C & _).
  assert ((1 + (a + e + i)) * (3 - (a + e + i)) >= 0).
  { assert ((1 + (a + e + i)) * (3 - (a + e + i)) = (h - f) * (h - f) + (c - g) * (c - g) + (d - b) * (d - b)) by (rewrite A, B, C; ring).
    rewrite H. pose proof (Rle_0_sqr (h - f)). pose proof (Rle_0_sqr (c - g)). pose proof (Rle_0_sqr (d - b)). unfold Rsqr in *. lra. }
  clear -H. set (t := a + e + i) in *. nra.
Qed.

(** Euler: every rotation has an axis and an angle *)
Lemma axis_angle : exists x y z t, x * x + y * y + z * z = 1 /\ 0 <= t <= PI /\
  [a; d; g; b; e; h; c; f; i] = matrix x y z (sin t) (cos t).
Proof.
  pose proof trace_bounds as T. destruct skew as (A & B & C & D & E & F). set (k := (a + e + i - 1) / 2).
  assert (K : -1 <= k <= 1) by (unfold k; lra).
  destruct (Req_dec k 1) as [K1|K1]; [|destruct (Req_dec k (-1)) as [K2|K2]].
  - (* no rotation *)
    assert (a <= 1) by nra. assert (e <= 1) by nra. assert (i <= 1) by nra. unfold k in K1.
    assert (a = 1) by lra. assert (e = 1) by lra. assert (i = 1) by lra.
    assert (d = 0) by nra. assert (g = 0) by nra. assert (b = 0) by nra. assert (h = 0) by nra. assert (c = 0) by nra. assert (f = 0) by nra.
    exists 1, 0, 0, 0. split; [ring|]. split; [pose proof PI_RGT_0; lra|]. rewrite sin_0, cos_0. subst. unfold matrix. repeat (apply (f_equal2 cons); [ring|]). reflexivity.
  - (* half a turn *)
    assert (TR : a + e + i = -1) by (unfold k in K2; lra). rewrite TR in A, B, C.
    assert (h = f) by (apply square_diff; rewrite A; ring). assert (c = g) by (apply square_diff; rewrite B; ring).
    assert (d = b) by (apply square_diff; rewrite C; ring). clear A B C D E F.
    destruct cofactors as ((Ec & Ef & Ei) & (Ea & Ed & Eg) & (Eb & Ee & Eh)).
    assert (M1 : (1 + a) * (1 + e) = b * b) by (clear aa bb cc ab ac bc dt; subst; lra).
    assert (M2 : (1 + a) * (1 + i) = g * g) by (clear aa bb cc ab ac bc dt; subst; lra).
    assert (M3 : (1 + e) * (1 + i) = f * f) by (clear aa bb cc ab ac bc dt; subst; lra).
    assert (M4 : (1 + a) * f = b * g) by (clear aa bb cc ab ac bc dt; subst; lra).
    assert (M5 : (1 + e) * g = b * f) by (clear aa bb cc ab ac bc dt; subst; lra).
    assert (M6 : (1 + i) * b = g * f) by (clear aa bb cc ab ac bc dt; subst; lra).
    assert (L : forall p u v, 0 < 1 + p -> p * p + u * u + v * v = 1 ->
       (1 + p) * (1 + p) / (2 * (1 + p)) + u * u / (2 * (1 + p)) + v * v / (2 * (1 + p)) = 1).
    { intros p u v Hp Hu. transitivity (((p * p + u * u + v * v) + 1 + 2 * p) / (2 * (1 + p))); [field; lra|]. rewrite Hu. field. lra. }
    assert (PP : forall p, 0 < 1 + p -> let r := sqrt (2 * (1 + p)) in r <> 0 /\ r * r = 2 * (1 + p)).
    { intros p Hp r. assert (0 < r) by (apply sqrt_lt_R0; lra). split; [lra|]. apply sqrt_sqrt. lra. }
    assert (DV : forall r u v, r <> 0 -> u / r * (v / r) = u * v / (r * r)) by (intros; field; assumption).
    assert (MT : forall x y z, x * x + y * y + z * z = 1 -> 2 * (x * x) = 1 + a -> 2 * (y * y) = 1 + e -> 2 * (z * z) = 1 + i ->
        2 * (x * y) = b -> 2 * (x * z) = g -> 2 * (y * z) = f -> [a; d; g; b; e; h; c; f; i] = matrix x y z (sin PI) (cos PI)).
    { intros x y z Hu. rewrite sin_PI, cos_PI. intros. unfold matrix. clear aa bb cc ab ac bc dt; repeat (apply (f_equal2 cons); [lra|]). reflexivity. }
    assert (Q : 0 < 1 + a \/ 0 < 1 + e \/ 0 < 1 + i) by lra.
    pose proof PI_RGT_0.
    destruct Q as [Q|[Q|Q]]; destruct (PP _ Q) as [R0 RR].
    + exists ((1 + a) / sqrt (2 * (1 + a))), (b / sqrt (2 * (1 + a))), (g / sqrt (2 * (1 + a))), PI.
      assert (U : (1 + a) * (1 + a) / (2 * (1 + a)) + b * b / (2 * (1 + a)) + g * g / (2 * (1 + a)) = 1) by (apply L; [exact Q|subst; lra]).
      split; [rewrite !DV by exact R0; rewrite RR; exact U|]. split; [lra|]. apply MT; rewrite ?DV by exact R0; rewrite ?RR; [exact U|..].
      * field; lra.
      * rewrite <- M1. field; lra.
      * rewrite <- M2. field; lra.
      * field; lra.
      * field; lra.
      * rewrite <- M4. field; lra.
    + exists (b / sqrt (2 * (1 + e))), ((1 + e) / sqrt (2 * (1 + e))), (f / sqrt (2 * (1 + e))), PI.
      assert (U : b * b / (2 * (1 + e)) + (1 + e) * (1 + e) / (2 * (1 + e)) + f * f / (2 * (1 + e)) = 1).
      { assert (W : e * e + b * b + f * f = 1) by (subst; lra). pose proof (L _ _ _ Q W). lra. }
      split; [rewrite !DV by exact R0; rewrite RR; exact U|]. split; [lra|]. apply MT; rewrite ?DV by exact R0; rewrite ?RR; [exact U|..].
      * rewrite <- M1. field; lra.
      * field; lra.
      * rewrite <- M3. field; lra.
      * field; lra.
      * rewrite <- M5. field; lra.
      * field; lra.
    + exists (g / sqrt (2 * (1 + i))), (f / sqrt (2 * (1 + i))), ((1 + i) / sqrt (2 * (1 + i))), PI.
      assert (U : g * g / (2 * (1 + i)) + f * f / (2 * (1 + i)) + (1 + i) * (1 + i) / (2 * (1 + i)) = 1).
      { assert (W : i * i + g * g + f * f = 1) by (subst; lra). pose proof (L _ _ _ Q W). lra. }
      split; [rewrite !DV by exact R0; rewrite RR; exact U|]. split; [lra|]. apply MT; rewrite ?DV by exact R0; rewrite ?RR; [exact U|..].
      * rewrite <- M2. field; lra.
      * rewrite <- M3. field; lra.
      * field; lra.
      * rewrite <- M6. field; lra.
      * field; lra.
      * field; lra.
  - (* the general case *)
    assert (KK : -1 < k < 1) by lra. set (s := sqrt (1 - k * k)).
    assert (S0 : 0 < s) by (apply sqrt_lt_R0; nra). assert (SS : s * s = (1 + k) * (1 - k)) by (unfold s; rewrite sqrt_sqrt by nra; ring).
    assert (TK : a + e + i = 1 + 2 * k) by (unfold k; field). rewrite TK in A, B, C, D, E, F.
    pose proof (acos_bound k) as AB.
    assert (CO : cos (acos k) = k) by (apply cos_acos; lra).
    assert (SI : sin (acos k) = s) by (rewrite sin_acos by lra; reflexivity).
    exists ((h - f) / (2 * s)), ((c - g) / (2 * s)), ((d - b) / (2 * s)), (acos k).
    assert (DV : forall u v, u / (2 * s) * (v / (2 * s)) = u * v / (4 * ((1 + k) * (1 - k)))) by (intros; rewrite <- SS; field; lra).
    split; [|split; [exact AB|]].
    + rewrite !DV, A, B, C. transitivity ((1 + (1 + 2 * k)) * (3 - (a + e + i)) / (4 * ((1 + k) * (1 - k)))); [field; lra|]. rewrite TK. field. lra.
    + rewrite CO, SI. unfold matrix. rewrite !DV.
      assert (V : forall u, s * (u / (2 * s)) = u / 2) by (intros; field; lra).
      assert (V' : forall u, - s * (u / (2 * s)) = - (u / 2)) by (intros; field; lra).
      rewrite !V, !V', A, B, C, D, E, F.
      repeat (apply (f_equal2 cons); [field; lra|]). reflexivity.
Qed.
End Rotation.

Lemma rotation_axis m : rotation m -> exists x y z t, x * x + y * y + z * z = 1 /\ 0 <= t <= PI /\ m = matrix x y z (sin t) (cos t).
Proof.
  intros [[L O] D].
  destruct m as [|a [|d [|g [|b [|e [|h [|c [|f [|i [|? ?]]]]]]]]]]; try discriminate L.
  pose proof (O 0%nat 0%nat ltac:(lia) ltac:(lia)) as aa. pose proof (O 1%nat 1%nat ltac:(lia) ltac:(lia)) as bb. pose proof (O 2%nat 2%nat ltac:(lia) ltac:(lia)) as cc.
  pose proof (O 0%nat 1%nat ltac:(lia) ltac:(lia)) as ab. pose proof (O 0%nat 2%nat ltac:(lia) ltac:(lia)) as ac. pose proof (O 1%nat 2%nat ltac:(lia) ltac:(lia)) as bc.
  unfold entry, det in *. unfold entry in D. cbn [List.nth Nat.add Nat.mul Nat.eqb] in *.
  apply axis_angle; assumption.
Qed.
Lemma norm_unit x y z t : x * x + y * y + z * z = 1 -> 0 <= t -> norm (t * x, t * y, t * z) = t.
Proof.
  intros U Ht. unfold norm. replace (t * x * (t * x) + t * y * (t * y) + t * z * (t * z)) with (t * t * (x * x + y * y + z * z)) by ring.
  rewrite U, Rmult_1_r. apply sqrt_square. exact Ht.
Qed.
Lemma rodrigues_unit x y z t : x * x + y * y + z * z = 1 -> small <= t -> rodrigues (t * x, t * y, t * z) = matrix x y z (sin t) (cos t).
Proof.
  intros U Ht. pose proof small_pos. rewrite rodrigues_big; rewrite norm_unit by lra; [|exact Ht].
  f_equal; field; lra.
Qed.
Lemma small_1 : small < 1.
Proof. unfold small. rewrite <- Rinv_1. apply Rinv_lt_contravar; lra. Qed.
Lemma small_PI : small <= PI.
Proof. pose proof PI2_3_2. unfold small. assert (/ 1000000 < 1) by (rewrite <- Rinv_1; apply Rinv_lt_contravar; lra). lra. Qed.
Lemma round_trip m : rotation m -> small <= sin (acos ((trace m - 1) / 2)) \/ trace m = -1 \/ trace m = 3 ->
  rodrigues (irodrigues m) = m.
Proof.
  intros R C. destruct (rotation_axis m R) as (x & y & z & t & U & Ht & ->). rewrite matrix_trace in C by exact U.
  replace ((1 + 2 * cos t - 1) / 2) with (cos t) in C by field. rewrite acos_cos in C by exact Ht. pose proof small_pos as P. pose proof PI_RGT_0 as PP. pose proof small_PI.
  destruct C as [C|[C|C]].
  - rewrite matrix_back by assumption. apply rodrigues_unit; [exact U|].
    destruct (Req_dec t 0) as [->|]; [rewrite sin_0 in C; lra|]. pose proof (sin_lt_x t). lra.
  - assert (T : t = PI) by (rewrite <- (acos_cos t) by exact Ht; replace (cos t) with (-1) by lra; rewrite <- cos_PI; apply acos_cos; lra). subst t.
    destruct (matrix_near_pi x y z PI) as (e & He & E); [exact U|lra|rewrite sin_PI; exact P|rewrite cos_PI; lra|].
    rewrite E. assert (EE : e * e = 1) by (destruct He; subst; ring).
    rewrite rodrigues_unit; [|replace (e * x * (e * x) + e * y * (e * y) + e * z * (e * z)) with (e * e * (x * x + y * y + z * z)) by ring; rewrite EE, U; ring|lra].
    rewrite sin_PI. unfold matrix.
    assert (V : forall u v, e * u * (e * v) = u * v) by (intros; transitivity (e * e * (u * v)); [ring|rewrite EE; ring]). rewrite !V.
    repeat (apply (f_equal2 cons); [ring|]). reflexivity.
  - assert (T : t = 0) by (rewrite <- (acos_cos t) by exact Ht; replace (cos t) with 1 by lra; apply acos_1). subst t.
    assert (I : irodrigues (matrix x y z (sin 0) (cos 0)) = (0, 0, 0)).
    { unfold irodrigues, singular. rewrite iangle_matrix by (try exact U; lra). rewrite sin_0, cos_0. rewrite (proj2 (ltb_false 1 0)) by lra. rewrite andb_false_r.
      rewrite Rabs_R0, (proj2 (ltb_true 0 small)) by exact P. unfold at3, matrix. cbn [List.nth Nat.add Nat.mul]. f_equal; [f_equal|]; field. }
    rewrite I. rewrite rodrigues_small by (unfold norm; rewrite !Rmult_0_l, !Rplus_0_r, sqrt_0; exact P).
    rewrite sin_0, cos_0. unfold matrix. repeat (apply (f_equal2 cons); [ring|]). reflexivity.
Qed.

(** the vector found is at most half a turn long *)
Lemma near_pi_witness : let om := (- (PI - small / 2), 0, 0) in
  small <= norm om < PI /\ irodrigues (rodrigues om) = scale (-1) om.
Proof.
  intros om. pose proof small_pos as P. pose proof small_1 as P1. pose proof PI2_3_2 as PP.
  assert (N : norm om = PI - small / 2).
  { unfold om, norm. replace (- (PI - small / 2) * - (PI - small / 2) + 0 * 0 + 0 * 0) with ((PI - small / 2) * (PI - small / 2)) by ring. apply sqrt_square. lra. }
  split; [rewrite N; lra|].
  assert (S1 : sin (norm om) = sin (small / 2)) by (rewrite N; apply sin_PI_x).
  assert (S2 : sin (small / 2) < small / 2) by (apply sin_lt_x; lra).
  assert (C1 : cos (norm om) < 0).
  { rewrite N. replace (PI - small / 2) with (- (small / 2) + PI) by ring. rewrite neg_cos. rewrite cos_neg.
    assert (0 < cos (small / 2)); [|lra]. apply cos_gt_0; lra. }
  unfold om at 1. rewrite rodrigues_big by (fold om; rewrite N; lra). fold om. set (n := norm om) in *.
  destruct (matrix_near_pi (- (PI - small / 2) / n) (0 / n) (0 / n) n) as (e & He & E); [apply unit_axis; fold om; fold n; lra|lra|lra|exact C1|].
  (* the largest component is made positive *)
  assert (X : - (PI - small / 2) / n = -1) by (rewrite N; field; lra). assert (Z : 0 / n = 0) by (field; lra). rewrite X, Z in *.
  destruct He as [-> | ->]; [|rewrite E; unfold om, scale; rewrite N; f_equal; [f_equal|]; ring].
  exfalso. clear X Z. revert E. unfold irodrigues, singular. rewrite iangle_matrix by (try ring; lra).
  assert (S0 : 0 <= sin n) by (apply sin_ge_0; lra).
  rewrite Rabs_right by lra. rewrite (proj2 (ltb_true (sin n) small)) by lra. rewrite (proj2 (ltb_true (cos n) 0)) by exact C1. cbn [andb].
  unfold at3, matrix. cbn [List.nth Nat.add Nat.mul Nat.eqb].
  match goal with |- context [sqrt (1 / 2 * ?e)] => replace (1 / 2 * e) with (1 - cos n) by field end.
  match goal with |- context [sqrt (1 / 2 * ?e)] => replace (1 / 2 * e) with 0 by field end.
  match goal with |- context [sqrt (1 / 2 * ?e)] => replace (1 / 2 * e) with 0 by field end.
  rewrite sqrt_0. set (q := sqrt (1 - cos n)). assert (Q : 0 < q) by (apply sqrt_lt_R0; lra).
  rewrite (proj2 (geb_true q 0)) by lra. cbn [andb]. intros E. injection E as E _ _.
  assert (F : n / q * q = n) by (field; lra). rewrite F in E. lra.
Qed.
