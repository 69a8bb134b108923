(** Lemmas on the decomposition of 2 by 2 matrices. *)
From Coq Require Import List Arith Bool Reals ZArith Lra Psatz.
Import ListNotations.
From Verif Require Import Base Rodrigues_Model Svd_Model Svd_Spec.
Local Open Scope R_scope.

Lemma ltb_true a b : ltb a b = true <-> a < b.
Proof. unfold ltb. destruct (Rlt_dec a b); split; auto; discriminate. Qed.
Lemma ltb_false a b : ltb a b = false <-> b <= a.
Proof. unfold ltb. destruct (Rlt_dec a b); split; intros; try discriminate; try lra; reflexivity. Qed.
Lemma eqb_true a b : eqb a b = true <-> a = b.
Proof. unfold eqb. destruct (Req_EM_T a b); split; auto; discriminate. Qed.
Lemma eqb_false a b : eqb a b = false <-> a <> b.
Proof. unfold eqb. destruct (Req_EM_T a b); split; intros; try discriminate; auto; contradiction. Qed.
Lemma sign_pos x : 0 <= x -> sign x = 1.
Proof. intros H. unfold sign. now rewrite (proj2 (ltb_false x 0) H). Qed.
Lemma sign_neg x : x < 0 -> sign x = -1.
Proof. intros H. unfold sign. now rewrite (proj2 (ltb_true x 0) H). Qed.
Lemma sign_cases x : (0 <= x /\ sign x = 1 /\ Rabs x = x) \/ (x < 0 /\ sign x = -1 /\ Rabs x = - x).
Proof. destruct (Rlt_dec x 0); [right; split; [auto|split; [now apply sign_neg|now apply Rabs_left]]|left; split; [lra|split; [apply sign_pos; lra|apply Rabs_right; lra]]]. Qed.
Lemma epsilon_pos : 0 < epsilon.
Proof. unfold epsilon. apply Rinv_0_lt_compat. apply pow_lt. lra. Qed.

(** the numbers of the normal case: k = |h / f|, q = g / f *)
Lemma kernel k q S D a t : 0 <= k -> k <= 1 -> q <> 0 -> S = sqrt ((1 + k) * (1 + k) + q * q) -> D = sqrt ((1 - k) * (1 - k) + q * q) -> a = 1 / 2 * (S + D) ->
  t = (q / (S + (1 + k)) + q / (D + (1 - k))) * (1 + a) -> 1 < a /\ q * t = 2 * (a * a - 1) /\ (a * a - 1) * (1 - k * k / (a * a)) = q * q.
Proof.
  intros K0 K1 Q ES ED Ea Et. assert (Q2 : 0 < q * q) by nra.
  assert (S2 : S * S = (1 + k) * (1 + k) + q * q) by (rewrite ES; apply sqrt_sqrt; nra). assert (D2 : D * D = (1 - k) * (1 - k) + q * q) by (rewrite ED; apply sqrt_sqrt; nra).
  assert (S0 : 0 <= S) by (rewrite ES; apply sqrt_pos). assert (D0 : 0 <= D) by (rewrite ED; apply sqrt_pos). clear ES ED.
  assert (S1 : 1 + k < S) by nra. assert (D1 : 1 - k < D) by nra. assert (A : 1 < a) by lra. split; [exact A|]. split.
  - rewrite Et. replace (q * ((q / (S + (1 + k)) + q / (D + (1 - k))) * (1 + a))) with ((q * q / (S + (1 + k)) + q * q / (D + (1 - k))) * (1 + a)) by (field; split; lra).
    replace (q * q / (S + (1 + k))) with (S - (1 + k)) by (replace (q * q) with ((S - (1 + k)) * (S + (1 + k))) by nra; field; lra).
    replace (q * q / (D + (1 - k))) with (D - (1 - k)) by (replace (q * q) with ((D - (1 - k)) * (D + (1 - k))) by nra; field; lra). rewrite Ea. field.
  - assert (N : a * a <> 0) by nra. assert (X : (a * a - 1) * (a * a - k * k) = q * q * (a * a)).
    { assert (E1 : S + D = 2 * a) by lra. assert (E2 : (S - D) * a = 2 * k) by nra. assert (E3 : S * a = a * a + k) by nra.
      assert (E4 : (a * a + k) * (a * a + k) = ((1 + k) * (1 + k) + q * q) * (a * a)) by (rewrite <- E3, <- S2; ring). nra. }
    replace ((a * a - 1) * (1 - k * k / (a * a))) with ((a * a - 1) * (a * a - k * k) / (a * a)) by (field; intros C; apply N; rewrite C; ring). rewrite X. field. intros C. apply N. rewrite C. ring.
Qed.
(** the matrix (f g; 0 h) with |h| <= |f| *)
Record half (f g h smin smax cv sv cu su : R) : Prop := {
  h_v : cv * cv + sv * sv = 1; h_u : cu * cu + su * su = 1; h_cv : 0 < cv; h_cu : 0 < cu; h_big : 0 <= smin /\ smin <= smax;
  h_sv : g <> 0 -> 0 < sv * (g * f) ; h_sv0 : g = 0 -> sv = 0;
  h_1 : f * cv + g * sv = sign f * smax * cu; h_2 : h * sv = sign f * smax * su;
  h_3 : f * sv - g * cv = sign h * smin * su; h_4 : h * cv = sign h * smin * cu }.
Lemma half_ok f g h : f <> 0 -> Rabs h <= Rabs f -> epsilon * Rabs g <= Rabs f ->
  exists smin smax cv sv cu su, half_svd f g h = Some (smin, smax, cv, sv, cu, su) /\ half f g h smin smax cv sv cu su.
Proof.
  intros F L E. unfold half_svd. pose proof (Rabs_pos h) as Hh. pose proof (Rabs_pos_lt f F) as Hf.
  assert (Sf : sign f * Rabs f = f) by (destruct (sign_cases f) as [(A & -> & ->)|(A & -> & ->)]; ring).
  assert (Sh : sign h * Rabs h = h) by (destruct (sign_cases h) as [(A & -> & ->)|(A & -> & ->)]; ring).
  destruct (eqb (Rabs g) 0) eqn:G.
  - apply eqb_true in G. assert (g = 0) by (destruct (Req_EM_T g 0); [auto|pose proof (Rabs_pos_lt g n); lra]). subst g. exists (Rabs h), (Rabs f), 1, 0, 1, 0. split; [reflexivity|]. split; try lra; try nra.
  - apply eqb_false in G. assert (G0 : g <> 0) by (intros ->; apply G, Rabs_R0). pose proof (Rabs_pos_lt g G0) as Hg.
    replace (ltb (Rabs f) (Rabs g) && ltb (Rabs f / Rabs g) epsilon) with false.
    2:{ symmetry. apply andb_false_iff. right. apply ltb_false. apply Rmult_le_reg_r with (Rabs g); [exact Hg|]. unfold Rdiv. rewrite Rmult_assoc, Rinv_l by lra. lra. }
    rewrite (proj2 (eqb_false f 0) F). set (k := Rabs h / Rabs f). set (q := g / f).
    assert (K0 : 0 <= k) by (apply Rmult_le_pos; [exact Hh|left; now apply Rinv_0_lt_compat]).
    assert (Kf : k * Rabs f = Rabs h) by (unfold k; field; lra). assert (K1 : k <= 1) by nra.
    assert (Q : q <> 0) by (unfold q; intros C; apply G0; replace g with (g / f * f) by (field; exact F); rewrite C; ring).
    assert (Ed : (if eqb (Rabs f - Rabs h) (Rabs f) then 1 else (Rabs f - Rabs h) / Rabs f) = 1 - k).
    { destruct (eqb _ _) eqn:T; [apply eqb_true in T; assert (Rabs h = 0) by lra; unfold k; rewrite H; unfold Rdiv; ring|]. unfold k. field. lra. }
    rewrite Ed. replace (2 - (1 - k)) with (1 + k) by ring.
    set (S := sqrt ((1 + k) * (1 + k) + q * q)). set (D := sqrt ((1 - k) * (1 - k) + q * q)).
    assert (ED : (if eqb (1 - k) 0 then Rabs q else D) = D).
    { destruct (eqb (1 - k) 0) eqn:T; [|reflexivity]. apply eqb_true in T. unfold D. rewrite T, Rmult_0_l, Rplus_0_l. symmetry. apply sqrt_Rsqr_abs. }
    rewrite ED. rewrite (proj2 (eqb_false (q * q) 0)) by nra. set (a := 1 / 2 * (S + D)). set (t := (q / (S + (1 + k)) + q / (D + (1 - k))) * (1 + a)).
    destruct (kernel k q S D a t K0 K1 Q eq_refl eq_refl eq_refl eq_refl) as (A & T1 & T2). clearbody t a.
    set (tt := sqrt (t * t + 4)). assert (Tt : tt * tt = t * t + 4) by (apply sqrt_sqrt; nra). assert (Tp : 0 < tt) by (apply sqrt_lt_R0; nra). clearbody tt.
    set (cv := 2 / tt). set (sv := t / tt). assert (C1 : cv * tt = 2) by (unfold cv; field; lra). assert (C2 : sv * tt = t) by (unfold sv; field; lra).
    assert (V : cv * cv + sv * sv = 1) by (unfold cv, sv; replace (2 / tt * (2 / tt) + t / tt * (t / tt)) with ((t * t + 4) / (tt * tt)) by (field; lra); rewrite Tt; field; nra).
    assert (Cp : 0 < cv) by (unfold cv; apply Rdiv_lt_0_compat; lra).
    assert (Tau : sv * q = (a * a - 1) * cv) by (unfold sv, cv; replace (t / tt * q) with (q * t / tt) by (field; lra); rewrite T1; field; lra).
    assert (Cu : (cv + sv * q) / a = a * cv) by (rewrite Tau; field; lra).
    assert (Tq : sv * (1 - k * k / (a * a)) = q * cv).
    { apply Rmult_eq_reg_l with q; [|exact Q]. replace (q * (sv * (1 - k * k / (a * a)))) with (sv * q * (1 - k * k / (a * a))) by ring. rewrite Tau. replace ((a * a - 1) * cv * (1 - k * k / (a * a))) with ((a * a - 1) * (1 - k * k / (a * a)) * cv) by ring. rewrite T2. ring. }
    assert (Hk : (h / f) * (h / f) = k * k).
    { unfold k. replace (Rabs h / Rabs f * (Rabs h / Rabs f)) with ((Rabs h * Rabs h) / (Rabs f * Rabs f)) by (field; lra). rewrite <- !Rabs_mult, !(Rabs_right (_ * _)) by nra. field. exact F. }
    do 6 eexists. split; [reflexivity|]. rewrite Cu. assert (Aa : a * a <> 0) by nra. split.
    + exact V.
    + replace (a * cv * (a * cv) + h / f * sv / a * (h / f * sv / a)) with (a * a * (cv * cv) + (h / f) * (h / f) / (a * a) * (sv * sv)) by (field; split; first [exact F|lra]). rewrite Hk.
      assert (X : sv * sv * (1 - k * k / (a * a)) = (a * a - 1) * (cv * cv)).
      { replace (sv * sv * (1 - k * k / (a * a))) with (sv * (sv * (1 - k * k / (a * a)))) by ring. rewrite Tq. replace (sv * (q * cv)) with (sv * q * cv) by ring. rewrite Tau. ring. }
      set (z := k * k / (a * a)) in *. clearbody z. nra.
    + exact Cp.
    + nra.
    + split; [apply Rmult_le_pos; [exact Hh|left; apply Rinv_0_lt_compat; lra]|]. apply Rle_trans with (Rabs h); [|nra]. apply Rmult_le_reg_r with a; [lra|]. unfold Rdiv. rewrite Rmult_assoc, Rinv_l by lra. nra.
    + intros _. replace g with (q * f) by (unfold q; field; exact F). assert (0 < sv * q) by (rewrite Tau; apply Rmult_lt_0_compat; [nra|exact Cp]). assert (0 < f * f) by nra. nra.
    + intros C. contradiction.
    + replace (sign f * (Rabs f * a) * (a * cv)) with ((sign f * Rabs f) * (a * a * cv)) by ring. rewrite Sf. replace g with (q * f) by (unfold q; field; exact F). nra.
    + replace (sign f * (Rabs f * a) * (h / f * sv / a)) with ((sign f * Rabs f) * (h / f * sv)) by (field; split; first [exact F|lra]). rewrite Sf. field. exact F.
    + replace (sign h * (Rabs h / a) * (h / f * sv / a)) with ((sign h * Rabs h) * (h / f * sv) / (a * a)) by (field; split; first [exact F|lra]). rewrite Sh.
      replace g with (q * f) by (unfold q; field; exact F). replace (h * (h / f * sv) / (a * a)) with ((h / f) * (h / f) / (a * a) * sv * f) by (field; split; first [exact F|lra]). rewrite Hk.
      replace (f * sv - q * f * cv) with (f * (sv - q * cv)) by ring. rewrite <- Tq. field. lra.
    + replace (sign h * (Rabs h / a) * (a * cv)) with ((sign h * Rabs h) * cv) by (field; lra). now rewrite Sh.
Qed.

Lemma sign_one x : sign x = 1 \/ sign x = -1.
Proof. destruct (sign_cases x) as [(_ & -> & _)|(_ & -> & _)]; auto. Qed.
Lemma sign_1 : sign 1 = 1. Proof. apply sign_pos; lra. Qed.
Lemma sign_m1 : sign (-1) = -1. Proof. apply sign_neg; lra. Qed.
Lemma sign_sq x : sign x * sign x = 1.
Proof. destruct (sign_one x) as [-> | ->]; ring. Qed.
Lemma sign_sign x : sign (sign x) = sign x.
Proof. destruct (sign_one x) as [-> | ->]; [apply sign_1|apply sign_m1]. Qed.
Lemma product_pos x y : 0 < x * y -> (0 < x /\ 0 < y) \/ (x < 0 /\ y < 0).
Proof. intros H. destruct (Rtotal_order x 0) as [A|[->|A]], (Rtotal_order y 0) as [B|[->|B]]; try lra; nra. Qed.
Lemma product_neg x y : x * y < 0 -> (0 < x /\ y < 0) \/ (x < 0 /\ 0 < y).
Proof. intros H. destruct (Rtotal_order x 0) as [A|[->|A]], (Rtotal_order y 0) as [B|[->|B]]; try lra; nra. Qed.
Lemma sign_three x y z : 0 < x * (y * z) -> sign x * sign y = sign z.
Proof.
  intros H. destruct (product_pos _ _ H) as [[A B]|[A B]].
  - destruct (product_pos _ _ B) as [[C D]|[C D]]; [rewrite !sign_pos by lra; ring|rewrite (sign_pos x), (sign_neg y), (sign_neg z) by lra; ring].
  - destruct (product_neg _ _ B) as [[C D]|[C D]]; [rewrite (sign_neg x), (sign_pos y), (sign_neg z) by lra; ring|rewrite (sign_neg x), (sign_neg y), (sign_pos z) by lra; ring].
Qed.
Lemma from_columns f g h cu su cv sv S0 S3 : cv * cv + sv * sv = 1 ->
  f * cv + g * sv = S0 * cu -> h * sv = S0 * su -> f * sv - g * cv = S3 * su -> h * cv = S3 * cu ->
  mul (mul (rotation cu su) (diagonal S0 S3)) (transpose (rotation cv sv)) = Mat f 0 g h.
Proof.
  intros V E1 E2 E3 E4. unfold mul, rotation, diagonal, transpose. cbn [m11 m12 m21 m22].
  assert (A : cu * S0 = f * cv + g * sv) by lra. assert (B : su * S0 = h * sv) by lra. assert (C : su * S3 = f * sv - g * cv) by lra. assert (D : cu * S3 = h * cv) by lra.
  assert (X1 : f = f * (cv * cv + sv * sv)) by (rewrite V; ring). assert (X2 : g = g * (cv * cv + sv * sv)) by (rewrite V; ring). assert (X3 : h = h * (cv * cv + sv * sv)) by (rewrite V; ring).
  f_equal; rewrite ?Rmult_0_r, ?Rplus_0_r, ?Rplus_0_l.
  - rewrite A. replace (- su * S3) with (- (su * S3)) by ring. rewrite C. rewrite X1 at 3. ring.
  - rewrite B. rewrite D. ring.
  - rewrite A. replace (- su * S3) with (- (su * S3)) by ring. rewrite C. rewrite X2 at 3. ring.
  - rewrite B. rewrite D. rewrite X3 at 3. ring.
Qed.
Lemma flip f g h cu su cv sv S0 S3 : mul (mul (rotation cu su) (diagonal S0 S3)) (transpose (rotation cv sv)) = Mat h 0 g f ->
  mul (mul (rotation sv cv) (diagonal S0 S3)) (transpose (rotation su cu)) = Mat f 0 g h.
Proof.
  unfold mul, rotation, diagonal, transpose. cbn [m11 m12 m21 m22]. rewrite !Rmult_0_r, !Rplus_0_r, !Rplus_0_l. intros E. injection E as E1 E2 E3 E4. f_equal; lra.
Qed.
Lemma dlasv2_ok f g h : (f <> 0 \/ h <> 0) -> epsilon * Rabs g <= Rmax (Rabs f) (Rabs h) ->
  exists r, dlasv2 f g h = Some r /\ l_cu r * l_cu r + l_su r * l_su r = 1 /\ l_cv r * l_cv r + l_sv r * l_sv r = 1 /\ Rabs (l_smin r) <= Rabs (l_smax r) /\ (0 <= f -> 0 <= h -> 0 <= l_smin r /\ 0 <= l_smax r) /\
    mul (mul (rotation (l_cu r) (l_su r)) (diagonal (l_smax r) (l_smin r))) (transpose (rotation (l_cv r) (l_sv r))) = Mat f 0 g h.
Proof.
  intros N E. unfold dlasv2.
  assert (M : forall a b x y, 0 <= a -> a <= b -> Rabs (sign x * a) <= Rabs (sign y * b)).
  { intros a b x y A B. rewrite !Rabs_mult. replace (Rabs (sign x)) with 1 by (destruct (sign_one x) as [-> | ->]; [now rewrite Rabs_R1|rewrite Rabs_left by lra; lra]).
    replace (Rabs (sign y)) with 1 by (destruct (sign_one y) as [-> | ->]; [now rewrite Rabs_R1|rewrite Rabs_left by lra; lra]). rewrite !Rabs_right by lra. lra. }
  destruct (ltb (Rabs f) (Rabs h)) eqn:W.
  - apply ltb_true in W. rewrite Rmax_right in E by lra. assert (Hh : h <> 0) by (intros ->; rewrite Rabs_R0 in W; pose proof (Rabs_pos f); lra).
    destruct (half_ok h g f Hh ltac:(lra) E) as (smin & smax & cv & sv & cu & su & EQ & []). rewrite EQ. cbn [obind].
    match goal with |- context [sign ?t * smax] => assert (T : t = sign h) end.
    { destruct (negb (eqb (Rabs g) 0) && ltb (Rabs h) (Rabs g)) eqn:P.
      - apply andb_true_iff in P. destruct P as [P _]. apply negb_true_iff, eqb_false in P. assert (G : g <> 0) by (intros ->; apply P, Rabs_R0). rewrite (sign_pos cu) by lra. rewrite <- (sign_three sv g h (h_sv1 G)). ring.
      - rewrite (sign_pos cu), (sign_pos cv) by lra. ring. }
    rewrite T. replace (sign h * sign f * sign h) with (sign f) by (replace (sign h * sign f * sign h) with (sign h * sign h * sign f) by ring; rewrite sign_sq; ring). rewrite !sign_sign.
    eexists. split; [reflexivity|]. cbn [l_cu l_su l_cv l_sv l_smin l_smax]. split; [lra|]. split; [lra|]. split; [apply M; lra|]. split; [intros; rewrite !sign_pos by lra; lra|]. apply flip. apply from_columns; lra.
  - apply ltb_false in W. rewrite Rmax_left in E by lra. assert (Hf : f <> 0) by (intros ->; destruct N as [N|N]; [lra|]; rewrite Rabs_R0 in W; pose proof (Rabs_pos_lt h N); lra).
    destruct (half_ok f g h Hf ltac:(lra) E) as (smin & smax & cv & sv & cu & su & EQ & []). rewrite EQ. cbn [obind].
    match goal with |- context [sign ?t * smax] => assert (T : t = sign f) end.
    { destruct (negb (eqb (Rabs g) 0) && ltb (Rabs f) (Rabs g)) eqn:P.
      - apply andb_true_iff in P. destruct P as [P _]. apply negb_true_iff, eqb_false in P. assert (G : g <> 0) by (intros ->; apply P, Rabs_R0). rewrite (sign_pos cu) by lra. rewrite <- (sign_three sv g f (h_sv1 G)). ring.
      - rewrite (sign_pos cu), (sign_pos cv) by lra. ring. }
    rewrite T. rewrite sign_sq, Rmult_1_l. rewrite !sign_sign.
    eexists. split; [reflexivity|]. cbn [l_cu l_su l_cv l_sv l_smin l_smax]. split; [lra|]. split; [lra|]. split; [apply M; lra|]. split; [intros; rewrite !sign_pos by lra; lra|]. apply from_columns; lra.
Qed.
Lemma svd2_ok M : (m11 M <> 0 \/ m21 M <> 0) -> balanced M ->
  exists d0 d3 U V, svd2 M = Some (d0, d3, U, V) /\ is_rotation U /\ is_rotation V /\ Rabs d3 <= Rabs d0 /\ (0 <= det M -> 0 <= d3 /\ 0 <= d0) /\ mul (mul U (diagonal d0 d3)) (transpose V) = M.
Proof.
  intros N B. unfold svd2. destruct M as [a b c d]. unfold balanced, det in B. cbn [m11 m12 m21 m22] in *.
  assert (P : 0 < a * a + b * b) by (destruct N; nra). pose proof (sqrt_lt_R0 _ P) as Q. pose proof (sqrt_sqrt _ (Rlt_le _ _ P)) as SQ. set (n := sqrt (a * a + b * b)) in *. clearbody n.
  destruct (eqb n 0) eqn:Z; [apply eqb_true in Z; lra|]. clear Z. cbv zeta.
  assert (F : a / n * a + b / n * b = n) by (replace (a / n * a + b / n * b) with ((a * a + b * b) / n) by (field; lra); rewrite <- SQ; field; lra). rewrite F.
  assert (U1 : (a / n) * (a / n) + (b / n) * (b / n) = 1) by (replace ((a / n) * (a / n) + (b / n) * (b / n)) with ((a / n * a + b / n * b) / n) by (field; lra); rewrite F; field; lra).
  destruct (dlasv2_ok n (a / n * c + b / n * d) (- (b / n) * c + a / n * d)) as (r & ER & HU & HV & HL & HP & E).
  { left. lra. }
  { replace (a / n * c + b / n * d) with ((a * c + b * d) * / n) by (field; lra). replace (- (b / n) * c + a / n * d) with ((a * d - c * b) * / n) by (field; lra).
    rewrite !Rabs_mult. assert (IN : 0 < / n) by now apply Rinv_0_lt_compat. rewrite (Rabs_right (/ n)), (Rabs_right n) by lra. rewrite <- SQ in B.
    replace n with (n * n * / n) at 2 by (field; lra).
    apply Rle_trans with (Rmax (n * n) (Rabs (a * d - c * b)) * / n).
    - rewrite <- Rmult_assoc. apply Rmult_le_compat_r; [lra|exact B].
    - apply (Rmax_case_strong (n * n) (Rabs (a * d - c * b)) (fun m => m * / n <= Rmax (n * n * / n) (Rabs (a * d - c * b) * / n))); intros _; [apply Rmax_l|apply Rmax_r]. }
  rewrite ER. cbn [obind]. destruct r as [smin smax sv cv su cu]. cbn [l_smin l_smax l_sv l_cv l_su l_cu] in *.
  do 4 eexists. split; [reflexivity|]. split; [|split; [|split; [exact HL|split]]].
  - exists (cu * (a / n) - su * (b / n)), (su * (a / n) + cu * (b / n)). split; [unfold rotation; f_equal; ring|].
    transitivity ((cu * cu + su * su) * (a / n * (a / n) + b / n * (b / n))); [ring|rewrite HU, U1; ring].
  - exists cv, sv. split; [reflexivity|exact HV].
  - unfold det. cbn [m11 m12 m21 m22]. intros D. apply HP; [lra|]. replace (- (b / n) * c + a / n * d) with ((a * d - c * b) * / n) by (field; lra). apply Rmult_le_pos; [lra|left; now apply Rinv_0_lt_compat].
  - set (x := a / n) in *. set (y := b / n) in *.
    assert (EX : a = x * n) by (unfold x; field; lra). assert (EY : b = y * n) by (unfold y; field; lra).
    unfold mul, rotation, diagonal, transpose in E |- *. cbn [m11 m12 m21 m22] in *. injection E as E1 E2 E3 E4.
    assert (Hc : c = x * (x * c + y * d) - y * (- y * c + x * d)) by (transitivity ((x * x + y * y) * c); [rewrite U1|]; ring).
    assert (Hd : d = y * (x * c + y * d) + x * (- y * c + x * d)) by (transitivity ((x * x + y * y) * d); [rewrite U1|]; ring).
    rewrite <- E3, <- E4 in Hc. rewrite <- E3, <- E4 in Hd. rewrite <- E1 in EX, EY. assert (Z : (su * smax + cu * 0) * cv + (su * 0 + cu * smin) * - sv = 0) by exact E2.
    clear -EX EY Hc Hd Z. f_equal.
    + etransitivity; [|symmetry; exact EX]. transitivity (x * ((cu * smax + - su * 0) * cv + (cu * 0 + - su * smin) * - sv) - y * ((su * smax + cu * 0) * cv + (su * 0 + cu * smin) * - sv)); [ring|rewrite Z; ring].
    + etransitivity; [|symmetry; exact EY]. transitivity (y * ((cu * smax + - su * 0) * cv + (cu * 0 + - su * smin) * - sv) + x * ((su * smax + cu * 0) * cv + (su * 0 + cu * smin) * - sv)); [ring|rewrite Z; ring].
    + etransitivity; [|symmetry; exact Hc]. ring.
    + etransitivity; [|symmetry; exact Hd]. ring.
Qed.
