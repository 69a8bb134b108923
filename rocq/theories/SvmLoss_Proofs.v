(** The predefined losses: conjugates, derivatives and coordinate steps. *)
From Coq Require Import List Arith ZArith Lia Bool QArith Qcanon Lqa.
From Verif Require Import Base Rat Gauss_Model Gauss_Spec Gauss_Proofs Svm_Model Svm_Spec.
From Verif Require Homker_Proofs.
Local Open Scope Qc_scope.

Definition sign_label (y : Qc) : Prop := y = 1 \/ y = - (1).
Definition any_label (y : Qc) : Prop := True.

Lemma qle_true a b : qle a b = true <-> a <= b.
Proof. unfold qle. rewrite negb_true_iff, qlt_false. reflexivity. Qed.
Lemma vmax_cases a b : (b < a /\ vmax a b = a) \/ (a <= b /\ vmax a b = b).
Proof. unfold vmax. destruct (qlt b a) eqn:E; [left; apply qlt_true in E|right; apply qlt_false in E]; auto. Qed.
Lemma vmin_cases a b : (a < b /\ vmin a b = a) \/ (b <= a /\ vmin a b = b).
Proof. unfold vmin. destruct (qlt a b) eqn:E; [left; apply qlt_true in E|right; apply qlt_false in E]; auto. Qed.
Lemma qabs_cases a : (a < 0 /\ qabs a = - a) \/ (0 <= a /\ qabs a = a).
Proof. unfold qabs. destruct (qlt a 0) eqn:E; [left; apply qlt_true in E|right; apply qlt_false in E]; auto. Qed.
Lemma q_square_nonneg (a : Qc) : 0 <= a * a.
Proof. qc_prep. unfold inject_Z in *. nra. Qed.
Lemma mult_nonneg (a b : Qc) : 0 <= a -> 0 <= b -> 0 <= a * b.
Proof. intros Ha Hb. qc_prep. apply Qmult_le_0_compat; assumption. Qed.
Lemma div_ok a b : b <> 0 -> div a b = Some (a / b).
Proof. intro H. unfold div. destruct (Qc_eq_dec b 0); [contradiction|reflexivity]. Qed.
Lemma four_quarter u : u / four = Q2Qc (1 # 4) * u.
Proof. apply Qc_is_canon. rewrite this_div, this_mult, this_Q. unfold four, zq. rewrite this_Q. field. Qed.

(** *** Fenchel-Young *)
Lemma hinge_fenchel : fenchel sign_label hinge_loss hinge_conj.
Proof.
  intros z u y c Hy E. unfold hinge_conj in E. destruct (qle (-(1)) (y * u)) eqn:E1; [|discriminate E]. destruct (qle (y * u) 0) eqn:E2; [|discriminate E].
  apply qle_true in E1, E2. injection E as E. subst c. unfold hinge_loss.
  destruct (vmax_cases (1 - y * z) 0) as [(H & ->)|(H & ->)]; destruct Hy as [-> | ->]; qc_prep; unfold inject_Z in *; nra.
Qed.
Lemma hinge2_fenchel : fenchel sign_label hinge2_loss hinge2_conj.
Proof.
  intros z u y c Hy E. unfold hinge2_conj in E. destruct (qle (y * u) 0) eqn:E1; [|discriminate E].
  apply qle_true in E1. injection E as E. subst c. unfold hinge2_loss. rewrite four_quarter. cbv zeta.
  pose proof (q_square_nonneg (two * z - two * y - u)) as S. unfold two, zq in S.
  pose proof (q_square_nonneg u) as S'.
  destruct (vmax_cases (1 - y * z) 0) as [(H & ->)|(H & ->)]; destruct Hy as [-> | ->]; qc_prep; unfold inject_Z in *; try lra;
  assert (T : (0 <= (- u) * (z - 1))%Q \/ (0 <= u * (- z - 1))%Q) by (first [left; apply Qmult_le_0_compat; lra|right; apply Qmult_le_0_compat; lra]); destruct T; nra.
Qed.
Lemma l1_fenchel : fenchel any_label l1_loss l1_conj.
Proof.
  intros z u y c _ E. unfold l1_conj in E. destruct (qle (qabs u) 1) eqn:E1; [|discriminate E].
  apply qle_true in E1. injection E as E. subst c. unfold l1_loss.
  destruct (qabs_cases u) as [(H & R)|(H & R)]; rewrite R in E1; destruct (qabs_cases (y - z)) as [(H' & ->)|(H' & ->)]; qc_prep; unfold inject_Z in *; nra.
Qed.
Lemma l2_fenchel : fenchel any_label l2_loss l2_conj.
Proof.
  intros z u y c _ E. injection E as E. subst c. unfold l2_loss. rewrite four_quarter. cbv zeta.
  pose proof (q_square_nonneg (two * z - two * y - u)) as S. unfold two, zq in S. qc_prep. unfold inject_Z in *. nra.
Qed.

(** *** the bound is attained *)
Lemma hinge_attained : attained sign_label hinge_loss hinge_conj.
Proof.
  intros u y c Hy E. exists y. unfold hinge_conj in E. destruct (qle (-(1)) (y * u) && qle (y * u) 0); [|discriminate E]. injection E as E. subst c.
  unfold hinge_loss. destruct (vmax_cases (1 - y * y) 0) as [(H & ->)|(H & ->)]; destruct Hy as [-> | ->]; qc_prep; unfold inject_Z in *; nra.
Qed.
Lemma hinge2_attained : attained sign_label hinge2_loss hinge2_conj.
Proof.
  intros u y c Hy E. exists (y + half * u). unfold hinge2_conj in E. destruct (qle (y * u) 0) eqn:E1; [|discriminate E]. apply qle_true in E1. injection E as E. subst c.
  rewrite four_quarter. unfold hinge2_loss, half. cbv zeta.
  destruct (vmax_cases (1 - y * (y + Q2Qc (1 # 2) * u)) 0) as [(H & ->)|(H & ->)]; destruct Hy as [-> | ->]; qc_prep; unfold inject_Z in *; nra.
Qed.
Lemma l1_attained : attained any_label l1_loss l1_conj.
Proof.
  intros u y c Hy E. exists y. unfold l1_conj in E. destruct (qle (qabs u) 1); [|discriminate E]. injection E as E. subst c.
  unfold l1_loss. destruct (qabs_cases (y - y)) as [(H & ->)|(H & ->)]; qc_prep; unfold inject_Z in *; lra.
Qed.
Lemma l2_attained : attained any_label l2_loss l2_conj.
Proof.
  intros u y c Hy E. exists (y + half * u). injection E as E. subst c. rewrite four_quarter. unfold l2_loss, half. cbv zeta. qc_prep. lra.
Qed.

(** *** derivatives *)
Lemma hinge_subgradient : subgradient any_label hinge_loss hinge_deriv.
Proof.
  intros z z' y _. unfold hinge_loss, hinge_deriv. destruct (qlt (y * z) 1) eqn:E; [apply qlt_true in E|apply qlt_false in E];
  destruct (vmax_cases (1 - y * z) 0) as [(H & ->)|(H & ->)]; destruct (vmax_cases (1 - y * z') 0) as [(H' & ->)|(H' & ->)]; qc_prep; unfold inject_Z in *; lra.
Qed.
Lemma hinge2_subgradient : subgradient sign_label hinge2_loss hinge2_deriv.
Proof.
  intros z z' y Hy. unfold hinge2_loss, hinge2_deriv. cbv zeta. pose proof (q_square_nonneg (z - z')) as S.
  destruct (qlt (y * z) 1) eqn:E; [apply qlt_true in E|apply qlt_false in E];
  destruct (vmax_cases (1 - y * z) 0) as [(H & ->)|(H & ->)]; destruct (vmax_cases (1 - y * z') 0) as [(H' & ->)|(H' & ->)]; destruct Hy as [-> | ->]; unfold two, zq; qc_prep; unfold inject_Z in *; nra.
Qed.
Lemma l1_subgradient : subgradient any_label l1_loss l1_deriv.
Proof.
  intros z z' y _. unfold l1_loss, l1_deriv. destruct (qlt z y) eqn:E; [apply qlt_true in E|apply qlt_false in E];
  destruct (qabs_cases (y - z)) as [(H & ->)|(H & ->)]; destruct (qabs_cases (y - z')) as [(H' & ->)|(H' & ->)]; qc_prep; unfold inject_Z in *; lra.
Qed.
Lemma l2_subgradient : subgradient any_label l2_loss l2_deriv.
Proof.
  intros z z' y _. unfold l2_loss, l2_deriv. cbv zeta. pose proof (q_square_nonneg (z - z')) as S. unfold two, zq. qc_prep. unfold inject_Z in *. nra.
Qed.

(** *** coordinate steps *)
Definition positive (A : Qc) : Prop := 0 < A.
Definition nonneg (A : Qc) : Prop := 0 <= A.
Definition steps_ok (lab : Qc -> Prop) (curv : Qc -> Prop) (L : losses) : Prop :=
  forall a B A y c, lab y -> curv A -> conjFn L (- a) y = Some c ->
  exists d, dcaFn L a B A y = Some d /\ optimal_step (conjFn L) a A B y d.

(** a point closer to the top of a parabola is higher *)
Lemma parabola (A B a y q d d' : Qc) : 0 <= A -> A * q = y - B ->
  (d - q) * (d - q) <= (d' - q) * (d' - q) ->
  gain A B d' (y * - (a + d')) <= gain A B d (y * - (a + d)).
Proof.
  intros HA Q H. unfold gain.
  assert (P : 0 <= Q2Qc (1 # 2) * (A * ((d' - q) * (d' - q) - (d - q) * (d - q)))).
  { apply mult_nonneg; [discriminate|]. apply mult_nonneg; [exact HA|qc_lra]. }
  assert (E : B = y - A * q) by (rewrite Q; ring). rewrite E. apply Qcle_minus_iff.
  match goal with |- _ <= ?r => replace r with (Q2Qc (1 # 2) * (A * ((d' - q) * (d' - q) - (d - q) * (d - q)))); [exact P|] end.
  apply Qc_is_canon. qc_prep. ring.
Qed.
Lemma parabola2 (A B a y q d d' : Qc) : 0 <= A -> (A + half) * q = y - B - half * a ->
  (d - q) * (d - q) <= (d' - q) * (d' - q) ->
  gain A B d' ((y + - (a + d') / four) * - (a + d')) <= gain A B d ((y + - (a + d) / four) * - (a + d)).
Proof.
  intros HA Q H. unfold gain. rewrite !four_quarter.
  assert (P : 0 <= Q2Qc (1 # 2) * ((A + half) * ((d' - q) * (d' - q) - (d - q) * (d - q)))).
  { apply mult_nonneg; [discriminate|]. apply mult_nonneg; [unfold half; qc_lra|qc_lra]. }
  assert (E : B = y - (A + half) * q - half * a) by (rewrite Q; ring). rewrite E. apply Qcle_minus_iff.
  match goal with |- _ <= ?r => replace r with (Q2Qc (1 # 2) * ((A + half) * ((d' - q) * (d' - q) - (d - q) * (d - q)))); [exact P|] end.
  unfold half. apply Qc_is_canon. qc_prep. ring.
Qed.
Lemma times_quotient A v : A <> 0 -> A * (v / A) = v.
Proof. intro H. field. exact H. Qed.

Lemma hinge_steps : steps_ok sign_label positive hinge.
Proof.
  intros a B A y c Hy HA E. unfold positive in HA. assert (A0 := Homker_Proofs.qc_pos_neq A HA). cbn. unfold hinge_dca. rewrite div_ok by exact A0. cbn [obind].
  eexists. split; [reflexivity|]. pose proof (times_quotient A (y - B) A0) as T. set (q := (y - B) / A) in *. clearbody q.
  unfold optimal_step. cbn [conjFn hinge]. unfold hinge_conj.
  set (v := vmax 0 (vmin 1 (y * (q + a)))).
  assert (Hv : 0 <= v /\ v <= 1 /\ (v = y * (q + a) \/ v = 0 /\ y * (q + a) <= 0 \/ v = 1 /\ 1 <= y * (q + a))).
  { unfold v. destruct (vmin_cases 1 (y * (q + a))) as [(H & ->)|(H & ->)]; [destruct (vmax_cases 0 1) as [(H' & ->)|(H' & ->)]|destruct (vmax_cases 0 (y * (q + a))) as [(H' & ->)|(H' & ->)]].
    - exfalso. qc_lra.
    - split; [qc_lra|]. split; [qc_lra|]. right. right. split; [reflexivity|]. qc_lra.
    - split; [qc_lra|]. split; [qc_lra|]. right. left. split; [reflexivity|]. qc_lra.
    - split; [qc_lra|]. split; [qc_lra|]. left. reflexivity. }
  clearbody v. destruct Hv as (V0 & V1 & Hv).
  assert (Z : y * - (a + (y * v - a)) = - v) by (destruct Hy as [-> | ->]; ring).
  exists (- v). split.
  - rewrite Z. assert (E1 : qle (-(1)) (- v) = true) by (apply qle_true; qc_lra). assert (E2 : qle (- v) 0 = true) by (apply qle_true; qc_lra). rewrite E1, E2. reflexivity.
  - intros d' c' E'. destruct (qle (-(1)) (y * - (a + d'))) eqn:E1; [|discriminate E']. destruct (qle (y * - (a + d')) 0) eqn:E2; [|discriminate E'].
    apply qle_true in E1, E2. injection E' as E'. subst c'. rewrite <- Z. apply (parabola A B a y q); [apply Qclt_le_weak; exact HA|exact T|].
    destruct Hv as [Hv|[(Hv & H1)|(Hv & H1)]].
    + replace (y * v - a - q) with 0; [|rewrite Hv; destruct Hy as [-> | ->]; ring]. replace (0 * 0) with 0 by ring. apply q_square_nonneg.
    + rewrite Hv. destruct Hy as [-> | ->]; qc_prep; unfold inject_Z in *; nra.
    + rewrite Hv. destruct Hy as [-> | ->]; qc_prep; unfold inject_Z in *; nra.
Qed.
Lemma l1_steps : steps_ok any_label positive l1.
Proof.
  intros a B A y c Hy HA E. unfold positive in HA. assert (A0 := Homker_Proofs.qc_pos_neq A HA). cbn in *. unfold l1_dca, l1_conj in *.
  assert (Ha : qle (qabs a) 1 = true).
  { destruct (qle (qabs (- a)) 1) eqn:E0; [|discriminate E]. apply qle_true in E0. apply qle_true.
    destruct (qabs_cases (- a)) as [(H & R)|(H & R)]; rewrite R in E0; destruct (qabs_cases a) as [(H' & ->)|(H' & ->)]; qc_lra. }
  rewrite Ha, div_ok by exact A0. cbn [obind].
  eexists. split; [reflexivity|]. pose proof (times_quotient A (y - B) A0) as T. set (q := (y - B) / A) in *. clearbody q.
  unfold optimal_step. cbn [conjFn l1]. unfold l1_conj.
  set (v := vmax (-(1)) (vmin 1 (q + a))).
  assert (Hv : -(1) <= v /\ v <= 1 /\ (v = q + a \/ v = -(1) /\ q + a <= -(1) \/ v = 1 /\ 1 <= q + a)).
  { unfold v. destruct (vmin_cases 1 (q + a)) as [(H & ->)|(H & ->)]; [destruct (vmax_cases (-(1)) 1) as [(H' & ->)|(H' & ->)]|destruct (vmax_cases (-(1)) (q + a)) as [(H' & ->)|(H' & ->)]].
    - exfalso. qc_lra.
    - split; [qc_lra|]. split; [qc_lra|]. right. right. split; [reflexivity|]. qc_lra.
    - split; [qc_lra|]. split; [qc_lra|]. right. left. split; [reflexivity|]. qc_lra.
    - split; [qc_lra|]. split; [qc_lra|]. left. reflexivity. }
  clearbody v. destruct Hv as (V0 & V1 & Hv).
  exists (y * - (a + (v - a))). split.
  - assert (E1 : qle (qabs (- (a + (v - a)))) 1 = true).
    { apply qle_true. destruct (qabs_cases (- (a + (v - a)))) as [(H & ->)|(H & ->)]; qc_lra. }
    rewrite E1. reflexivity.
  - intros d' c' E'. destruct (qle (qabs (- (a + d'))) 1) eqn:E1; [|discriminate E'].
    apply qle_true in E1. injection E' as E'. subst c'. apply (parabola A B a y q); [apply Qclt_le_weak; exact HA|exact T|].
    assert (D : -(1) <= a + d' /\ a + d' <= 1) by (destruct (qabs_cases (- (a + d'))) as [(H & R)|(H & R)]; rewrite R in E1; split; qc_lra).
    destruct D as (D0 & D1). destruct Hv as [Hv|[(Hv & H1)|(Hv & H1)]].
    + replace (v - a - q) with 0; [|rewrite Hv; ring]. replace (0 * 0) with 0 by ring. apply q_square_nonneg.
    + rewrite Hv. qc_prep; unfold inject_Z in *; nra.
    + rewrite Hv. qc_prep; unfold inject_Z in *; nra.
Qed.
Lemma half_pos A : 0 <= A -> A + half <> 0.
Proof. intro H. apply Homker_Proofs.qc_pos_neq. unfold half. qc_lra. Qed.
Lemma hinge2_steps : steps_ok sign_label nonneg hinge2.
Proof.
  intros a B A y c Hy HA E. unfold nonneg in HA. assert (A0 := half_pos A HA). cbn. unfold hinge2_dca. rewrite div_ok by exact A0. cbn [obind].
  eexists. split; [reflexivity|]. pose proof (times_quotient (A + half) (y - B - half * a) A0) as T. set (q := (y - B - half * a) / (A + half)) in *. clearbody q.
  unfold optimal_step. cbn [conjFn hinge2]. unfold hinge2_conj.
  set (v := vmax 0 (y * (q + a))).
  assert (Hv : 0 <= v /\ (v = y * (q + a) \/ v = 0 /\ y * (q + a) <= 0)).
  { unfold v. destruct (vmax_cases 0 (y * (q + a))) as [(H' & ->)|(H' & ->)].
    - split; [qc_lra|]. right. split; [reflexivity|]. qc_lra.
    - split; [exact H'|]. left. reflexivity. }
  clearbody v. destruct Hv as (V0 & Hv).
  assert (Z : y * - (a + (y * v - a)) = - v) by (destruct Hy as [-> | ->]; ring).
  eexists. split.
  - rewrite Z. assert (E2 : qle (- v) 0 = true) by (apply qle_true; qc_lra). rewrite E2. reflexivity.
  - intros d' c' E'. destruct (qle (y * - (a + d')) 0) eqn:E2; [|discriminate E'].
    apply qle_true in E2. injection E' as E'. subst c'. apply (parabola2 A B a y q); [exact HA|exact T|].
    destruct Hv as [Hv|(Hv & H1)].
    + replace (y * v - a - q) with 0; [|rewrite Hv; destruct Hy as [-> | ->]; ring]. replace (0 * 0) with 0 by ring. apply q_square_nonneg.
    + rewrite Hv. destruct Hy as [-> | ->]; qc_prep; unfold inject_Z in *; nra.
Qed.
Lemma l2_steps : steps_ok any_label nonneg l2.
Proof.
  intros a B A y c Hy HA E. unfold nonneg in HA. assert (A0 := half_pos A HA). cbn. unfold l2_dca. rewrite div_ok by exact A0.
  eexists. split; [reflexivity|]. pose proof (times_quotient (A + half) (y - B - half * a) A0) as T. set (q := (y - B - half * a) / (A + half)) in *. clearbody q.
  unfold optimal_step. cbn [conjFn l2]. unfold l2_conj. eexists. split; [reflexivity|].
  intros d' c' E'. injection E' as E'. subst c'. apply (parabola2 A B a y q); [exact HA|exact T|].
  replace (q - q) with 0 by ring. replace (0 * 0) with 0 by ring. apply q_square_nonneg.
Qed.
