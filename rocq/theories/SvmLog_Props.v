(** The logistic loss and data expanded by a kernel map: theorems. *)
From Coq Require Import Reals List Arith Lra Lia.
Import ListNotations.
From Verif Require Import Base Loop SvmLog_Model SvmLog_Spec SvmLog_Proofs.
Local Open Scope R_scope.

(** C243: the loss is log(1 + exp(-y z)) for every sign of the score, and the derivative is its derivative. *)
Theorem C243_loss : forall z y, logistic_loss z y = softplus y z.
Proof. exact loss_softplus. Qed.
Theorem C243_derivative : forall z y, derivable_pt_lim (softplus y) z (logistic_deriv z y).
Proof.
  intros z y eps He. destruct (deriv_ok z y eps He) as (d & Hd). exists d. intros h H0 Hh. specialize (Hd h H0 Hh). now rewrite !loss_softplus in Hd.
Qed.
Example C243_ex : logistic_loss 0 1 = ln 2 /\ logistic_deriv 0 (-1) = / 2.
Proof.
  rewrite loss_softplus. unfold softplus, logistic_deriv. cbv zeta. rewrite !Rmult_0_r, Ropp_0, exp_0. split; [f_equal; ring|field].
Qed.

(** C244: the conjugate loss is the largest value of u z - loss(z), from above always, from below up to 0.00003,
    exactly away from the ends of the interval, and infinite exactly where there is no bound. *)
Theorem C244_conjugate : forall u y, y = 1 \/ y = -1 ->
  match logistic_conj u y with
  | Some c => (forall z, u * z - softplus y z <= c) /\ (exists z, c - 3 / 10 ^ 5 <= u * z - softplus y z) /\
      (/ 10 ^ 10 < - (y * u) < 1 - / 10 ^ 10 -> exists z, c = u * z - softplus y z)
  | None => forall M, exists z, M <= u * z - softplus y z
  end.
Proof.
  intros u y Y. assert (Hy : y * y = 1) by (destruct Y as [-> | ->]; ring).
  destruct (logistic_conj u y) as [c|] eqn:E; [split; [|split]|].
  - intro z. rewrite <- loss_softplus. now apply conj_upper.
  - destruct (conj_tight u y Hy c E) as (z & H). exists z. now rewrite <- loss_softplus.
  - intro B. destruct (conj_exact u y Hy c B E) as (z & H). exists z. now rewrite <- loss_softplus.
  - intro M. destruct (conj_infinite u y Hy M E) as (z & H). exists z. now rewrite <- loss_softplus.
Qed.
Example C244_ex : (exists c, logistic_conj (- / 2) 1 = Some c /\ c = - ln 2) /\ logistic_conj 1 1 = None.
Proof.
  split.
  - eexists. split; [unfold logistic_conj; cbv zeta; destruct (Rle_dec (-1) (1 * - / 2)); [|lra]; destruct (Rle_dec (1 * - / 2) 0); [reflexivity|lra]|].
    unfold xlogx. replace (- (1 * - / 2)) with (/ 2) by ring. replace (1 + 1 * - / 2) with (/ 2) by field.
    destruct (Rle_dec (/ 2) (/ 10 ^ 10)); [lra|]. rewrite ln_Rinv by lra. field.
  - unfold logistic_conj. cbv zeta. destruct (Rle_dec (-1) (1 * 1)); [|lra]. destruct (Rle_dec (1 * 1) 0); [lra|reflexivity].
Qed.

(** C245: the update is feasible and at most 1/64 away from the step that solves the problem of the documentation, for all arguments. *)
Theorem C245_update : forall alpha inner norm2 y, y = 1 \/ y = -1 -> 0 <= norm2 ->
  feasible alpha y (logistic_dca alpha inner norm2 y) /\
  exists d, solves_update alpha inner norm2 y d /\ Rabs (logistic_dca alpha inner norm2 y - d) <= / 64.
Proof.
  intros alpha inner norm2 y Y HA. assert (Hy : y * y = 1) by (destruct Y as [-> | ->]; ring).
  destruct (dca_ok alpha inner norm2 y HA) as (b & r & Hb & Hr & G & W & E). rewrite E. split.
  - unfold feasible. replace (y * (alpha + (y * b - alpha))) with (y * y * b) by ring. now rewrite Hy, Rmult_1_l.
  - exists (y * r - alpha). split; [now apply solution|].
    replace (y * b - alpha - (y * r - alpha)) with (y * (b - r)) by ring. rewrite Rabs_mult.
    replace (Rabs y) with 1; [lra|]. unfold Rabs. destruct (Rcase_abs y), Y as [-> | ->]; lra.
Qed.
(** the hypotheses met: a datum of norm 1 with a zero model; the exact step is that of b = 1/2 with norm2 = 0 *)
Example C245_ex : solves_update 0 0 0 1 (/ 2) /\ exists d, solves_update 0 (-1) 1 1 d.
Proof.
  split.
  - replace (/ 2) with (1 * / 2 - 0) by ring. apply (solution 0 0 0 1 ltac:(lra) ltac:(ring)); [lra|].
    unfold g. replace (1 - / 2) with (/ 2) by field. ring.
  - destruct (C245_update 0 (-1) 1 1 (or_introl eq_refl) ltac:(lra)) as (_ & d & H & _). exists d. exact H.
Qed.

(** C246: the steps of Newton's method may leave the solution for the end of the interval: the update makes the dual objective worse. *)
Theorem C246_ascent_refuted : ~ forall alpha inner norm2 y, y = 1 \/ y = -1 -> 0 <= norm2 -> feasible alpha y 0 ->
  update_objective alpha inner norm2 y (logistic_dca alpha inner norm2 y) <= update_objective alpha inner norm2 y 0.
Proof.
  intro H. pose proof (exp_pos (-15)) as P. assert (Q : exp (-15) < 1) by (rewrite <- exp_0; apply exp_increasing; lra).
  specialize (H bad_alpha bad_inner 1 1 (or_introl eq_refl) ltac:(lra)). rewrite bad_dca in H.
  pose proof bad_objective. assert (F : feasible bad_alpha 1 0) by (unfold feasible, bad_alpha; lra). specialize (H F). lra.
Qed.
Example C246_ex : logistic_dca (exp (-15)) (14 + exp (-15)) 1 1 = - exp (-15).
Proof. exact bad_dca. Qed.

(** C247: with a kernel map the data set behaves as the data set of the expanded data, of the dimension it reports. *)
Theorem C247_expanded : forall hom hd dim data element row model c,
  (forall x, length (hom x) = hd) -> length row = dim -> (forall j, (j < dim)%nat -> nth_error data (dim * element + j) = nth_error row j) ->
  length model = hom_dimension hd dim ->
  length (expanded hom row) = hom_dimension hd dim /\
  inner_product_hom hom hd dim data element model = Some (dot (expanded hom row) model) /\
  accumulate_hom hom hd dim data element model c = Some (add_scaled c (expanded hom row) model).
Proof.
  intros hom hd dim data element row model c Hh Hr Hd HM. split; [|split].
  - rewrite (expanded_length hom hd Hh). unfold hom_dimension. now rewrite Hr.
  - now apply inner_hom_ok.
  - now apply accumulate_hom_ok.
Qed.
Example C247_ex : inner_product_hom (fun x => [x; x * x]) 2 2 [7; 7; 2; 3] 1 [1; 1; 1; 10] = Some 99 /\
  accumulate_hom (fun x => [x; x * x]) 2 2 [7; 7; 2; 3] 1 [0; 0; 0; 1] 2 = Some [4; 8; 6; 19].
Proof.
  assert (H : forall j, (j < 2)%nat -> nth_error [7; 7; 2; 3] (2 * 1 + j) = nth_error [2; 3] j) by (intros [|[|j]] L; [reflexivity|reflexivity|lia]).
  destruct (C247_expanded (fun x => [x; x * x]) 2 2 [7; 7; 2; 3] 1 [2; 3] [1; 1; 1; 10] 2 (fun _ => eq_refl) eq_refl H eq_refl) as (_ & -> & _).
  destruct (C247_expanded (fun x => [x; x * x]) 2 2 [7; 7; 2; 3] 1 [2; 3] [0; 0; 0; 1] 2 (fun _ => eq_refl) eq_refl H eq_refl) as (_ & _ & ->).
  cbn. split; [f_equal; ring|repeat f_equal; ring].
Qed.

Print Assumptions C243_loss.
Print Assumptions C243_derivative.
Print Assumptions C244_conjugate.
Print Assumptions C245_update.
Print Assumptions C246_ascent_refuted.
Print Assumptions C247_expanded.
