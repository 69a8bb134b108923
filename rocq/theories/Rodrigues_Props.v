(** C51, C101-C103: Rodrigues' formula and its inverse. *)
From Coq Require Import List Arith Bool Reals Lra Lia.
Import ListNotations.
From Verif Require Import Rodrigues_Model Rodrigues_Spec Rodrigues_Proofs RodriguesPi_Proofs RodriguesDeriv_Proofs.
Local Open Scope R_scope.

(** vl_rodrigues writes a rotation that keeps the vector, whatever the vector *)
Theorem C51_rotation : forall om : R * R * R, rotation (rodrigues om) /\ apply (rodrigues om) om = om.
Proof. intros om. split; [apply rodrigues_rotation|apply rodrigues_fixes]. Qed.
(** ... which turns every vector about the axis by the norm *)
Theorem C51_turn : forall om v : R * R * R, / 1000000 <= norm om ->
  apply (rodrigues om) v = turn (scale (/ norm om) om) (norm om) v.
Proof. intros om v H. apply rodrigues_turn. exact H. Qed.
(** vl_irodrigues recovers the vector *)
Theorem C51_inverse : forall om : R * R * R, / 1000000 <= norm om <= PI -> / 1000000 <= sin (norm om) ->
  irodrigues (rodrigues om) = om.
Proof. intros om [H1 H2] H3. apply irodrigues_back; assumption. Qed.

(** the derivative of vl_rodrigues: 27 partial derivatives *)
Theorem C101_forward : forall (om : R * R * R) i j, (i < 9)%nat -> (j < 3)%nat -> / 1000000 < norm om ->
  partial_at (fun v => nth i (rodrigues v) 0) om j (nth (i + 9 * j) (drodrigues om) 0).
Proof. intros. apply forward_derive; assumption. Qed.
Theorem C101_forward_zero : forall i j, (i < 9)%nat -> (j < 3)%nat ->
  derivable_pt_lim (fun t => nth i (turn_matrix (basis j) t) 0) 0 (nth (i + 9 * j) (drodrigues (0, 0, 0)) 0).
Proof. exact zero_derive. Qed.
(** the derivative of vl_irodrigues: 27 partial derivatives *)
Theorem C101_inverse : forall m j k, length m = 9%nat -> (j < 3)%nat -> (k < 9)%nat -> -1 < trace m < 3 ->
  let th := acos ((trace m - 1) / 2) in
  / 1000000 < sin th \/ (sin th < / 1000000 /\ 0 < cos th) ->
  exists D, dirodrigues m = Some D /\ partial_entry (fun m => coord (irodrigues m) j) m k (nth (j + 3 * k) D 0).
Proof.
  intros m j k L Hj Hk T th [H|[H C]]; [apply inverse_derive|apply inverse_derive_tiny]; assumption.
Qed.

(** every rotation is found again from its vector *)
Theorem C102_all_rotations : forall m, rotation m ->
  / 1000000 <= sin (acos ((trace m - 1) / 2)) \/ trace m = -1 \/ trace m = 3 ->
  rodrigues (irodrigues m) = m.
Proof. intros m R H. apply round_trip; assumption. Qed.
(** every rotation is written by vl_rodrigues for some vector of norm at most pi, except those of
    angle below the threshold *)
Theorem C102_onto : forall m, rotation m -> exists k t, dot k k = 1 /\ 0 <= t <= PI /\
  (forall v, apply m v = turn k t v) /\ (/ 1000000 <= t -> rodrigues (scale t k) = m).
Proof.
  intros m R. destruct (rotation_axis m R) as (x & y & z & t & U & Ht & ->). exists (x, y, z), t.
  split; [exact U|]. split; [exact Ht|]. split; [intros v; apply matrix_turn; exact U|].
  intros H. unfold scale. apply rodrigues_unit; [exact U|exact H].
Qed.

(** within the threshold of half a turn the vector is found up to its sign *)
Theorem C103_sign : forall om : R * R * R, / 1000000 <= norm om <= PI -> sin (norm om) < / 1000000 -> cos (norm om) < 0 ->
  irodrigues (rodrigues om) = om \/ irodrigues (rodrigues om) = scale (-1) om.
Proof. intros om [H1 H2] H3 H4. apply irodrigues_near_pi; assumption. Qed.
(** ... and the sign may be wrong although the vector is shorter than pi, so that another rotation results *)
Theorem C103_recovered_refuted : exists om : R * R * R, / 1000000 <= norm om < PI /\
  irodrigues (rodrigues om) <> om /\ rodrigues (irodrigues (rodrigues om)) <> rodrigues om.
Proof.
  destruct near_pi_witness as [[H1 H2] E]. set (om := (- (PI - small / 2), 0, 0)) in *. exists om.
  pose proof small_pos as P. pose proof small_1 as P1. pose proof PI2_3_2 as PP.
  split; [split; assumption|]. split.
  - rewrite E. unfold om, scale. intros F. injection F as F. lra.
  - rewrite E.
    assert (N : norm om = PI - small / 2).
    { unfold om, norm. replace (- (PI - small / 2) * - (PI - small / 2) + 0 * 0 + 0 * 0) with ((PI - small / 2) * (PI - small / 2)) by ring. apply sqrt_square. lra. }
    assert (N' : norm (scale (-1) om) = norm om).
    { unfold om, scale, norm. f_equal. ring. }
    assert (S : 0 < sin (norm om)) by (apply sin_gt_0; lra).
    unfold om at 1 2. unfold scale at 1. rewrite rodrigues_big by (change (small <= norm (scale (-1) om)); rewrite N'; lra).
    rewrite rodrigues_big by (fold om; lra). change (norm (-1 * - (PI - small / 2), -1 * 0, -1 * 0)) with (norm (scale (-1) om)). fold om. rewrite N'.
    intros F. apply (f_equal (fun m => nth 5 m 0)) in F. unfold matrix in F. cbn [List.nth] in F.
    replace (-1 * - (PI - small / 2) / norm om) with 1 in F by (rewrite N; field; lra).
    replace (- (PI - small / 2) / norm om) with (-1) in F by (rewrite N; field; lra).
    replace (0 / norm om) with 0 in F by (field; lra). replace (-1 * 0 / norm om) with 0 in F by (field; lra). lra.
Qed.

(** a quarter turn about the third axis *)
Lemma quarter : norm (0, 0, PI / 2) = PI / 2.
Proof. unfold norm. replace (0 * 0 + 0 * 0 + PI / 2 * (PI / 2)) with (PI / 2 * (PI / 2)) by ring. apply sqrt_square. pose proof PI_RGT_0. lra. Qed.
Example C51_ex_quarter : rodrigues (0, 0, PI / 2) = [0; 1; 0; -1; 0; 0; 0; 0; 1] /\ irodrigues (rodrigues (0, 0, PI / 2)) = (0, 0, PI / 2).
Proof.
  pose proof PI2_3_2. pose proof small_1. pose proof small_pos. split.
  - rewrite rodrigues_big by (rewrite quarter; lra). rewrite quarter, sin_PI2, cos_PI2.
    replace (0 / (PI / 2)) with 0 by (field; lra). replace (PI / 2 / (PI / 2)) with 1 by (field; lra).
    unfold matrix. repeat (apply (f_equal2 cons); [ring|]). reflexivity.
  - apply C51_inverse; rewrite quarter; [|rewrite sin_PI2]; change (/ 1000000) with small; lra.
Qed.
Example C101_ex_quarter : partial_at (fun v => nth 0 (rodrigues v) 0) (0, 0, PI / 2) 2 (-1).
Proof.
  pose proof PI2_3_2. pose proof small_1. pose proof small_pos.
  replace (-1) with (nth (0 + 9 * 2) (drodrigues (0, 0, PI / 2)) 0).
  - apply C101_forward; [lia|lia|]. rewrite quarter. change (/ 1000000) with small. lra.
  - unfold drodrigues. change (angle (0, 0, PI / 2)) with (norm (0, 0, PI / 2)). rewrite quarter, (proj2 (ltb_false _ _)) by lra.
    cbn [List.nth Nat.add Nat.mul]. rewrite sin_PI2, cos_PI2. field. lra.
Qed.
Example C101_ex_inverse : exists D, dirodrigues [0; 1; 0; -1; 0; 0; 0; 0; 1] = Some D /\
  partial_entry (fun m => coord (irodrigues m) 2) [0; 1; 0; -1; 0; 0; 0; 0; 1] 0 (nth 2 D 0).
Proof.
  apply C101_inverse with (k := 0%nat); [reflexivity|lia|lia|unfold trace, entry; cbn [List.nth Nat.add Nat.mul]; lra|].
  left. unfold trace, entry. cbn [List.nth Nat.add Nat.mul]. replace ((0 + 0 + 1 - 1) / 2) with 0 by field. rewrite acos_0, sin_PI2. apply small_1.
Qed.
Example C102_ex_half : rotation [1; 0; 0; 0; -1; 0; 0; 0; -1] /\ rodrigues (irodrigues [1; 0; 0; 0; -1; 0; 0; 0; -1]) = [1; 0; 0; 0; -1; 0; 0; 0; -1].
Proof.
  assert (R : rotation [1; 0; 0; 0; -1; 0; 0; 0; -1]).
  { split; [split; [reflexivity|]|].
    - intros i j Hi Hj. destruct i as [|[|[|i]]]; [| | |lia]; (destruct j as [|[|[|j]]]; [| | |lia]); unfold entry; cbn [List.nth Nat.add Nat.mul Nat.eqb]; ring.
    - unfold det, entry. cbn [List.nth Nat.add Nat.mul]. ring. }
  split; [exact R|]. apply C102_all_rotations; [exact R|]. right. left. unfold trace, entry. cbn [List.nth Nat.add Nat.mul]. ring.
Qed.

Print Assumptions C51_rotation.
Print Assumptions C51_turn.
Print Assumptions C51_inverse.
Print Assumptions C101_forward.
Print Assumptions C101_forward_zero.
Print Assumptions C101_inverse.
Print Assumptions C102_all_rotations.
Print Assumptions C102_onto.
Print Assumptions C103_sign.
Print Assumptions C103_recovered_refuted.
