(** The derivatives written by vl_rodrigues and vl_irodrigues. *)
From Coq Require Import List Arith Bool Reals Lra Lia.
From Coquelicot Require Import Coquelicot.
Import ListNotations.
From Verif Require Import Rodrigues_Model Rodrigues_Spec Rodrigues_Proofs RodriguesPi_Proofs.
Local Open Scope R_scope.

(** *** The forward formula *)
Section Entries.
Variables X Y Z S C : R -> R.
Variables t x' y' z' s' c' : R.
Hypothesis HX : is_derive X t x'.
Hypothesis HY : is_derive Y t y'.
Hypothesis HZ : is_derive Z t z'.
Hypothesis HS : is_derive S t s'.
Hypothesis HC : is_derive C t c'.
Let x := X t. Let y := Y t. Let z := Z t. Let s := S t. Let c := C t.
Definition dmatrix : list R :=
  [ c' * (y * y + z * z) - (1 - c) * (2 * y * y' + 2 * z * z');
    s' * z + s * z' - c' * (x * y) + (1 - c) * (x' * y + x * y');
    - (s' * y + s * y') - c' * (x * z) + (1 - c) * (x' * z + x * z');
    - (s' * z + s * z') - c' * (x * y) + (1 - c) * (x' * y + x * y');
    c' * (z * z + x * x) - (1 - c) * (2 * z * z' + 2 * x * x');
    s' * x + s * x' - c' * (y * z) + (1 - c) * (y' * z + y * z');
    s' * y + s * y' - c' * (x * z) + (1 - c) * (x' * z + x * z');
    - (s' * x + s * x') - c' * (y * z) + (1 - c) * (y' * z + y * z');
    c' * (x * x + y * y) - (1 - c) * (2 * x * x' + 2 * y * y') ].
Lemma matrix_derive i : (i < 9)%nat -> is_derive (fun t => nth i (matrix (X t) (Y t) (Z t) (S t) (C t)) 0) t (nth i dmatrix 0).
Proof.
  intros Hi.
  pose proof (is_derive_unique _ _ _ HX) as EX. pose proof (is_derive_unique _ _ _ HY) as EY. pose proof (is_derive_unique _ _ _ HZ) as EZ.
  pose proof (is_derive_unique _ _ _ HS) as ES. pose proof (is_derive_unique _ _ _ HC) as EC.
  assert (ex_derive X t) by (exists x'; exact HX). assert (ex_derive Y t) by (exists y'; exact HY). assert (ex_derive Z t) by (exists z'; exact HZ).
  assert (ex_derive S t) by (exists s'; exact HS). assert (ex_derive C t) by (exists c'; exact HC).
  do 9 (destruct i as [|i]; [unfold matrix, dmatrix; cbn [List.nth]; auto_derive;
    [repeat split; assumption|change (fun x0 : R => X x0) with X; change (fun x0 : R => Y x0) with Y; change (fun x0 : R => Z x0) with Z; change (fun x0 : R => S x0) with S; change (fun x0 : R => C x0) with C;
     rewrite ?EX, ?EY, ?EZ, ?ES, ?EC; unfold x, y, z, s, c; ring]|]). lia.
Qed.
End Entries.

Lemma quot_id (N : R -> R) t n' : is_derive N t n' -> N t <> 0 -> is_derive (fun u => u / N u) t ((N t - t * n') / (N t * N t)).
Proof.
  intros D H. assert (ex_derive N t) by (exists n'; exact D). pose proof (is_derive_unique _ _ _ D) as E. auto_derive.
  - repeat split; assumption.
  - change (fun x : R => N x) with N. rewrite E. field. exact H.
Qed.
Lemma quot_const k (N : R -> R) t n' : is_derive N t n' -> N t <> 0 -> is_derive (fun u => k / N u) t (- k * n' / (N t * N t)).
Proof.
  intros D H. assert (ex_derive N t) by (exists n'; exact D). pose proof (is_derive_unique _ _ _ D) as E. auto_derive.
  - repeat split; assumption.
  - change (fun x : R => N x) with N. rewrite E. field. exact H.
Qed.
Lemma sin_derive (N : R -> R) t n' : is_derive N t n' -> is_derive (fun u => sin (N u)) t (cos (N t) * n').
Proof.
  intros D. assert (ex_derive N t) by (exists n'; exact D). pose proof (is_derive_unique _ _ _ D) as E. auto_derive; [assumption|].
  change (fun x : R => N x) with N. rewrite E. ring.
Qed.
Lemma cos_derive (N : R -> R) t n' : is_derive N t n' -> is_derive (fun u => cos (N u)) t (- sin (N t) * n').
Proof.
  intros D. assert (ex_derive N t) by (exists n'; exact D). pose proof (is_derive_unique _ _ _ D) as E. auto_derive; [assumption|].
  change (fun x : R => N x) with N. rewrite E. ring.
Qed.

(** the norm along a coordinate *)
Lemma norm_derive om j : (j < 3)%nat -> 0 < norm om -> is_derive (fun t => norm (with_coord om j t)) (coord om j) (coord om j / norm om).
Proof.
  intros Hj Hn. destruct om as [[a b] c]. pose proof (norm_square a b c) as Q.
  assert (P : 0 < a * a + b * b + c * c) by nra.
  do 3 (destruct j as [|j]; [unfold norm, with_coord, coord; auto_derive; [exact P|]; unfold norm in Hn; field; lra|]). lia.
Qed.
Lemma coord_with om j k t : (j < 3)%nat -> (k < 3)%nat -> coord (with_coord om j t) k = if (k =? j)%nat then t else coord om k.
Proof. intros Hj Hk. destruct om as [[a b] c]. destruct j as [|[|[|]]]; try lia; destruct k as [|[|[|]]]; try lia; reflexivity. Qed.
Lemma with_coord_self om j : (j < 3)%nat -> with_coord om j (coord om j) = om.
Proof. intros Hj. destruct om as [[a b] c]. destruct j as [|[|[|]]]; try lia; reflexivity. Qed.
Lemma ratio_derive om j k : (j < 3)%nat -> (k < 3)%nat -> 0 < norm om ->
  is_derive (fun t => coord (with_coord om j t) k / norm (with_coord om j t)) (coord om j)
    (((if (k =? j)%nat then 1 else 0) - coord om k / norm om * (coord om j / norm om)) / norm om).
Proof.
  intros Hj Hk Hn.
  apply is_derive_ext with (f := fun t => (if (k =? j)%nat then t else coord om k) / norm (with_coord om j t)).
  { intros t. rewrite coord_with by assumption. reflexivity. }
  pose proof (norm_derive om j Hj Hn) as D.
  assert (N : norm (with_coord om j (coord om j)) = norm om) by (rewrite with_coord_self by exact Hj; reflexivity).
  destruct (k =? j)%nat eqn:K.
  - apply Nat.eqb_eq in K. subst k. pose proof (quot_id _ _ _ D) as Q. cbv beta in Q. rewrite N in Q.
    match type of Q with _ -> is_derive _ _ ?v => replace ((1 - _) / _) with v by (field; lra) end. apply Q. lra.
  - pose proof (quot_const (coord om k) _ _ _ D) as Q. cbv beta in Q. rewrite N in Q.
    match type of Q with _ -> is_derive _ _ ?v => replace ((0 - _) / _) with v by (field; lra) end. apply Q. lra.
Qed.
Lemma rodrigues_coord om : small <= norm om ->
  rodrigues om = matrix (coord om 0 / norm om) (coord om 1 / norm om) (coord om 2 / norm om) (sin (norm om)) (cos (norm om)).
Proof. intros H. destruct om as [[a b] c]. apply rodrigues_big. exact H. Qed.
Lemma locally_big om j : (j < 3)%nat -> small < norm om -> locally (coord om j) (fun t => small < norm (with_coord om j t)).
Proof.
  intros Hj H. pose proof small_pos as P.
  assert (C : continuous (fun t => norm (with_coord om j t)) (coord om j)).
  { apply (ex_derive_continuous (fun t => norm (with_coord om j t))). eexists. apply norm_derive; [exact Hj|lra]. }
  apply (C (fun y => small < y)). apply (open_gt small). rewrite with_coord_self by exact Hj. exact H.
Qed.
Lemma forward_derive om i j : (i < 9)%nat -> (j < 3)%nat -> small < norm om ->
  partial_at (fun v => nth i (rodrigues v) 0) om j (nth (i + 9 * j) (drodrigues om) 0).
Proof.
  intros Hi Hj H. pose proof small_pos as P. unfold partial_at. apply is_derive_Reals.
  apply is_derive_ext_loc with (f := fun t => nth i (matrix (coord (with_coord om j t) 0 / norm (with_coord om j t)) (coord (with_coord om j t) 1 / norm (with_coord om j t))
     (coord (with_coord om j t) 2 / norm (with_coord om j t)) (sin (norm (with_coord om j t))) (cos (norm (with_coord om j t)))) 0).
  { generalize (locally_big om j Hj H). apply filter_imp. intros t Ht. rewrite rodrigues_coord by lra. reflexivity. }
  assert (HN : 0 < norm om) by lra.
  pose proof (norm_derive om j Hj HN) as D.
  assert (N : norm (with_coord om j (coord om j)) = norm om) by (rewrite with_coord_self by exact Hj; reflexivity).
  pose proof (sin_derive _ _ _ D) as DS. pose proof (cos_derive _ _ _ D) as DC. cbv beta in DS, DC. rewrite N in DS, DC.
  pose proof (matrix_derive _ _ _ _ _ _ _ _ _ _ _ (ratio_derive om j 0 Hj ltac:(lia) HN) (ratio_derive om j 1 Hj ltac:(lia) HN)
    (ratio_derive om j 2 Hj ltac:(lia) HN) DS DC i Hi) as M.
  cbv beta in M.
  match type of M with is_derive _ _ ?v => replace (nth (i + 9 * j) (drodrigues om) 0) with v; [exact M|] end.
  unfold dmatrix. rewrite with_coord_self by exact Hj. clear M DS DC D N.
  destruct om as [[a b] c]. unfold drodrigues. change (angle (a, b, c)) with (norm (a, b, c)). set (n := norm (a, b, c)) in *.
  rewrite (proj2 (ltb_false n small)) by lra. unfold coord.
  do 3 (destruct j as [|j]; [do 9 (destruct i as [|i]; [cbn [List.nth Nat.add Nat.mul Nat.eqb]; field; lra|]); lia|]). lia.
Qed.

(** at the null vector: the derivative of the rotations about the axes *)
Lemma zero_derive i j : (i < 9)%nat -> (j < 3)%nat ->
  derivable_pt_lim (fun t => nth i (turn_matrix (basis j) t) 0) 0 (nth (i + 9 * j) (drodrigues (0, 0, 0)) 0).
Proof.
  intros Hi Hj. pose proof small_pos as P. apply is_derive_Reals.
  assert (N : norm (0, 0, 0) = 0) by (unfold norm; rewrite !Rmult_0_l, !Rplus_0_r; apply sqrt_0).
  unfold drodrigues. change (angle (0, 0, 0)) with (norm (0, 0, 0)). rewrite N. rewrite (proj2 (ltb_true 0 small)) by exact P.
  unfold turn_matrix, basis, turn, plus, scale, dot, cross, with_coord.
  do 3 (destruct j as [|j]; [do 9 (destruct i as [|i]; [cbn [List.nth Nat.add Nat.mul Nat.eqb app]; auto_derive; [exact I|]; rewrite ?sin_0, ?cos_0; ring|]); lia|]). lia.
Qed.

(** *** The inverse formula *)
Lemma acos_derive u : -1 < u < 1 -> is_derive acos u (- / sin (acos u)).
Proof.
  intros H. apply is_derive_Reals. rewrite sin_acos by lra.
  pose proof (derive_pt_acos u H) as E. apply derive_pt_eq_1 in E. replace (- / sqrt (1 - Rsqr u)) with (-1 / sqrt (1 - Rsqr u)); [exact E|].
  unfold Rdiv. ring.
Qed.
(** th as a function of the trace *)
Definition theta (tr : R) : R := acos ((tr - 1) / 2).
Lemma theta_derive tr : -1 < tr < 3 -> is_derive theta tr (- / (2 * sin (theta tr))).
Proof.
  intros H. assert (U : -1 < (tr - 1) / 2 < 1) by lra. pose proof (acos_derive _ U) as D.
  assert (S0 : 0 < sin (theta tr)) by (unfold theta; apply sin_gt_0; apply acos_bound_lt; exact U).
  unfold theta. replace (- / (2 * sin (acos ((tr - 1) / 2)))) with (scal (/ 2) (- / sin (acos ((tr - 1) / 2)))).
  2:{ unfold scal. cbn. unfold mult. cbn. fold (theta tr). field. lra. }
  apply (is_derive_comp acos (fun t => (t - 1) / 2) tr); [exact D|]. auto_derive; [exact I|]. field.
Qed.
Lemma theta_bounds tr : -1 < tr < 3 -> 0 < theta tr < PI /\ 0 < sin (theta tr).
Proof.
  intros H. assert (U : -1 < (tr - 1) / 2 < 1) by lra. pose proof (acos_bound_lt _ U) as B. split; [exact B|]. apply sin_gt_0; apply B.
Qed.
Lemma half_ratio_derive tr : -1 < tr < 3 ->
  is_derive (fun t => 1 / 2 * (theta t / sin (theta t))) tr
    ((theta tr * cos (theta tr) - sin (theta tr)) / (4 * sin (theta tr) * sin (theta tr) * sin (theta tr))).
Proof.
  intros H. pose proof (theta_derive tr H) as D. destruct (theta_bounds tr H) as [_ S0].
  assert (ex_derive theta tr) by (eexists; exact D). pose proof (is_derive_unique _ _ _ D) as E.
  auto_derive; [repeat split; try assumption; lra|]. change (fun x : R => theta x) with theta. rewrite E. field. lra.
Qed.

(** the trace and the skew components after replacing an entry *)
Lemma iangle_theta m : -1 <= trace m -> iangle m = theta (trace m).
Proof. intros H. apply iangle_trace. exact H. Qed.

Section Inverse.
Variables a d g b e h c f i : R.
Let m := [a; d; g; b; e; h; c; f; i].
Hypothesis T : -1 < trace m < 3.
Lemma trace_derive k : (k < 9)%nat -> is_derive (fun t => trace (with_entry m k t)) (nth k m 0) (if (k mod 4 =? 0)%nat then 1 else 0).
Proof.
  intros Hk. unfold trace, entry, m. do 9 (destruct k as [|k]; [cbn [List.nth with_entry Nat.add Nat.mul Nat.eqb Nat.modulo Nat.divmod snd Nat.sub]; auto_derive; [exact I|ring]|]). lia.
Qed.
Lemma with_entry_self k : (k < 9)%nat -> with_entry m k (nth k m 0) = m.
Proof. intros Hk. unfold m. do 9 (destruct k as [|k]; [reflexivity|]). lia. Qed.
(** any condition on the trace that holds in a neighbourhood *)
Lemma locally_trace (P : R -> Prop) k : (k < 9)%nat -> locally (trace m) P -> locally (nth k m 0) (fun t => P (trace (with_entry m k t))).
Proof.
  intros Hk HP. assert (C : continuous (fun t => trace (with_entry m k t)) (nth k m 0)).
  { apply (ex_derive_continuous (fun t => trace (with_entry m k t))). eexists. apply trace_derive. exact Hk. }
  apply C. rewrite with_entry_self by exact Hk. exact HP.
Qed.
Lemma theta_continuous : continuous theta (trace m).
Proof. apply (ex_derive_continuous theta). eexists. apply theta_derive. exact T. Qed.
Lemma locally_open : locally (trace m) (fun t => -1 < t < 3).
Proof. apply filter_and; [apply (open_gt (-1))|apply (open_lt 3)]; apply T. Qed.
Lemma locally_sin_gt : small < sin (theta (trace m)) -> locally (trace m) (fun t => small < sin (theta t)).
Proof.
  intros H. assert (C : continuous (fun t => sin (theta t)) (trace m)).
  { apply (continuous_comp theta sin); [apply theta_continuous|apply continuous_sin]. }
  apply (C (fun y => small < y)). apply (open_gt small). exact H.
Qed.
Lemma locally_sin_lt : sin (theta (trace m)) < small -> locally (trace m) (fun t => sin (theta t) < small).
Proof.
  intros H. assert (C : continuous (fun t => sin (theta t)) (trace m)).
  { apply (continuous_comp theta sin); [apply theta_continuous|apply continuous_sin]. }
  apply (C (fun y => y < small)). apply (open_lt small). exact H.
Qed.
Lemma locally_cos_gt : 0 < cos (theta (trace m)) -> locally (trace m) (fun t => 0 < cos (theta t)).
Proof.
  intros H. assert (C : continuous (fun t => cos (theta t)) (trace m)).
  { apply (continuous_comp theta cos); [apply theta_continuous|apply continuous_cos]. }
  apply (C (fun y => 0 < y)). apply (open_gt 0). exact H.
Qed.
End Inverse.

(** twice the skew component *)
Definition skewc (m : list R) (j : nat) : R :=
  match j with 0%nat => at3 m 2 1 - at3 m 1 2 | 1%nat => at3 m 0 2 - at3 m 2 0 | _ => at3 m 1 0 - at3 m 0 1 end.
Lemma regular m j : (j < 3)%nat -> -1 < trace m < 3 -> small <= sin (theta (trace m)) ->
  coord (irodrigues m) j = 1 / 2 * (theta (trace m) / sin (theta (trace m))) * skewc m j.
Proof.
  intros Hj T H. pose proof small_pos. unfold irodrigues, singular. rewrite iangle_theta by lra.
  rewrite Rabs_right by lra. rewrite (proj2 (ltb_false _ _)) by exact H. cbn [andb].
  destruct j as [|[|[|]]]; [reflexivity| reflexivity|reflexivity|lia].
Qed.
Lemma regular_tiny m j : (j < 3)%nat -> -1 < trace m < 3 -> sin (theta (trace m)) < small -> 0 <= cos (theta (trace m)) ->
  coord (irodrigues m) j = 1 / 2 * skewc m j.
Proof.
  intros Hj T H C. pose proof small_pos. destruct (theta_bounds _ T) as [_ S0]. unfold irodrigues, singular. rewrite iangle_theta by lra.
  rewrite Rabs_right by lra. rewrite (proj2 (ltb_true _ _)) by exact H. rewrite (proj2 (ltb_false (cos _) _)) by exact C. cbn [andb].
  destruct j as [|[|[|]]]; [cbn; ring|cbn; ring|cbn; ring|lia].
Qed.
Lemma prod_derive (A B : R -> R) t a' b' : is_derive A t a' -> is_derive B t b' -> is_derive (fun u => A u * B u) t (a' * B t + A t * b').
Proof.
  intros DA DB. assert (ex_derive A t) by (exists a'; exact DA). assert (ex_derive B t) by (exists b'; exact DB).
  pose proof (is_derive_unique _ _ _ DA) as EA. pose proof (is_derive_unique _ _ _ DB) as EB.
  auto_derive; [repeat split; assumption|]. change (fun x : R => A x) with A. change (fun x : R => B x) with B. rewrite EA, EB. ring.
Qed.
(** the derivative of a skew component in an entry *)
Definition dskew (k j : nat) : R :=
  match j, k with
  | 0%nat, 5%nat => 1 | 0%nat, 7%nat => -1 | 1%nat, 6%nat => 1 | 1%nat, 2%nat => -1 | 2%nat, 1%nat => 1 | 2%nat, 3%nat => -1
  | _, _ => 0 end.
Lemma skew_derive m j k : length m = 9%nat -> (j < 3)%nat -> (k < 9)%nat -> is_derive (fun t => skewc (with_entry m k t) j) (nth k m 0) (dskew k j).
Proof.
  intros L Hj Hk. destruct m as [|a [|d [|g [|b [|e [|h [|c [|f [|i [|? ?]]]]]]]]]]; try discriminate L. unfold skewc, at3.
  do 3 (destruct j as [|j]; [do 9 (destruct k as [|k]; [cbn [List.nth with_entry Nat.add Nat.mul dskew]; auto_derive; [exact I|ring]|]); lia|]). lia.
Qed.

Lemma inverse_derive m k j : length m = 9%nat -> (j < 3)%nat -> (k < 9)%nat -> -1 < trace m < 3 -> small < sin (theta (trace m)) ->
  exists D, dirodrigues m = Some D /\ partial_entry (fun m => coord (irodrigues m) j) m k (nth (j + 3 * k) D 0).
Proof.
  intros L Hj Hk T H. destruct (theta_bounds _ T) as [TB S0]. pose proof small_pos as P.
  set (ohm := irodrigues m). assert (O : forall j, (j < 3)%nat -> coord ohm j = 1 / 2 * (theta (trace m) / sin (theta (trace m))) * skewc m j) by (intros; apply regular; [assumption|exact T|lra]).
  unfold dirodrigues, singular. rewrite iangle_theta by lra. rewrite Rabs_right by lra. rewrite (proj2 (ltb_false _ _)) by lra. cbn [andb].
  fold ohm. destruct ohm as [[o0 o1] o2] eqn:OE. eexists. split; [reflexivity|].
  unfold partial_entry. apply is_derive_Reals.
  apply is_derive_ext_loc with (f := fun t => 1 / 2 * (theta (trace (with_entry m k t)) / sin (theta (trace (with_entry m k t)))) * skewc (with_entry m k t) j).
  { assert (LL : locally (nth k m 0) (fun t => (-1 < trace (with_entry m k t) < 3) /\ small < sin (theta (trace (with_entry m k t))))).
    { destruct m as [|a [|d [|g [|b [|e [|h [|c [|f [|i [|? ?]]]]]]]]]]; try discriminate L.
      apply (locally_trace _ _ _ _ _ _ _ _ _ (fun t => (-1 < t < 3) /\ small < sin (theta t)) k Hk).
      apply filter_and; [apply locally_open; exact T|apply locally_sin_gt; [exact T|exact H]]. }
    revert LL. apply filter_imp. intros t [A B]. rewrite regular; [reflexivity|exact Hj|exact A|lra]. }
  assert (TD : is_derive (fun t => trace (with_entry m k t)) (nth k m 0) (if (k mod 4 =? 0)%nat then 1 else 0)).
  { destruct m as [|a [|d [|g [|b [|e [|h [|c [|f [|i [|? ?]]]]]]]]]]; try discriminate L. apply trace_derive. exact Hk. }
  assert (SELF : with_entry m k (nth k m 0) = m).
  { destruct m as [|a [|d [|g [|b [|e [|h [|c [|f [|i [|? ?]]]]]]]]]]; try discriminate L. apply with_entry_self. exact Hk. }
  pose proof (half_ratio_derive _ T) as HR. rewrite <- SELF in HR at 1.
  pose proof (is_derive_comp (fun t => 1 / 2 * (theta t / sin (theta t))) (fun t => trace (with_entry m k t)) (nth k m 0) _ _ HR TD) as CD.
  pose proof (prod_derive _ _ _ _ _ CD (skew_derive m j k L Hj Hk)) as PD. cbv beta in PD. rewrite SELF in PD.
  match type of PD with is_derive _ _ ?v => match goal with |- is_derive _ _ ?w => replace w with v; [exact PD|] end end.
  clear PD CD HR TD SELF.
  unfold scal; cbn [ModuleSpace.scal]; unfold mult; cbn [Ring.mult].
  pose proof (O 0%nat ltac:(lia)) as O0. pose proof (O 1%nat ltac:(lia)) as O1. pose proof (O 2%nat ltac:(lia)) as O2. cbn [coord] in O0, O1, O2. rewrite O0, O1, O2.
  set (th := theta (trace m)) in *.
  do 3 (destruct j as [|j]; [do 9 (destruct k as [|k]; [cbn -[Rmult Rplus Rminus Ropp Rdiv Rinv skewc cos sin]; field; lra|]); lia|]). lia.
Qed.
Lemma inverse_derive_tiny m k j : length m = 9%nat -> (j < 3)%nat -> (k < 9)%nat -> -1 < trace m < 3 -> sin (theta (trace m)) < small -> 0 < cos (theta (trace m)) ->
  exists D, dirodrigues m = Some D /\ partial_entry (fun m => coord (irodrigues m) j) m k (nth (j + 3 * k) D 0).
Proof.
  intros L Hj Hk T H C. destruct (theta_bounds _ T) as [TB S0]. pose proof small_pos as P.
  unfold dirodrigues, singular. rewrite iangle_theta by lra. rewrite Rabs_right by lra. rewrite (proj2 (ltb_true (sin _) _)) by lra. rewrite (proj2 (ltb_false (cos _) _)) by lra. cbn [andb].
  destruct (irodrigues m) as [[o0 o1] o2] eqn:OE. eexists. split; [reflexivity|].
  unfold partial_entry. apply is_derive_Reals.
  apply is_derive_ext_loc with (f := fun t => 1 / 2 * skewc (with_entry m k t) j).
  { assert (LL : locally (nth k m 0) (fun t => (-1 < trace (with_entry m k t) < 3) /\ (sin (theta (trace (with_entry m k t))) < small /\ 0 < cos (theta (trace (with_entry m k t)))))).
    { destruct m as [|a [|d [|g [|b [|e [|h [|c [|f [|i [|? ?]]]]]]]]]]; try discriminate L.
      apply (locally_trace _ _ _ _ _ _ _ _ _ (fun t => (-1 < t < 3) /\ (sin (theta t) < small /\ 0 < cos (theta t))) k Hk).
      apply filter_and; [apply locally_open; exact T|apply filter_and; [apply locally_sin_lt; [exact T|exact H]|apply locally_cos_gt; [exact T|exact C]]]. }
    revert LL. apply filter_imp. intros t (A & B & D). rewrite regular_tiny; [reflexivity|exact Hj|exact A|exact B|lra]. }
  assert (CC : is_derive (fun _ : R => 1 / 2) (nth k m 0) 0) by (auto_derive; [exact I|reflexivity]).
  pose proof (prod_derive _ _ _ _ _ CC (skew_derive m j k L Hj Hk)) as PD. cbv beta in PD.
  match type of PD with is_derive _ _ ?v => match goal with |- is_derive _ _ ?w => replace w with v; [exact PD|] end end.
  clear PD CC.
  do 3 (destruct j as [|j]; [do 9 (destruct k as [|k]; [cbn -[Rmult Rplus Rminus Ropp Rdiv Rinv skewc cos sin]; field|]); lia|]). lia.
Qed.
