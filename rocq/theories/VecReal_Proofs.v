(** The vector comparisons over the reals. *)
From Coq Require Import List Arith Lia Bool Reals Lra Ring_theory.
From Verif Require Import Base Loop MserSort_Proofs ImOp_Spec ImOp_Proofs Vec_Model Vec_Spec Vec_Proofs.
Import ListNotations.
Local Open Scope R_scope.

Lemma real_ring : ring_theory 0 1 Rplus Rmult Rminus Ropp eq.
Proof. constructor; intros; ring. Qed.

Lemma real_exact : exact real_ops.
Proof.
  constructor.
  - exact real_ring.
  - exists Rinv. intros x y _. reflexivity.
  - intro x. cbn. unfold Rabs. destruct (Rcase_abs x), (Rlt_dec (- x) x); lra.
Qed.

Lemma rsum_ext n f g : (forall i, (i < n)%nat -> f i = g i) -> rsum n f = rsum n g.
Proof. induction n; intro H; cbn; [auto|]. rewrite IHn by auto. rewrite H by lia. auto. Qed.
Lemma rsum_scale n c f : rsum n (fun i => c * f i) = c * rsum n f.
Proof. induction n; cbn; [ring|]. rewrite IHn. ring. Qed.
Lemma rsum_plus n f g : rsum n (fun i => f i + g i) = rsum n f + rsum n g.
Proof. induction n; cbn; [ring|]. rewrite IHn. ring. Qed.
Lemma rsum_minus n f g : rsum n (fun i => f i - g i) = rsum n f - rsum n g.
Proof. induction n; cbn; [ring|]. rewrite IHn. ring. Qed.
Lemma sum_rsum n f : sum 0 Rplus n f = rsum n f.
Proof. induction n; cbn; [auto|]. now rewrite IHn. Qed.

Lemma ln2_nz : ln 2 <> 0.
Proof. rewrite <- ln_1. intro E. apply ln_inv in E; lra. Qed.

Lemma log2_2 : log2 2 = 1.
Proof. unfold log2. field. apply ln2_nz. Qed.
Lemma log2_inv x : 0 < x -> log2 (/ x) = - log2 x.
Proof. intro P. unfold log2. rewrite ln_Rinv by auto. field. apply ln2_nz. Qed.
Lemma log2_mult x y : 0 < x -> 0 < y -> log2 (x * y) = log2 x + log2 y.
Proof. intros. unfold log2. rewrite ln_mult by auto. field. apply ln2_nz. Qed.

(** the term added by each loop body, in documented form *)
Lemma js_half x y : 0 <= x -> 0 <= y ->
  (if Req_EM_T x 0 then 0 else x - x * log2 (1 + y / x)) = xlog2 x ((x + y) / 2).
Proof.
  intros Px Py. unfold xlog2. destruct (Req_EM_T x 0) as [E|N]; [auto|].
  assert (P : 0 < x) by lra.
  replace (1 + y / x) with ((x + y) * / x) by (field; lra).
  replace (x / ((x + y) / 2)) with (2 * (x * / (x + y))) by (field; lra).
  pose proof (Rinv_0_lt_compat _ P) as Ix. pose proof (Rinv_0_lt_compat (x + y) ltac:(lra)) as Ixy.
  rewrite !log2_mult; try lra; [|apply Rmult_lt_0_compat; lra].
  rewrite !log2_inv by lra. rewrite log2_2. ring.
Qed.
Lemma kjs_half x y : 0 <= x -> 0 <= y ->
  (if Req_EM_T x 0 then 0 else x * log2 (1 + y / x)) = - xlog2 x (x + y).
Proof.
  intros Px Py. unfold xlog2. destruct (Req_EM_T x 0) as [E|N]; [ring|].
  assert (P : 0 < x) by lra.
  replace (1 + y / x) with ((x + y) * / x) by (field; lra).
  replace (x / (x + y)) with (x * / (x + y)) by (field; lra).
  pose proof (Rinv_0_lt_compat _ P) as Ix. pose proof (Rinv_0_lt_compat (x + y) ltac:(lra)) as Ixy.
  rewrite !log2_mult by lra. rewrite !log2_inv by lra. ring.
Qed.

Section Doc.
Variables (dim : nat) (X Y : list R).
Hypothesis Lx : (dim <= length X)%nat.
Hypothesis Ly : (dim <= length Y)%nat.
Hypothesis Px : Forall (fun x => 0 <= x) X.
Hypothesis Py : Forall (fun x => 0 <= x) Y.

Lemma nth_nonneg Z i : Forall (fun x => 0 <= x) Z -> 0 <= nth i Z 0.
Proof.
  intro F. destruct (nth_in_or_default i Z 0) as [I|E]; [|rewrite E; lra].
  rewrite Forall_forall in F. auto.
Qed.

(** a loop whose body adds, for non-negative numbers, k times the documented term *)
Lemma doc_loop t k f : (forall acc a b, 0 <= a -> 0 <= b -> f acc a b = acc + k * component t a b) ->
  tail2 f dim X Y 0 0 = Some (k * compared t dim X Y).
Proof.
  intro Ef. unfold tail2. rewrite Nat.sub_0_r.
  destruct (iter_from_inv (fun n acc => acc = k * rsum n (fun i => component t (nth i X 0) (nth i Y 0)))
    (fun i acc => do a <- aget X i; do b <- aget Y i; Some (f acc a b)) dim dim 0 0) as (r & E & R); [lia|cbn; ring| |].
  - intros j acc _ Lj ->. rewrite (aget_nth X j 0) by lia. cbn [obind]. rewrite (aget_nth Y j 0) by lia. cbn [obind].
    eexists. split; [reflexivity|]. rewrite Ef by (apply nth_nonneg; auto).
    replace (j + 1)%nat with (S j) by lia. cbn [rsum]. ring.
  - rewrite E, R. reflexivity.
Qed.

Lemma documented p t ax ay : get_comparison real_ops p false false t dim ax ay X Y = Some (compared t dim X Y).
Proof.
  destruct t; cbn [get_comparison].
  - unfold distance_l1. change (o_zero real_ops) with 0. rewrite (doc_loop DistanceL1 1); [f_equal; ring|].
    intros acc a b _ _. cbn. unfold acc_l1, vl_max. cbn. unfold Rabs.
    destruct (Rcase_abs (a - b)), (Rlt_dec (- (a - b)) (a - b)); lra.
  - unfold distance_l2. change (o_zero real_ops) with 0. rewrite (doc_loop DistanceL2 1); [f_equal; ring|].
    intros acc a b _ _. cbn. unfold acc_l2. cbn. ring.
  - unfold distance_chi2. change (o_zero real_ops) with 0. rewrite (doc_loop DistanceChi2 1); [f_equal; ring|].
    intros acc a b _ _. cbn. unfold acc_chi2, ratio. cbn. destruct (Req_EM_T (a + b) 0); [ring|]. field. auto.
  - unfold distance_hellinger. change (o_zero real_ops) with 0. rewrite (doc_loop DistanceHellinger 1); [f_equal; ring|].
    intros acc a b Pa Pb. cbn. unfold acc_hellinger. cbn. rewrite sqrt_mult by auto.
    pose proof (sqrt_sqrt a Pa) as Ea. pose proof (sqrt_sqrt b Pb) as Eb.
    replace (1 * ((R_sqrt.sqrt a - R_sqrt.sqrt b) * ((R_sqrt.sqrt a - R_sqrt.sqrt b) * 1)))
      with (R_sqrt.sqrt a * R_sqrt.sqrt a + R_sqrt.sqrt b * R_sqrt.sqrt b - (1 + 1) * (R_sqrt.sqrt a * R_sqrt.sqrt b)) by ring.
    rewrite Ea, Eb. ring.
  - unfold distance_js. change (o_zero real_ops) with 0. rewrite (doc_loop DistanceJS 1); [f_equal; ring|].
    intros acc a b Pa Pb. unfold component. rewrite <- (js_half a b Pa Pb). rewrite (Rplus_comm a b), <- (js_half b a Pb Pa).
    unfold acc_js. cbn. change (ln ?x / ln 2) with (log2 x).
    destruct (Req_EM_T a 0), (Req_EM_T b 0); ring.
  - unfold kernel_l1. change (o_zero real_ops) with 0. rewrite (doc_loop KernelL1 2).
    + cbn. f_equal. field.
    + intros acc a b Pa Pb. unfold acc_k1. cbn. rewrite (Rabs_pos_eq a), (Rabs_pos_eq b) by auto.
      unfold Rmin, Rabs. destruct (Rcase_abs (a - b)), (Rle_dec a b); lra.
  - unfold kernel_l2. change (o_zero real_ops) with 0. rewrite (doc_loop KernelL2 1); [f_equal; ring|].
    intros acc a b _ _. cbn. unfold acc_k2. cbn. ring.
  - unfold kernel_chi2. change (o_zero real_ops) with 0. rewrite (doc_loop KernelChi2 1); [f_equal; ring|].
    intros acc a b _ _. cbn. unfold acc_kchi2, ratio. cbn. destruct (Req_EM_T (a + b) 0); [ring|]. field. auto.
  - unfold kernel_hellinger. change (o_zero real_ops) with 0. rewrite (doc_loop KernelHellinger 1); [f_equal; ring|].
    intros acc a b Pa Pb. cbn. unfold acc_khellinger. cbn. ring.
  - unfold kernel_js. change (o_zero real_ops) with 0. rewrite (doc_loop KernelJS 2).
    + cbn. f_equal. field.
    + intros acc a b Pa Pb. unfold component. unfold acc_kjs. cbn. change (ln ?x / ln 2) with (log2 x).
      replace (2 * (/ 2 * (- xlog2 a (a + b) - xlog2 b (a + b)))) with (- xlog2 a (a + b) + - xlog2 b (a + b)) by field.
      rewrite <- (kjs_half a b Pa Pb). rewrite (Rplus_comm a b), <- (kjs_half b a Pb Pa).
      destruct (Req_EM_T a 0), (Req_EM_T b 0); ring.
Qed.
End Doc.

(** ** Distances and kernels *)
Lemma component_relation t x y : is_distance t = true -> 0 <= x -> 0 <= y ->
  component t x y = component (kernel_of t) x x + component (kernel_of t) y y
                    - component (kernel_of t) x y - component (kernel_of t) y x.
Proof.
  intros D Px Py. destruct t; try discriminate D; clear D; cbn [kernel_of component].
  - rewrite (Rmin_comm y x). unfold Rmin, Rabs. destruct (Rcase_abs (x - y)), (Rle_dec x y), (Rle_dec x x), (Rle_dec y y); lra.
  - ring.
  - unfold ratio. rewrite (Rplus_comm y x).
    destruct (Req_EM_T (x + y) 0), (Req_EM_T (x + x) 0), (Req_EM_T (y + y) 0); try lra.
    + assert (x = 0) by lra. subst. field. lra.
    + assert (y = 0) by lra. subst. field. lra.
    + field. lra.
  - rewrite !sqrt_mult by auto. ring.
  - assert (G : forall z, 0 <= z -> - xlog2 z (z + z) = z).
    { intros z Pz. unfold xlog2. destruct (Req_EM_T z 0) as [->|N]; [ring|].
      replace (z / (z + z)) with (/ 2) by (field; lra). rewrite log2_inv, log2_2 by lra. ring. }
    assert (K : forall a b, 0 <= a -> 0 <= b -> xlog2 a ((a + b) / 2) = a + xlog2 a (a + b)).
    { intros a b Pa Pb. unfold xlog2. destruct (Req_EM_T a 0) as [->|N]; [ring|].
      replace (a / ((a + b) / 2)) with (2 * (a / (a + b))) by (field; lra).
      rewrite log2_mult, log2_2; [ring|lra|]. apply Rdiv_lt_0_compat; lra. }
    rewrite (K x y), (Rplus_comm x y), (K y x) by auto.
    assert (Gx := G x Px). assert (Gy := G y Py). lra.
Qed.

Lemma compared_relation t dim X Y : is_distance t = true -> Forall (fun x => 0 <= x) X -> Forall (fun x => 0 <= x) Y ->
  compared t dim X Y = compared (kernel_of t) dim X X + compared (kernel_of t) dim Y Y
                       - compared (kernel_of t) dim X Y - compared (kernel_of t) dim Y X.
Proof.
  intros D Px Py. unfold compared. rewrite <- rsum_plus, <- !rsum_minus. apply rsum_ext. intros i _.
  apply component_relation; auto; apply nth_nonneg; auto.
Qed.
