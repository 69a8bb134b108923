(** Proofs about the Gaussian mixtures: expectation and maximization. *)
From Coq Require Import List Arith Lia Bool Reals Lra Permutation.
From Verif Require Import Base Loop Table MserSort_Proofs ImOp_Spec ImOp_Proofs Vec_Model Vec_Spec Vec_Proofs Gmm_Model Gmm_Spec.
Import ListNotations.
Local Open Scope R_scope.

Lemma ltb_true a b : ltb a b = true <-> a < b.
Proof. unfold ltb. destruct (Rlt_dec a b); split; intros; try discriminate; auto; contradiction. Qed.
Lemma ltb_false a b : ltb a b = false <-> b <= a.
Proof. unfold ltb. destruct (Rlt_dec a b); split; intros; try discriminate; auto; lra. Qed.
Lemma ltb_if {T} a b (u w : T) : (if ltb a b then u else w) = (if Rlt_dec a b then u else w).
Proof. unfold ltb. destruct (Rlt_dec a b); reflexivity. Qed.
Lemma flog_pos x : 0 < x -> flog x = Some (ln x).
Proof. intro P. unfold flog. destruct (Rle_dec x 0); [lra|reflexivity]. Qed.

(** ** Sums *)
Lemma rsum_ext n f g : (forall i, (i < n)%nat -> f i = g i) -> total n f = total n g.
Proof. apply sum_ext. Qed.
Lemma rsum_add n f g : total n (fun i => f i + g i) = total n f + total n g.
Proof. apply (sum_add _ _ _ _ _ _ RTheory). Qed.
Lemma rsum_scale n c f : total n (fun i => c * f i) = c * total n f.
Proof. apply (sum_scale _ _ _ _ _ _ RTheory). Qed.
Lemma rsum_zero n : total n (fun _ => 0) = 0.
Proof. apply (sum_zero _ _ _ _ _ _ RTheory). Qed.
Lemma rsum_nonneg n f : (forall i, (i < n)%nat -> 0 <= f i) -> 0 <= total n f.
Proof.
  induction n as [|n IH]; intro H; cbn [sum]; [lra|].
  pose proof (IH (fun i L => H i (Nat.lt_lt_succ_r _ _ L))). pose proof (H n (Nat.lt_succ_diag_r n)). lra.
Qed.
Lemma rsum_le n f g : (forall i, (i < n)%nat -> f i <= g i) -> total n f <= total n g.
Proof.
  induction n as [|n IH]; intro H; cbn [sum]; [lra|].
  pose proof (IH (fun i L => H i (Nat.lt_lt_succ_r _ _ L))). pose proof (H n (Nat.lt_succ_diag_r n)). lra.
Qed.
Lemma rsum_term n f k : (forall i, (i < n)%nat -> 0 <= f i) -> (k < n)%nat -> f k <= total n f.
Proof.
  induction n as [|n IH]; intros H L; [lia|]. cbn [sum].
  assert (H' : forall i, (i < n)%nat -> 0 <= f i) by (intros; apply H; lia).
  pose proof (rsum_nonneg n f H'). pose proof (H n (Nat.lt_succ_diag_r n)).
  destruct (Nat.eq_dec k n) as [->|N]; [lra|]. pose proof (IH H' ltac:(lia)). lra.
Qed.
Lemma rsum_pos n f k : (forall i, (i < n)%nat -> 0 <= f i) -> (k < n)%nat -> 0 < f k -> 0 < total n f.
Proof. intros H L P. pose proof (rsum_term n f k H L). lra. Qed.
Lemma rsum_swap n m (f : nat -> nat -> R) : total n (fun i => total m (f i)) = total m (fun j => total n (fun i => f i j)).
Proof. apply (sum_swap _ _ _ _ _ _ RTheory). Qed.
Lemma rsum_fold n f : fold_left Rplus (map f (seq 0 n)) 0 = total n f.
Proof.
  induction n as [|n IH]; [reflexivity|]. rewrite seq_S, map_app, fold_left_app, IH. reflexivity.
Qed.
Lemma rsum_single n k c : (k < n)%nat -> total n (fun i => if (i =? k)%nat then c else 0) = c.
Proof.
  induction n as [|n IH]; intro L; [lia|]. cbn [sum]. destruct (Nat.eq_dec k n) as [->|N].
  - rewrite Nat.eqb_refl, (rsum_ext n _ (fun _ => 0)), rsum_zero; [ring|].
    intros i Li. destruct (Nat.eqb_spec i n); [lia|reflexivity].
  - rewrite IH by lia. destruct (Nat.eqb_spec n k); [lia|ring].
Qed.
(** sums over lists *)
Fixpoint lsum (f : nat -> R) (l : list nat) : R := match l with [] => 0 | i :: l => f i + lsum f l end.
Lemma lsum_app f l l' : lsum f (l ++ l') = lsum f l + lsum f l'.
Proof. induction l; cbn; [ring|]. rewrite IHl. ring. Qed.
Lemma rsum_lsum n f : total n f = lsum f (seq 0 n).
Proof. induction n as [|n IH]; [reflexivity|]. rewrite seq_S, lsum_app, <- IH. cbn [sum lsum Nat.add]. ring. Qed.
Lemma lsum_perm f l l' : Permutation l l' -> lsum f l = lsum f l'.
Proof. induction 1; cbn; auto; try (rewrite IHPermutation; ring); [ring|congruence]. Qed.
Lemma lsum_total f l n : Permutation l (seq 0 n) -> lsum f l = total n f.
Proof. intro P. rewrite rsum_lsum. now apply lsum_perm. Qed.

Lemma product_pos n f : (forall i, (i < n)%nat -> 0 < f i) -> 0 < product n f.
Proof.
  induction n as [|n IH]; intro H; cbn [product]; [lra|]. apply Rmult_lt_0_compat; [apply IH; intros; apply H; lia|apply H; lia].
Qed.
Lemma ln_product n f : (forall i, (i < n)%nat -> 0 < f i) -> ln (product n f) = total n (fun i => ln (f i)).
Proof.
  induction n as [|n IH]; intro H; cbn [product sum]; [apply ln_1|].
  rewrite ln_mult; [|apply product_pos; intros; apply H; lia|apply H; lia]. rewrite IH; [reflexivity|]. intros; apply H; lia.
Qed.
Lemma sqrt_exp x : 0 < x -> sqrt x = exp (/ 2 * ln x).
Proof.
  intro P. apply sqrt_lem_1; [lra|left; apply exp_pos|]. rewrite <- exp_plus.
  replace (/ 2 * ln x + / 2 * ln x) with (ln x) by field. now apply exp_ln.
Qed.

(** ** Expectation *)
Section Expectation.
Variables (D K : nat).
Variables (p : params) (data : list R) (N : nat).
Variables (x mu v : nat -> nat -> R) (pi : nat -> R).
Hypothesis Hx : table 0 N D data x.
Hypothesis Hm : table 0 K D (p_means p) mu.
Hypothesis Hv : table 0 K D (p_covs p) v.
Hypothesis Hp : row 0 K (p_priors p) pi.
Hypothesis Pv : forall k d, (k < K)%nat -> (d < D)%nat -> 0 < v k d.

Lemma density_pos i k : (k < K)%nat -> 0 < density D x mu v i k.
Proof.
  intro L. unfold density. apply Rdiv_lt_0_compat; [apply exp_pos|]. apply sqrt_lt_R0, product_pos. intros d Ld.
  pose proof (Pv k d L Ld). pose proof PI_RGT_0. nra.
Qed.
Lemma weight_nonneg k : 0 <= weight pi k.
Proof. unfold weight. destruct (Rlt_dec (pi k) (/ 1000000)); lra. Qed.
Lemma weight_zero k : weight pi k = 0 <-> pi k < / 1000000.
Proof. unfold weight. destruct (Rlt_dec (pi k) (/ 1000000)); split; intros; auto; lra. Qed.

Definition lw_ (k : nat) : option R := if Rlt_dec (pi k) min_prior then None else Some (ln (pi k)).
Lemma log_weights_ok : log_weights K (p_priors p) = Some (map lw_ (seq 0 K)).
Proof.
  apply build_ok. intros k L. rewrite (row_get 0 K _ _ k Hp L). cbn [obind]. unfold lw_.
  rewrite ltb_if. destruct (Rlt_dec (pi k) min_prior) as [P|P]; [reflexivity|].
  rewrite flog_pos; [reflexivity|]. unfold min_prior in P. lra.
Qed.
Definition lc_ (k : nat) : R := total D (fun d => ln (v k d)).
Lemma log_covariances_ok : log_covariances D K (p_covs p) = Some (map lc_ (seq 0 K)).
Proof.
  apply build_ok. intros k L.
  destruct (iter_inv (fun j s => s = total j (fun d => ln (v k d)))
    (fun d s => do c <- aget (p_covs p) (k * D + d); do l <- flog c; Some (s + l)) D 0) as (s & E & ->).
  - reflexivity.
  - intros j s Lj ->. rewrite (table_get 0 K D _ _ k j Hv L Lj). cbn [obind]. rewrite flog_pos by auto. cbn [obind].
    eexists; split; [reflexivity|]. now rewrite Nat.add_1_r.
  - exact E.
Qed.
Lemma inv_covariances_ok : exists ic, inv_covariances D K (p_covs p) = Some ic /\ table 0 K D ic (fun k d => 1 / v k d).
Proof.
  unfold inv_covariances. destruct Hv as [Lv Vv].
  assert (P : forall i, (i < K * D)%nat -> 0 < nth i (p_covs p) 0).
  { intros i L. assert (D <> 0)%nat by (intros ->; lia).
    pose proof (Nat.div_mod i D ltac:(auto)) as E. pose proof (Nat.mod_upper_bound i D ltac:(auto)) as U.
    assert (Q : (i / D < K)%nat) by (apply Nat.div_lt_upper_bound; lia).
    rewrite E, Nat.mul_comm, Vv by auto. apply Pv; auto. }
  rewrite (build_ok _ _ (fun i => 1 / nth i (p_covs p) 0)).
  - eexists; split; [reflexivity|]. split; [rewrite map_length; apply seq_length|]. intros k d Lk Ld.
    pose proof (cell_lt K D k d Lk Ld) as L. rewrite (proj2 (row_map 0 _ _) _ L). now rewrite Vv.
  - intros i L. rewrite (aget_nth _ _ 0) by lia. cbn [obind]. pose proof (P i L). destruct (Req_EM_T _ _); [lra|reflexivity].
Qed.

Definition ld_ (i k : nat) : option R :=
  if Rlt_dec (pi k) min_prior then None else Some (ln (weight pi k * density D x mu v i k)).
Lemma log_joint i k : (k < K)%nat -> ~ pi k < min_prior ->
  ln (pi k) - half_dim_log D - 0.5 * lc_ k - 0.5 * total D (fun d => (x i d - mu k d) * (x i d - mu k d) * (1 / v k d))
  = ln (weight pi k * density D x mu v i k).
Proof.
  intros L P. unfold weight. destruct (Rlt_dec (pi k) (/ 1000000)) as [Q|Q]; [contradiction|].
  rewrite ln_mult; [|lra|now apply density_pos]. unfold density.
  assert (Pp : forall d, (d < D)%nat -> 0 < 2 * PI * v k d).
  { intros d Ld. pose proof (Pv k d L Ld). pose proof PI_RGT_0. nra. }
  assert (PP : 0 < product D (fun d => 2 * PI * v k d)) by now apply product_pos.
  unfold Rdiv at 2. rewrite ln_mult; [|apply exp_pos|apply Rinv_0_lt_compat, sqrt_lt_R0, PP].
  rewrite ln_exp, ln_Rinv by (apply sqrt_lt_R0, PP).
  rewrite (sqrt_exp _ PP), ln_exp, ln_product by exact Pp.
  assert (E : total D (fun d => ln (2 * PI * v k d)) = INR D * ln (2 * PI) + lc_ k).
  { unfold lc_. rewrite (rsum_ext D _ (fun d => ln (2 * PI) + ln (v k d))).
    - rewrite rsum_add. f_equal. clear. induction D as [|n IH]; [cbn; ring|]. rewrite S_INR. cbn [sum]. rewrite IH. ring.
    - intros d Ld. apply ln_mult; [pose proof PI_RGT_0; lra|auto]. }
  rewrite E. unfold half_dim_log.
  rewrite (rsum_ext D (fun d => (x i d - mu k d) * (x i d - mu k d) * (1 / v k d)) (fun d => (x i d - mu k d) ^ 2 / v k d)).
  - replace 0.5 with (/ 2) by lra. field.
  - intros d Ld. pose proof (Pv k d L Ld). field. lra.
Qed.

Lemma exact_real : exact real_ops.
Proof.
  constructor; cbn.
  - exact RTheory.
  - exists Rinv. reflexivity.
  - intro a. destruct (Rlt_dec (- a) a); [apply Rabs_right; lra|apply Rabs_left1; lra].
Qed.
Lemma mahalanobis_ok i k ic : (i < N)%nat -> (k < K)%nat -> table 0 K D ic (fun k d => 1 / v k d) ->
  mahalanobis real_ops D (skipn (i * D) data) (skipn (k * D) (p_means p)) (skipn (k * D) ic) =
  Some (total D (fun d => (x i d - mu k d) * (x i d - mu k d) * (1 / v k d))).
Proof.
  intros Li Lk Hi. unfold mahalanobis.
  assert (B : forall n m l F, table 0 n D l F -> (m < n)%nat -> (D <= length (skipn (m * D) l))%nat).
  { intros n m l F [L _] Lm. rewrite skipn_length, L. nia. }
  rewrite (tail3_ok real_ops exact_real _ (t_mahal real_ops)); [|auto|eapply B; eauto|eapply B; eauto|eapply B; eauto|lia].
  rewrite Nat.sub_0_r. cbn [o_zero o_add real_ops]. rewrite Rplus_0_l. f_equal. apply rsum_ext. intros d Ld.
  unfold term3, t_mahal. cbn [o_sub o_mul o_zero real_ops Nat.add]. rewrite !nth_skipn'.
  rewrite (proj2 Hx), (proj2 Hm), (proj2 Hi) by auto. reflexivity.
Qed.
Lemma log_density_ok ic i k : table 0 K D ic (fun k d => 1 / v k d) -> (i < N)%nat -> (k < K)%nat ->
  log_density D (map lw_ (seq 0 K)) (map lc_ (seq 0 K)) ic (p_means p) data i k = Some (ld_ i k).
Proof.
  intros Hi Li Lk. unfold log_density.
  rewrite (row_get None K _ _ k (row_map None K lw_) Lk). cbn [obind].
  rewrite (row_get 0 K _ _ k (row_map 0 K lc_) Lk). cbn [obind].
  rewrite (mahalanobis_ok i k ic Li Lk Hi). cbn [obind]. unfold lw_, ld_.
  destruct (Rlt_dec (pi k) min_prior) as [P|P]; [reflexivity|]. now rewrite log_joint.
Qed.

Lemma larger_some ps : forall m, (exists a, In (Some a) ps) \/ m <> None -> fold_left larger ps m <> None.
Proof.
  induction ps as [|q ps IH]; cbn [fold_left]; intros m [[a []]|H]; auto.
  - subst q. apply IH. right. destruct m; cbn [larger]; [destruct (ltb r a)|]; discriminate.
  - apply IH. left. eauto.
  - apply IH. right. destruct q, m; cbn [larger]; try (destruct (ltb _ _)); try discriminate; auto.
Qed.
Lemma larger_none ps : (forall q, In q ps -> q = None) -> fold_left larger ps None = None.
Proof.
  induction ps as [|q ps IH]; intro H; [reflexivity|]. cbn [fold_left]. rewrite (H q) by (left; reflexivity).
  cbn [larger]. apply IH. intros. apply H. now right.
Qed.

Lemma expectation_nan order post : (forall k, (k < K)%nat -> pi k < / 1000000) -> (0 < N)%nat -> Permutation order (seq 0 N) ->
  expectation D K order p data post = None.
Proof.
  intros Neg Np P. unfold expectation. rewrite log_weights_ok. cbn [obind]. rewrite log_covariances_ok. cbn [obind].
  destruct inv_covariances_ok as (ic & E & Hi). rewrite E. cbn [obind].
  destruct order as [|i order]; [apply Permutation_length in P; rewrite seq_length in P; cbn in P; lia|].
  assert (Li : (i < N)%nat) by (assert (J : In i (seq 0 N)) by (apply (Permutation_in _ P); now left); apply in_seq in J; lia).
  cbn [over]. unfold datum at 1.
  rewrite (build_ok K _ (fun _ => None)).
  - cbn [obind]. rewrite larger_none; [reflexivity|]. intros q I. apply in_map_iff in I as (k & E1 & _). now symmetry.
  - intros k Lk. rewrite (log_density_ok ic i k Hi Li Lk). unfold ld_.
    pose proof (Neg k Lk). destruct (Rlt_dec (pi k) min_prior) as [Z|Z]; [reflexivity|]. unfold min_prior in Z. lra.
Qed.

Hypothesis Some_mode : exists k, (k < K)%nat /\ / 1000000 <= pi k.

Lemma mixture_pos i : 0 < mixture D K x mu v pi i.
Proof.
  destruct Some_mode as (k & L & P). apply (rsum_pos K _ k).
  - intros j Lj. apply Rmult_le_pos; [apply weight_nonneg|left; now apply density_pos].
  - exact L.
  - apply Rmult_lt_0_compat; [|now apply density_pos]. unfold weight. destruct (Rlt_dec (pi k) (/ 1000000)); lra.
Qed.

Lemma datum_ok ic i ll post F : table 0 K D ic (fun k d => 1 / v k d) -> (i < N)%nat -> table 0 N K post F ->
  exists post', datum D K (map lw_ (seq 0 K)) (map lc_ (seq 0 K)) ic (p_means p) data i (ll, post) =
      Some (ll + ln (mixture D K x mu v pi i), post') /\
    table 0 N K post' (fun j k => if (j =? i)%nat then posterior D K x mu v pi i k else F j k).
Proof.
  intros Hi Li Hpost. unfold datum. rewrite (build_ok _ _ (ld_ i)) by (intros; now apply log_density_ok). cbn [obind].
  destruct (fold_left larger (map (ld_ i) (seq 0 K)) None) as [m|] eqn:Em.
  2:{ exfalso. apply (larger_some (map (ld_ i) (seq 0 K)) None) in Em; auto. left.
      destruct Some_mode as (k & L & P). exists (ln (weight pi k * density D x mu v i k)). apply in_map_iff. exists k.
      split; [|apply in_seq; lia]. unfold ld_. destruct (Rlt_dec (pi k) min_prior) as [Q|Q]; [unfold min_prior in Q; lra|reflexivity]. }
  rewrite map_map. set (e := fun k => match ld_ i k with None => 0 | Some q => exp (q - m) end).
  assert (Ee : forall k, (k < K)%nat -> e k = exp (- m) * (weight pi k * density D x mu v i k)).
  { intros k L. unfold e, ld_. destruct (Rlt_dec (pi k) min_prior) as [P|P].
    - apply weight_zero in P. rewrite P. ring.
    - unfold Rminus. rewrite exp_plus, exp_ln; [ring|]. apply Rmult_lt_0_compat; [|now apply density_pos].
      destruct (Rle_lt_or_eq_dec _ _ (weight_nonneg k)) as [Q|Q]; [exact Q|]. symmetry in Q. apply weight_zero in Q. contradiction. }
  pose proof (mixture_pos i) as MP. pose proof (exp_pos (- m)) as EP.
  assert (Es : fold_left Rplus (map e (seq 0 K)) 0 = exp (- m) * mixture D K x mu v pi i).
  { rewrite rsum_fold. unfold mixture. rewrite <- rsum_scale. apply rsum_ext. exact Ee. }
  change (map (fun k => match ld_ i k with None => 0 | Some q => exp (q - m) end) (seq 0 K)) with (map e (seq 0 K)).
  rewrite Es. assert (SP : 0 < exp (- m) * mixture D K x mu v pi i) by now apply Rmult_lt_0_compat.
  rewrite flog_pos by exact SP. cbn [obind].
  destruct (line_loop 0 N K (fun k post => do a <- aget (map e (seq 0 K)) k; aset post (i * K + k) (a / (exp (- m) * mixture D K x mu v pi i)))
    (fun k _ => posterior D K x mu v pi i k) i post F Li Hpost) as (post' & E & H).
  { intros k l G Lk Hl. rewrite (row_get 0 K _ _ k (row_map 0 K e) Lk). cbn [obind].
    destruct (table_set 0 N K l G i k (e k / (exp (- m) * mixture D K x mu v pi i)) Hl Li Lk) as [E T].
    eexists. split; [exact E|].
    replace (posterior D K x mu v pi i k) with (e k / (exp (- m) * mixture D K x mu v pi i)); [exact T|].
    rewrite Ee by exact Lk. unfold posterior. field. split; lra. }
  rewrite E. cbn [obind]. exists post'. split; [|exact H]. f_equal. f_equal.
  rewrite ln_mult, ln_exp by auto. ring.
Qed.

Lemma expectation_ok order post F : Permutation order (seq 0 N) -> table 0 N K post F ->
  exists post', expectation D K order p data post = Some (log_likelihood D K x mu v pi N, post') /\
    table 0 N K post' (posterior D K x mu v pi).
Proof.
  intros P Hpost. unfold expectation. rewrite log_weights_ok. cbn [obind]. rewrite log_covariances_ok. cbn [obind].
  destruct inv_covariances_ok as (ic & E & Hi). rewrite E. cbn [obind].
  destruct (over_inv (fun dn '(ll, post') => ll = lsum (fun i => ln (mixture D K x mu v pi i)) dn /\
      table 0 N K post' (fun j k => if in_dec Nat.eq_dec j dn then posterior D K x mu v pi j k else F j k))
    (datum D K (map lw_ (seq 0 K)) (map lc_ (seq 0 K)) ic (p_means p) data) order [] (0, post)) as ([ll post'] & E' & -> & T).
  - split; [reflexivity|]. apply (table_ext 0 _ _ _ _ _ Hpost). intros j k _ _. reflexivity.
  - intros dn i [ll l] I [-> T].
    assert (Li : (i < N)%nat) by (apply (Permutation_in _ P), in_seq in I; lia).
    destruct (datum_ok ic i (lsum (fun i => ln (mixture D K x mu v pi i)) dn) l _ Hi Li T) as (l' & E' & T').
    exists (lsum (fun i => ln (mixture D K x mu v pi i)) dn + ln (mixture D K x mu v pi i), l'). split; [exact E'|]. split.
    + rewrite lsum_app. cbn [lsum]. ring.
    + apply (table_ext 0 _ _ _ _ _ T'). intros j k Lj Lk.
      destruct (in_dec Nat.eq_dec j (dn ++ [i])) as [J|J], (in_dec Nat.eq_dec j dn) as [J'|J'], (Nat.eqb_spec j i) as [->|Ne]; try reflexivity.
      * exfalso. apply in_app_or in J as [J|[J|[]]]; auto.
      * exfalso. apply J, in_or_app. auto.
      * exfalso. apply J, in_or_app. auto.
      * exfalso. apply J, in_or_app. right. now left.
  - exists post'. split.
    + rewrite E'. cbn [app]. unfold log_likelihood. now rewrite (lsum_total _ order N P).
    + apply (table_ext 0 _ _ _ _ _ T). intros j k Lj Lk. cbn [app].
      destruct (in_dec Nat.eq_dec j order) as [J|J]; [reflexivity|]. destruct J.
      apply (Permutation_in _ (Permutation_sym P)), in_seq. lia.
Qed.

Lemma posterior_nonneg i k : (k < K)%nat -> 0 <= posterior D K x mu v pi i k.
Proof.
  intro L. unfold posterior. pose proof (mixture_pos i) as M. apply Rmult_le_pos; [|left; now apply Rinv_0_lt_compat].
  apply Rmult_le_pos; [apply weight_nonneg|left; now apply density_pos].
Qed.
Lemma posterior_sum i : total K (posterior D K x mu v pi i) = 1.
Proof.
  pose proof (mixture_pos i) as M. unfold posterior.
  rewrite (rsum_ext K _ (fun k => / mixture D K x mu v pi i * (weight pi k * density D x mu v i k))) by (intros; unfold Rdiv; ring).
  rewrite rsum_scale. change (total K (fun k => weight pi k * density D x mu v i k)) with (mixture D K x mu v pi i). field. lra.
Qed.
End Expectation.

(** ** Maximization *)
Section Maximization.
Variables (D K N : nat).
Variables (bounds : list R) (lb : nat -> R).
Variables (p : params) (data post : list R).
Variables (x mu q : nat -> nat -> R).
Hypothesis Hb : row 0 D bounds lb.
Hypothesis Hx : table 0 N D data x.
Hypothesis Hm : table 0 K D (p_means p) mu.
Hypothesis Hq : table 0 N K post q.

Notation u := (used K q).
Definition sums_are (s : sums) (f : nat -> R) (F G : nat -> nat -> R) : Prop :=
  row 0 K (fst s) f /\ table 0 K D (fst (snd s)) F /\ table 0 K D (snd (snd s)) G.
Lemma sums_ext s f F G f' F' G' : sums_are s f F G -> (forall k, (k < K)%nat -> f k = f' k) ->
  (forall k d, (k < K)%nat -> (d < D)%nat -> F k d = F' k d) -> (forall k d, (k < K)%nat -> (d < D)%nat -> G k d = G' k d) ->
  sums_are s f' F' G'.
Proof.
  intros (A & B & C) E1 E2 E3. split; [exact (row_ext _ _ _ _ _ A E1)|].
  split; [exact (table_ext _ _ _ _ _ _ B E2)|exact (table_ext _ _ _ _ _ _ C E3)].
Qed.

Definition sq (i k d : nat) : R := (x i d - mu k d) * (x i d - mu k d).
Lemma add_mode_ok s f F G i k : sums_are s f F G -> (i < N)%nat -> (k < K)%nat ->
  exists s', add_mode D K post (p_means p) data i k s = Some s' /\
    sums_are s' (fun k' => if (k' =? k)%nat then f k + u i k else f k')
      (fun k' d => if (k' =? k)%nat then F k d + u i k * x i d else F k' d)
      (fun k' d => if (k' =? k)%nat then G k d + u i k * sq i k d else G k' d).
Proof.
  destruct s as [ms [m c]]. intros (Hf & HF & HG) Li Lk. cbn [fst snd] in *. unfold add_mode.
  rewrite (table_get 0 N K _ _ i k Hq Li Lk). cbn [obind]. rewrite ltb_if.
  assert (U : u i k = if Rlt_dec (q i k) (min_posterior / INR K) then 0 else q i k) by reflexivity.
  destruct (Rlt_dec (q i k) (min_posterior / INR K)) as [Z|Z].
  - eexists; split; [reflexivity|]. rewrite U. apply (sums_ext (ms, (m, c)) f F G).
    + split; auto.
    + intros k' _. destruct (Nat.eqb_spec k' k) as [->|]; [ring|reflexivity].
    + intros k' d _ _. destruct (Nat.eqb_spec k' k) as [->|]; [ring|reflexivity].
    + intros k' d _ _. destruct (Nat.eqb_spec k' k) as [->|]; [ring|reflexivity].
  - destruct (row_modify 0 K ms f k (fun z => z + q i k) Hf Lk) as (ms' & E1 & Hf'). rewrite E1. cbn [obind].
    destruct (line_loop2 0 K D (fun d '(mu, cv) =>
        do x <- aget data (i * D + d);
        do m <- aget (p_means p) (k * D + d);
        do mu <- modify (k * D + d) (fun z => z + q i k * x) mu;
        do cv <- modify (k * D + d) (fun z => z + q i k * ((x - m) * (x - m))) cv;
        Some (mu, cv)) (fun d z => z + q i k * x i d) (fun d z => z + q i k * sq i k d) k m c F G Lk HF HG)
      as (m' & c' & E2 & HF' & HG').
    { intros d l l' F1 G1 Ld H1 H2. rewrite (table_get 0 N D _ _ i d Hx Li Ld). cbn [obind].
      rewrite (table_get 0 K D _ _ k d Hm Lk Ld). cbn [obind]. cbv zeta.
      destruct (table_modify 0 K D l F1 k d (fun z => z + q i k * x i d) H1 Lk Ld) as (l1 & E3 & H3). rewrite E3. cbn [obind].
      destruct (table_modify 0 K D l' G1 k d (fun z => z + q i k * ((x i d - mu k d) * (x i d - mu k d))) H2 Lk Ld) as (l2 & E4 & H4).
      rewrite E4. cbn [obind]. exists l1, l2. auto. }
    rewrite E2. cbn [obind]. eexists; split; [reflexivity|]. rewrite U. split; [exact Hf'|]. split; [exact HF'|exact HG'].
Qed.
Lemma add_datum_ok s f F G i : sums_are s f F G -> (i < N)%nat ->
  exists s', iter K (add_mode D K post (p_means p) data i) s = Some s' /\
    sums_are s' (fun k => f k + u i k) (fun k d => F k d + u i k * x i d) (fun k d => G k d + u i k * sq i k d).
Proof.
  intros H Li.
  destruct (iter_inv (fun j s' => sums_are s' (fun k => if (k <? j)%nat then f k + u i k else f k)
      (fun k d => if (k <? j)%nat then F k d + u i k * x i d else F k d)
      (fun k d => if (k <? j)%nat then G k d + u i k * sq i k d else G k d))
    (add_mode D K post (p_means p) data i) K s) as (s' & E & H').
  - exact H.
  - intros j s1 Lj H1. destruct (add_mode_ok s1 _ _ _ i j H1 Li Lj) as (s2 & E2 & H2). exists s2. split; [exact E2|].
    assert (St : forall (a b : R) k, (if (k =? j)%nat then b else if (k <? j)%nat then b else a) = if (k <? j + 1)%nat then b else a).
    { intros a b k. destruct (Nat.eqb_spec k j), (Nat.ltb_spec k j), (Nat.ltb_spec k (j + 1)); auto; lia. }
    apply (sums_ext s2 _ _ _ _ _ _ H2).
    + intros k _. rewrite Nat.ltb_irrefl. rewrite <- St. destruct (Nat.eqb_spec k j) as [->|]; reflexivity.
    + intros k d _ _. rewrite Nat.ltb_irrefl. rewrite <- St. destruct (Nat.eqb_spec k j) as [->|]; reflexivity.
    + intros k d _ _. rewrite Nat.ltb_irrefl. rewrite <- St. destruct (Nat.eqb_spec k j) as [->|]; reflexivity.
  - exists s'. split; [exact E|].
    apply (sums_ext s' _ _ _ _ _ _ H'); intros k; [intros Lk|intros d Lk Ld|intros d Lk Ld]; (destruct (Nat.ltb_spec k K); [reflexivity|lia]).
Qed.
Lemma no_sums_are : sums_are (no_sums D K) (fun _ => 0) (fun _ _ => 0) (fun _ _ => 0).
Proof. split; [apply row_repeat|]. split; apply table_repeat. Qed.
Definition sums_over (l : list nat) (s : sums) : Prop :=
  sums_are s (fun k => lsum (fun i => u i k) l) (fun k d => lsum (fun i => u i k * x i d) l) (fun k d => lsum (fun i => u i k * sq i k d) l).
Lemma worker_ok part : (forall i, In i part -> (i < N)%nat) ->
  exists s, worker D K post (p_means p) data part = Some s /\ sums_over part s.
Proof.
  intro B. unfold worker.
  destruct (over_inv sums_over (fun i s => iter K (add_mode D K post (p_means p) data i) s) part [] (no_sums D K)) as (s & E & H).
  - apply no_sums_are.
  - intros dn i s I H. destruct (add_datum_ok s _ _ _ i H (B i I)) as (s' & E & H'). exists s'. split; [exact E|].
    apply (sums_ext s' _ _ _ _ _ _ H'); intros; rewrite lsum_app; cbn [lsum]; ring.
  - exists s. split; [exact E|exact H].
Qed.
Lemma merge_ok t s f F G f' F' G' : sums_are t f F G -> sums_are s f' F' G' ->
  exists s', merge D K t s = Some s' /\ sums_are s' (fun k => f' k + f k) (fun k d => F' k d + F k d) (fun k d => G' k d + G k d).
Proof.
  destruct t as [tms [tmu tcv]], s as [ms [m c]]. intros (A & B & C) (A' & B' & C'). cbn [fst snd] in *. unfold merge.
  destruct (row_loop 0 K (fun k ms => do x <- aget tms k; modify k (fun z => z + x) ms) (fun k z => z + f k) ms f' A') as (ms' & E1 & H1).
  { intros k l g Lk H. rewrite (row_get 0 K _ _ k A Lk). cbn [obind]. now apply (row_modify 0 K l g k (fun z => z + f k)). }
  rewrite E1. cbn [obind].
  destruct (lines_loop2 0 K D (fun k mc => iter D (fun d '(mu, cv) =>
    do x <- aget tmu (k * D + d);
    do mu <- modify (k * D + d) (fun z => z + x) mu;
    do y <- aget tcv (k * D + d);
    do cv <- modify (k * D + d) (fun z => z + y) cv;
    Some (mu, cv)) mc) (fun k d z => z + F k d) (fun k d z => z + G k d) m c F' G' B' C') as (m' & c' & E2 & H2 & H3).
  { intros k l l' F1 G1 Lk T1 T2.
    apply (line_loop2 0 K D _ (fun d z => z + F k d) (fun d z => z + G k d) k l l' F1 G1 Lk T1 T2).
    intros d a b F2 G2 Ld T3 T4. rewrite (table_get 0 K D _ _ k d B Lk Ld). cbn [obind].
    destruct (table_modify 0 K D a F2 k d (fun z => z + F k d) T3 Lk Ld) as (a' & E3 & H3). rewrite E3. cbn [obind].
    rewrite (table_get 0 K D _ _ k d C Lk Ld). cbn [obind].
    destruct (table_modify 0 K D b G2 k d (fun z => z + G k d) T4 Lk Ld) as (b' & E4 & H4). rewrite E4. cbn [obind].
    exists a', b'. auto. }
  rewrite E2. cbn [obind]. eexists; split; [reflexivity|]. split; [exact H1|]. split; [exact H2|exact H3].
Qed.

Notation ms := (mass K N q).
Lemma gather_ok parts : Permutation (concat parts) (seq 0 N) ->
  exists s, over parts (fun part s => do t <- worker D K post (p_means p) data part; merge D K t s) (no_sums D K) = Some s /\
    sums_are s ms (fun k d => total N (fun i => u i k * x i d)) (fun k d => total N (fun i => u i k * sq i k d)).
Proof.
  intro P.
  destruct (over_inv (fun dn s => sums_over (concat dn) s) (fun part s => do t <- worker D K post (p_means p) data part; merge D K t s)
    parts [] (no_sums D K)) as (s & E & H).
  - apply no_sums_are.
  - intros dn part s I H. destruct (worker_ok part) as (t & E & Ht).
    { intros i Ii. assert (J : In i (concat parts)) by (apply in_concat; eauto). apply (Permutation_in _ P), in_seq in J. lia. }
    rewrite E. cbn [obind]. destruct (merge_ok t s _ _ _ _ _ _ Ht H) as (s' & E' & H'). exists s'. split; [exact E'|].
    rewrite concat_app. cbn [concat]. rewrite app_nil_r.
    apply (sums_ext s' _ _ _ _ _ _ H'); intros; rewrite lsum_app; ring.
  - exists s. split; [exact E|]. cbn [app] in H.
    apply (sums_ext s _ _ _ _ _ _ H); intros; now apply lsum_total.
Qed.

Definition massive (k : nat) : Prop := ~ ms k < 1e-6 / INR K.
Definition mean1 (k d : nat) : R := if Rlt_dec (ms k) (1e-6 / INR K) then total N (fun i => u i k * x i d) else wmean K N x q k d.
Lemma divide_ok m mu1 cv1 F G : row 0 K m ms -> table 0 K D mu1 F -> table 0 K D cv1 G ->
  exists mu2 cv2, divide D K m (mu1, cv1) = Some (mu2, cv2) /\
    table 0 K D mu2 (fun k d => if Rlt_dec (ms k) (1e-6 / INR K) then F k d else F k d / ms k) /\
    table 0 K D cv2 (fun k d => if Rlt_dec (ms k) (1e-6 / INR K) then G k d else G k d / ms k).
Proof.
  intros Hms HF HG. unfold divide.
  apply (lines_loop2 0 K D _ (fun k d z => if Rlt_dec (ms k) (1e-6 / INR K) then z else z / ms k)
    (fun k d z => if Rlt_dec (ms k) (1e-6 / INR K) then z else z / ms k) mu1 cv1 F G HF HG).
  intros k l l' F1 G1 Lk T1 T2. rewrite (row_get 0 K _ _ k Hms Lk). cbn [obind]. rewrite ltb_if.
  destruct (Rlt_dec (ms k) (1e-6 / INR K)) as [Z|Z].
  - exists l, l'. split; [reflexivity|]. split; [apply (table_ext _ _ _ _ _ _ T1)|apply (table_ext _ _ _ _ _ _ T2)];
      intros k' d _ _; destruct (Nat.eqb_spec k' k) as [->|]; reflexivity.
  - apply (line_loop2 0 K D _ (fun d z => z / ms k) (fun d z => z / ms k) k l l' F1 G1 Lk T1 T2).
    intros d a b F2 G2 Ld T3 T4.
    destruct (table_modify 0 K D a F2 k d (fun z => z / ms k) T3 Lk Ld) as (a' & E3 & H3). rewrite E3. cbn [obind].
    destruct (table_modify 0 K D b G2 k d (fun z => z / ms k) T4 Lk Ld) as (b' & E4 & H4). rewrite E4. cbn [obind].
    exists a', b'. auto.
Qed.
Lemma correct_ok m mu1 cv1 M G : row 0 K m ms -> table 0 K D mu1 M -> table 0 K D cv1 G ->
  exists cv2, correct D K m (p_means p) mu1 cv1 = Some cv2 /\
    table 0 K D cv2 (fun k d => if Rlt_dec (ms k) (1e-6 / INR K) then G k d else G k d - (M k d - mu k d) * (M k d - mu k d)).
Proof.
  intros Hms HM HG. unfold correct.
  apply (lines_loop 0 K D _ (fun k d z => if Rlt_dec (ms k) (1e-6 / INR K) then z else z - (M k d - mu k d) * (M k d - mu k d)) cv1 G HG).
  intros k l G1 Lk T1. rewrite (row_get 0 K _ _ k Hms Lk). cbn [obind]. rewrite ltb_if.
  destruct (Rlt_dec (ms k) (1e-6 / INR K)) as [Z|Z].
  - exists l. split; [reflexivity|]. apply (table_ext _ _ _ _ _ _ T1). intros k' d _ _. destruct (Nat.eqb_spec k' k) as [->|]; reflexivity.
  - apply (line_loop 0 K D _ (fun d z => z - (M k d - mu k d) * (M k d - mu k d)) k l G1 Lk T1).
    intros d a F2 Ld T3. rewrite (table_get 0 K D _ _ k d HM Lk Ld). cbn [obind]. rewrite (table_get 0 K D _ _ k d Hm Lk Ld). cbn [obind].
    cbv zeta. apply (table_modify 0 K D a F2 k d (fun z => z - (M k d - mu k d) * (M k d - mu k d)) T3 Lk Ld).
Qed.
Lemma bounds_ok cv G : table 0 K D cv G -> exists cv', apply_bounds D K bounds cv = Some cv' /\ table 0 K D cv' (fun k d => Rmax (G k d) (lb d)).
Proof.
  intro HG. unfold apply_bounds.
  apply (lines_loop 0 K D _ (fun k d z => Rmax z (lb d)) cv G HG).
  intros k l G1 Lk T1. apply (line_loop 0 K D _ (fun d z => Rmax z (lb d)) k l G1 Lk T1).
  intros d a F2 Ld T3. rewrite (table_get 0 K D _ _ k d T3 Lk Ld). cbn [obind]. rewrite (row_get 0 D _ _ d Hb Ld). cbn [obind].
  rewrite ltb_if. destruct (Rlt_dec (F2 k d) (lb d)) as [Z|Z].
  - destruct (table_set 0 K D a F2 k d (lb d) T3 Lk Ld) as [E T]. eexists; split; [exact E|]. rewrite Rmax_right by lra. exact T.
  - exists a. split; [reflexivity|]. apply (table_ext _ _ _ _ _ _ T3). intros k' d' _ _. unfold upd2.
    destruct (Nat.eqb_spec k' k) as [->|]; [|reflexivity]. destruct (Nat.eqb_spec d' d) as [->|]; [|reflexivity]. cbn [andb].
    rewrite Rmax_left; lra.
Qed.
Lemma normalize_ok m f : row 0 K m f ->
  exists m', normalize K m = Some m' /\ row 0 K m' (fun k => f k / Rmax (total K f) 1e-12).
Proof.
  intro Hf. unfold normalize.
  destruct (iter_inv (fun j s => s = total j f) (fun k s => do m <- aget m k; Some (s + m)) K 0) as (s & E & ->).
  - reflexivity.
  - intros j s Lj ->. rewrite (row_get 0 K _ _ j Hf Lj). cbn [obind]. eexists; split; [reflexivity|]. now rewrite Nat.add_1_r.
  - rewrite E. cbn [obind].
    assert (X : (if ltb 1e-12 (total K f) then total K f else 1e-12) = Rmax (total K f) 1e-12).
    { rewrite ltb_if. destruct (Rlt_dec 1e-12 (total K f)); [rewrite Rmax_left; lra|rewrite Rmax_right; lra]. }
    rewrite X. apply (row_loop 0 K _ (fun k z => z / Rmax (total K f) 1e-12) m f Hf).
    intros k l g Lk H. apply (row_modify 0 K l g k (fun z => z / Rmax (total K f) 1e-12) H Lk).
Qed.

Definition mean2 (k d : nat) : R :=
  if Rlt_dec (ms k) (1e-6 / INR K) then total N (fun i => u i k * x i d) else wmean K N x q k d.
Definition var2 (k d : nat) : R :=
  if Rlt_dec (ms k) (1e-6 / INR K) then total N (fun i => u i k * sq i k d) else wvar K N x q k d.
Lemma inv_K : (0 < K)%nat -> 0 < 1e-6 / INR K.
Proof. intro P. apply Rdiv_lt_0_compat; [lra|]. now apply lt_0_INR. Qed.
Lemma wvar_split k d : ms k <> 0 ->
  wvar K N x q k d = total N (fun i => u i k * sq i k d) / ms k - (wmean K N x q k d - mu k d) * (wmean K N x q k d - mu k d).
Proof.
  intro Z. unfold wvar. set (w := wmean K N x q k d).
  assert (E : total N (fun i => u i k * (x i d - w) ^ 2) = total N (fun i => u i k * sq i k d) - ms k * ((w - mu k d) * (w - mu k d))).
  { assert (W : total N (fun i => u i k * x i d) = w * ms k) by (unfold w, wmean; field; exact Z).
    rewrite (rsum_ext N _ (fun i => u i k * sq i k d + ((2 * (mu k d - w)) * (u i k * x i d) + (w ^ 2 - mu k d ^ 2) * u i k))) by (intros; unfold sq; ring).
    rewrite !rsum_add, !rsum_scale, W. change (total N (fun i => u i k)) with (ms k). ring. }
  rewrite E. field. exact Z.
Qed.
Lemma maximization_ok parts : (0 < K)%nat -> Permutation (concat parts) (seq 0 N) ->
  exists p', maximization D K bounds parts p data post = Some p' /\
    table 0 K D (p_means p') mean2 /\ table 0 K D (p_covs p') (fun k d => Rmax (var2 k d) (lb d)) /\
    row 0 K (p_priors p') (fun k => ms k / Rmax (total K ms) 1e-12).
Proof.
  intros Kp P. unfold maximization. destruct (gather_ok parts P) as ([m [m1 c1]] & E & H1 & H2 & H3). cbn [fst snd] in *.
  rewrite E. cbn [obind].
  destruct (divide_ok m m1 c1 _ _ H1 H2 H3) as (m2 & c2 & E2 & H4 & H5). rewrite E2. cbn [obind].
  destruct (correct_ok m m2 c2 _ _ H1 H4 H5) as (c3 & E3 & H6). rewrite E3. cbn [obind].
  destruct (bounds_ok c3 _ H6) as (c4 & E4 & H7). rewrite E4. cbn [obind].
  destruct (normalize_ok m ms H1) as (m' & E5 & H8). rewrite E5. cbn [obind].
  eexists; split; [reflexivity|]. cbn [p_means p_covs p_priors]. split; [|split].
  - apply (table_ext _ _ _ _ _ _ H4). intros k d _ _. reflexivity.
  - apply (table_ext _ _ _ _ _ _ H7). intros k d _ _. unfold var2.
    destruct (Rlt_dec (ms k) (1e-6 / INR K)) as [Z|Z]; [reflexivity|].
    f_equal. rewrite wvar_split; [reflexivity|]. pose proof (inv_K Kp). lra.
  - exact H8.
Qed.

(** weights are zero or not small *)
Lemma used_nonneg i k : (0 < K)%nat -> 0 <= u i k.
Proof.
  intro P. unfold used. destruct (Rlt_dec (q i k) (/ 100 / INR K)); [lra|].
  assert (0 < / 100 / INR K) by (apply Rdiv_lt_0_compat; [lra|now apply lt_0_INR]). lra.
Qed.
Lemma mass_cases k : (0 < K)%nat -> massive k \/ (ms k = 0 /\ forall i, (i < N)%nat -> u i k = 0).
Proof.
  intro P. destruct (Rlt_dec (ms k) (1e-6 / INR K)) as [Z|Z]; [right|left; exact Z].
  assert (A : forall i, (i < N)%nat -> u i k = 0).
  { intros i L. pose proof (rsum_term N (fun i => u i k) i (fun i _ => used_nonneg i k P) L) as T.
    change (total N (fun i => u i k)) with (ms k) in T. cbv beta in T.
    assert (KP : 0 < INR K) by now apply lt_0_INR. unfold used in *.
    destruct (Rlt_dec (q i k) (/ 100 / INR K)) as [Y|Y]; [reflexivity|]. exfalso.
    assert (1e-6 / INR K < / 100 / INR K) by (apply Rmult_lt_compat_r; [now apply Rinv_0_lt_compat|lra]). lra. }
  split; [|exact A]. unfold mass. rewrite (rsum_ext N _ (fun _ => 0)); [apply rsum_zero|exact A].
Qed.
End Maximization.
