(** Properties of the Fisher vectors. *)
From Coq Require Import List Arith Lia Bool Reals Lra Permutation.
From Verif Require Import Base Loop Table MserSort_Proofs Gmm_Model ImOp_Spec Gmm_Spec Gmm_Proofs GmmEm_Proofs GmmLik_Proofs Gmm_Props
  Fisher_Model Fisher_Spec Fisher_Proofs FisherGrad_Proofs.
Import ListNotations.
Local Open Scope R_scope.

(** data and a mixture: some modes, positive covariances, some prior of at least 1e-6 *)
Record model_of (D K N : nat) (p : params) (data : list R) (x mu v : nat -> nat -> R) (pi : nat -> R) : Prop := {
  m_modes : (0 < K)%nat; m_x : table 0 N D data x; m_mu : table 0 K D (p_means p) mu; m_v : table 0 K D (p_covs p) v;
  m_pi : row 0 K (p_priors p) pi; m_pos : forall k d, (k < K)%nat -> (d < D)%nat -> 0 < v k d;
  m_some : exists k, (k < K)%nat /\ / 1000000 <= pi k }.

(** ** C145: without options the encoding is u_0, ..., u_(K-1), v_0, ..., v_(K-1), the averages of the
    standardized data and of their squares minus one weighted by the posteriors of at least 1e-6,
    over the square roots of the priors; zero for negligible modes.  With FAST the posteriors are
    replaced by the assignment to the best mode.  The order of the loops does not matter *)
Theorem C145_encoding : forall D K N junk order modes p data x mu v pi (fast : bool),
  model_of D K N p data x mu v pi -> Permutation order (seq 0 N) -> Permutation modes (seq 0 K) ->
  let q := if fast then hard K (posterior D K x mu v pi) else posterior D K x mu v pi in
  exists enc, encode D K junk order modes p data N (mk_flags false false fast) = Some (enc, terms K N q pi) /\
    length enc = (2 * D * K)%nat /\
    forall k d, (k < K)%nat -> (d < D)%nat ->
      nth (k * D + d) enc 0 = first_order N x mu v q pi k d /\ nth (k * D + d + D * K) enc 0 = second_order N x mu v q pi k d.
Proof.
  intros D K N junk order modes p data x mu v pi fast [A1 A2 A3 A4 A5 A6 A7] P1 P2 q.
  destruct (encode_ok D K N p data x mu v pi A1 A2 A3 A4 A5 A6 A7 junk order modes (mk_flags false false fast) P1 P2) as (enc & [L T] & E).
  cbn [f_fast f_square_root f_normalized] in *. exists enc. split; [exact E|]. split; [lia|]. intros k d Lk Ld.
  pose proof (T k d ltac:(lia) Ld) as T1. pose proof (T (K + k)%nat d ltac:(lia) Ld) as T2.
  unfold fisher_vector in T1, T2. destruct (Nat.ltb_spec k K); [|lia]. destruct (Nat.ltb_spec (K + k) K); [lia|].
  replace (K + k - K)%nat with k in T2 by lia. replace ((K + k) * D + d)%nat with (k * D + d + D * K)%nat in T2 by lia. auto.
Qed.
Print Assumptions C145_encoding.
(** without data the encoding is zero *)
Theorem C145_no_data : forall D K junk modes p x mu v pi f,
  model_of D K 0 p [] x mu v pi -> Permutation modes (seq 0 K) -> f_square_root f = false -> f_normalized f = false ->
  encode D K junk [] modes p [] 0 f = Some (repeat 0 (2 * D * K), 0%nat).
Proof.
  intros D K junk modes p x mu v pi f [A1 A2 A3 A4 A5 A6 A7] P F1 F2.
  destruct (encode_ok D K 0 p [] x mu v pi A1 A2 A3 A4 A5 A6 A7 junk [] modes f (Permutation_refl _) P) as (enc & T & E).
  rewrite F1, F2 in E. cbv zeta in E. rewrite E. f_equal. f_equal.
  - replace (2 * D * K)%nat with ((K + K) * D)%nat by lia. apply (table_eq 0 (K + K) D _ _ _ T).
    apply (table_ext _ _ _ _ _ _ (table_repeat 0 (K + K) D)). intros r d _ _. unfold fisher_vector, first_order, second_order. cbn [sum].
    unfold Rdiv. destruct (r <? K)%nat, (heavy _); ring.
  - unfold terms. rewrite (Fisher_Proofs.ntotal_ext K _ (fun _ => 0%nat)); [apply ntotal_zero|]. intros k _. cbn [count]. now destruct (heavy (pi k)).
Qed.
Print Assumptions C145_no_data.

(** ** C146: the returned number of averaging operations is at most the number of data times that of the modes,
    and with FAST it is the number of data *)
Theorem C146_terms : forall D K N junk order modes p data x mu v pi f,
  model_of D K N p data x mu v pi -> Permutation order (seq 0 N) -> Permutation modes (seq 0 K) ->
  exists enc n, encode D K junk order modes p data N f = Some (enc, n) /\ (n <= N * K)%nat /\ (f_fast f = true -> n = N) /\
    (f_fast f = false -> n = ntotal K (fun k => if heavy (pi k) then count N (fun i => heavy (posterior D K x mu v pi i k)) else 0%nat)).
Proof.
  intros D K N junk order modes p data x mu v pi f [A1 A2 A3 A4 A5 A6 A7] P1 P2.
  destruct (encode_ok D K N p data x mu v pi A1 A2 A3 A4 A5 A6 A7 junk order modes f P1 P2) as (enc & T & E).
  eexists _, _. split; [exact E|]. split; [|split].
  - rewrite Nat.mul_comm. apply ntotal_le. intros k _. destruct (heavy (pi k)); [apply count_le|lia].
  - intro F. unfold assignments. rewrite F. now apply terms_fast.
  - intro F. unfold assignments. rewrite F. reflexivity.
Qed.
Print Assumptions C146_terms.

(** ** C147: SQUARE_ROOT replaces each entry by its signed square root, NORMALIZED divides by the Euclidean norm,
    so that the result has norm one unless the encoding is nearly zero *)
Theorem C147_improved : forall D K N junk order modes p data x mu v pi (fast : bool),
  model_of D K N p data x mu v pi -> Permutation order (seq 0 N) -> Permutation modes (seq 0 K) ->
  exists E0 E1 E2 E3 n,
    encode D K junk order modes p data N (mk_flags false false fast) = Some (E0, n) /\
    encode D K junk order modes p data N (mk_flags true false fast) = Some (E1, n) /\
    encode D K junk order modes p data N (mk_flags false true fast) = Some (E2, n) /\
    encode D K junk order modes p data N (mk_flags true true fast) = Some (E3, n) /\
    exists F0 F1, table 0 (2 * K) D E0 F0 /\ table 0 (2 * K) D E1 F1 /\
      (forall r d, F1 r d * Rabs (F1 r d) = F0 r d) /\
      table 0 (2 * K) D E2 (fun r d => F0 r d / Rmax (sqrt (norm2 (2 * K) D F0)) 1e-12) /\
      table 0 (2 * K) D E3 (fun r d => F1 r d / Rmax (sqrt (norm2 (2 * K) D F1)) 1e-12).
Proof.
  intros D K N junk order modes p data x mu v pi fast [A1 A2 A3 A4 A5 A6 A7] P1 P2. replace (2 * K)%nat with (K + K)%nat by lia.
  pose proof (fun a b => encode_ok D K N p data x mu v pi A1 A2 A3 A4 A5 A6 A7 junk order modes (mk_flags a b fast) P1 P2) as X.
  destruct (X false false) as (e0 & T0 & X0). destruct (X true false) as (e1 & T1 & X1).
  destruct (X false true) as (e2 & T2 & X2). destruct (X true true) as (e3 & T3 & X3).
  cbn [f_fast f_square_root f_normalized] in *.
  rewrite (table_eq 0 (K + K) D e1 e0 _ T1 T0) in *. rewrite (table_eq 0 (K + K) D e2 e0 _ T2 T0) in *. rewrite (table_eq 0 (K + K) D e3 e0 _ T3 T0) in *.
  set (F0 := fisher_vector _ _ _ _ _ _ _) in *.
  assert (S0 : signed_sqrt 0 = 0) by (unfold signed_sqrt; destruct (Rle_dec 0 0); [apply sqrt_0|lra]).
  pose proof (table_map (K + K) D e0 F0 signed_sqrt T0 S0) as T4.
  eexists _, _, _, _, _. split; [exact X0|]. split; [exact X1|]. split; [exact X2|]. split; [exact X3|].
  exists F0, (fun r d => signed_sqrt (F0 r d)). split; [exact T0|]. split; [exact T4|]. split; [intros; apply signed_sqrt_square|].
  split; now apply normalized_ok.
Qed.
Print Assumptions C147_improved.
Theorem C147_unit : forall D K N junk order modes p data x mu v pi fast root E0,
  model_of D K N p data x mu v pi -> Permutation order (seq 0 N) -> Permutation modes (seq 0 K) ->
  forall n, encode D K junk order modes p data N (mk_flags root false fast) = Some (E0, n) ->
  1e-24 <= norm2 (2 * K) D (fun r d => nth (r * D + d) E0 0) ->
  exists E1, encode D K junk order modes p data N (mk_flags root true fast) = Some (E1, n) /\ norm2 (2 * K) D (fun r d => nth (r * D + d) E1 0) = 1.
Proof.
  intros D K N junk order modes p data x mu v pi fast root E0 [A1 A2 A3 A4 A5 A6 A7] P1 P2 n H L.
  pose proof (fun b => encode_ok D K N p data x mu v pi A1 A2 A3 A4 A5 A6 A7 junk order modes (mk_flags root b fast) P1 P2) as X.
  destruct (X false) as (e0 & T0 & X0). destruct (X true) as (e1 & T1 & X1). cbn [f_fast f_square_root f_normalized] in *. cbv zeta in *.
  rewrite (table_eq 0 (K + K) D e1 e0 _ T1 T0) in *. rewrite X0 in H. inversion H as [[H1 H2]]. clear H X0 T1.
  set (e := if root then map signed_sqrt e0 else e0) in *. subst n. eexists; split; [exact X1|].
  assert (Le : length e = (2 * K * D)%nat) by (unfold e; destruct root; rewrite ?map_length, (proj1 T0); lia).
  pose proof (normalized_ok (2 * K) D e _ (table_of 0 (2 * K) D e Le)) as T.
  rewrite <- H1 in L. rewrite <- (norm2_unit (2 * K) D _ L). unfold norm2 at 1 2. apply rsum_ext. intros r Lr. apply rsum_ext. intros d Ld.
  now rewrite (proj2 T r d Lr Ld).
Qed.
Print Assumptions C147_unit.

(** ** C148: the encoding is the gradient of the average log-likelihood: in the mean of a mode, scaled by the standard
    deviation over the square root of the prior, and in the logarithm of the standard deviation, scaled by the square root
    of twice the prior (no posterior below 1e-6 being left out) *)
Theorem C148_gradient : forall D K N x mu v pi k d,
  (forall k d, (k < K)%nat -> (d < D)%nat -> 0 < v k d) -> (k < K)%nat -> (d < D)%nat -> (0 < N)%nat -> / 1000000 <= pi k ->
  (forall i, (i < N)%nat -> / 1000000 <= posterior D K x mu v pi i k) ->
  exists g h,
    derivable_pt_lim (fun t => log_likelihood D K x (set2 mu k d t) v pi N / INR N) (mu k d) g /\
    derivable_pt_lim (fun t => log_likelihood D K x mu (set2 v k d (exp (2 * t))) pi N / INR N) (/ 2 * ln (v k d)) h /\
    first_order N x mu v (posterior D K x mu v pi) pi k d = sqrt (v k d) / sqrt (pi k) * g /\
    second_order N x mu v (posterior D K x mu v pi) pi k d = 1 / sqrt (2 * pi k) * h.
Proof.
  intros D K N x mu v pi k d Pv Lk Ld Np Pk Pq.
  assert (Sm : exists k, (k < K)%nat /\ / 1000000 <= pi k) by eauto.
  pose proof (mean_gradient D K N x mu v pi Pv Sm k d Lk Ld) as G. pose proof (deviation_gradient D K N x mu v pi Pv Sm k d Lk Ld) as H.
  assert (N0 : 0 < INR N) by now apply lt_0_INR. pose proof (Pv k d Lk Ld) as V.
  assert (Sv : 0 < sqrt (v k d)) by now apply sqrt_lt_R0. assert (Sp : 0 < sqrt (pi k)) by (apply sqrt_lt_R0; lra). assert (Sp2 : 0 < sqrt (2 * pi k)) by (apply sqrt_lt_R0; lra).
  pose proof (sqrt_def (v k d) ltac:(lra)) as Vs.
  eexists _, _. split; [|split; [|split]].
  - apply (dl_ext (mult_real_fct (/ INR N) (fun t => log_likelihood D K x (set2 mu k d t) v pi N))); [intro s; unfold mult_real_fct, Rdiv; ring|].
    apply derivable_pt_lim_scal. exact G.
  - apply (dl_ext (mult_real_fct (/ INR N) (fun t => log_likelihood D K x mu (set2 v k d (exp (2 * t))) pi N))); [intro s; unfold mult_real_fct, Rdiv; ring|].
    apply derivable_pt_lim_scal. exact H.
  - unfold first_order, heavy. destruct (Rlt_dec (pi k) (/ 1000000)); [lra|].
    rewrite (rsum_ext N (fun i => posterior D K x mu v pi i k * ((x i d - mu k d) / v k d)) (fun i => / sqrt (v k d) * (kept (posterior D K x mu v pi) i k * score x mu v i k d))).
    + rewrite rsum_scale. field. lra.
    + intros i Li. unfold kept, heavy. destruct (Rlt_dec _ _) as [Q|Q]; [specialize (Pq i Li); lra|]. unfold score. rewrite <- Vs at 1. field. lra.
  - unfold second_order, heavy. destruct (Rlt_dec (pi k) (/ 1000000)); [lra|].
    rewrite (rsum_ext N (fun i => posterior D K x mu v pi i k * ((x i d - mu k d) ^ 2 / v k d - 1)) (fun i => kept (posterior D K x mu v pi) i k * (score x mu v i k d ^ 2 - 1))).
    + field. lra.
    + intros i Li. unfold kept, heavy. destruct (Rlt_dec _ _) as [Q|Q]; [specialize (Pq i Li); lra|]. unfold score. rewrite <- Vs at 1. field. lra.
Qed.
Print Assumptions C148_gradient.

(** *** Examples *)
(** one mode at 0 and one datum at 5 *)
Definition ex_one : params := mk_params [0] [1] [1].
Lemma ex_model : model_of 1 1 1 ex_one [5] (fun _ _ => 5) (fun _ _ => 0) (fun _ _ => 1) (fun _ => 1).
Proof. constructor; cbn [ex_one p_means p_covs p_priors]; try (apply table1); try (apply row1); try lia; try (intros; lra). exists 0%nat. split; [lia|lra]. Qed.
Lemma ex_post i : posterior 1 1 (fun _ _ => 5) (fun _ _ => 0) (fun _ _ => 1) (fun _ => 1) i 0 = 1.
Proof.
  pose proof (posterior_sum 1 1 (fun _ _ => 5) (fun _ _ => 0) (fun _ _ => 1) (fun _ => 1) ltac:(intros; lra) ltac:(exists 0%nat; split; [lia|lra]) i) as S.
  cbn [sum] in S. lra.
Qed.
Example C145_ex : encode 1 1 (fun _ => 7) [0%nat] [0%nat] ex_one [5] 1 (mk_flags false false false) = Some ([5; 24 / sqrt 2], 1%nat).
Proof.
  destruct (C145_encoding 1 1 1 (fun _ => 7) [0%nat] [0%nat] _ _ _ _ _ _ false ex_model (Permutation_refl _) (Permutation_refl _)) as (enc & E & L & H).
  rewrite E. cbv zeta in *. destruct (H 0%nat 0%nat ltac:(lia) ltac:(lia)) as [H1 H2].
  assert (Hv : heavy 1 = true) by (unfold heavy; destruct (Rlt_dec _ _); [lra|reflexivity]).
  pose proof (sqrt_lt_R0 2 ltac:(lra)).
  unfold first_order, second_order, kept, score in H1, H2. cbn [sum] in H1, H2. rewrite ex_post, Hv, sqrt_1 in H1, H2.
  cbn [Nat.mul Nat.add INR] in H1, H2.
  destruct enc as [|a [|b [|c enc]]]; cbn in L; try lia. cbn [nth] in H1, H2. subst a b. f_equal. f_equal.
  - f_equal; [field|]. f_equal. rewrite Rmult_1_r. field. lra.
  - unfold terms. cbn [ntotal count]. now rewrite ex_post, Hv.
Qed.
(** C146, C147: FAST gives the same here, and the norm is large *)
Example C146_ex : exists enc, encode 1 1 (fun _ => 7) [0%nat] [0%nat] ex_one [5] 1 (mk_flags true true true) = Some (enc, 1%nat).
Proof.
  destruct (C146_terms 1 1 1 (fun _ => 7) [0%nat] [0%nat] _ _ _ _ _ _ (mk_flags true true true) ex_model (Permutation_refl _) (Permutation_refl _)) as (enc & n & E & _ & F & _).
  rewrite (F eq_refl) in E. eauto.
Qed.
Example C147_ex : exists E1, encode 1 1 (fun _ => 7) [0%nat] [0%nat] ex_one [5] 1 (mk_flags false true false) = Some (E1, 1%nat) /\
  nth 0 E1 0 ^ 2 + nth 1 E1 0 ^ 2 = 1.
Proof.
  destruct (C147_unit 1 1 1 (fun _ => 7) [0%nat] [0%nat] _ _ _ _ _ _ false false _ ex_model (Permutation_refl _) (Permutation_refl _) _ C145_ex) as (E1 & E & U).
  - unfold norm2. cbn [sum Nat.mul Nat.add nth]. pose proof (pow2_ge_0 (24 / sqrt 2)). lra.
  - exists E1. split; [exact E|]. unfold norm2 in U. cbn [sum Nat.mul Nat.add] in U. lra.
Qed.
(** C148: no posterior of the mixture of two modes is small *)
Example C148_ex : forall i, (i < 2)%nat -> / 1000000 <= posterior 1 2 ex_x ex_x (fun _ _ => 1) (fun _ => / 2) i 0.
Proof. intros i L. pose proof (C144_ex i 0 L ltac:(lia)) as X. cbn [INR] in X. lra. Qed.
