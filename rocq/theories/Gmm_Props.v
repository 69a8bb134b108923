(** Properties of the Gaussian mixtures. *)
From Coq Require Import List Arith Lia Bool Reals Lra Permutation.
From Verif Require Import Base Loop Table MserSort_Proofs Gmm_Model ImOp_Spec Gmm_Spec Gmm_Proofs GmmEm_Proofs GmmLik_Proofs.
Import ListNotations.
Local Open Scope R_scope.

(** ** C133: vl_get_gmm_data_posteriors computes the posteriors and the log-likelihood of the mixture
    of the Gaussians whose priors are at least 1e-6, in whatever order the data are visited *)
Theorem C133_posteriors : forall D K N order p data post x mu v pi,
  table 0 N D data x -> table 0 K D (p_means p) mu -> table 0 K D (p_covs p) v -> row 0 K (p_priors p) pi ->
  (forall k d, (k < K)%nat -> (d < D)%nat -> 0 < v k d) -> (exists k, (k < K)%nat /\ / 1000000 <= pi k) ->
  Permutation order (seq 0 N) -> length post = (N * K)%nat ->
  exists post', expectation D K order p data post = Some (total N (fun i => ln (mixture D K x mu v pi i)), post') /\
    table 0 N K post' (fun i k => weight pi k * density D x mu v i k / mixture D K x mu v pi i).
Proof.
  intros D K N order p data post x mu v pi Hx Hm Hv Hp Pv Sm P L.
  exact (expectation_ok D K p data N x mu v pi Hx Hm Hv Hp Pv Sm order post _ P (table_of 0 N K post L)).
Qed.
Print Assumptions C133_posteriors.

(** ** C134: the posteriors of a datum are a distribution over the modes, positive exactly for the
    modes that are not negligible *)
Theorem C134_distribution : forall D K x mu v pi,
  (forall k d, (k < K)%nat -> (d < D)%nat -> 0 < v k d) -> (exists k, (k < K)%nat /\ / 1000000 <= pi k) ->
  forall i, total K (posterior D K x mu v pi i) = 1 /\
    forall k, (k < K)%nat -> (pi k < / 1000000 -> posterior D K x mu v pi i k = 0) /\ (/ 1000000 <= pi k -> 0 < posterior D K x mu v pi i k).
Proof.
  intros D K x mu v pi Pv Sm i. split; [now apply posterior_sum|]. intros k Lk.
  pose proof (mixture_pos D K x mu v pi Pv Sm i) as M. unfold posterior. split; intro H.
  - rewrite (proj2 (weight_zero pi k) H). unfold Rdiv. ring.
  - apply Rdiv_lt_0_compat; [|exact M]. apply Rmult_lt_0_compat; [|now apply (density_pos D K x mu v Pv)].
    unfold weight. destruct (Rlt_dec (pi k) (/ 1000000)); lra.
Qed.
Print Assumptions C134_distribution.

(** ** C142: when all the priors are negligible, as after the random initialization of more than a
    million modes, EM computes no number *)
Theorem C142_negligible_priors_refuted : forall D K N junk bounds lb sched iterations data x g mu v pi,
  table 0 N D data x -> (0 < N)%nat -> row 0 D bounds lb -> (forall d, (d < D)%nat -> 0 < lb d) ->
  table 0 K D (p_means (g_par g)) mu -> table 0 K D (p_covs (g_par g)) v -> row 0 K (p_priors (g_par g)) pi ->
  Permutation (s_order (sched 0%nat)) (seq 0 N) ->
  (forall k, (k < K)%nat -> pi k < / 1000000) -> em D K junk bounds sched iterations data N g = None.
Proof.
  intros D K N junk bounds lb sched iterations data x g mu v pi Hx Np Hb Pb Hm Hv Hp P Neg. unfold em. cbn [prepare g_par].
  destruct (bounds_ok D K bounds lb Hb (p_covs (g_par g)) v Hv) as (cv & E & Hc). rewrite E. cbn [obind].
  assert (X : forall post, expectation D K (s_order (sched 0%nat)) (mk_params (p_means (g_par g)) cv (p_priors (g_par g))) data post = None).
  { intro post. apply (expectation_nan D K _ data N x mu (fun k d => Rmax (v k d) (lb d)) pi); auto.
    intros k d Lk Ld. pose proof (Rmax_r (v k d) (lb d)). pose proof (Pb d Ld). lra. }
  destruct iterations; cbn [em_loop g_par g_post]; now rewrite X.
Qed.
Print Assumptions C142_negligible_priors_refuted.
Theorem C142_million_modes_refuted : forall D K N junk bounds lb sched iterations centers c data x g,
  (0 < D)%nat -> (0 < N)%nat -> 1000000 < INR K -> table 0 N D data x -> row 0 D bounds lb -> (forall d, (d < D)%nat -> 0 < lb d) ->
  table 0 K D centers c -> Permutation (s_order (sched 0%nat)) (seq 0 N) ->
  exists g', init_rand D K junk centers data N g = Some g' /\ em D K junk bounds sched iterations data N g' = None.
Proof.
  intros D K N junk bounds lb sched iterations centers c data x g Dp Np Kb Hx Hb Pb Hc P.
  destruct (init_rand_ok D K N junk data x Dp (INR_lt 0 K ltac:(cbn [INR]; lra)) Np Hx centers c g Hc) as (g' & E & St & _).
  exists g'. split; [exact E|].
  apply (C142_negligible_priors_refuted D K N junk bounds lb sched iterations data x g' _ _ _ Hx Np Hb Pb
    (st_mu _ _ _ _ _ _ St) (st_v _ _ _ _ _ _ St) (st_pi _ _ _ _ _ _ St) P).
  intros k Lk. cbv beta. unfold Rdiv. rewrite Rmult_1_l. apply Rinv_lt_contravar; nra.
Qed.
Print Assumptions C142_million_modes_refuted.

(** ** C135: the maximization sets the means, covariances and priors to the weighted means, weighted
    variances (at least the bounds) and shares of the data, where assignments below 0.01 / K are
    left out; the old parameters and the division of the data among the threads do not matter *)
Theorem C135_maximization : forall D K N bounds lb p data post x mu q parts,
  (0 < K)%nat -> row 0 D bounds lb -> table 0 N D data x -> table 0 K D (p_means p) mu -> table 0 N K post q ->
  Permutation (concat parts) (seq 0 N) ->
  exists p' mu' v' pi', maximization D K bounds parts p data post = Some p' /\
    table 0 K D (p_means p') mu' /\ table 0 K D (p_covs p') v' /\ row 0 K (p_priors p') pi' /\
    (forall k d, (k < K)%nat -> (d < D)%nat -> 1e-6 / INR K <= mass K N q k ->
       mu' k d = wmean K N x q k d /\ v' k d = Rmax (wvar K N x q k d) (lb d)) /\
    (1e-12 <= total K (mass K N q) -> forall k, (k < K)%nat -> pi' k = share K N q k).
Proof.
  intros D K N bounds lb p data post x mu q parts Kp Hb Hx Hm Hq P.
  destruct (maximization_ok D K N bounds lb p data post x mu q Hb Hx Hm Hq parts Kp P) as (p' & E & H1 & H2 & H3).
  eexists p', _, _, _. split; [exact E|]. split; [exact H1|]. split; [exact H2|]. split; [exact H3|]. split.
  - intros k d Lk Ld M. unfold mean2, var2. destruct (Rlt_dec _ _); [lra|]. auto.
  - intros T k Lk. unfold share. now rewrite Rmax_left.
Qed.
Print Assumptions C135_maximization.
(** the mass of a mode is zero or at least the bound of the code *)
Theorem C135_mass : forall K N q k, (0 < K)%nat ->
  1e-6 / INR K <= mass K N q k \/ (mass K N q k = 0 /\ forall i, (i < N)%nat -> q i k < / 100 / INR K).
Proof.
  intros K N q k Kp. destruct (mass_cases K N q k Kp) as [M|[M Z]].
  - left. unfold massive in M. lra.
  - right. split; [exact M|]. intros i Li. specialize (Z i Li). unfold used in Z.
    destruct (Rlt_dec (q i k) (/ 100 / INR K)) as [L|L]; [exact L|]. exfalso.
    assert (0 < / 100 / INR K) by (apply Rdiv_lt_0_compat; [lra|now apply lt_0_INR]). lra.
Qed.
Print Assumptions C135_mass.

(** ** C136: a mode without data does not keep its parameters: its mean becomes the origin, its
    covariances the bounds and its prior zero *)
Theorem C136_empty_modes_refuted : forall D K N bounds lb p data post x mu q parts k,
  row 0 D bounds lb -> table 0 N D data x -> table 0 K D (p_means p) mu -> table 0 N K post q ->
  Permutation (concat parts) (seq 0 N) -> (k < K)%nat -> (forall i, (i < N)%nat -> q i k < / 100 / INR K) ->
  exists p' mu' v' pi', maximization D K bounds parts p data post = Some p' /\
    table 0 K D (p_means p') mu' /\ table 0 K D (p_covs p') v' /\ row 0 K (p_priors p') pi' /\
    pi' k = 0 /\ forall d, (d < D)%nat -> mu' k d = 0 /\ v' k d = Rmax 0 (lb d).
Proof.
  intros D K N bounds lb p data post x mu q parts k Hb Hx Hm Hq P Lk Q. assert (Kp : (0 < K)%nat) by lia.
  destruct (maximization_ok D K N bounds lb p data post x mu q Hb Hx Hm Hq parts Kp P) as (p' & E & H1 & H2 & H3).
  assert (U : forall i, (i < N)%nat -> used K q i k = 0).
  { intros i Li. unfold used. destruct (Rlt_dec _ _) as [L|L]; [reflexivity|]. specialize (Q i Li). lra. }
  assert (M : mass K N q k = 0) by (unfold mass; rewrite (rsum_ext N _ (fun _ => 0)) by exact U; apply rsum_zero).
  eexists p', _, _, _. split; [exact E|]. split; [exact H1|]. split; [exact H2|]. split; [exact H3|]. split.
  - rewrite M. unfold Rdiv. ring.
  - intros d Ld. unfold mean2, var2. pose proof (inv_K K Kp) as Z. rewrite M.
    destruct (Rlt_dec 0 (1e-6 / INR K)) as [_|Y]; [|lra]. split.
    + rewrite (rsum_ext N _ (fun _ => 0)) by (intros i Li; rewrite U by exact Li; ring). apply rsum_zero.
    + f_equal. rewrite (rsum_ext N _ (fun _ => 0)) by (intros i Li; rewrite U by exact Li; ring). apply rsum_zero.
Qed.
Print Assumptions C136_empty_modes_refuted.

(** a mixture of 1 to 10^6 Gaussians, at least one datum, positive bounds of the covariances *)
Record setting (D K N : nat) (bounds : list R) (lb : nat -> R) (data : list R) (x : nat -> nat -> R) : Prop := {
  s_dim : (0 < D)%nat; s_modes : (0 < K)%nat; s_million : INR K <= 1000000; s_data : (0 < N)%nat;
  s_bounds : row 0 D bounds lb; s_pos : forall d, (d < D)%nat -> 0 < lb d; s_x : table 0 N D data x }.

(** ** C137: EM returns a consistent solution: the likelihood and the posteriors are those of the
    returned parameters, the covariances respect the bounds and, if there was an iteration, the
    priors are a distribution.  No value is undefined, for all schedules of the parallel loops *)
Theorem C137_em : forall D K N junk bounds lb data x sched iterations g mu v pi,
  setting D K N bounds lb data x -> (forall it, scheduled K N (sched it)) -> start D K g mu v pi ->
  (exists k, (k < K)%nat /\ / 1000000 <= pi k) ->
  exists ll g' mu' v' pi', em D K junk bounds sched iterations data N g = Some (ll, g') /\
    table 0 K D (p_means (g_par g')) mu' /\ table 0 K D (p_covs (g_par g')) v' /\ row 0 K (p_priors (g_par g')) pi' /\
    ll = log_likelihood D K x mu' v' pi' N /\ table 0 N K (g_post g') (posterior D K x mu' v' pi') /\
    (forall k d, (k < K)%nat -> (d < D)%nat -> lb d <= v' k d) /\
    (exists k, (k < K)%nat /\ / 1000000 <= pi' k) /\
    ((0 < iterations)%nat -> (forall k, (k < K)%nat -> 0 <= pi' k) /\ total K pi' = 1) /\
    (iterations = 0%nat -> forall k d, (k < K)%nat -> (d < D)%nat -> mu' k d = mu k d /\ v' k d = Rmax (v k d) (lb d) /\ pi' k = pi k).
Proof.
  intros D K N junk bounds lb data x sched iterations g mu v pi [S1 S2 S3 S4 S5 S6 S7] Hs St Sm.
  destruct (em_ok D K N junk bounds lb data x S1 S2 S3 S4 S5 S6 S7 sched iterations g mu v pi Hs St Sm)
    as (ll & g' & mu' & v' & pi' & E & (_ & A & T & _ & L) & Pr & Z).
  exists ll, g', mu', v', pi'. split; [exact E|]. destruct A as [A1 A2 A3 A4 A5].
  do 3 (split; [assumption|]). split; [exact L|]. split; [exact T|]. split; [exact A4|]. split; [exact A5|]. split; [exact Pr|].
  intros Zi k d Lk Ld. destruct (Z Zi) as (Z1 & Z2 & Z3). rewrite Z1 in A1. rewrite Z2 in A3. split; [|split].
  - rewrite <- (proj2 A1 k d Lk Ld). apply (proj2 (st_mu _ _ _ _ _ _ St) k d Lk Ld).
  - rewrite <- (proj2 A2 k d Lk Ld). apply (proj2 Z3 k d Lk Ld).
  - rewrite <- (proj2 A3 k Lk). apply (proj2 (st_pi _ _ _ _ _ _ St) k Lk).
Qed.
Print Assumptions C137_em.

(** ** C138: modes with hardly any data are restarted by splitting the mode of largest entropy at its
    mean, along the coordinate of largest variance; otherwise nothing changes *)
Theorem C138_restart : forall D K N bounds lb data x parts g mu v pi q,
  setting D K N bounds lb data x -> g_num g = N -> are D K lb (g_par g) mu v pi -> proper K pi ->
  table 0 N K (g_post g) q -> distribution K N q -> (forall i, (i < K)%nat -> Permutation (concat (parts i)) (seq 0 N)) ->
  exists g' mu' v' pi' q', restart D K bounds parts data g = Some g' /\ g_num g' = N /\
    are D K lb (g_par g') mu' v' pi' /\ proper K pi' /\ table 0 N K (g_post g') q' /\ distribution K N q' /\
    ((forall k, (k < K)%nat -> / 100 * Rmax 1 (INR N / INR K) <= total N (fun a => q a k)) -> g' = g) /\
    (forall i j b, (i < K)%nat -> (j < K)%nat -> i <> j ->
       total N (fun a => q a i) < / 100 * Rmax 1 (INR N / INR K) ->
       (forall k, (k < K)%nat -> k <> i -> / 100 * Rmax 1 (INR N / INR K) <= total N (fun a => q a k)) ->
       / 1000000 <= pi j -> (forall k, (k < K)%nat -> k <> j -> / 1000000 <= pi k -> entropy D v pi k < entropy D v pi j) ->
       (b < D)%nat -> (forall d, (d < D)%nat -> d <> b -> v j d < v j b) ->
       table 0 N K (g_post g') (split x q b (mu j b) i j) /\
       maximization D K bounds (parts i) (g_par g) data (g_post g') = Some (g_par g')).
Proof.
  intros D K N bounds lb data x parts g mu v pi q [S1 S2 S3 S4 S5 S6 S7] Hn A Pp Hq Dq P.
  destruct (restart_ok D K N bounds lb data x S1 S2 S3 S4 S5 S6 S7 parts g P) as (g' & E & Hn' & mu' & v' & pi' & q' & A' & Hq' & Dq' & Pp').
  { split; [exact Hn|]. exists mu, v, pi, q. auto. }
  exists g', mu', v', pi', q'. split; [exact E|]. split; [exact Hn'|]. split; [exact A'|]. split; [exact Pp'|]. split; [exact Hq'|].
  split; [exact Dq'|]. split.
  - intro M. rewrite (restart_none D K N bounds lb data parts g mu v pi q Hn A Hq M) in E. now inversion E.
  - intros i j b Li Lj Ne M1 M2 Pj B Lb Bd.
    destruct (restart_split D K N bounds lb data x S1 S2 S3 S4 S5 S6 S7 parts g mu v pi q i j b ltac:(lia) Hn A Hq Dq P Li Lj Ne M1 M2 Pj B Lb Bd)
      as (g2 & E2 & _ & T2 & X2).
    rewrite E2 in E. inversion E; subst g2. auto.
Qed.
Print Assumptions C138_restart.

(** ** C139: the random initialization takes the given centers, equal priors and the variances of the
    data; the one from k-means assigns each datum to its center and maximizes *)
Theorem C139_rand : forall D K N junk data x centers g,
  (0 < D)%nat -> (0 < K)%nat -> (0 < N)%nat -> table 0 N D data x -> length centers = (K * D)%nat ->
  exists g', init_rand D K junk centers data N g = Some g' /\ p_means (g_par g') = centers /\
    row 0 K (p_priors (g_par g')) (fun _ => 1 / INR K) /\
    table 0 K D (p_covs (g_par g')) (fun _ d => if (N <=? 1)%nat then 0 else data_variance N x d) /\
    length (g_post g') = (g_num g' * K)%nat /\ forall g2, init_rand D K junk centers data N g2 = Some g'.
Proof.
  intros D K N junk data x centers g Dp Kp Np Hx L.
  destruct (init_rand_ok D K N junk data x Dp Kp Np Hx centers _ g (table_of 0 K D centers L)) as (g' & E & St & M).
  exists g'. split; [exact E|]. split; [exact M|]. split; [exact (st_pi _ _ _ _ _ _ St)|]. split; [exact (st_v _ _ _ _ _ _ St)|].
  split; [exact (st_buffer _ _ _ _ _ _ St)|]. intro g2. exact E.
Qed.
Print Assumptions C139_rand.
Theorem C139_kmeans : forall D K N junk bounds lb data x parts a g,
  setting D K N bounds lb data x -> length a = N -> (forall i, (i < N)%nat -> (nth i a 0 < K)%nat) -> Permutation (concat parts) (seq 0 N) ->
  exists g' mu' v' pi', init_kmeans D K junk bounds parts a data N g = Some g' /\ start D K g' mu' v' pi' /\
    table 0 N K (g_post g') (fun i k => if (k =? nth i a 0%nat)%nat then 1 else 0) /\
    (forall k d, (k < K)%nat -> (d < D)%nat ->
       let n := total N (fun i => if (k =? nth i a 0%nat)%nat then 1 else 0) in
       let m := total N (fun i => if (k =? nth i a 0%nat)%nat then x i d else 0) / n in
       0 < n -> mu' k d = m /\ v' k d = Rmax (total N (fun i => if (k =? nth i a 0%nat)%nat then (x i d - m) ^ 2 else 0) / n) (lb d)) /\
    (forall k, (k < K)%nat -> pi' k = total N (fun i => if (k =? nth i a 0%nat)%nat then 1 else 0) / INR N) /\
    forall g2, init_kmeans D K junk bounds parts a data N g2 = Some g'.
Proof.
  intros D K N junk bounds lb data x parts a g [S1 S2 S3 S4 S5 S6 S7] La B P.
  destruct (init_kmeans_ok D K N junk bounds lb data x S1 S2 S3 S4 S5 S7 parts a g La B P)
    as (g' & mu' & v' & pi' & E & St & _ & T & _ & _ & H & Hp).
  assert (Kp : 0 < INR K) by now apply lt_0_INR.
  assert (K1 : / 100 / INR K < 1).
  { assert (1 <= INR K) by (change 1 with (INR 1); apply le_INR; lia). apply Rmult_lt_reg_r with (INR K); [lra|]. unfold Rdiv. rewrite Rmult_assoc, Rinv_l by lra. lra. }
  assert (K0 : 0 < / 100 / INR K) by (apply Rdiv_lt_0_compat; lra).
  assert (U : forall i k, used K (assigned a) i k = if (k =? nth i a 0%nat)%nat then 1 else 0).
  { intros i k. unfold used, assigned. destruct (k =? nth i a 0%nat)%nat; destruct (Rlt_dec _ _); lra. }
  assert (M : forall k, mass K N (assigned a) k = total N (fun i => if (k =? nth i a 0%nat)%nat then 1 else 0)).
  { intro k. apply rsum_ext. intros i _. apply U. }
  exists g', mu', v', pi'. split; [exact E|]. split; [exact St|]. split; [exact T|]. split; [|split].
  - intros k d Lk Ld n m Pn. destruct (H k d Lk Ld) as [-> ->].
    assert (Mn : mass K N (assigned a) k = n) by apply M.
    assert (Big : ~ mass K N (assigned a) k < 1e-6 / INR K).
    { destruct (mass_cases K N (assigned a) k S2) as [Q|[Q _]]; [exact Q|lra]. }
    assert (Wm : wmean K N x (assigned a) k d = m).
    { unfold wmean, m. rewrite Mn. f_equal. apply rsum_ext. intros i _. rewrite U. destruct (k =? nth i a 0%nat)%nat; ring. }
    unfold mean2, var2. destruct (Rlt_dec _ _); [contradiction|]. split; [exact Wm|]. f_equal. unfold wvar. rewrite Mn, Wm. f_equal.
    apply rsum_ext. intros i _. rewrite U. destruct (k =? nth i a 0%nat)%nat; ring.
  - intros k Lk. rewrite Hp by exact Lk. unfold share. rewrite M. f_equal.
    rewrite (rsum_ext K _ (fun k => total N (fun i => if (k =? nth i a 0%nat)%nat then 1 else 0))) by (intros; apply M).
    rewrite <- rsum_swap. rewrite (rsum_ext N _ (fun _ => 1)) by (intros i Li; apply rsum_single; now apply B).
    clear. induction N as [|n IH]; [reflexivity|]. rewrite S_INR. cbn [sum]. now rewrite IH.
  - intro g2. exact E.
Qed.
Print Assumptions C139_kmeans.

(** ** C140: with the random or the k-means initialization vl_gmm_cluster returns the first of the
    best of the independent runs *)
Definition run (D K : nat) (junk : nat -> R) (bounds : list R) (init : initialization) (sched : nat -> nat -> schedule) (iterations : nat) (data : list R) (N : nat) (g : gmm) (r : nat) : option (R * gmm) :=
  do g <- match init with
          | Rand centers => init_rand D K junk (centers r) data N g
          | Kmeans parts a => init_kmeans D K junk bounds (parts r) (a r) data N g
          | Custom => Some g
          end;
  em D K junk bounds (sched r) iterations data N g.
Theorem C140_cluster : forall D K junk bounds init sched iterations data N g n (ll : nat -> R) (out : nat -> gmm),
  init <> Custom -> (0 < n)%nat ->
  (forall r, (r < n)%nat -> run D K junk bounds init sched iterations data N g r = Some (ll r, out r)) ->
  exists b, (b < n)%nat /\ cluster D K junk bounds init n sched iterations data N g = Some (ll b, out b) /\
    (forall r, (r < n)%nat -> ll r <= ll b) /\ (forall r, (r < b)%nat -> ll r < ll b).
Proof.
  intros D K junk bounds init sched iterations data N g n ll out Ic Np H. unfold cluster.
  match goal with |- exists _, _ /\ obind (iter n ?body _) _ = _ /\ _ => destruct (iter_inv (fun j s =>
      (j = 0%nat -> snd s = None) /\ ((0 < j)%nat -> exists b, (b < j)%nat /\ snd s = Some (ll b, out b) /\
        (forall r, (r < j)%nat -> ll r <= ll b) /\ (forall r, (r < b)%nat -> ll r < ll b))) body n (Some g, None)) as ([c best] & E & _ & Hb) end.
  - split; [reflexivity|]. intros; lia.
  - intros r [c best] Lr [H0 H1]. cbn [snd] in *. unfold repetition.
    assert (X : forall g', obind (match init with
        | Rand centers => init_rand D K junk (centers r) data N g'
        | Kmeans parts a => init_kmeans D K junk bounds (parts r) (a r) data N g'
        | Custom => c end) (em D K junk bounds (sched r) iterations data N) = Some (ll r, out r)).
    { intro g'. specialize (H r Lr). unfold run in H. destruct init; [exact H|exact H|contradiction]. }
    match goal with |- exists _, obind (match init with Rand _ => init_rand D K junk _ data N ?m | _ => _ end) _ = _ /\ _ => specialize (X m) end.
    destruct (match init with Rand _ => _ | _ => _ end) as [g1|] eqn:E1; [|discriminate X]. cbn [obind] in X |- *. rewrite X. cbn [obind].
    destruct (Nat.eq_dec r 0) as [->|Nr].
    + rewrite H0 by reflexivity. eexists; split; [reflexivity|]. split; [intros; lia|]. intros _. exists 0%nat. cbn [snd].
      split; [lia|]. split; [reflexivity|]. split; [intros r' L; replace r' with 0%nat by lia; lra|intros; lia].
    + destruct (H1 ltac:(lia)) as (b & Lb & Eb & Ub & Fb). rewrite Eb. destruct (ltb (ll b) (ll r)) eqn:C.
      * apply ltb_true in C. eexists; split; [reflexivity|]. split; [intros; lia|]. intros _. exists r. cbn [snd].
        split; [lia|]. split; [reflexivity|]. split.
        -- intros r' L. destruct (Nat.eq_dec r' r) as [->|]; [lra|]. pose proof (Ub r' ltac:(lia)). lra.
        -- intros r' L. pose proof (Ub r' L). lra.
      * apply ltb_false in C. eexists; split; [reflexivity|]. split; [intros; lia|]. intros _. exists b. cbn [snd].
        split; [lia|]. split; [reflexivity|]. split; [|exact Fb].
        intros r' L. destruct (Nat.eq_dec r' r) as [->|]; [exact C|]. apply Ub. lia.
  - destruct (Hb Np) as (b & Lb & Eb & Ub & Fb). exists b. cbn [snd] in Eb. split; [exact Lb|]. split; [|auto]. unfold progress in *. rewrite E. exact Eb.
Qed.
Print Assumptions C140_cluster.

(** ** C143: with the custom initialization one repetition runs EM from the given parameters; the second
    repetition reads arrays that were never written *)
Theorem C143_custom_once : forall D K junk bounds sched iterations data N g ll g',
  em D K junk bounds (sched 0%nat) iterations data N g = Some (ll, g') ->
  cluster D K junk bounds Custom 1 sched iterations data N g = Some (ll, g').
Proof. intros D K junk bounds sched iterations data N g ll g' E. unfold cluster, iter. cbn [iter_from]. unfold repetition. cbn [obind]. now rewrite E. Qed.
Print Assumptions C143_custom_once.
Theorem C143_custom_repetitions_refuted : forall D K junk bounds n sched iterations data N g, (2 <= n)%nat ->
  cluster D K junk bounds Custom n sched iterations data N g = None.
Proof.
  intros D K junk bounds n sched iterations data N g L. destruct n as [|[|n]]; [lia|lia|]. unfold cluster, iter. cbn [iter_from].
  unfold repetition at 1. cbn [obind]. destruct (em D K junk bounds (sched 0%nat) iterations data N g) as [[ll g1]|]; reflexivity.
Qed.
Print Assumptions C143_custom_repetitions_refuted.

(** ** C141: a copy has the parameters of the original but the default bounds of the covariances, so EM
    from the copy differs *)
Theorem C141_copy : forall o, let c := gmm_copy o in
  o_dim c = o_dim o /\ o_modes c = o_modes o /\ o_iterations c = o_iterations o /\ g_par (o_gmm c) = g_par (o_gmm o) /\
  o_bounds c = repeat 1e-4 (o_dim o).
Proof. intro o. cbv zeta. repeat (split; [reflexivity|]). reflexivity. Qed.
Print Assumptions C141_copy.
Definition ex_object : object := mk_object 1 1 [1] 0 (mk_gmm (mk_params [0] [0] [1]) [] 0).
Definition ex_sched (it : nat) : schedule := mk_schedule [0%nat] (fun _ => [[0%nat]]) [[0%nat]].
Lemma ex_scheduled : forall it, scheduled 1 1 (ex_sched it).
Proof. intro it. split; [reflexivity|]. split; [intros i _; reflexivity|reflexivity]. Qed.
Lemma row1 y : row 0 1 [y] (fun _ => y).
Proof. split; [reflexivity|]. intros i L. now replace i with 0%nat by lia. Qed.
Lemma table1 y : table 0 1 1 [y] (fun _ _ => y).
Proof. split; [reflexivity|]. intros i d L L'. now replace i with 0%nat by lia; replace d with 0%nat by lia. Qed.
Lemma ex_setting b y : 0 < b -> setting 1 1 1 [b] (fun _ => b) [y] (fun _ _ => y).
Proof. intro P. constructor; try lia; [cbn; lra|apply row1|intros; exact P|apply table1]. Qed.
Lemma ex_start : start 1 1 (o_gmm ex_object) (fun _ _ => 0) (fun _ _ => 0) (fun _ => 1).
Proof. constructor; cbn; [apply table1|apply table1|apply row1|reflexivity]. Qed.
Theorem C141_copy_bounds_refuted : exists o junk sched data ll g ll' g',
  (forall it, scheduled 1 1 (sched it)) /\ object_em junk sched data 1 o = Some (ll, g) /\ object_em junk sched data 1 (gmm_copy o) = Some (ll', g') /\
  p_covs (g_par g) = [1] /\ p_covs (g_par g') = [1e-4].
Proof.
  assert (X : forall b, 0 < b -> exists ll g, em 1 1 (fun _ => 0) [b] ex_sched 0 [0] 1 (o_gmm ex_object) = Some (ll, g) /\ p_covs (g_par g) = [b]).
  { intros b P.
    destruct (C137_em 1 1 1 (fun _ => 0) [b] _ [0] _ ex_sched 0 _ _ _ _ (ex_setting b 0 P) ex_scheduled ex_start) as (ll & g & mu & v & pi & E & H1 & H2 & H3 & H).
    { exists 0%nat. split; [lia|lra]. }
    exists ll, g. split; [exact E|]. destruct H as (_ & _ & _ & _ & _ & Z). destruct (Z eq_refl 0%nat 0%nat ltac:(lia) ltac:(lia)) as (_ & V & _).
    apply (table_eq 0 1 1 _ _ (fun _ _ => b)); [|apply table1].
    apply (table_ext _ _ _ _ _ _ H2). intros k d Lk Ld. replace k with 0%nat by lia. replace d with 0%nat by lia. rewrite V. apply Rmax_right. lra. }
  destruct (X 1 ltac:(lra)) as (ll & g & E & H). destruct (X 1e-4 ltac:(lra)) as (ll' & g' & E' & H').
  exists ex_object, (fun _ => 0), ex_sched, [0], ll, g, ll', g'. split; [exact ex_scheduled|]. auto.
Qed.
Print Assumptions C141_copy_bounds_refuted.

(** ** C144: an iteration of EM in which no prior and no posterior is negligible does not lower the
    likelihood *)
Theorem C144_likelihood : forall D K N bounds lb p data x mu v pi parts order order' post post1 p1 post2 ll1 ll2,
  (0 < K)%nat -> INR K <= 10000 -> (0 < N)%nat -> row 0 D bounds lb -> (forall d, (d < D)%nat -> 0 < lb d) ->
  table 0 N D data x -> table 0 K D (p_means p) mu -> table 0 K D (p_covs p) v -> row 0 K (p_priors p) pi ->
  (forall k d, (k < K)%nat -> (d < D)%nat -> lb d <= v k d) -> (forall k, (k < K)%nat -> / 1000000 <= pi k) -> total K pi = 1 ->
  (forall i k, (i < N)%nat -> (k < K)%nat -> / 100 / INR K <= posterior D K x mu v pi i k) ->
  Permutation order (seq 0 N) -> Permutation order' (seq 0 N) -> Permutation (concat parts) (seq 0 N) -> length post = (N * K)%nat ->
  expectation D K order p data post = Some (ll1, post1) ->
  maximization D K bounds parts p data post1 = Some p1 ->
  expectation D K order' p1 data post1 = Some (ll2, post2) -> ll1 <= ll2.
Proof.
  intros D K N bounds lb p data x mu v pi parts order order' post post1 p1 post2 ll1 ll2 Kp Ks Np Hb Pb Hx Hm Hv Hp Lv Lp Sp Lq P1 P2 P3 Lpo E1 M1 E2.
  assert (Pv : forall k d, (k < K)%nat -> (d < D)%nat -> 0 < v k d) by (intros k d Lk Ld; pose proof (Lv k d Lk Ld); pose proof (Pb d Ld); lra).
  assert (Sm : exists k, (k < K)%nat /\ / 1000000 <= pi k) by (exists 0%nat; split; [exact Kp|now apply Lp]).
  destruct (expectation_ok D K p data N x mu v pi Hx Hm Hv Hp Pv Sm order post _ P1 (table_of 0 N K post Lpo)) as (po & E & T).
  rewrite E in E1. inversion E1; subst ll1 po. clear E1.
  pose proof (massive_q D K N x mu v pi Lq) as Big.
  assert (MS : total K (mass K N (posterior D K x mu v pi)) = INR N) by (apply (mass_sum D K N x mu v pi lb); auto).
  destruct (maximization_ok D K N bounds lb p data post1 x mu _ Hb Hx Hm T parts Kp P3) as (p' & E' & H1 & H2 & H3).
  rewrite E' in M1. inversion M1; subst p'. clear M1.
  assert (N1 : 1 <= INR N) by (change 1 with (INR 1); apply le_INR; lia). assert (K1 : 0 < INR K) by now apply lt_0_INR.
  rewrite MS, Rmax_left in H3 by lra.
  assert (H1' : table 0 K D (p_means p1) (wmean K N x (posterior D K x mu v pi))).
  { apply (table_ext _ _ _ _ _ _ H1). intros k d Lk Ld. unfold mean2. destruct (Rlt_dec _ _) as [Z|Z]; [|reflexivity]. exfalso.
    pose proof (Big k Lk) as B. assert (1e-6 / INR K < / 100 / INR K) by (apply Rmult_lt_compat_r; [now apply Rinv_0_lt_compat|lra]).
    assert (0 < / 100 / INR K) by (apply Rdiv_lt_0_compat; lra). nra. }
  assert (H2' : table 0 K D (p_covs p1) (fun k d => Rmax (wvar K N x (posterior D K x mu v pi) k d) (lb d))).
  { apply (table_ext _ _ _ _ _ _ H2). intros k d Lk Ld. unfold var2. destruct (Rlt_dec _ _) as [Z|Z]; [|reflexivity]. exfalso.
    pose proof (Big k Lk) as B. assert (1e-6 / INR K < / 100 / INR K) by (apply Rmult_lt_compat_r; [now apply Rinv_0_lt_compat|lra]).
    assert (0 < / 100 / INR K) by (apply Rdiv_lt_0_compat; lra). nra. }
  assert (H3' : row 0 K (p_priors p1) (share K N (posterior D K x mu v pi))).
  { apply (row_ext _ _ _ _ _ H3). intros k Lk. unfold share. now rewrite MS. }
  assert (Pv' : forall k d, (k < K)%nat -> (d < D)%nat -> 0 < Rmax (wvar K N x (posterior D K x mu v pi) k d) (lb d)).
  { intros k d Lk Ld. pose proof (Rmax_r (wvar K N x (posterior D K x mu v pi) k d) (lb d)). pose proof (Pb d Ld). lra. }
  destruct (expectation_ok D K p1 data N x _ _ _ Hx H1' H2' H3' Pv') with (order := order') (post := post1) (F := posterior D K x mu v pi) as (po2 & E3 & _).
  - exists 0%nat. split; [exact Kp|]. apply (share_large D K N x mu v pi lb); auto.
  - exact P2.
  - exact T.
  - rewrite E3 in E2. inversion E2; subst. apply em_gain; auto.
Qed.
Print Assumptions C144_likelihood.

(** *** Examples *)
(** two modes at 0 and 1 and two data there *)
Definition ex_x (i d : nat) : R := INR i.
Definition ex_data : list R := [0; 1].
Definition ex_params : params := mk_params [0; 1] [1; 1] [/ 2; / 2].
Lemma ex_line a b f : f 0%nat 0%nat = a -> f 1%nat 0%nat = b -> table 0 2 1 [a; b] f.
Proof. intros A B. split; [reflexivity|]. intros [|[|i]] [|d] Li Ld; try lia; cbn; auto. Qed.
Lemma ex_row a b f : f 0%nat = a -> f 1%nat = b -> row 0 2 [a; b] f.
Proof. intros A B. split; [reflexivity|]. intros [|[|i]] Li; try lia; cbn; auto. Qed.
Lemma ex_square a b c d f : f 0%nat 0%nat = a -> f 0%nat 1%nat = b -> f 1%nat 0%nat = c -> f 1%nat 1%nat = d -> table 0 2 2 [a; b; c; d] f.
Proof. intros A B C E. split; [reflexivity|]. intros [|[|i]] [|[|j]] Li Lj; try lia; cbn; auto. Qed.
Lemma ex_density i k : density 1 ex_x ex_x (fun _ _ => 1) i k = exp (- / 2 * (INR i - INR k) ^ 2) / sqrt (2 * PI).
Proof. unfold density, ex_x. cbn [sum product]. f_equal; [f_equal; field|f_equal; ring]. Qed.
Lemma ex_posterior i k : (i < 2)%nat -> (k < 2)%nat ->
  posterior 1 2 ex_x ex_x (fun _ _ => 1) (fun _ => / 2) i k = if (i =? k)%nat then 1 / (1 + exp (- / 2)) else exp (- / 2) / (1 + exp (- / 2)).
Proof.
  intros Li Lk. unfold posterior, mixture, weight. destruct (Rlt_dec (/ 2) (/ 1000000)) as [Z|Z]; [lra|]. cbn [sum].
  rewrite !ex_density. pose proof (exp_pos (- / 2)). pose proof PI_RGT_0. pose proof (sqrt_lt_R0 (2 * PI) ltac:(lra)).
  assert (E0 : exp (- / 2 * (0 - 0) ^ 2) = 1) by (replace (- / 2 * (0 - 0) ^ 2) with 0 by ring; apply exp_0).
  assert (E1 : exp (- / 2 * (1 - 1) ^ 2) = 1) by (replace (- / 2 * (1 - 1) ^ 2) with 0 by ring; apply exp_0).
  assert (E2 : exp (- / 2 * (0 - 1) ^ 2) = exp (- / 2)) by (f_equal; field).
  assert (E3 : exp (- / 2 * (1 - 0) ^ 2) = exp (- / 2)) by (f_equal; field).
  destruct i as [|[|i]], k as [|[|k]]; try lia; cbn [INR Nat.eqb]; rewrite ?E0, ?E1, ?E2, ?E3; field; lra.
Qed.
Example C133_ex : exists ll, expectation 1 2 [1%nat; 0%nat] ex_params ex_data [7; 7; 7; 7] =
  Some (ll, [1 / (1 + exp (- / 2)); exp (- / 2) / (1 + exp (- / 2)); exp (- / 2) / (1 + exp (- / 2)); 1 / (1 + exp (- / 2))]).
Proof.
  destruct (C133_posteriors 1 2 2 [1%nat; 0%nat] ex_params ex_data [7; 7; 7; 7] ex_x ex_x (fun _ _ => 1) (fun _ => / 2)) as (post & E & T);
    try (apply ex_line; reflexivity); try (apply ex_row; reflexivity); try (intros; lra); try reflexivity.
  - exists 0%nat. split; [lia|lra].
  - apply perm_swap.
  - eexists. rewrite E. f_equal. f_equal. apply (table_eq 0 2 2 _ _ _ T).
    apply ex_square.
    + exact (ex_posterior 0 0 ltac:(lia) ltac:(lia)).
    + exact (ex_posterior 0 1 ltac:(lia) ltac:(lia)).
    + exact (ex_posterior 1 0 ltac:(lia) ltac:(lia)).
    + exact (ex_posterior 1 1 ltac:(lia) ltac:(lia)).
Qed.
(** C134: its posteriors are positive, those of a mode of prior zero are zero *)
Example C134_ex : posterior 1 2 ex_x ex_x (fun _ _ => 1) (fun k => INR k) 0 0 = 0 /\ 0 < posterior 1 2 ex_x ex_x (fun _ _ => 1) (fun k => INR k) 0 1.
Proof.
  destruct (C134_distribution 1 2 ex_x ex_x (fun _ _ => 1) (fun k => INR k)) with (i := 0%nat) as [_ H].
  - intros; lra.
  - exists 1%nat. split; [lia|cbn; lra].
  - split; [apply (proj1 (H 0%nat ltac:(lia))); cbn; lra|apply (proj2 (H 1%nat ltac:(lia))); cbn; lra].
Qed.
(** C135, C136: all the data in mode 0; the mean of mode 1 was 1 and becomes 0 *)
Definition ex_q (i k : nat) : R := if (k =? 0)%nat then 1 else 0.
Lemma ex_used i k : used 2 ex_q i k = ex_q i k.
Proof. unfold used, ex_q. cbn [INR]. destruct (k =? 0)%nat, (Rlt_dec _ _); lra. Qed.
Lemma ex_mass k : mass 2 2 ex_q k = 2 * ex_q 0 k.
Proof. unfold mass. cbn [sum]. rewrite !ex_used. unfold ex_q. destruct (k =? 0)%nat; lra. Qed.
Example C135_ex : maximization 1 2 [/ 10] [[1%nat]; [0%nat]] ex_params ex_data [1; 0; 1; 0] = Some (mk_params [/ 2; 0] [/ 4; / 10] [1; 0]).
Proof.
  assert (R1 : forall y, row 0 1 [y] (fun _ => y)) by apply row1.
  destruct (maximization_ok 1 2 2 [/ 10] (fun _ => / 10) ex_params ex_data [1; 0; 1; 0] ex_x ex_x ex_q (R1 _)) with (parts := [[1%nat]; [0%nat]]) as ([m c p] & E & H1 & H2 & H3).
  - apply ex_line; reflexivity.
  - apply ex_line; reflexivity.
  - apply ex_square; reflexivity.
  - lia.
  - apply perm_swap.
  - rewrite E. f_equal. cbn [p_means p_covs p_priors] in *.
    assert (W : wmean 2 2 ex_x ex_q 0 0 = / 2) by (unfold wmean; rewrite ex_mass; cbn [sum]; rewrite !ex_used; unfold ex_q, ex_x; cbn; lra).
    f_equal.
    + apply (table_eq 0 2 1 _ _ _ H1), ex_line; unfold mean2; rewrite ex_mass; unfold ex_q at 1; cbn [Nat.eqb INR]; destruct (Rlt_dec _ _); try lra.
      cbn [sum]. rewrite !ex_used. unfold ex_q. cbn. lra.
    + apply (table_eq 0 2 1 _ _ _ H2), ex_line; unfold var2; rewrite ex_mass; unfold ex_q at 1; cbn [Nat.eqb INR]; destruct (Rlt_dec _ _); try lra.
      * rewrite Rmax_left; unfold wvar; rewrite W, ex_mass; cbn [sum]; rewrite !ex_used; unfold ex_q, ex_x; cbn; lra.
      * cbn [sum]. rewrite !ex_used. unfold ex_q, Gmm_Proofs.sq. cbn. rewrite Rmax_right; lra.
    + apply (row_eq 0 2 _ _ _ H3), ex_row; cbn [sum]; rewrite !ex_mass; unfold ex_q; cbn [Nat.eqb]; rewrite Rmax_left; lra.
Qed.
(** C138: the empty mode 1 takes the datum 0, which is below the mean of mode 0 *)
Example C138_ex : exists p, restart 1 2 [/ 10] (fun _ => [[0%nat; 1%nat]]) ex_data (mk_gmm (mk_params [/ 2; 0] [/ 4; / 10] [1; 0]) [1; 0; 1; 0] 2) = Some (mk_gmm p [0; 1; 1; 0] 2).
Proof.
  destruct (restart_split 1 2 2 [/ 10] (fun _ => / 10) ex_data ex_x) with (parts := fun _ : nat => [[0%nat; 1%nat]])
    (g := mk_gmm (mk_params [/ 2; 0] [/ 4; / 10] [1; 0]) [1; 0; 1; 0] 2) (mu := fun k (_ : nat) => if (k =? 0)%nat then / 2 else 0)
    (v := fun k (_ : nat) => if (k =? 0)%nat then / 4 else / 10) (pi := fun k => if (k =? 0)%nat then 1 else 0) (q := ex_q) (i := 1%nat) (j := 0%nat) (b := 0%nat)
    as (g' & E & Hn & T & _); try lia.
  - cbn; lra.
  - apply row1.
  - intros; lra.
  - apply ex_line; reflexivity.
  - reflexivity.
  - constructor; cbn [g_par p_means p_covs p_priors]; try (apply ex_line; reflexivity); try (apply ex_row; reflexivity).
    + intros k d _ _. destruct (k =? 0)%nat; lra.
    + exists 0%nat. split; [lia|cbn; lra].
  - apply ex_square; reflexivity.
  - split; [intros i k _ _; unfold ex_q; destruct (k =? 0)%nat; lra|intros i _; unfold ex_q; cbn; lra].
  - intros; reflexivity.
  - unfold ex_q. cbn. unfold Rmax. destruct (Rle_dec _ _); lra.
  - intros k Lk Nk. replace k with 0%nat by lia. unfold ex_q. cbn. unfold Rmax. destruct (Rle_dec _ _); lra.
  - cbn. lra.
  - intros k Lk Nk. replace k with 1%nat by lia. cbn. lra.
  - exists (g_par g'). rewrite E. f_equal. destruct g' as [p post n]. cbn [g_num g_post g_par] in *. subst n. f_equal.
    apply (table_eq 0 2 2 _ _ _ T), ex_square; unfold split, ex_q, ex_x; cbn; destruct (Rlt_dec _ _); lra.
Qed.
(** C137, C140, C143, C142: a mixture of one mode; with prior zero there is no result *)
Example C137_ex : exists ll g, em 1 1 (fun _ => 0) [1] ex_sched 3 [5] 1 (o_gmm ex_object) = Some (ll, g) /\ p_priors (g_par g) = [1].
Proof.
  destruct (C137_em 1 1 1 (fun _ => 0) [1] _ [5] _ ex_sched 3 _ _ _ _ (ex_setting 1 5 Rlt_0_1) ex_scheduled ex_start) as (ll & g & mu & v & pi & E & _ & _ & H3 & _ & _ & _ & _ & P & _).
  { exists 0%nat. split; [lia|lra]. }
  exists ll, g. split; [exact E|]. destruct (P ltac:(lia)) as [_ S]. cbn [sum] in S.
  apply (row_eq 0 1 _ _ _ H3). split; [reflexivity|]. intros i Li. replace i with 0%nat by lia. cbn. lra.
Qed.
Example C140_ex : exists ll g, run 1 1 (fun _ => 0) [1] (Rand (fun r => [INR r])) (fun _ => ex_sched) 3 [5] 1 (o_gmm ex_object) 2 = Some (ll, g).
Proof.
  destruct (init_rand_ok 1 1 1 (fun _ => 0) [5] (fun _ _ => 5) ltac:(lia) ltac:(lia) ltac:(lia) (table1 5) [INR 2] _ (o_gmm ex_object) (table1 _)) as (g & E & St & _).
  destruct (C137_em 1 1 1 (fun _ => 0) [1] _ [5] _ ex_sched 3 _ _ _ _ (ex_setting 1 5 Rlt_0_1) ex_scheduled St) as (ll & g' & _ & _ & _ & E' & _).
  { exists 0%nat. split; [lia|cbn; lra]. }
  exists ll, g'. unfold run. rewrite E. cbn [obind]. exact E'.
Qed.
Example C143_ex : exists ll g, cluster 1 1 (fun _ => 0) [1] Custom 1 (fun _ => ex_sched) 3 [5] 1 (o_gmm ex_object) = Some (ll, g).
Proof. destruct C137_ex as (ll & g & E & _). exists ll, g. now apply C143_custom_once. Qed.
Example C142_ex : em 1 1 (fun _ => 0) [1] ex_sched 3 [5] 1 (mk_gmm (mk_params [0] [0] [0]) [] 0) = None.
Proof.
  apply (C142_negligible_priors_refuted 1 1 1 _ _ (fun _ => 1) _ _ _ (fun _ _ => 5) _ (fun _ _ => 0) (fun _ _ => 0) (fun _ => 0));
    try (apply table1); try (apply row1); try lia; try (intros; lra). reflexivity.
Qed.
(** C139: the variance of 0 and 1 is 1/2, both modes get the prior 1/2 *)
Example C139_ex : init_rand 1 2 (fun _ => 0) [0; 1] ex_data 2 (mk_gmm ex_params [] 0) = Some (mk_gmm (mk_params [0; 1] [/ 2; / 2] [/ 2; / 2]) [0; 0; 0; 0] 2).
Proof.
  destruct (C139_rand 1 2 2 (fun _ => 0) ex_data ex_x [0; 1] (mk_gmm ex_params [] 0)) as (g & E & Em & Hp & Hc & _); try lia.
  - apply ex_line; reflexivity.
  - reflexivity.
  - pose proof E as E0. unfold init_rand in E0. rewrite E.
    destruct (build 2 _) as [pr|]; [|discriminate]. cbn [obind] in E0. destruct (init_sigma _ _ _) as [sg|]; [|discriminate]. cbn [obind] in E0.
    destruct (build _ _) as [cv|]; [|discriminate]. cbn in E0. inversion E0; subst g. cbn [g_par p_means p_covs p_priors] in *. do 3 f_equal.
    + apply (table_eq 0 2 1 _ _ _ Hc), ex_line; unfold data_variance, data_mean, ex_x; cbn; field; lra.
    + apply (row_eq 0 2 _ _ _ Hp), ex_row; cbn; lra.
Qed.
Example C139_ex_kmeans : exists g, init_kmeans 1 2 (fun _ => 0) [/ 10] [[1%nat]; [0%nat]] [0%nat; 0%nat] ex_data 2 (mk_gmm ex_params [] 0) = Some g /\ g_post g = [1; 0; 1; 0].
Proof.
  destruct (C139_kmeans 1 2 2 (fun _ => 0) [/ 10] (fun _ => / 10) ex_data ex_x [[1%nat]; [0%nat]] [0%nat; 0%nat] (mk_gmm ex_params [] 0)) as (g & _ & _ & _ & E & _ & T & _).
  - constructor; try lia; [cbn; lra|apply row1|intros; lra|apply ex_line; reflexivity].
  - reflexivity.
  - intros [|[|i]] L; cbn; lia.
  - apply perm_swap.
  - exists g. split; [exact E|]. apply (table_eq 0 2 2 _ _ _ T), ex_square; reflexivity.
Qed.
(** C144: the mixture of C133 meets the hypotheses *)
Example C144_ex : forall i k, (i < 2)%nat -> (k < 2)%nat -> / 100 / INR 2 <= posterior 1 2 ex_x ex_x (fun _ _ => 1) (fun _ => / 2) i k.
Proof.
  intros i k Li Lk. rewrite ex_posterior by assumption. cbn [INR].
  assert (L : / 3 <= exp (- / 2)).
  { rewrite exp_Ropp. apply Rinv_le_contravar; [apply exp_pos|]. apply Rle_trans with (exp 1); [|apply exp_le_3]. left. apply exp_increasing. lra. }
  assert (U : exp (- / 2) < 1) by (rewrite <- exp_0; apply exp_increasing; lra).
  destruct (i =? k)%nat; apply Rmult_le_reg_r with (1 + exp (- / 2)); try lra; unfold Rdiv at 2; rewrite Rmult_assoc, Rinv_l by lra; lra.
Qed.
