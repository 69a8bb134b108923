(** Proofs about the Gaussian mixtures: restarted modes, EM and the initializations. *)
From Coq Require Import List Arith Lia Bool Reals Lra Permutation.
From Verif Require Import Base Loop Table MserSort_Proofs ImOp_Spec ImOp_Proofs Gmm_Model Gmm_Spec Gmm_Proofs.
Import ListNotations.
Local Open Scope R_scope.

Lemma all_below n (f : nat -> R) c : {k | (k < n)%nat /\ c <= f k} + {forall k, (k < n)%nat -> f k < c}.
Proof.
  induction n as [|n [[k [L P]]|H]].
  - right. intros; lia.
  - left. exists k. split; [lia|exact P].
  - destruct (Rlt_dec (f n) c) as [Q|Q].
    + right. intros k L. destruct (Nat.eq_dec k n) as [->|]; [exact Q|apply H; lia].
    + left. exists n. split; [lia|lra].
Qed.
Lemma sum_below n f c : (0 < n)%nat -> (forall k, (k < n)%nat -> f k < c) -> total n f < INR n * c.
Proof.
  induction n as [|n IH]; intros P H; [lia|]. rewrite S_INR. cbn [sum]. pose proof (H n ltac:(lia)) as A.
  destruct n as [|n]; [cbn; lra|]. pose proof (IH ltac:(lia) (fun k L => H k ltac:(lia))). lra.
Qed.
(** one of n numbers of sum 1 is at least 1 / n *)
Lemma some_large n f : (0 < n)%nat -> total n f = 1 -> exists k, (k < n)%nat /\ 1 / INR n <= f k.
Proof.
  intros P S1. destruct (all_below n f (1 / INR n)) as [[k H]|H]; [exists k; exact H|]. exfalso.
  pose proof (sum_below n f _ P H) as X. rewrite S1 in X.
  assert (0 < INR n) by now apply lt_0_INR. replace (INR n * (1 / INR n)) with 1 in X by (field; lra). lra.
Qed.

Section Em.
Variables (D K N : nat) (junk : nat -> R).
Variables (bounds : list R) (lb : nat -> R) (data : list R) (x : nat -> nat -> R).
Hypothesis Dp : (0 < D)%nat.
Hypothesis Kp : (0 < K)%nat.
Hypothesis Ks : INR K <= 1000000.
Hypothesis Np : (0 < N)%nat.
Hypothesis Hb : row 0 D bounds lb.
Hypothesis Pb : forall d, (d < D)%nat -> 0 < lb d.
Hypothesis Hx : table 0 N D data x.

Definition distribution (q : nat -> nat -> R) : Prop :=
  (forall i k, (i < N)%nat -> (k < K)%nat -> 0 <= q i k) /\ forall i, (i < N)%nat -> total K (q i) = 1.
Record are (p : params) (mu v : nat -> nat -> R) (pi : nat -> R) : Prop := {
  a_mu : table 0 K D (p_means p) mu; a_v : table 0 K D (p_covs p) v; a_pi : row 0 K (p_priors p) pi;
  a_lb : forall k d, (k < K)%nat -> (d < D)%nat -> lb d <= v k d;
  a_some : exists k, (k < K)%nat /\ / 1000000 <= pi k }.
Definition proper (pi : nat -> R) : Prop := (forall k, (k < K)%nat -> 0 <= pi k) /\ total K pi = 1.

Lemma are_pos p mu v pi : are p mu v pi -> forall k d, (k < K)%nat -> (d < D)%nat -> 0 < v k d.
Proof. intros A k d Lk Ld. pose proof (a_lb _ _ _ _ A k d Lk Ld). pose proof (Pb d Ld). lra. Qed.

(** maximization on distributions *)
Lemma kpos : 0 < INR K.
Proof. now apply lt_0_INR. Qed.
Lemma mass_total q : distribution q -> / 1000000 <= total K (mass K N q).
Proof.
  intros [Pq Sq]. destruct (some_large K (q 0%nat) Kp (Sq 0%nat Np)) as (k & Lk & Q). pose proof kpos as KP.
  assert (U : used K q 0 k = q 0%nat k).
  { unfold used. destruct (Rlt_dec (q 0%nat k) (/ 100 / INR K)) as [Y|Y]; [|reflexivity]. exfalso.
    assert (/ 100 / INR K < 1 / INR K) by (apply Rmult_lt_compat_r; [now apply Rinv_0_lt_compat|lra]). lra. }
  assert (A : used K q 0 k <= mass K N q k).
  { apply (rsum_term N (fun i => used K q i k) 0 (fun i _ => used_nonneg K q i k Kp) Np). }
  assert (B : mass K N q k <= total K (mass K N q)).
  { apply (rsum_term K (mass K N q) k); [|exact Lk]. intros j _. apply rsum_nonneg. intros i _. now apply used_nonneg. }
  assert (C : / 1000000 <= 1 / INR K).
  { unfold Rdiv. rewrite Rmult_1_l. apply Rinv_le_contravar; lra. }
  lra.
Qed.
Lemma maximization_dist parts p mu v pi post q : are p mu v pi -> table 0 N K post q -> distribution q ->
  Permutation (concat parts) (seq 0 N) ->
  exists p' mu' v' pi', maximization D K bounds parts p data post = Some p' /\ are p' mu' v' pi' /\ proper pi' /\
    (forall k d, (k < K)%nat -> (d < D)%nat -> mu' k d = mean2 K N x q k d /\ v' k d = Rmax (var2 K N x mu q k d) (lb d)) /\
    (forall k, (k < K)%nat -> pi' k = share K N q k).
Proof.
  intros A Hq Dq P. destruct (maximization_ok D K N bounds lb p data post x mu q Hb Hx (a_mu _ _ _ _ A) Hq parts Kp P) as (p' & E & H1 & H2 & H3).
  pose proof (mass_total q Dq) as T.
  assert (M : Rmax (total K (mass K N q)) 1e-12 = total K (mass K N q)) by (apply Rmax_left; lra).
  rewrite M in H3. exists p', (mean2 K N x q), (fun k d => Rmax (var2 K N x mu q k d) (lb d)), (share K N q).
  assert (S1 : total K (share K N q) = 1).
  { unfold share. rewrite (rsum_ext K _ (fun k => / total K (mass K N q) * mass K N q k)) by (intros; unfold Rdiv; ring).
    rewrite rsum_scale. field. lra. }
  assert (S0 : forall k, (k < K)%nat -> 0 <= share K N q k).
  { intros k _. apply Rmult_le_pos; [|left; apply Rinv_0_lt_compat; lra]. apply rsum_nonneg. intros i _. now apply used_nonneg. }
  split; [exact E|]. split; [|split; [split; assumption|split; [auto|auto]]].
  constructor; auto.
  - intros k d Lk Ld. apply Rmax_r.
  - destruct (some_large K _ Kp S1) as (k & Lk & Q). exists k. split; [exact Lk|].
    pose proof kpos. assert (C : / 1000000 <= 1 / INR K) by (unfold Rdiv; rewrite Rmult_1_l; apply Rinv_le_contravar; lra). lra.
Qed.

(** ** Restarted modes *)
Lemma masses_ok post q : table 0 N K post q -> exists m, masses K N post = Some m /\ row 0 K m (fun k => total N (fun i => q i k)).
Proof.
  intro Hq. unfold masses.
  destruct (iter_inv (fun j m => row 0 K m (fun k => total j (fun i => q i k)))
    (fun i ms => iter K (fun k ms => do p <- aget post (i * K + k); modify k (fun z => z + p) ms) ms) N (repeat 0 K)) as (m & E & H).
  - apply (row_repeat 0).
  - intros i m Li H. rewrite Nat.add_1_r. cbn [sum].
    apply (row_loop 0 K _ (fun k z => z + q i k) m _ H).
    intros k l g Lk Hl. rewrite (table_get 0 N K _ _ i k Hq Li Lk). cbn [obind].
    apply (row_modify 0 K l g k (fun z => z + q i k) Hl Lk).
  - exists m. split; [exact E|exact H].
Qed.
Lemma contribution_ok p mu v pi j : are p mu v pi -> (j < K)%nat -> 0 < pi j -> exists c, contribution D p j = Some c.
Proof.
  intros A Lj P. unfold contribution. rewrite (row_get 0 K _ _ j (a_pi _ _ _ _ A) Lj). cbn [obind].
  destruct (iter_inv (fun _ _ => True) (fun d s => do c <- aget (p_covs p) (j * D + d); do l <- flog c; Some (s + 0.5 * l)) D
    (0.5 * INR D * (1 + ln (2 * PI)))) as (s & E & _); [exact I| |].
  - intros d s Ld _. rewrite (table_get 0 K D _ _ j d (a_v _ _ _ _ A) Lj Ld). cbn [obind].
    rewrite flog_pos by (eapply are_pos; eauto). cbn [obind]. eauto.
  - rewrite E. cbn [obind]. rewrite flog_pos by exact P. cbn [obind]. eauto.
Qed.
Lemma better_index c j s n : (j < n)%nat -> (forall a b, s = Some (a, b) -> (b < n)%nat) ->
  forall a b, better c j s = Some (a, b) -> (b < n)%nat.
Proof.
  intros L H a b E. destruct s as [[sz k]|]; cbn [better] in E.
  - destruct (ltb sz c); inversion E; subst; auto. apply (H a b eq_refl).
  - inversion E; subst; auto.
Qed.
Lemma split_mode_ok p mu v pi : are p mu v pi ->
  exists s, split_mode D K p = Some s /\ forall a j, s = Some (a, j) -> (j < K)%nat.
Proof.
  intro A. unfold split_mode.
  apply (iter_inv (fun _ s => forall a j, s = Some (a, j) -> (j < K)%nat)); [discriminate|].
  intros j s Lj H. rewrite (row_get 0 K _ _ j (a_pi _ _ _ _ A) Lj). cbn [obind].
  destruct (ltb (pi j) min_prior) eqn:E; [eauto|]. apply ltb_false in E. unfold min_prior in E.
  destruct (contribution_ok p mu v pi j A Lj) as (c & Ec); [lra|]. rewrite Ec. cbn [obind].
  eexists; split; [reflexivity|]. now apply better_index.
Qed.
Lemma split_dimension_ok p mu v pi j : are p mu v pi -> (j < K)%nat ->
  exists a best, split_dimension D (p_covs p) j = Some (Some (a, best)) /\ (best < D)%nat.
Proof.
  intros A Lj. unfold split_dimension.
  destruct (iter_inv (fun d s => (forall a b, s = Some (a, b) -> (b < D)%nat) /\ ((0 < d)%nat -> s <> None))
    (fun d s => do c <- aget (p_covs p) (j * D + d); Some (better c d s)) D None) as (s & E & H1 & H2).
  - split; [discriminate|]. intros; lia.
  - intros d s Ld [H1 H2]. rewrite (table_get 0 K D _ _ j d (a_v _ _ _ _ A) Lj Ld). cbn [obind].
    eexists; split; [reflexivity|]. split; [now apply better_index|]. intros _.
    destruct s as [[sz k]|]; cbn [better]; [destruct (ltb sz _)|]; discriminate.
  - rewrite E. destruct s as [[a b]|]; [|destruct (H2 Dp eq_refl)]. exists a, b. split; [reflexivity|]. apply (H1 a b eq_refl).
Qed.

(** the new posteriors of a datum *)
Definition moved (b : nat) (m : R) (i j : nat) (q : nat -> nat -> R) : nat -> nat -> R := Eval cbv delta [split] in split x q b m i j.
Lemma reassign_ok best m i j post q : table 0 N K post q -> (best < D)%nat -> (i < K)%nat -> (j < K)%nat -> i <> j ->
  exists post', reassign D K data N i j best m post = Some post' /\ table 0 N K post' (moved best m i j q).
Proof.
  intros Hq Lb Li Lj Ne. unfold reassign.
  match goal with |- exists _, iter N ?body _ = _ /\ _ =>
    destruct (iter_inv (fun t post' => table 0 N K post' (fun a k => if (a <? t)%nat then moved best m i j q a k else q a k)) body N post) as (post' & E & H) end.
  - exact Hq.
  - intros a l La H. rewrite (table_get 0 N K _ _ a j H La Lj). cbn [obind]. rewrite (table_get 0 N K _ _ a i H La Li). cbn [obind].
    rewrite (table_get 0 N D _ _ a best Hx La Lb). cbn [obind]. rewrite Nat.ltb_irrefl, ltb_if.
    assert (St : forall a' k (F : nat -> nat -> R), (forall k, (k < K)%nat -> F a k = moved best m i j q a k) ->
      (forall a' k, a' <> a -> F a' k = if (a' <? a)%nat then moved best m i j q a' k else q a' k) -> (k < K)%nat ->
      F a' k = if (a' <? a + 1)%nat then moved best m i j q a' k else q a' k).
    { intros a' k F F1 F2 Lk. destruct (Nat.eq_dec a' a) as [->|N1].
      - destruct (Nat.ltb_spec a (a + 1)); [auto|lia].
      - rewrite F2 by exact N1. destruct (Nat.ltb_spec a' a), (Nat.ltb_spec a' (a + 1)); auto; lia. }
    destruct (Rlt_dec (x a best) m) as [Q|Q].
    + destruct (table_set 0 N K l _ a i (q a j + q a i) H La Li) as [E1 T1]. rewrite E1. cbn [obind].
      destruct (table_set 0 N K _ _ a j 0 T1 La Lj) as [E2 T2]. rewrite E2. eexists; split; [reflexivity|].
      apply (table_ext _ _ _ _ _ _ T2). intros a' k _ Lk. apply St; [| |exact Lk].
      * intros k' _. unfold upd2, moved. rewrite Nat.eqb_refl, Nat.ltb_irrefl. cbn [andb].
        destruct (Nat.eqb_spec k' i), (Nat.eqb_spec k' j); subst; try contradiction; destruct (Rlt_dec (x a best) m); auto; contradiction.
      * intros a1 k' N1. unfold upd2. destruct (Nat.eqb_spec a1 a); [contradiction|]. reflexivity.
    + destruct (table_set 0 N K l _ a i 0 H La Li) as [E1 T1]. rewrite E1. cbn [obind].
      destruct (table_set 0 N K _ _ a j (q a j + q a i) T1 La Lj) as [E2 T2]. rewrite E2. eexists; split; [reflexivity|].
      apply (table_ext _ _ _ _ _ _ T2). intros a' k _ Lk. apply St; [| |exact Lk].
      * intros k' _. unfold upd2, moved. rewrite Nat.eqb_refl, Nat.ltb_irrefl. cbn [andb].
        destruct (Nat.eqb_spec k' i), (Nat.eqb_spec k' j); subst; try contradiction; destruct (Rlt_dec (x a best) m); auto; contradiction.
      * intros a1 k' N1. unfold upd2. destruct (Nat.eqb_spec a1 a); [contradiction|]. reflexivity.
  - exists post'. split; [exact E|]. apply (table_ext _ _ _ _ _ _ H). intros a k La _. destruct (Nat.ltb_spec a N); [reflexivity|lia].
Qed.
Lemma moved_sum best m i j q a : (i < K)%nat -> (j < K)%nat -> i <> j -> total K (moved best m i j q a) = total K (q a).
Proof.
  intros Li Lj Ne. set (s := q a j + q a i).
  assert (E : forall k, (k < K)%nat -> moved best m i j q a k = q a k +
     ((if (k =? i)%nat then (if Rlt_dec (x a best) m then s else 0) - q a i else 0) +
      (if (k =? j)%nat then (if Rlt_dec (x a best) m then 0 else s) - q a j else 0))).
  { intros k _. unfold moved. cbv zeta. fold s. destruct (Nat.eqb_spec k i) as [Ei|Ei], (Nat.eqb_spec k j) as [Ej|Ej]; [destruct Ne; congruence|rewrite Ei; ring|rewrite Ej; ring|ring]. }
  rewrite (rsum_ext K _ _ E), !rsum_add, !rsum_single by assumption. unfold s. destruct (Rlt_dec (x a best) m); ring.
Qed.
Lemma moved_dist best m i j q : distribution q -> (i < K)%nat -> (j < K)%nat -> i <> j -> distribution (moved best m i j q).
Proof.
  intros [P S1] Li Lj Ne. split.
  - intros a k La Lk. unfold moved. pose proof (P a i La Li). pose proof (P a j La Lj). pose proof (P a k La Lk).
    destruct (k =? i)%nat, (k =? j)%nat, (Rlt_dec (x a best) m); lra.
  - intros a La. rewrite moved_sum by assumption. now apply S1.
Qed.

(** a mixture with its posteriors *)
Definition good (g : gmm) : Prop := g_num g = N /\
  exists mu v pi q, are (g_par g) mu v pi /\ table 0 N K (g_post g) q /\ distribution q /\ proper pi.
Lemma restart_ok parts g : (forall i, (i < K)%nat -> Permutation (concat (parts i)) (seq 0 N)) -> good g ->
  exists g', restart D K bounds parts data g = Some g' /\ good g'.
Proof.
  intros P (Hn & mu & v & pi & q & A & Hq & Dq & Pp). unfold restart.
  destruct (K <=? 1)%nat; [exists g; split; [reflexivity|]; split; [exact Hn|]; exists mu, v, pi, q; auto|].
  rewrite Hn. destruct (masses_ok _ _ Hq) as (ms & Em & Hms). rewrite Em. cbn [obind]. cbv zeta.
  apply (iter_inv (fun _ g => good g)); [split; [exact Hn|]; exists mu, v, pi, q; auto|].
  clear mu v pi A Pp Em Hn Hq g. intros i g Li (Hn & mu & v & pi & q' & A & Hq & Dq' & Pp).
  assert (G : good g) by (split; [exact Hn|]; exists mu, v, pi, q'; auto).
  rewrite (row_get 0 K _ _ i Hms Li). cbn [obind].
  destruct (negb _); [exists g; auto|].
  destruct (split_mode_ok _ _ _ _ A) as (s & Es & Hs). rewrite Es. cbn [obind].
  destruct s as [[a j]|]; [|exists g; auto]. pose proof (Hs a j eq_refl) as Lj.
  destruct (Nat.eqb_spec j i) as [E|Ne]; [exists g; auto|].
  destruct (split_dimension_ok _ _ _ _ j A Lj) as (c & best & Ed & Lb). rewrite Ed. cbn [obind].
  rewrite (table_get 0 K D _ _ j best (a_mu _ _ _ _ A) Lj Lb). cbn [obind].
  destruct (reassign_ok best (mu j best) i j _ _ Hq Lb Li Lj (not_eq_sym Ne)) as (post & Er & Hr). rewrite Er. cbn [obind].
  destruct (maximization_dist (parts i) _ _ _ _ post _ A Hr (moved_dist best (mu j best) i j q' Dq' Li Lj (not_eq_sym Ne)) (P i Li))
    as (p' & mu' & v' & pi' & E' & A' & Pp' & _).
  rewrite E'. cbn [obind]. eexists; split; [reflexivity|]. split; [reflexivity|]. cbn [g_par g_post].
  exists mu', v', pi', (moved best (mu j best) i j q'). split; [exact A'|]. split; [exact Hr|].
  split; [now apply moved_dist; auto|exact Pp'].
Qed.
Lemma restart_none parts g mu v pi q : g_num g = N -> are (g_par g) mu v pi -> table 0 N K (g_post g) q ->
  (forall k, (k < K)%nat -> / 100 * Rmax 1 (INR N / INR K) <= total N (fun i => q i k)) ->
  restart D K bounds parts data g = Some g.
Proof.
  intros Hn A Hq H. unfold restart. destruct (K <=? 1)%nat; [reflexivity|]. rewrite Hn.
  destruct (masses_ok _ _ Hq) as (ms & Em & Hms). rewrite Em. cbn [obind]. cbv zeta.
  match goal with |- iter K ?body g = _ => destruct (iter_inv (fun _ g' => g' = g) body K g eq_refl) as (g' & E & ->); [|exact E] end.
  intros i g' Li ->. rewrite (row_get 0 K _ _ i Hms Li). cbn [obind].
  rewrite (proj2 (ltb_false _ _)) by (unfold min_posterior; now apply H). cbn [negb]. eauto.
Qed.

(** the mode and the coordinate that are split *)
Lemma contribution_is p mu v pi j : are p mu v pi -> (j < K)%nat -> 0 < pi j -> contribution D p j = Some (entropy D v pi j).
Proof.
  intros A Lj P. unfold contribution. rewrite (row_get 0 K _ _ j (a_pi _ _ _ _ A) Lj). cbn [obind].
  destruct (iter_inv (fun n s => s = INR D / 2 * (1 + ln (2 * PI)) + / 2 * total n (fun d => ln (v j d)))
    (fun d s => do c <- aget (p_covs p) (j * D + d); do l <- flog c; Some (s + 0.5 * l)) D
    (0.5 * INR D * (1 + ln (2 * PI)))) as (s & E & Hs).
  - cbn [sum]. replace 0.5 with (/ 2) by lra. field.
  - intros d s Ld ->. rewrite (table_get 0 K D _ _ j d (a_v _ _ _ _ A) Lj Ld). cbn [obind].
    rewrite flog_pos by (eapply are_pos; eauto). cbn [obind]. eexists; split; [reflexivity|].
    rewrite Nat.add_1_r. cbn [sum]. replace 0.5 with (/ 2) by lra. field.
  - rewrite E. cbn [obind]. rewrite flog_pos by exact P. cbn [obind]. now rewrite Hs.
Qed.
Lemma better_best (f : nat -> R) n j s k : (k < n)%nat -> f k < f j \/ k = j ->
  (if (j <? k)%nat then s = Some (f j, j) else forall a b, s = Some (a, b) -> a < f j) ->
  if (j <? k + 1)%nat then better (f k) k s = Some (f j, j) else forall a b, better (f k) k s = Some (a, b) -> a < f j.
Proof.
  intros L [B| ->] H.
  - destruct (Nat.ltb_spec j (k + 1)) as [Q|Q], (Nat.ltb_spec j k) as [Q'|Q']; try lia.
    + rewrite H. cbn [better]. now rewrite (proj2 (ltb_false _ _)) by lra.
    + replace k with j in B by lia. lra.
    + intros a b E. destruct s as [[sz k0]|]; cbn [better] in E.
      * destruct (ltb sz (f k)); inversion E; subst; [exact B|apply (H a b eq_refl)].
      * inversion E; subst; exact B.
  - destruct (Nat.ltb_spec j (j + 1)) as [_|Q]; [|lia]. rewrite Nat.ltb_irrefl in H.
    destruct s as [[sz k0]|]; cbn [better]; [|reflexivity].
    now rewrite (proj2 (ltb_true _ _)) by (apply (H sz k0 eq_refl)).
Qed.
Lemma split_mode_best p mu v pi j : are p mu v pi -> (j < K)%nat -> / 1000000 <= pi j ->
  (forall k, (k < K)%nat -> k <> j -> / 1000000 <= pi k -> entropy D v pi k < entropy D v pi j) ->
  split_mode D K p = Some (Some (entropy D v pi j, j)).
Proof.
  intros A Lj Pj B. unfold split_mode.
  match goal with |- iter K ?body None = _ =>
    destruct (iter_inv (fun n s => if (j <? n)%nat then s = Some (entropy D v pi j, j) else forall a b, s = Some (a, b) -> a < entropy D v pi j) body K None) as (s & E & H) end.
  - destruct (j <? 0)%nat eqn:Z; [apply Nat.ltb_lt in Z; lia|discriminate].
  - intros k s Lk H. rewrite (row_get 0 K _ _ k (a_pi _ _ _ _ A) Lk). cbn [obind].
    destruct (ltb (pi k) min_prior) eqn:Q.
    + apply ltb_true in Q. unfold min_prior in Q. exists s. split; [reflexivity|].
      destruct (Nat.eq_dec k j) as [->|Ne]; [lra|].
      destruct (Nat.ltb_spec j (k + 1)), (Nat.ltb_spec j k); try lia; exact H.
    + apply ltb_false in Q. unfold min_prior in Q. rewrite (contribution_is _ _ _ _ k A Lk) by lra. cbn [obind].
      eexists; split; [reflexivity|]. apply (better_best (entropy D v pi) K); [exact Lk| |exact H].
      destruct (Nat.eq_dec k j) as [->|Ne]; [now right|left; now apply B].
  - rewrite E. destruct (Nat.ltb_spec j K); [now rewrite H|lia].
Qed.
Lemma split_dimension_best p mu v pi j b : are p mu v pi -> (j < K)%nat -> (b < D)%nat ->
  (forall d, (d < D)%nat -> d <> b -> v j d < v j b) -> split_dimension D (p_covs p) j = Some (Some (v j b, b)).
Proof.
  intros A Lj Lb B. unfold split_dimension.
  match goal with |- iter D ?body None = _ =>
    destruct (iter_inv (fun n s => if (b <? n)%nat then s = Some (v j b, b) else forall a b', s = Some (a, b') -> a < v j b) body D None) as (s & E & H) end.
  - destruct (b <? 0)%nat eqn:Z; [apply Nat.ltb_lt in Z; lia|discriminate].
  - intros d s Ld H. rewrite (table_get 0 K D _ _ j d (a_v _ _ _ _ A) Lj Ld). cbn [obind].
    eexists; split; [reflexivity|]. apply (better_best (v j) D); [exact Ld| |exact H].
    destruct (Nat.eq_dec d b) as [->|Ne]; [now right|left; now apply B].
  - rewrite E. destruct (Nat.ltb_spec b D); [now rewrite H|lia].
Qed.
Lemma restart_split parts g mu v pi q i j b : (1 < K)%nat -> g_num g = N -> are (g_par g) mu v pi -> table 0 N K (g_post g) q -> distribution q ->
  (forall i, (i < K)%nat -> Permutation (concat (parts i)) (seq 0 N)) ->
  (i < K)%nat -> (j < K)%nat -> i <> j ->
  total N (fun a => q a i) < / 100 * Rmax 1 (INR N / INR K) ->
  (forall k, (k < K)%nat -> k <> i -> / 100 * Rmax 1 (INR N / INR K) <= total N (fun a => q a k)) ->
  / 1000000 <= pi j -> (forall k, (k < K)%nat -> k <> j -> / 1000000 <= pi k -> entropy D v pi k < entropy D v pi j) ->
  (b < D)%nat -> (forall d, (d < D)%nat -> d <> b -> v j d < v j b) ->
  exists g', restart D K bounds parts data g = Some g' /\ g_num g' = N /\ table 0 N K (g_post g') (split x q b (mu j b) i j) /\
    maximization D K bounds (parts i) (g_par g) data (g_post g') = Some (g_par g').
Proof.
  intros K1 Hn A Hq Dq P Li Lj Ne Mi Mo Pj Bj Lb Bd. unfold restart. destruct (Nat.leb_spec K 1); [lia|]. rewrite Hn.
  destruct (masses_ok _ _ Hq) as (ms & Em & Hms). rewrite Em. cbn [obind]. cbv zeta.
  destruct (reassign_ok b (mu j b) i j _ _ Hq Lb Li Lj Ne) as (post & Er & Hr).
  destruct (maximization_dist (parts i) _ _ _ _ post _ A Hr (moved_dist b (mu j b) i j q Dq Li Lj Ne) (P i Li)) as (p' & mu' & v' & pi' & E' & _).
  match goal with |- exists _, iter K ?body g = _ /\ _ =>
    destruct (iter_inv (fun n g' => g' = if (i <? n)%nat then mk_gmm p' post N else g) body K g) as (g' & E & Hg) end.
  - reflexivity.
  - intros k g' Lk ->. rewrite (row_get 0 K _ _ k Hms Lk). cbn [obind]. destruct (Nat.eq_dec k i) as [->|Nk].
    + rewrite Nat.ltb_irrefl. destruct (Nat.ltb_spec i (i + 1)); [|lia].
      rewrite (proj2 (ltb_true _ _)) by (unfold min_posterior; exact Mi). cbn [negb].
      rewrite (split_mode_best _ _ _ _ j A Lj Pj Bj). cbn [obind].
      destruct (Nat.eqb_spec j i); [congruence|].
      rewrite (split_dimension_best _ _ _ _ j b A Lj Lb Bd). cbn [obind].
      rewrite (table_get 0 K D _ _ j b (a_mu _ _ _ _ A) Lj Lb). cbn [obind]. rewrite Er. cbn [obind]. rewrite E'. cbn [obind]. eauto.
    + rewrite (proj2 (ltb_false _ _)) by (unfold min_posterior; now apply Mo). cbn [negb].
      eexists; split; [reflexivity|]. destruct (Nat.ltb_spec i k), (Nat.ltb_spec i (k + 1)); auto; lia.
  - destruct (Nat.ltb_spec i K); [|lia]. subst g'. eexists. split; [exact E|]. split; [reflexivity|]. split; [exact Hr|exact E'].
Qed.

(** ** EM *)
Definition scheduled (s : schedule) : Prop :=
  Permutation (s_order s) (seq 0 N) /\ (forall i, (i < K)%nat -> Permutation (concat (s_restart s i)) (seq 0 N)) /\
    Permutation (concat (s_parts s)) (seq 0 N).
Definition fits (g : gmm) : Prop := length (g_post g) = (N * K)%nat /\ g_num g = N.

Lemma expectation_good order g mu v pi : Permutation order (seq 0 N) -> are (g_par g) mu v pi -> fits g ->
  exists post, expectation D K order (g_par g) data (g_post g) = Some (log_likelihood D K x mu v pi N, post) /\
  table 0 N K post (posterior D K x mu v pi) /\ distribution (posterior D K x mu v pi).
Proof.
  intros P A [Lf _].
  destruct (expectation_ok D K (g_par g) data N x mu v pi Hx (a_mu _ _ _ _ A) (a_v _ _ _ _ A) (a_pi _ _ _ _ A) (are_pos _ _ _ _ A)
    (a_some _ _ _ _ A) order (g_post g) _ P (table_of 0 N K _ Lf)) as (post & E & T).
  exists post. split; [exact E|]. split; [exact T|]. split.
  - intros i k _ Lk. apply posterior_nonneg; auto; [exact (are_pos _ _ _ _ A)|exact (a_some _ _ _ _ A)].
  - intros i _. apply posterior_sum; auto; [exact (are_pos _ _ _ _ A)|exact (a_some _ _ _ _ A)].
Qed.

(** what EM returns: parameters, their posteriors and their likelihood *)
Definition solution (ll : R) (g : gmm) (mu v : nat -> nat -> R) (pi : nat -> R) : Prop :=
  g_num g = N /\ are (g_par g) mu v pi /\ table 0 N K (g_post g) (posterior D K x mu v pi) /\
    distribution (posterior D K x mu v pi) /\ ll = log_likelihood D K x mu v pi N.

Lemma em_loop_ok sched : (forall it, scheduled (sched it)) -> forall rest it prev g mu v pi,
  are (g_par g) mu v pi -> fits g -> ((0 < it)%nat -> proper pi) ->
  exists ll g' mu' v' pi', em_loop D K bounds sched data rest it prev g = Some (ll, g') /\ solution ll g' mu' v' pi' /\
  (proper pi' \/ (g_par g' = g_par g /\ (it = 0)%nat /\ (rest = 0)%nat)).
Proof.
  intros Hs. induction rest as [|rest IH]; intros it prev g mu v pi A F Pp; cbn [em_loop];
    destruct (Hs it) as (S1 & S2 & S3); destruct (expectation_good _ g mu v pi S1 A F) as (post & E & T & Dq); rewrite E; cbn [obind].
  - exists (log_likelihood D K x mu v pi N), (mk_gmm (g_par g) post (g_num g)), mu, v, pi. split; [reflexivity|].
    split; [split; [exact (proj2 F)|]; cbn [g_par g_post]; auto|].
    destruct (Nat.eq_dec it 0) as [->|N0]; [right; auto|left; apply Pp; lia].
  - cbv zeta. destruct ((0 <? it)%nat && converged prev (log_likelihood D K x mu v pi N)) eqn:C.
    + apply andb_true_iff in C as [C _]. apply Nat.ltb_lt in C.
      exists (log_likelihood D K x mu v pi N), (mk_gmm (g_par g) post (g_num g)), mu, v, pi. split; [reflexivity|].
      split; [split; [exact (proj2 F)|]; cbn [g_par g_post]; auto|]. left. auto.
    + assert (R : exists g1 mu1 v1 pi1 q1,
        (if (1 <? it)%nat then restart D K bounds (s_restart (sched it)) data (mk_gmm (g_par g) post (g_num g)) else Some (mk_gmm (g_par g) post (g_num g))) = Some g1 /\
  g_num g1 = N /\ are (g_par g1) mu1 v1 pi1 /\ table 0 N K (g_post g1) q1 /\ distribution q1).
      { destruct (Nat.ltb_spec 1 it) as [L|L].
        - destruct (restart_ok (s_restart (sched it)) (mk_gmm (g_par g) post (g_num g)) S2) as (g1 & E1 & G1 & mu1 & v1 & pi1 & q1 & A1 & T1 & D1 & _).
          + split; [exact (proj2 F)|]. cbn [g_par g_post]. exists mu, v, pi, (posterior D K x mu v pi). split; [exact A|]. split; [exact T|].
            split; [exact Dq|]. apply Pp. lia.
          + exists g1, mu1, v1, pi1, q1. auto.
        - exists (mk_gmm (g_par g) post (g_num g)), mu, v, pi, (posterior D K x mu v pi). split; [reflexivity|]. split; [exact (proj2 F)|]. auto. }
      destruct R as (g1 & mu1 & v1 & pi1 & q1 & E1 & N1 & A1 & T1 & D1). rewrite E1. cbn [obind].
      destruct (maximization_dist (s_parts (sched it)) _ _ _ _ (g_post g1) _ A1 T1 D1 S3) as (p2 & mu2 & v2 & pi2 & E2 & A2 & Pp2 & _).
      rewrite E2. cbn [obind].
      destruct (IH (it + 1)%nat (log_likelihood D K x mu v pi N) (mk_gmm p2 (g_post g1) (g_num g1)) mu2 v2 pi2 A2) as (ll & g' & mu' & v' & pi' & E' & So & Pr).
      * split; [exact (proj1 T1)|exact N1].
      * intros _. exact Pp2.
      * exists ll, g', mu', v', pi'. split; [exact E'|]. split; [exact So|]. left. destruct Pr as [Pr|(_ & Z & _)]; [exact Pr|lia].
Qed.

(** initial parameters: any covariances, raised to the bounds *)
Record start (g : gmm) (mu v : nat -> nat -> R) (pi : nat -> R) : Prop := {
  st_mu : table 0 K D (p_means (g_par g)) mu; st_v : table 0 K D (p_covs (g_par g)) v; st_pi : row 0 K (p_priors (g_par g)) pi;
  st_buffer : length (g_post g) = (g_num g * K)%nat }.
Lemma prepare_fits g : length (g_post g) = (g_num g * K)%nat -> fits (prepare K junk N g).
Proof.
  intro L. split; [|reflexivity]. cbn [prepare g_post]. destruct (Nat.ltb_spec (g_num g) N).
  - unfold fresh. rewrite map_length. apply seq_length.
  - rewrite firstn_length, L. nia.
Qed.
Lemma em_ok sched iterations g mu v pi : (forall it, scheduled (sched it)) -> start g mu v pi -> (exists k, (k < K)%nat /\ / 1000000 <= pi k) ->
  exists ll g' mu' v' pi', em D K junk bounds sched iterations data N g = Some (ll, g') /\ solution ll g' mu' v' pi' /\
  ((0 < iterations)%nat -> proper pi') /\
    (iterations = 0%nat -> p_means (g_par g') = p_means (g_par g) /\ p_priors (g_par g') = p_priors (g_par g) /\
    table 0 K D (p_covs (g_par g')) (fun k d => Rmax (v k d) (lb d))).
Proof.
  intros Hs St Sm. unfold em. cbn [prepare g_par].
  destruct (bounds_ok D K bounds lb Hb (p_covs (g_par g)) v (st_v _ _ _ _ St)) as (cv & E & Hc). rewrite E. cbn [obind].
  set (g0 := mk_gmm (mk_params (p_means (g_par g)) cv (p_priors (g_par g))) (g_post (prepare K junk N g)) N).
  assert (A : are (g_par g0) mu (fun k d => Rmax (v k d) (lb d)) pi).
  { constructor; cbn [g0 g_par p_means p_covs p_priors]; [exact (st_mu _ _ _ _ St)|exact Hc|exact (st_pi _ _ _ _ St)| |exact Sm].
    intros; apply Rmax_r. }
  assert (F : fits g0) by (split; [exact (proj1 (prepare_fits g (st_buffer _ _ _ _ St)))|reflexivity]).
  destruct (em_loop_ok sched Hs iterations 0 0 g0 _ _ _ A F ltac:(lia)) as (ll & g' & mu' & v' & pi' & E' & So & Pr).
  exists ll, g', mu', v', pi'. split; [exact E'|]. split; [exact So|]. split.
  - intro P. destruct Pr as [Pr|(_ & _ & Z)]; [exact Pr|lia].
  - intros ->. cbn [em_loop] in E'. destruct (Hs 0%nat) as (S1 & _).
    destruct (expectation_good _ g0 _ _ _ S1 A F) as (post & E0 & _). rewrite E0 in E'. cbn [obind] in E'.
    inversion E'; subst. cbn [g0 g_par p_means p_covs p_priors]. auto.
Qed.

(** ** Initialization *)
Lemma reset_start (g : gmm) : length (g_post (reset g)) = (g_num (reset g) * K)%nat.
Proof. reflexivity. Qed.
Lemma sum_loop n d : (n <= N)%nat -> (d < D)%nat ->
  iter n (fun i s => do x <- aget data (i * D + d); Some (s + x)) 0 = Some (total n (fun i => x i d)).
Proof.
  intros Ln Ld.
  destruct (iter_inv (fun j s => s = total j (fun i => x i d)) (fun i s => do x <- aget data (i * D + d); Some (s + x)) n 0) as (s & E & ->).
  - reflexivity.
  - intros i s Li ->. rewrite (table_get 0 N D _ _ i d Hx) by (auto; lia). cbn [obind]. eexists; split; [reflexivity|]. now rewrite Nat.add_1_r.
  - exact E.
Qed.
Lemma init_sigma_ok : exists l, init_sigma D data N = Some l /\
    row 0 D l (fun d => if (N <=? 1)%nat then 0 else data_variance N x d).
Proof.
  unfold init_sigma. destruct (Nat.leb_spec N 1) as [L|L]; [eexists; split; [reflexivity|apply row_repeat]|].
  rewrite (build_ok D _ (data_mean N x)).
  2:{ intros d Ld. rewrite sum_loop by auto. reflexivity. }
  cbn [obind]. rewrite (build_ok D _ (data_variance N x)).
  - eexists; split; [reflexivity|apply row_map].
  - intros d Ld. rewrite (row_get 0 D _ _ d (row_map 0 D (data_mean N x)) Ld). cbn [obind].
    destruct (iter_inv (fun j s => s = total j (fun i => (x i d - data_mean N x d) ^ 2))
      (fun i s => do y <- aget data (i * D + d); Some (s + (y - data_mean N x d) * (y - data_mean N x d))) N 0) as (s & E & ->).
    + reflexivity.
    + intros i s Li ->. rewrite (table_get 0 N D _ _ i d Hx Li Ld). cbn [obind]. eexists; split; [reflexivity|].
      rewrite Nat.add_1_r. cbn [sum]. ring.
    + cbv zeta. rewrite E. reflexivity.
Qed.
Lemma init_rand_ok centers c g : table 0 K D centers c ->
  exists g', init_rand D K junk centers data N g = Some g' /\
  start g' c (fun _ d => if (N <=? 1)%nat then 0 else data_variance N x d) (fun _ => 1 / INR K) /\ p_means (g_par g') = centers.
Proof.
  intro Hc. unfold init_rand. rewrite (build_ok K _ (fun _ => 1 / INR K)) by reflexivity. cbn [obind].
  destruct init_sigma_ok as (s & E & Hs). rewrite E. cbn [obind].
  rewrite (build_ok (K * D) _ (fun p => if (N <=? 1)%nat then 0 else data_variance N x (p mod D))).
  2:{ intros q Lq. apply (row_get 0 D _ _ (q mod D) Hs). apply Nat.mod_upper_bound. lia. }
  cbn [obind]. rewrite (proj1 Hc), Nat.eqb_refl. eexists; split; [reflexivity|]. split; [|reflexivity].
  constructor; cbn [g_par g_post g_num p_means p_covs p_priors].
  - exact Hc.
  - split; [rewrite map_length; apply seq_length|]. intros k d Lk Ld.
    rewrite (proj2 (row_map 0 _ _) _ (cell_lt K D k d Lk Ld)).
    replace ((k * D + d) mod D)%nat with d; [reflexivity|].
    rewrite Nat.add_comm, Nat.mod_add by lia. symmetry. now apply Nat.mod_small.
  - apply row_map.
  - exact (proj1 (prepare_fits (reset g) (reset_start g))).
Qed.
Definition assigned (a : list nat) (i k : nat) : R := if (k =? nth i a 0%nat)%nat then 1 else 0.
Lemma assigned_dist a : length a = N -> (forall i, (i < N)%nat -> (nth i a 0 < K)%nat) -> distribution (assigned a).
Proof.
  intros L B. split.
  - intros i k _ _. unfold assigned. destruct (k =? nth i a 0%nat)%nat; lra.
  - intros i Li. unfold assigned. apply rsum_single. now apply B.
Qed.
Lemma init_kmeans_ok parts a g : length a = N -> (forall i, (i < N)%nat -> (nth i a 0 < K)%nat) -> Permutation (concat parts) (seq 0 N) ->
  exists g' mu' v' pi', init_kmeans D K junk bounds parts a data N g = Some g' /\ start g' mu' v' pi' /\ (exists k, (k < K)%nat /\ / 1000000 <= pi' k) /\
  table 0 N K (g_post g') (assigned a) /\ g_num g' = N /\ proper pi' /\
    (forall k d, (k < K)%nat -> (d < D)%nat -> mu' k d = mean2 K N x (assigned a) k d /\
    v' k d = Rmax (var2 K N x (fun _ _ => 0) (assigned a) k d) (lb d)) /\
    (forall k, (k < K)%nat -> pi' k = share K N (assigned a) k).
Proof.
  intros La B P. unfold init_kmeans.
  destruct (prepare_fits (reset g) (reset_start g)) as [Lf _]. rewrite Lf. rewrite Nat.ltb_irrefl. cbn [obind].
  rewrite skipn_all2 by lia. rewrite app_nil_r.
  destruct (iter_inv (fun t post => table 0 N K post (fun i k => if (i <? t)%nat then assigned a i k else 0))
    (fun i post => do c <- aget a i; aset post (c + i * K) 1) N (repeat 0 (N * K))) as (post & E & H).
  - apply (table_repeat 0).
  - intros i l Li H. rewrite (aget_nth a i 0%nat) by lia. cbn [obind]. rewrite (Nat.add_comm (nth i a 0%nat)).
    destruct (table_set 0 N K l _ i (nth i a 0%nat) 1 H Li (B i Li)) as [E T]. rewrite E. eexists; split; [reflexivity|].
    apply (table_ext _ _ _ _ _ _ T). intros i' k _ _. unfold upd2, assigned.
    destruct (Nat.eqb_spec i' i) as [->|Ne]; cbn [andb].
    + rewrite Nat.ltb_irrefl. destruct (Nat.ltb_spec i (i + 1)); [|lia]. destruct (k =? nth i a 0%nat)%nat; reflexivity.
    + destruct (Nat.ltb_spec i' i), (Nat.ltb_spec i' (i + 1)); auto; lia.
  - rewrite E. cbn [obind].
    assert (H' : table 0 N K post (assigned a)).
    { apply (table_ext _ _ _ _ _ _ H). intros i k Li _. destruct (Nat.ltb_spec i N); [reflexivity|lia]. }
    set (z := mk_params _ _ _).
    destruct (maximization_ok D K N bounds lb z data post x (fun _ _ => 0) (assigned a) Hb Hx (table_repeat 0 K D) H' parts Kp P) as (p' & E' & H1 & H2 & H3).
    pose proof (mass_total (assigned a) (assigned_dist a La B)) as T.
    assert (M : Rmax (total K (mass K N (assigned a))) 1e-12 = total K (mass K N (assigned a))) by (apply Rmax_left; lra).
    rewrite M in H3. rewrite E'. cbn [obind].
    assert (S1 : total K (share K N (assigned a)) = 1).
    { unfold share. rewrite (rsum_ext K _ (fun k => / total K (mass K N (assigned a)) * mass K N (assigned a) k)) by (intros; unfold Rdiv; ring).
      rewrite rsum_scale. field. lra. }
    assert (S0 : forall k, (k < K)%nat -> 0 <= share K N (assigned a) k).
    { intros k _. apply Rmult_le_pos; [|left; apply Rinv_0_lt_compat; lra]. apply rsum_nonneg. intros i _. now apply used_nonneg. }
    eexists _, _, _, (share K N (assigned a)). split; [reflexivity|]. split; [|split; [|split; [exact H'|split; [reflexivity|split; [split; assumption|split; [|reflexivity]]]]]].
    + constructor; cbn [g_par g_post g_num]; [exact H1|exact H2|exact H3|exact (proj1 H')].
    + destruct (some_large K _ Kp S1) as (k & Lk & Q). exists k. split; [exact Lk|].
      pose proof kpos. assert (C : / 1000000 <= 1 / INR K) by (unfold Rdiv; rewrite Rmult_1_l; apply Rinv_le_contravar; lra). lra.
    + auto.
Qed.
End Em.
