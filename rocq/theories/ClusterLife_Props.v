(** Life of the objects of k-means and Gaussian mixtures: C304-C308. *)
From Coq Require Import List Arith ZArith Lia Bool QArith Qcanon Permutation.
Import ListNotations.
From Verif Require Import Base Loop Rat Varray_Model ClusterLife_Model ClusterLife_Spec ClusterLife_Proofs.
Local Open Scope nat_scope.

Definition floating (t : vtype) : Prop := t = TFloat \/ t = TDouble.
(** centers are set from blocks of the user that are large enough *)
Definition valid_op (h0 : heap) (t : vtype) (o : kop) : Prop :=
  match o with KSet src dim num => exists s, nth_error h0 src = Some (Some s) /\ Z.to_nat (bytes3 (type_size t) dim num) <= length s | _ => True end.
Lemma kptrs_outside h0 h l k src s : allocated h0 h (kptrs k ++ l) -> nth_error h0 src = Some (Some s) -> nth_error h src = Some (Some s) /\ ~ In src (kptrs k).
Proof.
  intros ((L & K) & N & I) E. assert (Ls : src < length h0) by (apply nth_error_Some; rewrite E; discriminate). split; [now rewrite K|]. intro J.
  destruct (proj1 (I src) (in_or_app _ _ _ (or_introl J))) as [G _]. lia.
Qed.
Lemma kstep_allocated junk h0 l o k h : floating (k_type k) -> valid_op h0 (k_type k) o -> allocated h0 h (kptrs k ++ l) ->
  exists k' h', kstep junk o (k, h) = Some (k', h') /\ allocated h0 h' (kptrs k' ++ l) /\ k_type k' = k_type k.
Proof.
  intros T V A. destruct o as [|src dim num|]; cbn [kstep].
  - destruct (reset_allocated _ _ _ _ A) as (h1 & E & A1 & _). eexists. eexists. split; [exact E|]. split; [exact A1|reflexivity].
  - destruct V as (s & Es & Ls). destruct (kptrs_outside _ _ _ _ _ _ A Es) as [Es' D]. destruct (set_allocated junk _ _ _ _ src dim num s A T Es' D Ls) as (h1 & E & A1 & _).
    eexists. eexists. split; [exact E|]. split; [exact A1|reflexivity].
  - unfold kmeans_update_distances. destruct (k_distances k) as [p|] eqn:Ed; [exists k, h; split; [reflexivity|]; split; [exact A|reflexivity]|].
    destruct (malloc_allocated _ _ _ junk (bytes3 (type_size (k_type k)) (k_num k) (k_num k)) A) as (h1 & E & A1 & _). rewrite E. eexists. eexists. split; [reflexivity|]. split; [|reflexivity].
    revert A1. unfold kptrs. cbn [with_data k_centers k_distances opt]. rewrite Ed. cbn [opt]. rewrite app_nil_r. apply allocated_perm. rewrite <- app_assoc. cbn [app]. apply Permutation_middle.
Qed.
Lemma kruns_allocated junk h0 l ops : forall k h, floating (k_type k) -> Forall (valid_op h0 (k_type k)) ops -> allocated h0 h (kptrs k ++ l) ->
  exists k' h', kruns junk ops (k, h) = Some (k', h') /\ allocated h0 h' (kptrs k' ++ l) /\ k_type k' = k_type k.
Proof.
  induction ops as [|o ops IH]; intros k h T V A; cbn [kruns].
  - exists k, h. split; [reflexivity|]. split; [exact A|reflexivity].
  - inversion V as [|? ? V1 V2]; subst. destruct (kstep_allocated junk h0 l o k h T V1 A) as (k1 & h1 & E1 & A1 & T1). rewrite E1. cbn [obind].
    destruct (IH k1 h1) as (k2 & h2 & E2 & A2 & T2); [now rewrite T1|now rewrite T1|exact A1|]. exists k2, h2. split; [exact E2|]. split; [exact A2|congruence].
Qed.
Lemma allocated_start h0 : allocated h0 h0 [].
Proof.
  split; [split; [lia|reflexivity]|]. split; [constructor|]. intro p. split; [contradiction|]. intros (G & b & E). assert (p < length h0) by (apply nth_error_Some; rewrite E; discriminate). lia.
Qed.
Lemma new_allocated h0 h l t dist : allocated h0 h l -> exists k h', kmeans_new t dist h = Some (length h, k, h') /\ allocated h0 h' (length h :: l) /\ kptrs k = [] /\ k_type k = t.
Proof.
  intro A. unfold kmeans_new. destruct (malloc_allocated _ _ _ 0%Z kmeans_size A) as (h1 & E & A1 & _). rewrite E. cbn [kmeans_reset k_centers k_distances free_if obind]. eexists. eexists. split; [reflexivity|]. split; [exact A1|]. split; reflexivity.
Qed.

(** C304.  A k-means object, whatever is done to it (setting centers, resetting, computing distances of centers), owns exactly its structure, its centers and the distances;
    deleting it frees each of them once, and no block of the user is touched. *)
Theorem C304_released : forall junk t dist h0 ops, floating t -> Forall (valid_op h0 t) ops -> exists self k h1 k2 h2 h3,
  kmeans_new t dist h0 = Some (self, k, h1) /\ kruns junk ops (k, h1) = Some (k2, h2) /\ allocated h0 h2 (opt (k_centers k2) ++ opt (k_distances k2) ++ [self]) /\
  kmeans_delete self k2 h2 = Some h3 /\ allocated h0 h3 [].
Proof.
  intros junk t dist h0 ops T V. destruct (new_allocated h0 h0 [] t dist (allocated_start h0)) as (k & h1 & E1 & A1 & P1 & T1).
  destruct (kruns_allocated junk h0 [length h0] ops k h1) as (k2 & h2 & E2 & A2 & T2); [now rewrite T1|now rewrite T1|now rewrite P1|].
  destruct (delete_allocated h0 h2 [] k2 (length h0) A2) as (h3 & E3 & A3 & _). exists (length h0), k, h1, k2, h2, h3. split; [exact E1|]. split; [exact E2|]. split; [|split; [exact E3|exact A3]].
  rewrite app_assoc. exact A2.
Qed.
Print Assumptions C304_released.

(** C305.  Copies of k-means objects have their own centers and distances, equal to those of the original, and the same sizes; deleting either object leaves the other as it is. *)
Theorem C305_deep : forall junk h0 h k self l sc sd, allocated h0 h (opt (k_centers k) ++ opt (k_distances k) ++ self :: l) ->
  (forall q, k_centers k = Some q -> nth_error h q = Some (Some sc) /\ length sc = Z.to_nat (bytes3 (type_size (k_type k)) (k_dim k) (k_num k))) ->
  (forall q, k_distances k = Some q -> nth_error h q = Some (Some sd) /\ length sd = Z.to_nat (bytes3 (type_size (k_type k)) (k_num k) (k_num k))) ->
  exists self' c h1, kmeans_new_copy junk k h = Some (self', c, h1) /\
    (k_type c, k_dim c, k_num c, k_trees c, k_comparisons c, k_algorithm c, k_distance c, k_iterations c, k_repetitions c, k_verbosity c) = (k_type k, k_dim k, k_num k, k_trees k, k_comparisons k, k_algorithm k, k_distance k, k_iterations k, k_repetitions k, k_verbosity k) /\
    (k_centers k = None <-> k_centers c = None) /\ (k_distances k = None <-> k_distances c = None) /\
    (forall q, k_centers c = Some q -> nth_error h1 q = Some (Some sc)) /\ (forall q, k_distances c = Some q -> nth_error h1 q = Some (Some sd)) /\
    allocated h0 h1 ((opt (k_centers c) ++ opt (k_distances c) ++ [self']) ++ opt (k_centers k) ++ opt (k_distances k) ++ self :: l) /\
    (exists h2, kmeans_delete self k h1 = Some h2 /\ allocated h0 h2 ((opt (k_centers c) ++ opt (k_distances c) ++ [self']) ++ l) /\ (forall q, In q (opt (k_centers c) ++ opt (k_distances c)) -> nth_error h2 q = nth_error h1 q)) /\
    (exists h3, kmeans_delete self' c h1 = Some h3 /\ allocated h0 h3 (opt (k_centers k) ++ opt (k_distances k) ++ self :: l) /\ (forall q, q < length h -> nth_error h3 q = nth_error h q)).
Proof.
  intros junk h0 h k self l sc sd A Vc Vd. unfold kmeans_new_copy.
  destruct (malloc_allocated _ _ _ junk kmeans_size A) as (h1 & E1 & A1 & N1 & L1 & Q1). rewrite E1. cbn [k_type k_dim k_num].
  assert (In1 : forall q s, nth_error h q = Some (Some s) -> nth_error h1 q = Some (Some s)) by (intros q s E; rewrite Q1; [exact E|apply nth_error_Some; rewrite E; discriminate]).
  destruct (copy_if_allocated junk h0 h1 _ (k_centers k) (bytes3 (type_size (k_type k)) (k_dim k) (k_num k)) sc A1) as (pc & h2 & E2 & A2 & L2 & Q2 & Z2 & S2); [intros q Eq; destruct (Vc q Eq) as [X Y]; split; [now apply In1|lia]|]. rewrite E2. cbn [obind].
  destruct (copy_if_allocated junk h0 h2 _ (k_distances k) (bytes3 (type_size (k_type k)) (k_num k) (k_num k)) sd A2) as (pd & h3 & E3 & A3 & L3 & Q3 & Z3 & S3).
  { intros q Eq. destruct (Vd q Eq) as [X Y]. split; [|lia]. rewrite Q2; [now apply In1|]. rewrite L1. assert (q < length h) by (apply nth_error_Some; rewrite X; discriminate). lia. }
  rewrite E3. cbn [obind]. eexists. eexists. eexists. split; [reflexivity|]. unfold with_data. cbn [k_type k_dim k_num k_trees k_comparisons k_algorithm k_distance k_iterations k_repetitions k_verbosity k_centers k_distances].
  set (c := mk_kobj _ _ _ _ _ _ _ _ _ _ _ _ pc pd _).
  assert (AA : allocated h0 h3 ((opt pc ++ opt pd ++ [length h]) ++ opt (k_centers k) ++ opt (k_distances k) ++ self :: l)).
  { revert A3. apply allocated_perm. rewrite !app_assoc. rewrite <- (app_assoc (opt pd) (opt pc)). apply Permutation_trans with ((opt pd ++ opt pc) ++ length h :: (opt (k_centers k) ++ opt (k_distances k) ++ self :: l)); [rewrite <- !app_assoc; cbn [app]; reflexivity|].
    apply Permutation_trans with ((opt pc ++ opt pd) ++ length h :: (opt (k_centers k) ++ opt (k_distances k) ++ self :: l)); [apply Permutation_app_tail; apply Permutation_app_comm|]. rewrite <- !app_assoc. cbn [app]. reflexivity. }
  assert (B3 : forall q s, nth_error h2 q = Some (Some s) -> nth_error h3 q = Some (Some s)) by (intros q s E; rewrite Q3; [exact E|apply nth_error_Some; rewrite E; discriminate]).
  assert (FC : pc <> None -> firstn (Z.to_nat (bytes3 (type_size (k_type k)) (k_dim k) (k_num k))) sc = sc).
  { intro X. destruct (k_centers k) as [q|]; [destruct (Vc q eq_refl) as [_ <-]; apply firstn_all|]. now elim X; apply Z2. }
  assert (FD : pd <> None -> firstn (Z.to_nat (bytes3 (type_size (k_type k)) (k_num k) (k_num k))) sd = sd).
  { intro X. destruct (k_distances k) as [q|]; [destruct (Vd q eq_refl) as [_ <-]; apply firstn_all|]. now elim X; apply Z3. }
  split; [reflexivity|]. split; [split; [exact Z2|intros ->; destruct (k_centers k); [destruct S2 as (q' & X & _); discriminate|reflexivity]]|].
  split; [split; [exact Z3|intros ->; destruct (k_distances k); [destruct S3 as (q' & X & _); discriminate|reflexivity]]|].
  split. { intros q ->. destruct (k_centers k) as [p|]; [|now specialize (Z2 eq_refl)]. destruct S2 as (q' & X & Y); [discriminate|]. injection X as <-. rewrite FC in Y by discriminate. now apply B3. }
  split. { intros q ->. destruct (k_distances k) as [p|]; [|now specialize (Z3 eq_refl)]. destruct S3 as (q' & X & Y); [discriminate|]. injection X as <-. rewrite FD in Y by discriminate. exact Y. }
  split; [exact AA|]. split.
  - assert (AP : allocated h0 h3 (kptrs k ++ self :: ((opt pc ++ opt pd ++ [length h]) ++ l))).
    { revert AA. apply allocated_perm. unfold kptrs. rewrite (app_assoc (opt (k_centers k))). rewrite (app_assoc _ _ (self :: l)). eapply Permutation_trans; [apply Permutation_app_tail; apply Permutation_app_comm|]. rewrite <- !app_assoc. do 2 apply Permutation_app_head.
      rewrite !app_assoc. apply Permutation_sym. apply (Permutation_middle ((opt pc ++ opt pd) ++ [length h]) l self). }
    destruct (delete_allocated _ _ _ _ _ AP) as (h4 & E4 & A4 & L4 & Q4). exists h4. split; [exact E4|]. split; [exact A4|]. intros q J.
    destruct AP as (_ & ND & _). apply Q4.
    + intro X. apply (NoDup_app_disjoint_helper (kptrs k) (self :: (opt pc ++ opt pd ++ [length h]) ++ l) q ND X). right. apply in_or_app. left. rewrite app_assoc. apply in_or_app. now left.
    + intros ->. apply NoDup_app_right_helper in ND. inversion ND as [|? ? N _]; subst. apply N. apply in_or_app. left. rewrite app_assoc. apply in_or_app. now left.
  - assert (AP : allocated h0 h3 (kptrs c ++ length h :: (opt (k_centers k) ++ opt (k_distances k) ++ self :: l))).
    { revert AA. apply allocated_perm. unfold kptrs. cbn [c k_centers k_distances]. rewrite <- !app_assoc. cbn [app]. reflexivity. }
    destruct (delete_allocated _ _ _ _ _ AP) as (h4 & E4 & A4 & L4 & Q4). exists h4. split; [exact E4|]. split; [exact A4|]. intros q Lq.
    rewrite Q4; [rewrite Q3 by lia; rewrite Q2 by lia; now apply Q1| |lia].
    intro X. unfold kptrs in X. cbn [c k_centers k_distances] in X. apply in_app_or in X as [X|X].
    + destruct (copy_if_fresh _ _ _ _ _ _ E2 q X). lia.
    + destruct (copy_if_fresh _ _ _ _ _ _ E3 q X). lia.
Qed.
Print Assumptions C305_deep.
(** Other parameters (refuted: the claim is that copies have the parameters of the original) are not copied, and not set to anything: the way to initialise, the minimum variation of the energy and the energy. *)
Theorem C305_parameters_refuted : forall junk k h self' c h1, kmeans_new_copy junk k h = Some (self', c, h1) -> k_init c = None /\ k_variation c = None /\ k_energy c = None.
Proof.
  intros junk k h self' c h1. unfold kmeans_new_copy, malloc. cbv zeta. destruct (copy_if junk (k_centers k) _ _) as [[pc h2]|]; [|discriminate]. cbn [obind]. destruct (copy_if junk (k_distances k) _ _) as [[pd h3]|]; [|discriminate]. cbn [obind]. injection 1 as <- <- <-. repeat split; reflexivity.
Qed.
Print Assumptions C305_parameters_refuted.

(** C306.  Setting centers copies them: the object gets a block of its own with their bytes, and later changes of the block of the user do not matter; *)
Theorem C306_set : forall junk h0 h l k src dim num s, allocated h0 h ((opt (k_centers k) ++ opt (k_distances k)) ++ l) -> floating (k_type k) ->
  nth_error h src = Some (Some s) -> ~ In src (opt (k_centers k) ++ opt (k_distances k)) -> Z.to_nat (bytes3 (type_size (k_type k)) dim num) <= length s ->
  exists k' h' p, kmeans_set_centers junk k src dim num h = Some (k', h') /\ k_centers k' = Some p /\ p <> src /\ k_distances k' = None /\ k_dim k' = dim /\ k_num k' = num /\
    nth_error h' p = Some (Some (firstn (Z.to_nat (bytes3 (type_size (k_type k)) dim num)) s)) /\ nth_error h' src = Some (Some s) /\ allocated h0 h' (p :: l).
Proof.
  intros junk h0 h l k src dim num s A T Es D Ls. destruct (set_allocated junk _ _ _ _ src dim num s A T Es D Ls) as (h' & E & A' & N & Q).
  assert (Lsrc : src < length h) by (apply nth_error_Some; rewrite Es; discriminate).
  eexists. exists h', (length h). split; [exact E|]. split; [reflexivity|]. split; [lia|]. repeat (split; [reflexivity|]). split; [exact N|]. split; [rewrite Q by assumption; exact Es|exact A'].
Qed.
Print Assumptions C306_set.
(** but (refuted: the claim is that any centers can be given) the centers of the object itself are freed before they are copied *)
Theorem C306_own_refuted : forall junk h0 h l k p dim num, allocated h0 h ((opt (k_centers k) ++ opt (k_distances k)) ++ l) -> k_centers k = Some p -> kmeans_set_centers junk k p dim num h = None.
Proof.
  intros junk h0 h l k p dim num A Ep. destruct (reset_allocated _ _ _ _ A) as (h1 & E1 & A1 & L1 & Q1). unfold kmeans_set_centers. rewrite E1. cbn [obind].
  assert (NL : ~ live h1 p).
  { intro V. destruct A as (_ & ND & I). destruct A1 as (_ & _ & I1). rewrite Ep in ND, I. cbn [opt app] in ND, I. inversion ND as [|? ? N1 _]; subst. apply N1. apply in_or_app. right. apply I1. split; [|exact V]. apply (proj1 (I p) (or_introl eq_refl)). }
  assert (Lp : p < length h1) by (rewrite L1; apply (allocated_lt _ _ _ _ A); rewrite Ep; now left).
  assert (C : forall len, copy_block (length h1) p len (h1 ++ [Some (repeat junk (Z.to_nat len))]) = None).
  { intro len. unfold copy_block, aget. rewrite nth_error_app1 by exact Lp. destruct (nth_error h1 p) as [[b|]|] eqn:E; cbn [obind]; try reflexivity. elim NL. now exists b. }
  destruct (k_type (with_data k 0 0 None None)); try reflexivity; unfold malloc; cbv zeta; rewrite C; reflexivity.
Qed.
Print Assumptions C306_own_refuted.

(** ** Gaussian mixtures *)
Definition kowned (g : gobj) : list nat := match g_kmeans g with Some (s, k) => if g_owner g then kptrs k ++ [s] else [] | None => [] end.
Definition gptrs (g : gobj) : list nat := opt (g_means g) ++ opt (g_covariances g) ++ opt (g_priors g) ++ opt (g_posteriors g).
Ltac perm := apply (proj2 (Permutation_count_occ Nat.eq_dec _ _)); intro; rewrite ?count_occ_app; cbn [count_occ]; rewrite ?count_occ_app; cbn [count_occ]; repeat (match goal with |- context [Nat.eq_dec ?a ?b] => destruct (Nat.eq_dec a b) end); lia.
Definition gvalid (h0 : heap) (t : vtype) (dim num : Z) (o : gop) : Prop :=
  match o with GCluster src => exists s, nth_error h0 src = Some (Some s) /\ Z.to_nat (bytes3 (type_size t) dim num) <= length s | _ => True end.
Definition ginv (h0 : heap) (t : vtype) (dim num : Z) (self : nat) (bounds : nat) (g : gobj) (h : heap) : Prop :=
  allocated h0 h (gptrs g ++ kowned g ++ [self; bounds]) /\ g_type g = t /\ g_dim g = dim /\ g_num g = num /\ g_bounds g = Some bounds /\ (forall s k, g_kmeans g = Some (s, k) -> g_owner g = true -> k_type k = t).
Lemma delete_owned_allocated h0 h l g : allocated h0 h (kowned g ++ l) -> exists h', delete_owned g h = Some h' /\ allocated h0 h' l.
Proof.
  unfold kowned, delete_owned. destruct (g_kmeans g) as [[s k]|]; [destruct (g_owner g)|]; intro A; try (exists h; now split).
  rewrite <- app_assoc in A. destruct (delete_allocated _ _ _ _ _ A) as (h' & E & A' & _). exists h'. now split.
Qed.
Lemma gstep_inv junk h0 t dim num self bounds o g h : floating t -> gvalid h0 t dim num o -> ginv h0 t dim num self bounds g h ->
  exists g' h', gstep junk o (g, h) = Some (g', h') /\ ginv h0 t dim num self bounds g' h'.
Proof.
  intros T V (A & Et & Ed & En & Eb & Ek). destruct o as [n| |ku| |src]; cbn [gstep].
  - unfold gmm_prepare. destruct (g_data g <? n)%Z.
    + assert (A0 : allocated h0 h (opt (g_posteriors g) ++ (opt (g_means g) ++ opt (g_covariances g) ++ opt (g_priors g)) ++ kowned g ++ [self; bounds])) by (revert A; apply allocated_perm; unfold gptrs; perm).
      destruct (free_if_allocated _ _ _ _ A0) as (h1 & E1 & A1 & _). rewrite E1. cbn [obind]. destruct (malloc_allocated _ _ _ junk (bytes3 (type_size (g_type g)) n (g_num g)) A1) as (h2 & E2 & A2 & _). rewrite E2.
      eexists. eexists. split; [reflexivity|]. split; [|now repeat split]. revert A2. apply allocated_perm. unfold gptrs, kowned. cbn [g_means g_covariances g_priors g_posteriors g_kmeans g_owner opt]. set (L := match g_kmeans g with Some _ => _ | None => _ end). perm.
    + eexists. eexists. split; [reflexivity|]. split; [exact A|now repeat split].
  - unfold gmm_reset.
    assert (A0 : allocated h0 h (opt (g_posteriors g) ++ (opt (g_means g) ++ opt (g_covariances g) ++ opt (g_priors g)) ++ kowned g ++ [self; bounds])) by (revert A; apply allocated_perm; unfold gptrs; perm).
    match goal with |- context [obind ?m _] => assert (S1 : exists g1 h1, m = Some (g1, h1) /\ ginv h0 t dim num self bounds g1 h1 /\ g_kmeans g1 = g_kmeans g /\ g_owner g1 = g_owner g) end.
    { destruct (g_posteriors g) as [p|] eqn:Ep.
      - destruct (free_allocated _ _ _ _ A0) as (h1 & E1 & A1 & _). rewrite E1. cbn [obind]. eexists. eexists. split; [reflexivity|]. split; [|split; reflexivity]. split; [|now repeat split].
        revert A1. apply allocated_perm. unfold gptrs, kowned. cbn [g_means g_covariances g_priors g_posteriors g_kmeans g_owner opt]. set (L := match g_kmeans g with Some _ => _ | None => _ end). perm.
      - exists g, h. split; [reflexivity|]. split; [|split; reflexivity]. split; [exact A|]. repeat (split; [assumption|]). exact Ek. }
    destruct S1 as (g1 & h1 & E1 & (A1 & Et1 & Ed1 & En1 & Eb1 & Ek1) & Kk & Ko). rewrite E1. cbn [obind].
    assert (AK : allocated h0 h1 (kowned g1 ++ gptrs g1 ++ [self; bounds])) by (revert A1; apply allocated_perm; perm).
    destruct (delete_owned_allocated _ _ _ _ AK) as (h2 & E2 & A2). unfold delete_owned in E2. unfold kowned in *. destruct (g_kmeans g1) as [[s k]|] eqn:Eg; [destruct (g_owner g1) eqn:Eo|].
    + rewrite E2. cbn [obind]. eexists. eexists. split; [reflexivity|]. split; [exact A2|]. repeat (split; [assumption|]). discriminate.
    + exists g1, h1. split; [reflexivity|]. split; [unfold kowned; rewrite Eg, Eo; exact A1|]. repeat (split; [assumption|]). rewrite Eg, Eo. exact Ek1.
    + exists g1, h1. split; [reflexivity|]. split; [unfold kowned; rewrite Eg; exact A1|]. repeat (split; [assumption|]). rewrite Eg. exact Ek1.
  - unfold gmm_set_kmeans. assert (AK : allocated h0 h (kowned g ++ gptrs g ++ [self; bounds])) by (revert A; apply allocated_perm; perm).
    destruct (delete_owned_allocated _ _ _ _ AK) as (h2 & E2 & A2). rewrite E2. cbn [obind]. eexists. eexists. split; [reflexivity|]. destruct ku as [s k]. split; [exact A2|]. repeat (split; [assumption|]). discriminate.
  - unfold gmm_default_kmeans. destruct (g_kmeans g) as [p|] eqn:Eg; [exists g, h; split; [reflexivity|]; split; [exact A|]; repeat (split; [assumption|]); rewrite Eg; exact Ek|].
    destruct (new_allocated h0 h _ (g_type g) 0%Z A) as (k & h1 & E1 & A1 & P1 & T1). rewrite E1. cbn [obind]. eexists. eexists. split; [reflexivity|]. split.
    + revert A1. apply allocated_perm. unfold kowned. rewrite Eg. cbn [with_kmeans g_kmeans g_owner]. rewrite P1. change (gptrs (with_kmeans g (Some (length h, k)) true)) with (gptrs g). perm.
    + repeat (split; [assumption|]). cbn [with_kmeans g_kmeans g_owner]. intros s k' [= <- <-] _. congruence.
  - unfold gmm_cluster. destruct (g_kmeans g) as [[s k]|] eqn:Eg; [|exists g, h; split; [reflexivity|]; split; [exact A|]; repeat (split; [assumption|]); rewrite Eg; exact Ek].
    destruct (g_owner g) eqn:Eo; [|exists g, h; split; [reflexivity|]; split; [exact A|]; repeat (split; [assumption|]); rewrite Eg, Eo; exact Ek].
    destruct V as (b & Es & Ls). assert (Tk : k_type k = t) by now apply (Ek s k).
    assert (A0 : allocated h0 h (kptrs k ++ s :: gptrs g ++ [self; bounds])) by (revert A; apply allocated_perm; unfold kowned; rewrite Eg, Eo; perm).
    destruct (kptrs_outside _ _ _ _ _ _ A0 Es) as [Es' D]. destruct (set_allocated junk _ _ _ _ src dim num b A0) as (h1 & E & A1 & _); [now rewrite Tk|exact Es'|exact D|now rewrite Tk|].
    rewrite Ed, En, E. cbn [obind]. eexists. eexists. split; [reflexivity|]. split.
    + revert A1. apply allocated_perm. unfold kowned. cbn [with_kmeans g_kmeans g_owner kptrs with_data k_centers k_distances opt]. unfold kptrs. cbn [with_data k_centers k_distances opt]. match goal with |- context [gptrs (with_kmeans g ?x ?y)] => change (gptrs (with_kmeans g x y)) with (gptrs g) end. perm.
    + repeat (split; [assumption|]). cbn [with_kmeans g_kmeans g_owner]. intros s' k' [= <- <-] _. exact Tk.
Qed.
Lemma gruns_inv junk h0 t dim num self bounds ops : forall g h, floating t -> Forall (gvalid h0 t dim num) ops -> ginv h0 t dim num self bounds g h ->
  exists g' h', gruns junk ops (g, h) = Some (g', h') /\ ginv h0 t dim num self bounds g' h'.
Proof.
  induction ops as [|o ops IH]; intros g h T V I; cbn [gruns]; [exists g, h; now split|]. inversion V as [|? ? V1 V2]; subst.
  destruct (gstep_inv junk h0 t dim num self bounds o g h T V1 I) as (g1 & h1 & E1 & I1). rewrite E1. cbn [obind]. now apply IH.
Qed.
Lemma gnew_inv h0 t dim num : exists self g h bounds, gmm_new t dim num h0 = Some (self, g, h) /\ ginv h0 t dim num self bounds g h /\ nth_error h bounds = Some (Some (repeat 0%Z (Z.to_nat (size_mul dim 8)))).
Proof.
  unfold gmm_new. cbv zeta.
  destruct (malloc_allocated _ _ _ 0%Z gmm_size (allocated_start h0)) as (h1 & E1 & A1 & _). rewrite E1.
  destruct (malloc_allocated _ _ _ 0%Z (size_mul num (type_size t)) A1) as (h2 & E2 & A2 & _). rewrite E2.
  destruct (malloc_allocated _ _ _ 0%Z (bytes3 num dim (type_size t)) A2) as (h3 & E3 & A3 & _). rewrite E3.
  destruct (malloc_allocated _ _ _ 0%Z (bytes3 num dim (type_size t)) A3) as (h4 & E4 & A4 & _). rewrite E4.
  destruct (malloc_allocated _ _ _ 0%Z (size_mul dim 8) A4) as (h5 & E5 & A5 & N5 & _). rewrite E5.
  eexists. eexists. eexists. exists (length h4). split; [reflexivity|]. split; [|exact N5]. split; [|repeat (split; [reflexivity|]); discriminate].
  revert A5. apply allocated_perm. unfold gptrs, kowned. cbn [g_means g_covariances g_priors g_posteriors g_kmeans opt]. perm.
Qed.
Lemma gdelete_inv h0 t dim num self bounds g h : ginv h0 t dim num self bounds g h -> exists h', gmm_delete self g h = Some h' /\ allocated h0 h' [bounds].
Proof.
  intros (A & _). unfold gmm_delete. unfold gptrs in A. rewrite <- !app_assoc in A.
  destruct (free_if_allocated _ _ _ _ A) as (h1 & -> & A1 & _). cbn [obind]. destruct (free_if_allocated _ _ _ _ A1) as (h2 & -> & A2 & _). cbn [obind].
  destruct (free_if_allocated _ _ _ _ A2) as (h3 & -> & A3 & _). cbn [obind]. destruct (free_if_allocated _ _ _ _ A3) as (h4 & -> & A4 & _). cbn [obind].
  destruct (delete_owned_allocated _ _ _ _ A4) as (h5 & -> & A5). cbn [obind]. destruct (free_allocated _ _ _ _ A5) as (h6 & E6 & A6 & _). exists h6. now split.
Qed.

(** C307.  Deleting a Gaussian mixture, whatever was done to it (new numbers of data, resets, k-means objects of the user or its own, clustering), frees once every block it allocated except
    (refuted: the claim is that it frees all) the lower bounds of the covariances: a mixture leaks them. *)
Theorem C307_leak_refuted : forall junk t dim num h0 ops, floating t -> Forall (gvalid h0 t dim num) ops -> exists self g h1 g2 h2 h3 bounds,
  gmm_new t dim num h0 = Some (self, g, h1) /\ gruns junk ops (g, h1) = Some (g2, h2) /\ gmm_delete self g2 h2 = Some h3 /\ g_bounds g2 = Some bounds /\ allocated h0 h3 [bounds].
Proof.
  intros junk t dim num h0 ops T V. destruct (gnew_inv h0 t dim num) as (self & g & h1 & bounds & E1 & I1 & _). destruct (gruns_inv junk h0 t dim num self bounds ops g h1 T V I1) as (g2 & h2 & E2 & I2).
  destruct (gdelete_inv _ _ _ _ _ _ _ _ I2) as (h3 & E3 & A3). exists self, g, h1, g2, h2, h3, bounds. split; [exact E1|]. split; [exact E2|]. split; [exact E3|]. split; [apply I2|exact A3].
Qed.
Print Assumptions C307_leak_refuted.
(** C308.  The k-means object of the user is never freed by a mixture, nor is any other block of the user; an object made by the mixture is freed once. *)
Theorem C308_user : forall junk t dim num h0 ops self g h1 g2 h2, floating t -> Forall (gvalid h0 t dim num) ops -> gmm_new t dim num h0 = Some (self, g, h1) -> gruns junk ops (g, h1) = Some (g2, h2) ->
  (forall p, p < length h0 -> nth_error h2 p = nth_error h0 p) /\
  (forall ku, exists g3 h3, gmm_set_kmeans ku g2 h2 = Some (g3, h3) /\ g_kmeans g3 = Some ku /\ g_owner g3 = false /\ kept h0 h3 /\
    (forall s k, g_kmeans g2 = Some (s, k) -> g_owner g2 = true -> forall p, In p (s :: opt (k_centers k) ++ opt (k_distances k)) -> live h2 p /\ ~ live h3 p) /\
    (g_owner g2 = false -> h3 = h2)).
Proof.
  intros junk t dim num h0 ops self g h1 g2 h2 T V E1 E2. destruct (gnew_inv h0 t dim num) as (self' & g' & h1' & bounds & E1' & I1 & _). rewrite E1 in E1'. injection E1' as <- <- <-.
  destruct (gruns_inv junk h0 t dim num self bounds ops g h1 T V I1) as (g2' & h2' & E2' & I2). rewrite E2 in E2'. injection E2' as <- <-.
  split; [apply I2|]. intro ku. destruct I2 as (A & _). unfold gmm_set_kmeans.
  assert (AK : allocated h0 h2 (kowned g2 ++ gptrs g2 ++ [self; bounds])) by (revert A; apply allocated_perm; perm).
  destruct (delete_owned_allocated _ _ _ _ AK) as (h3 & E3 & A3). rewrite E3. cbn [obind]. eexists. exists h3. split; [reflexivity|]. split; [reflexivity|]. split; [reflexivity|]. split; [apply A3|]. split.
  - intros s k Eg Eo p J. unfold kowned in AK. rewrite Eg, Eo in AK. assert (J' : In p (kptrs k ++ [s])) by (apply in_or_app; destruct J as [<-|J]; [right; now left|now left]).
    destruct AK as (_ & ND & I). split; [apply (proj1 (I p)); apply in_or_app; now left|]. intro L3.
    destruct A3 as (_ & _ & I3). apply (NoDup_app_disjoint_helper _ _ p ND J'). apply I3. split; [|exact L3]. apply (proj1 (I p)). apply in_or_app. now left.
  - intro Eo. unfold delete_owned in E3. rewrite Eo in E3. destruct (g_kmeans g2) as [[? ?]|]; congruence.
Qed.
Print Assumptions C308_user.

(** ** Examples *)
Definition user : heap := [Some [1; 2; 3; 4; 5; 6; 7; 8]%Z].
Example C304_ex : exists self k h1 k2 h2, kmeans_new TFloat 1 user = Some (self, k, h1) /\ kruns 9 [KSet 0 1 2; KDistances; KSet 0 2 1; KDistances] (k, h1) = Some (k2, h2) /\
  Forall (valid_op user TFloat) [KSet 0 1 2; KDistances; KSet 0 2 1; KDistances] /\ h2 = user ++ [Some (repeat 0%Z 136); None; None; Some [1; 2; 3; 4; 5; 6; 7; 8]%Z; Some (repeat 9%Z 4)] /\ kmeans_delete self k2 h2 = Some (user ++ repeat None 5).
Proof.
  eexists. eexists. eexists. eexists. eexists. split; [vm_compute; reflexivity|]. split; [vm_compute; reflexivity|]. split; [|split; vm_compute; reflexivity].
  repeat constructor; exists [1; 2; 3; 4; 5; 6; 7; 8]%Z; (split; [reflexivity|vm_compute; lia]).
Qed.
Example C305_ex : exists self k h1 k2 h2 self' c h3 p, kmeans_new TFloat 1 user = Some (self, k, h1) /\ kruns 9 [KSet 0 2 1] (k, h1) = Some (k2, h2) /\ kmeans_new_copy 9 k2 h2 = Some (self', c, h3) /\
  k_centers c = Some p /\ nth_error h3 p = nth_error user 0 /\ kmeans_delete self k2 h3 = Some (user ++ [None; None; Some (repeat 9%Z 136); Some [1; 2; 3; 4; 5; 6; 7; 8]%Z]) /\ k_init k2 = Some 0%Z /\ k_init c = None.
Proof. do 9 eexists. split; [vm_compute; reflexivity|]. split; [vm_compute; reflexivity|]. split; [vm_compute; reflexivity|]. split; [reflexivity|]. repeat split; vm_compute; reflexivity. Qed.
Example C306_ex : exists self k h1 k2 h2, kmeans_new TDouble 1 user = Some (self, k, h1) /\ kmeans_set_centers 9 k 0 1 1 h1 = Some (k2, h2) /\ k_centers k2 = Some 2 /\ kmeans_set_centers 9 k2 2 1 1 h2 = None /\ kmeans_set_centers 9 k2 0 1 1 h2 <> None.
Proof. do 5 eexists. split; [vm_compute; reflexivity|]. split; [vm_compute; reflexivity|]. split; [reflexivity|]. split; [vm_compute; reflexivity|]. vm_compute. discriminate. Qed.
Example C307_ex : exists self g h1 g2 h2, gmm_new TFloat 2 1 user = Some (self, g, h1) /\ gruns 9 [GPrepare 3; GDefault; GCluster 0; GPrepare 2; GPrepare 5; GReset; GDefault] (g, h1) = Some (g2, h2) /\ Forall (gvalid user TFloat 2 1) [GPrepare 3; GDefault; GCluster 0; GPrepare 2; GPrepare 5; GReset; GDefault] /\
  gmm_delete self g2 h2 = Some (user ++ repeat None 4 ++ [Some (repeat 0%Z 16)] ++ repeat None 5).
Proof.
  do 5 eexists. split; [vm_compute; reflexivity|]. split; [vm_compute; reflexivity|]. split; [|vm_compute; reflexivity].
  repeat constructor; exists [1; 2; 3; 4; 5; 6; 7; 8]%Z; (split; [reflexivity|vm_compute; lia]).
Qed.
Example C308_ex : exists self g h1 g2 h2, gmm_new TFloat 2 1 user = Some (self, g, h1) /\ gruns 9 [GDefault] (g, h1) = Some (g2, h2) /\ g_owner g2 = true.
Proof. do 5 eexists. split; [vm_compute; reflexivity|]. split; vm_compute; reflexivity. Qed.
