(** Properties of the agglomerative information bottleneck (vl/aib.c). *)
From Coq Require Import List Arith ZArith Lia Bool QArith Qcanon Lqa Permutation.
From Verif Require Import Base Loop MserSort_Proofs ImOp_Spec ImOp_Proofs Rat Gauss_Model Gauss_Proofs Homker_Proofs Vlad_Proofs Kmeans_Spec Kmeans_Model Kmeans_Proofs Aib_Model Aib_Spec Aib_Proofs AibMerge_Proofs AibRun_Proofs AibNew_Proofs.
Import ListNotations.
Local Open Scope nat_scope.

Section Occurring.
Variables (N nl : nat) (P : list Qc).
Lemma occurring_in x r : In (x, r) (occurring N nl P) <-> x < N /\ r = joint N nl P x /\ prob nl r <> 0%Qc.
Proof.
  unfold occurring. rewrite filter_In, in_map_iff. cbn [snd]. rewrite nonnull_true. split.
  - intros [(y & E & I) Hp]. injection E as -> <-. apply in_seq in I. repeat split; auto; lia.
  - intros (L & -> & Hp). split; [|exact Hp]. exists x. split; [reflexivity|]. apply in_seq. lia.
Qed.
Lemma occurring_ids_in x : In x (map fst (occurring N nl P)) <-> x < N /\ prob nl (joint N nl P x) <> 0%Qc.
Proof.
  rewrite in_map_iff. split.
  - intros ([y r] & <- & I). apply occurring_in in I. destruct I as (L & -> & H). auto.
  - intros [L H]. exists (x, joint N nl P x). split; [reflexivity|]. now apply occurring_in.
Qed.
Lemma occurring_nodup : NoDup (map fst (occurring N nl P)).
Proof.
  unfold occurring. assert (G : forall l, NoDup l -> NoDup (map fst (filter (fun c : cluster => nonnull (prob nl (snd c))) (map (fun x => (x, joint N nl P x)) l)))).
  { induction l as [|x l IH]; intro H; [constructor|]. apply NoDup_cons_iff in H as [H1 H2]. cbn [map filter snd]. destruct (nonnull _); [|auto].
    cbn [map fst]. constructor; [|auto]. intro I. apply in_map_iff in I as ([y r] & <- & I). apply filter_In in I as [I _].
    apply in_map_iff in I as (z & Ez & Iz). injection Ez as <- _. auto. }
  apply G, seq_NoDup.
Qed.
Lemma occurring_length : length (occurring N nl P) <= N.
Proof.
  unfold occurring. set (l := map _ _). assert (length l = N) by (unfold l; now rewrite map_length, seq_length). rewrite <- H.
  clear. induction l as [|x l IH]; cbn [filter]; [auto|]. destruct (nonnull _); cbn [length] in *; lia.
Qed.
End Occurring.

Section Start.
Variable log_ : Qc -> Qc.
Variables (N nl : nat) (P : list Qc).
Hypothesis LP : length P = N * nl.
Hypothesis pos : forall i, i < N * nl -> (0 <= nth i P 0)%Qc.
Hypothesis sum_pos : total N nl P <> 0%Qc.

Lemma total_pos : (0 < total N nl P)%Qc.
Proof.
  assert (H : (0 <= total N nl P)%Qc) by (apply sum_nonneg0; intros; auto).
  apply Qcle_lt_or_eq in H. destruct H as [H|H]; [exact H|]. now destruct sum_pos.
Qed.
Lemma joint_length x : x < N -> length (joint N nl P x) = nl.
Proof. intro L. unfold joint. rewrite map_length. apply rowv_length. rewrite LP. nia. Qed.
Lemma joint_at x c : x < N -> c < nl -> at_ (joint N nl P x) c = (nth (x * nl + c) P 0 / total N nl P)%Qc.
Proof.
  intros Lx Lc. unfold at_, joint. rewrite (nth_indep _ 0%Qc (0 / total N nl P)%Qc).
  - rewrite (map_nth (fun v => v / total N nl P)%Qc). now rewrite rowv_nth by auto.
  - rewrite map_length, rowv_length by (rewrite LP; nia). exact Lc.
Qed.
Lemma joint_nonneg x c : x < N -> c < nl -> (0 <= at_ (joint N nl P x) c)%Qc.
Proof.
  intros Lx Lc. rewrite joint_at by auto. unfold Qcdiv. pose proof (Qclt_le_weak _ _ (Qcinv_pos _ total_pos)) as I.
  pose proof (Qcmult_le_compat_r 0 (nth (x * nl + c) P 0%Qc) _ (pos (x * nl + c) ltac:(nia)) I) as M. rewrite Qcmult_0_l in M. exact M.
Qed.

Variable bi : list nat.
Hypothesis Lb : length bi = N.

Lemma start_ok : exists s, new_aib N nl P bi = Some (s, labels N nl P) /\ wf N nl s /\ nentries s = N /\ valid log_ nl s /\ pending log_ nl s (which s) /\
  (forall e, In e (which s) -> e < nentries s) /\ nonneg nl s /\ nodes_ok s (N + 0) /\ active nl s = occurring N nl P /\
  (forall x, x < N -> rowv nl (pcx s) x = joint N nl P x).
Proof.
  unfold new_aib. destruct (normalize_ok P (N * nl) LP) as (Q & E & LQ & HQ). rewrite E. cbn [obind].
  rewrite new_px_ok, new_pc_ok by exact LQ. cbn [obind]. fold (total N nl P) in HQ.
  assert (R : forall x, x < N -> rowv nl Q x = joint N nl P x).
  { intros x Lx. assert (Lr : length (rowv nl Q x) = nl) by (apply rowv_length; nia). apply (nth_ext _ _ 0%Qc 0%Qc).
    - now rewrite Lr, joint_length.
    - intros c Lc. rewrite Lr in Lc. rewrite rowv_nth by exact Lc. rewrite HQ by nia. symmetry. now apply joint_at. }
  eexists. split.
  { do 2 f_equal. unfold labels. apply map_ext_in. intros c I. apply in_seq in I. apply qsum_ext. intros x Lx. rewrite <- R by exact Lx. unfold at_. now rewrite rowv_nth by lia. }
  set (s := mk_aib _ _ _ _ _ _ _).
  assert (W : wf N nl s).
  { constructor; cbn [s nodes beta bidx px pcx nentries]; rewrite ?map_length, ?seq_length, ?repeat_length; auto.
    intros e Le. rewrite nth_map_seq by exact Le. unfold prob. apply qsum_ext. intros c Lc. unfold at_. now rewrite rowv_nth by exact Lc. }
  split; [exact W|]. split; [reflexivity|]. split; [|split; [|split; [|split; [|split; [|split]]]]].
  - intros e v Le Ev. cbn [s beta] in Ev. destruct (Nat.lt_ge_cases e (length (repeat (@None Qc) N))) as [L|L].
    + apply (nth_In _ None) in L. rewrite Ev in L. apply repeat_spec in L. discriminate.
    + rewrite nth_overflow in Ev by exact L. discriminate.
  - intros a b [La _] _ _. left. cbn [s which nentries] in *. apply in_seq. lia.
  - intros e I. cbn [s which nentries] in *. apply in_seq in I. lia.
  - intros e c Le Lc. cbn [s nentries pcx] in *. rewrite R by exact Le. now apply joint_nonneg.
  - split; cbn [s nentries nodes].
    + intros e f Le Lf. rewrite !seq_nth by auto. lia.
    + intros e Le. rewrite seq_nth by auto. lia.
  - unfold active, idx, occurring, ent. cbn [s nentries pcx nodes].
    assert (G : forall l, (forall x, In x l -> x < N) -> map (fun e => (nth e (seq 0 N) 0, rowv nl Q e)) (filter (fun e => nonnull (prob nl (rowv nl Q e))) l)
      = filter (fun c : cluster => nonnull (prob nl (snd c))) (map (fun x => (x, joint N nl P x)) l)).
    { induction l as [|x l IH]; intro H; [reflexivity|]. cbn [map filter snd]. rewrite <- R by (apply H; now left).
      destruct (nonnull _); cbn [map]; rewrite IH by (intros; apply H; now right).
      - f_equal. rewrite seq_nth by (apply H; now left). reflexivity.
      - reflexivity. }
    apply G. intros x I. apply in_seq in I. lia.
  - exact R.
Qed.

Lemma run_ok : 0 < N -> exists ms cs, aib_run log_ N nl P bi =
    Some (ms, replay N ms (repeat (2 * N) (2 * N - 1)), Some (mutual log_ nl (labels N nl P) (occurring N nl P)) :: map Some cs ++ repeat None (N - 1 - length cs)) /\
  length cs = length ms /\ greedy log_ nl (labels N nl P) N (occurring N nl P) ms cs.
Proof.
  intro HN. unfold aib_run. destruct start_ok as (s & E & W & En & V & Pd & Hw & Nn & No & Ea & _). rewrite E. cbn [obind].
  assert (Lp : length (labels N nl P) = nl) by (unfold labels; now rewrite map_length, seq_length).
  rewrite (information_ok log_ N nl) by auto. cbn [obind].
  destruct (merges_ok log_ N nl (labels N nl P) Lp (N - 1) 0 s (repeat (2 * N) (2 * N - 1)) [Some (mutual log_ nl (labels N nl P) (active nl s))]) as (ms & cs & E2 & Lc & G); auto; try lia.
  { now rewrite repeat_length. }
  exists ms, cs. rewrite E2, Ea, !Nat.add_0_r in *. split; [reflexivity|]. split; [exact Lc|exact G].
Qed.

End Start.

(** *** C24: every merge is a cheapest one *)
Theorem C24_greedy log_ N nl P bidx : 0 < N -> length P = N * nl -> length bidx = N ->
  (forall i, i < N * nl -> (0 <= nth i P 0)%Qc) -> total N nl P <> 0%Qc ->
  exists ms parents cs, aib_run log_ N nl P bidx =
      Some (ms, parents, Some (mutual log_ nl (labels N nl P) (occurring N nl P)) :: map Some cs ++ repeat None (N - 1 - length cs)) /\
    length cs = length ms /\ greedy log_ nl (labels N nl P) N (occurring N nl P) ms cs.
Proof.
  intros HN LP Lb Hp Ht. destruct (run_ok log_ N nl P LP Hp Ht bidx Lb HN) as (ms & cs & E & L & G). exists ms. eexists. exists cs. eauto.
Qed.
Print Assumptions C24_greedy.

(** *** C25: the tree, and the mass *)
Theorem C25_tree log_ N nl P bidx ms parents costs : 0 < N -> length P = N * nl -> length bidx = N ->
  (forall i, i < N * nl -> (0 <= nth i P 0)%Qc) -> total N nl P <> 0%Qc ->
  2 <= length (occurring N nl P) ->
  aib_run log_ N nl P bidx = Some (ms, parents, costs) ->
  length ms = length (occurring N nl P) - 1 /\
  binary_tree N (length (occurring N nl P)) (fun x => nonnull (prob nl (joint N nl P x))) parents.
Proof.
  intros HN LP Lb Hp Ht H2 E. destruct (run_ok log_ N nl P LP Hp Ht bidx Lb HN) as (ms' & cs & E' & L & G). rewrite E in E'. injection E' as <- -> _.
  set (p := repeat (2 * N) (2 * N - 1)).
  assert (Lp : length p = 2 * N - 1) by (unfold p; apply repeat_length).
  assert (Hn : forall x, x < 2 * N - 1 -> nth x p 0 = 2 * N).
  { intros x Lx. unfold p. rewrite <- Lp in Lx. exact (repeat_spec _ _ _ (nth_In p 0 Lx)). }
  assert (Lm : length ms <= N - 1).
  { clear -G HN. pose proof (occurring_length N nl P) as LO. revert LO. generalize (occurring N nl P) G. clear. intros act G H.
    assert (X : length ms <= length act - 1); [|lia]. clear H. induction G; cbn [length]; [lia|]. apply Permutation_length in H. cbn [length] in *. unfold cluster in *. lia. }
  assert (Hid : forall x, In x (map fst (occurring N nl P)) -> x < N) by (intros x I; now apply occurring_ids_in in I).
  destruct (tree_ok log_ nl (2 * N - 1) (labels N nl P) N (occurring N nl P) ms cs G p HN (occurring_nodup N nl P) Hid Lp ltac:(lia)) as (Em & Lq & _ & T).
  { intros x Lx. right. rewrite Hn by exact Lx. lia. }
  split; [exact Em|]. unfold cluster in *.
  assert (Nm : ms <> []) by (intros ->; cbn in Em; lia). destruct (T Nm) as (T1 & T2 & T3 & T4). clear T.
  set (m := length (occurring N nl P)) in *. assert (Er : N + length ms - 1 = N + m - 2) by (change (length ms = m - 1) in Em; change (2 <= m) in H2; lia). cbv zeta in T1, T2, T3, T4. rewrite Er in T1, T2, T3, T4.
  change (@length (nat * list Qc) (occurring N nl P)) with m. change (@length cluster (occurring N nl P)) with m. clearbody m. unfold binary_tree. cbv zeta. split; [exact Lq|]. split; [exact T1|]. split; [|split; [|split]].
  - intros x Lx Ux. apply T2. left. apply occurring_ids_in. split; [exact Lx|]. now apply nonnull_true.
  - intros x L1 L2. destruct (T2 x (or_intror (conj L1 L2))) as [A1 A2]. exact (conj A2 (proj2 A1)).
  - intros y Ly. apply T3. lia.
  - intros x Lx C. rewrite T4.
    + apply Hn. exact Lx.
    + intro I. apply occurring_ids_in in I as [I1 I2]. apply nonnull_true in I2. destruct C as [[_ C]|C]; [congruence|lia].
    + destruct C as [[C _]|C]; lia.
Qed.
Print Assumptions C25_tree.

Theorem C25_mass N nl s i j new : wf N nl s -> i <> j -> i < nentries s -> j < nentries s ->
  exists s', merge_nodes nl s i j new = Some s' /\ wf N nl s' /\ nentries s' = nentries s - 1 /\
    qsum (nentries s') (fun e => nth e (px s') 0%Qc) = qsum (nentries s) (fun e => nth e (px s) 0%Qc) /\
    forall c, c < nl -> qsum (nentries s') (fun e => nth (e * nl + c) (pcx s') 0%Qc) = qsum (nentries s) (fun e => nth (e * nl + c) (pcx s) 0%Qc).
Proof.
  assert (G : forall i j, wf N nl s -> i < j -> j < nentries s -> exists s', merge_nodes nl s i j new = Some s' /\ wf N nl s' /\ nentries s' = nentries s - 1 /\
    qsum (nentries s') (fun e => nth e (px s') 0%Qc) = qsum (nentries s) (fun e => nth e (px s) 0%Qc) /\
    forall c, c < nl -> qsum (nentries s') (fun e => nth (e * nl + c) (pcx s') 0%Qc) = qsum (nentries s) (fun e => nth (e * nl + c) (pcx s) 0%Qc)).
  { clear i j. intros i j W Lij Lj. pose proof (wf_n _ _ _ W) as Wn.
    destruct (merge_rows N nl s i j new W Lij ltac:(lia) Lj) as (s' & E & W' & En & Ri & Ro). exists s'. split; [exact E|]. split; [exact W'|]. split; [exact En|].
    assert (Lr : forall e, e < N -> length (rowv nl (pcx s) e) = nl) by (intros; apply rowv_length; rewrite (wf_pcx _ _ _ W); nia).
    rewrite En in *. set (last := nentries s - 1) in *. replace (nentries s) with (last + 1) by lia. split.
    - apply (merged_sum _ _ i j last); try lia.
      + rewrite (wf_prob _ _ _ W'), !(wf_prob _ _ _ W), Ri by lia. apply prob_join; apply Lr; lia.
      + intros e Le Ne. rewrite (wf_prob _ _ _ W') by lia. rewrite (wf_prob _ _ _ W) by (unfold old; destruct (e =? j); lia). now rewrite Ro.
    - intros c Lc. apply (merged_sum _ _ i j last); try lia.
      + rewrite <- !(rowv_nth nl) by exact Lc. rewrite Ri. apply (join_nth nl); auto; apply Lr; lia.
      + intros e Le Ne. rewrite <- !(rowv_nth nl) by exact Lc. now rewrite Ro. }
  intros W Nij Li Lj. destruct (Nat.lt_ge_cases i j) as [L|L]; [now apply G|].
  replace (merge_nodes nl s i j new) with (merge_nodes nl s j i new); [apply G; auto; lia|].
  unfold merge_nodes. destruct (Nat.ltb_spec i j), (Nat.ltb_spec j i); try lia. reflexivity.
Qed.
Print Assumptions C25_mass.

(** the object made by vl_aib_new is well formed, its mass is one *)
Theorem C25_start log_ N nl P bidx : 0 < N -> length P = N * nl -> length bidx = N ->
  (forall i, i < N * nl -> (0 <= nth i P 0)%Qc) -> total N nl P <> 0%Qc ->
  exists s, new_aib N nl P bidx = Some (s, labels N nl P) /\ wf N nl s /\ nentries s = N /\
    active nl s = occurring N nl P /\ qsum N (fun e => nth e (px s) 0%Qc) = 1%Qc /\
    (forall e c, e < N -> c < nl -> (0 <= nth (e * nl + c) (pcx s) 0)%Qc) /\ valid log_ nl s.
Proof.
  intros HN LP Lb Hp Ht. destruct (start_ok log_ N nl P LP Hp Ht bidx Lb) as (s & E & W & En & V & Pd & Hw & Nn & No & Ea & R).
  exists s. split; [exact E|]. split; [exact W|]. split; [exact En|]. split; [exact Ea|]. split; [|split; [|exact V]].
  - rewrite (qsum_ext N _ (fun e => qsum nl (fun c => (/ total N nl P * nth (e * nl + c) P 0)%Qc))).
    + rewrite <- (sum_flat N nl (fun k => (/ total N nl P * nth k P 0)%Qc)). rewrite qsum_scale. fold (total N nl P). rewrite Qcmult_comm. now apply Qcmult_inv_r.
    + intros e Le. rewrite (wf_prob _ _ _ W) by lia. rewrite R by exact Le. apply qsum_ext. intros c Lc. rewrite joint_at by auto. unfold Qcdiv. apply Qcmult_comm.
  - intros e c Le Lc. rewrite <- rowv_nth by exact Lc. apply Nn; [lia|exact Lc].
Qed.
Print Assumptions C25_start.

(** *** C84: a single value *)
Theorem C84_single_value log_ N nl P bidx : 0 < N -> length P = N * nl -> length bidx = N ->
  (forall i, i < N * nl -> (0 <= nth i P 0)%Qc) -> total N nl P <> 0%Qc -> length (occurring N nl P) <= 1 ->
  exists costs, aib_run log_ N nl P bidx = Some ([], repeat (2 * N) (2 * N - 1), costs).
Proof.
  intros HN LP Lb Hp Ht H1. destruct (run_ok log_ N nl P LP Hp Ht bidx Lb HN) as (ms & cs & E & L & G). rewrite E. inversion G; subst.
  - eexists. reflexivity.
  - apply Permutation_length in H. cbn [length] in H. unfold cluster in *. lia.
Qed.
Print Assumptions C84_single_value.

(** *** C85: the costs drop by the losses *)
Section Drop.
Variable log_ : Qc -> Qc.
Variables (nl : nat) (pc : list Qc).
Hypothesis log_mul : forall x y, (0 < x)%Qc -> (0 < y)%Qc -> log_ (x * y)%Qc = (log_ x + log_ y)%Qc.
Definition fits (r : list Qc) : Prop := length r = nl /\ forall c, c < nl -> (0 <= at_ r c)%Qc /\ (at_ r c <> 0%Qc -> (0 < at_ pc c)%Qc).

Lemma qc_nonneg_pos x : (0 <= x)%Qc -> x <> 0%Qc -> (0 < x)%Qc.
Proof. intros H N. apply Qcle_lt_or_eq in H as [H|H]; [exact H|]. now destruct N. Qed.
Lemma qc_sum0 x y : (0 <= x)%Qc -> (0 <= y)%Qc -> (x + y)%Qc = 0%Qc -> x = 0%Qc /\ y = 0%Qc.
Proof.
  intros Hx Hy E. assert (X : x = 0%Qc).
  - apply Qcle_antisym; [|exact Hx]. replace x with (0 - y)%Qc by (rewrite <- E; ring). qc_lra.
  - split; [exact X|]. rewrite X in E. rewrite <- E. ring.
Qed.
Lemma prob_pos r c : fits r -> c < nl -> at_ r c <> 0%Qc -> (0 < prob nl r)%Qc.
Proof.
  intros [L H] Lc Nz. assert (Hp : (0 <= prob nl r)%Qc) by (apply sum_nonneg0; intros; now apply H).
  apply qc_nonneg_pos; [exact Hp|]. intro E. apply Nz. unfold prob in E. refine (sum_nonneg_zero nl (at_ r) _ E c Lc). intros; now apply H.
Qed.
Lemma log_div x y : (0 < x)%Qc -> (0 < y)%Qc -> log_ (x / y)%Qc = (log_ x - log_ y)%Qc.
Proof.
  intros Hx Hy. assert (E : log_ x = (log_ (x / y) + log_ y)%Qc).
  { rewrite <- log_mul; auto.
    - f_equal. field. now apply qc_pos_neq.
    - unfold Qcdiv. pose proof (Qcmult_lt_compat_r 0 x _ (Qcinv_pos y Hy) Hx) as M. now rewrite Qcmult_0_l in M. }
  rewrite E. ring.
Qed.
Lemma qc_mul_pos x y : (0 < x)%Qc -> (0 < y)%Qc -> (0 < x * y)%Qc.
Proof. intros Hx Hy. pose proof (Qcmult_lt_compat_r 0 x y Hy Hx) as M. now rewrite Qcmult_0_l in M. Qed.

Lemma fits_join a b : fits a -> fits b -> fits (join a b).
Proof.
  intros [La Ha] [Lb Hb]. split; [now apply join_length|]. intros c Lc. unfold at_ in *. rewrite (join_nth nl) by auto.
  destruct (Ha c Lc) as [A1 A2], (Hb c Lc) as [B1 B2]. split.
  - replace 0%Qc with (0 + 0)%Qc by ring. now apply Qcplus_le_compat.
  - intro Nz. destruct (Qc_eq_dec (nth c a 0%Qc) 0) as [E|E]; [|auto]. apply B2. intro E'. apply Nz. rewrite E, E'. ring.
Qed.

(** terms of the mutual information with the label probabilities taken out *)
Lemma info_split r c : fits r -> c < nl -> info log_ (at_ r c) (prob nl r * at_ pc c) = (info log_ (at_ r c) (prob nl r) + (- (1)) * (at_ r c * log_ (at_ pc c)))%Qc.
Proof.
  intros F Lc. unfold info, when. destruct (nonnull (at_ r c)) eqn:En.
  - apply nonnull_true in En. pose proof (prob_pos r c F Lc En). destruct F as [L F]. destruct (F c Lc) as [F1 F2]. specialize (F2 En). pose proof (qc_nonneg_pos _ F1 En).
    rewrite !log_div, log_mul by (auto; apply qc_mul_pos; auto). ring.
  - unfold nonnull in En. destruct (Qc_eq_dec (at_ r c) 0) as [E|]; [|discriminate]. rewrite E. ring.
Qed.
Lemma info_prob r c : fits r -> c < nl -> info log_ (at_ r c) (prob nl r) = (when (nonnull (at_ r c)) (at_ r c * log_ (at_ r c)) - at_ r c * log_ (prob nl r))%Qc.
Proof.
  intros F Lc. unfold info, when. destruct (nonnull (at_ r c)) eqn:En.
  - apply nonnull_true in En. pose proof (prob_pos r c F Lc En). destruct F as [L F]. destruct (F c Lc) as [F1 F2]. pose proof (qc_nonneg_pos _ F1 En). rewrite log_div by auto. ring.
  - unfold nonnull in En. destruct (Qc_eq_dec (at_ r c) 0) as [E|]; [|discriminate]. rewrite E. ring.
Qed.
Lemma merge_drop n a ra b rb rest : fits ra -> fits rb ->
  mutual log_ nl pc ((n, join ra rb) :: rest) = (mutual log_ nl pc ((a, ra) :: (b, rb) :: rest) - loss log_ nl ra rb)%Qc.
Proof.
  intros Fa Fb. pose proof (fits_join _ _ Fa Fb) as Fj. cbn [mutual].
  rewrite (qsum_ext nl (fun c => info log_ (at_ (join ra rb) c) _) _ (fun c Lc => info_split _ c Fj Lc)).
  rewrite (qsum_ext nl (fun c => info log_ (at_ ra c) (prob nl ra * _)) _ (fun c Lc => info_split _ c Fa Lc)).
  rewrite (qsum_ext nl (fun c => info log_ (at_ rb c) (prob nl rb * _)) _ (fun c Lc => info_split _ c Fb Lc)).
  rewrite (qsum_ext nl (fun c => (info log_ (at_ (join ra rb) c) (prob nl (join ra rb)) + (- (1)) * (at_ (join ra rb) c * log_ (at_ pc c)))%Qc)
    (fun c => (when (nonnull (at_ ra c) || nonnull (at_ rb c)) ((at_ ra c + at_ rb c) * log_ (at_ ra c + at_ rb c)) +
       ((- log_ (prob nl ra + prob nl rb)) * (at_ ra c + at_ rb c) + (- (1)) * (at_ ra c * log_ (at_ pc c) + at_ rb c * log_ (at_ pc c))))%Qc)).
  2:{ intros c Lc. rewrite info_prob by auto. destruct Fa as [La Ha], Fb as [Lb Hb]. rewrite (prob_join nl) by auto. unfold at_ in *. rewrite (join_nth nl) by auto.
      destruct (Ha c Lc) as [A1 _], (Hb c Lc) as [B1 _].
      replace (nonnull (nth c ra 0 + nth c rb 0)%Qc) with (nonnull (nth c ra 0%Qc) || nonnull (nth c rb 0%Qc)); [ring|].
      apply eq_true_iff_eq. rewrite orb_true_iff, !nonnull_true. split.
      - intros H E. destruct (qc_sum0 _ _ A1 B1 E) as [Ea Eb]. destruct H as [H|H]; [exact (H Ea)|exact (H Eb)].
      - intro H. destruct (Qc_eq_dec (nth c ra 0%Qc) 0) as [Ea|]; [|now left]. right. intro Eb. apply H. rewrite Ea, Eb. ring. }
  rewrite !qsum_add, !qsum_scale, !qsum_add.
  unfold loss. fold (prob nl ra) (prob nl rb).
  change (qsum nl (fun i => at_ ra i)) with (prob nl ra). change (qsum nl (fun i => at_ rb i)) with (prob nl rb). ring.
Qed.

Lemma mutual_rest act a ra b rb rest n : Permutation act ((a, ra) :: (b, rb) :: rest) -> fits ra -> fits rb ->
  mutual log_ nl pc ((n, join ra rb) :: rest) = (mutual log_ nl pc act - loss log_ nl ra rb)%Qc.
Proof. intros Pm Fa Fb. rewrite (merge_drop n a ra b rb rest Fa Fb). now rewrite (mutual_perm log_ nl pc _ _ Pm). Qed.

Lemma descent_ok n act ms cs : greedy log_ nl pc n act ms cs -> (forall x r, In (x, r) act -> fits r) ->
  exists ls, descent log_ nl n act ms ls /\ mutual log_ nl pc act :: cs = running (mutual log_ nl pc act) ls.
Proof.
  induction 1 as [n act L|n act a b ra rb rest ms cs Pm Hmin G IH]; intro F.
  - exists []. split; [constructor|reflexivity].
  - assert (Fa : fits ra) by (apply (F a); apply (Permutation_in _ (Permutation_sym Pm)); now left).
    assert (Fb : fits rb) by (apply (F b); apply (Permutation_in _ (Permutation_sym Pm)); right; now left).
    destruct IH as (ls & D & E).
    { intros x r [I|I]; [injection I as <- <-; now apply fits_join|]. apply (F x). apply (Permutation_in _ (Permutation_sym Pm)). right; now right. }
    exists (loss log_ nl ra rb :: ls). split; [econstructor; eauto|]. cbn [running]. f_equal. rewrite <- (mutual_rest act a ra b rb rest n) by auto. exact E.
Qed.
End Drop.

Theorem C85_costs log_ N nl P bidx ms parents costs :
  (forall x y, (0 < x)%Qc -> (0 < y)%Qc -> log_ (x * y)%Qc = (log_ x + log_ y)%Qc) ->
  0 < N -> length P = N * nl -> length bidx = N -> (forall i, i < N * nl -> (0 <= nth i P 0)%Qc) -> total N nl P <> 0%Qc ->
  aib_run log_ N nl P bidx = Some (ms, parents, costs) ->
  exists ls, descent log_ nl N (occurring N nl P) ms ls /\ length ls = length ms /\
    costs = map Some (running (mutual log_ nl (labels N nl P) (occurring N nl P)) ls) ++ repeat None (N - 1 - length ls).
Proof.
  intros Hl HN LP Lb Hp Ht E. destruct (run_ok log_ N nl P LP Hp Ht bidx Lb HN) as (ms' & cs & E' & L & G). rewrite E in E'. injection E' as <- _ ->.
  destruct (descent_ok log_ nl (labels N nl P) Hl N (occurring N nl P) ms cs G) as (ls & D & R).
  - intros x r I. apply occurring_in in I as (Lx & -> & Hr). split; [now apply joint_length|]. intros c Lc.
    pose proof (joint_nonneg N nl P LP Hp Ht x c Lx Lc) as J. split; [exact J|]. intro Nz. unfold labels, at_ at 1. rewrite nth_map_seq by exact Lc.
    apply qc_nonneg_pos.
    + apply sum_nonneg0. intros; now apply joint_nonneg.
    + intro Z. apply Nz. refine (sum_nonneg_zero N (fun x => at_ (joint N nl P x) c) _ Z x Lx). intros; now apply joint_nonneg.
  - exists ls. split; [exact D|]. assert (Ls : length ls = length ms) by (clear -D; induction D; cbn [length]; auto). split; [exact Ls|].
    rewrite <- R. cbn [map app]. now rewrite L, Ls.
Qed.
Print Assumptions C85_costs.

(** *** Examples *)
(** the exponent of two, a logarithm with rational values *)
Fixpoint v2 (p : positive) : Z := match p with xO p => 1 + v2 p | _ => 0 end.
Definition val (x : Qc) : Qc := zq (v2 (Z.to_pos (Qnum x)) - v2 (Qden x)).
Lemma v2_mul p q : v2 (p * q) = (v2 p + v2 q)%Z.
Proof.
  revert q. induction p as [p IH|p IH|]; intro q.
  - induction q as [q IHq|q IHq|].
    + rewrite Pos.mul_xI_r. reflexivity.
    + rewrite Pos.mul_xO_r. cbn [v2] in *. rewrite IHq. cbn [v2]. lia.
    + rewrite Pos.mul_1_r. reflexivity.
  - change (p~0 * q)%positive with ((p * q)~0)%positive. cbn [v2]. rewrite IH. lia.
  - reflexivity.
Qed.
Lemma val_mul x y : (0 < x)%Qc -> (0 < y)%Qc -> val (x * y)%Qc = (val x + val y)%Qc.
Proof.
  intros Hx Hy. assert (Hz : (0 < x * y)%Qc) by now apply qc_mul_pos.
  unfold val. assert (E : (this (x * y)%Qc == this x * this y)%Q) by apply Qred_correct.
  revert E Hx Hy Hz. unfold Qclt. generalize (this (x * y)%Qc) (this x) (this y). intros [a b] [c d] [e f]. unfold Qeq, Qlt. cbn [Qnum Qden Qmult].
  intros E Hx Hy Hz. change (Qnum (this 0%Qc)) with 0%Z in *. change (QDen (this 0%Qc)) with 1%Z in *.
  destruct a as [|a|a]; try lia. destruct c as [|c|c]; try lia. destruct e as [|e|e]; try lia. cbn [Z.to_pos].
  assert (E' : (a * (d * f) = c * e * b)%positive) by lia. apply (f_equal v2) in E'. rewrite !v2_mul in E'.
  unfold zq. apply Qc_is_canon. cbn [Qcplus]. unfold Qcplus, Q2Qc. cbn [this]. rewrite !Qred_correct. rewrite <- inject_Z_plus.
  replace (v2 a - v2 b)%Z with (v2 c - v2 d + (v2 e - v2 f))%Z by lia. reflexivity.
Qed.

Definition ex_table : list Qc := map zq [1; 0;  3; 1;  0; 0;  2; 4]%Z.
Definition ex_run := aib_run val 4 2 ex_table [9; 9; 9; 9].
Example C24_ex_table : length ex_table = 4 * 2 /\ (forall i, i < 4 * 2 -> (0 <= nth i ex_table 0)%Qc) /\ total 4 2 ex_table <> 0%Qc /\
  map fst (occurring 4 2 ex_table) = [0; 1; 3].
Proof.
  split; [reflexivity|]. split; [|split].
  - intros i L. do 8 (destruct i as [|i]; [discriminate|]). lia.
  - intro E. apply (f_equal this) in E. vm_compute in E. discriminate.
  - vm_compute. reflexivity.
Qed.
Example C25_ex_run : option_map (fun '(ms, parents, costs) => (ms, parents, map (option_map this) costs)) ex_run =
  Some ([(0, 1); (4, 3)], [4; 4; 8; 5; 5; 0; 8], [Some (-10 # 11)%Q; Some (6 # 11)%Q; Some 0%Q; None]).
Proof. vm_compute. reflexivity. Qed.
Example C85_ex_log : (forall x y, (0 < x)%Qc -> (0 < y)%Qc -> val (x * y)%Qc = (val x + val y)%Qc) /\ val (zq 12) <> 0%Qc.
Proof. split; [exact val_mul|]. intro E. apply (f_equal this) in E. vm_compute in E. discriminate. Qed.
(** C25_mass: the object made from the table *)
Example C25_ex_mass : exists s pc s', new_aib 4 2 ex_table [9; 9; 9; 9] = Some (s, pc) /\ wf 4 2 s /\ merge_nodes 2 s 3 1 4 = Some s' /\
  map this (px s) = [1 # 11; 4 # 11; 0; 6 # 11]%Q /\ nentries s' = 3 /\ map this (firstn 3 (px s')) = [1 # 11; 10 # 11; 0]%Q.
Proof.
  destruct (C25_start val 4 2 ex_table [9; 9; 9; 9]) as (s & E & W & En & _); try apply C24_ex_table; try reflexivity; [lia|].
  exists s, (labels 4 2 ex_table). destruct (C25_mass 4 2 s 3 1 4 W) as (s' & E' & _); try lia. exists s'.
  assert (X : option_map (fun '(s, pc) => (map this (px s), option_map (fun s' => (nentries s', map this (firstn 3 (px s')))) (merge_nodes 2 s 3 1 4))) (new_aib 4 2 ex_table [9; 9; 9; 9])
    = Some ([1 # 11; 4 # 11; 0; 6 # 11]%Q, Some (3, [1 # 11; 10 # 11; 0]%Q))) by (vm_compute; reflexivity).
  rewrite E in X. cbn [option_map] in X. rewrite E' in X. cbn [option_map] in X. injection X as X1 X2 X3. repeat split; auto; apply W.
Qed.

(** C84: the documentation gives the parent of the root as zero; with one value of positive
    probability the root is that value, its parent 2 N *)
Theorem C84_root_parent_refuted : exists P, length P = 2 * 2 /\ (forall i, i < 2 * 2 -> (0 <= nth i P 0)%Qc) /\ total 2 2 P <> 0%Qc /\
  map fst (occurring 2 2 P) = [1] /\
  exists costs, aib_run val 2 2 P [0; 0] = Some ([], [4; 4; 4], costs).
Proof.
  exists (map zq [0; 0; 3; 1]%Z). split; [reflexivity|]. split; [|split; [|split]].
  - intros i L. do 4 (destruct i as [|i]; [discriminate|]). lia.
  - intro E. apply (f_equal this) in E. vm_compute in E. discriminate.
  - vm_compute. reflexivity.
  - apply (C84_single_value val 2 2); try reflexivity; try lia.
    + intros i L. do 4 (destruct i as [|i]; [discriminate|]). lia.
    + intro E. apply (f_equal this) in E. vm_compute in E. discriminate.
Qed.
Print Assumptions C84_root_parent_refuted.
