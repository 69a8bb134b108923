(** Proofs about the Fisher vectors. *)
From Coq Require Import List Arith Lia Bool Reals Lra Permutation.
From Verif Require Import Base Loop Table MserSort_Proofs ImOp_Spec ImOp_Proofs Gmm_Model Gmm_Spec Gmm_Proofs Fisher_Model Fisher_Spec.
Import ListNotations.
Local Open Scope R_scope.

Lemma heavy_ltb r : ltb r min_prior = negb (heavy r).
Proof. unfold ltb, heavy, min_prior. destruct (Rlt_dec r (/ 1000000)); reflexivity. Qed.
Lemma count_le n P : (count n P <= n)%nat.
Proof. induction n as [|n IH]; cbn [count]; [lia|]. destruct (P n); lia. Qed.
Lemma ntotal_le n f c : (forall k, (k < n)%nat -> (f k <= c)%nat) -> (ntotal n f <= n * c)%nat.
Proof. induction n as [|n IH]; intro H; cbn [ntotal]; [lia|]. pose proof (IH ltac:(auto)). pose proof (H n ltac:(lia)). nia. Qed.
Lemma ntotal_ext n f g : (forall k, (k < n)%nat -> f k = g k) -> ntotal n f = ntotal n g.
Proof. induction n as [|n IH]; intro H; [reflexivity|]. cbn [ntotal]. rewrite IH by auto. now rewrite H by lia. Qed.
Lemma ntotal_add n f g : ntotal n (fun k => f k + g k)%nat = (ntotal n f + ntotal n g)%nat.
Proof. induction n as [|n IH]; [reflexivity|]. cbn [ntotal]. lia. Qed.
Lemma ntotal_zero n : ntotal n (fun _ => 0%nat) = 0%nat.
Proof. induction n as [|n IH]; [reflexivity|]. cbn [ntotal]. lia. Qed.
Lemma ntotal_single n k : (k < n)%nat -> ntotal n (fun i => if (i =? k)%nat then 1 else 0)%nat = 1%nat.
Proof.
  induction n as [|n IH]; intro L; [lia|]. cbn [ntotal]. destruct (Nat.eqb_spec n k) as [->|Ne].
  - rewrite (ntotal_ext k _ (fun _ => 0%nat)), ntotal_zero; [reflexivity|]. intros i Li. destruct (Nat.eqb_spec i k); [lia|reflexivity].
  - rewrite IH by lia. lia.
Qed.
Lemma count_ntotal n P : count n P = ntotal n (fun i => if P i then 1 else 0)%nat.
Proof. induction n as [|n IH]; [reflexivity|]. cbn [count ntotal]. now rewrite IH. Qed.
Lemma ntotal_swap n m (f : nat -> nat -> nat) : ntotal n (fun i => ntotal m (f i)) = ntotal m (fun j => ntotal n (fun i => f i j)).
Proof.
  induction n as [|n IH]; cbn [ntotal]; [now rewrite ntotal_zero|]. rewrite IH, <- ntotal_add. reflexivity.
Qed.
Lemma ntotal_list n f : ntotal n f = list_sum (map f (seq 0 n)).
Proof. induction n as [|n IH]; [reflexivity|]. cbn [ntotal]. rewrite seq_S, map_app, list_sum_app, IH. cbn. lia. Qed.

Lemma argmax_lt n f : (argmax n f <= n)%nat.
Proof. induction n as [|n IH]; cbn [argmax]; [lia|]. destruct (Rlt_dec _ _); lia. Qed.
Lemma argmax_max n f k : (k <= n)%nat -> f k <= f (argmax n f).
Proof.
  induction n as [|n IH]; intro L; cbn [argmax]; [replace k with 0%nat by lia; lra|].
  destruct (Nat.eq_dec k (S n)) as [->|Ne]; destruct (Rlt_dec (f (argmax n f)) (f (S n))) as [Q|Q]; try lra; pose proof (IH ltac:(lia)); lra.
Qed.

(** a loop over two rows of one matrix *)
Lemma pair_loop R_ D body g h a b l F : (a < R_)%nat -> (b < R_)%nat -> a <> b -> table 0 R_ D l F ->
  (forall d l F, (d < D)%nat -> table 0 R_ D l F -> exists l', body d l = Some l' /\
     table 0 R_ D l' (upd2 (upd2 F a d (g d (F a d))) b d (h d (F b d)))) ->
  exists l', iter D body l = Some l' /\
    table 0 R_ D l' (fun r d => if (r =? a)%nat then g d (F a d) else if (r =? b)%nat then h d (F b d) else (F r d : R)).
Proof.
  intros La Lb Ne Hf B.
  set (part := fun j r d => if (d <? j)%nat then (if (r =? a)%nat then g d (F a d) else if (r =? b)%nat then h d (F b d) else F r d) else F r d).
  destruct (iter_inv (fun j l' => table 0 R_ D l' (part j)) body D l) as (l' & E & H).
  - exact Hf.
  - intros j e Lj He. destruct (B j e _ Lj He) as (e' & E & He'). exists e'. split; [exact E|].
    apply (table_ext _ _ _ _ _ _ He'). intros r d Lr Ld. unfold upd2, part. rewrite Nat.ltb_irrefl.
    destruct (Nat.eq_dec d j) as [->|Nd].
    + rewrite Nat.eqb_refl, Nat.ltb_irrefl. destruct (Nat.ltb_spec j (j + 1)); [|lia].
      destruct (Nat.eqb_spec r a), (Nat.eqb_spec r b); subst; try contradiction; reflexivity.
    + destruct (Nat.eqb_spec d j); [contradiction|]. rewrite !andb_false_r.
      destruct (Nat.ltb_spec d j), (Nat.ltb_spec d (j + 1)); auto; lia.
  - exists l'. split; [exact E|]. apply (table_ext _ _ _ _ _ _ H). intros r d Lr Ld. unfold part.
    destruct (Nat.ltb_spec d D); [reflexivity|lia].
Qed.

Section Fisher.
Variables (D K N : nat) (p : params) (data : list R).
Variables (x mu v : nat -> nat -> R) (pi : nat -> R).
Hypothesis Kp : (0 < K)%nat.
Hypothesis Hx : table 0 N D data x.
Hypothesis Hm : table 0 K D (p_means p) mu.
Hypothesis Hv : table 0 K D (p_covs p) v.
Hypothesis Hp : row 0 K (p_priors p) pi.
Hypothesis Pv : forall k d, (k < K)%nat -> (d < D)%nat -> 0 < v k d.

Lemma sqrt_inv_ok : exists isg, sqrt_inv D K (p_covs p) = Some isg /\ table 0 K D isg (fun k d => / sqrt (v k d)).
Proof.
  unfold sqrt_inv. destruct Hv as [Lv Vv].
  assert (P : forall i, (i < K * D)%nat -> 0 < nth i (p_covs p) 0).
  { intros i L. assert (D <> 0)%nat by (intros ->; lia).
    pose proof (Nat.div_mod i D ltac:(auto)) as E. pose proof (Nat.mod_upper_bound i D ltac:(auto)) as U.
    assert (Q : (i / D < K)%nat) by (apply Nat.div_lt_upper_bound; lia).
    rewrite E, Nat.mul_comm, Vv by auto. apply Pv; auto. }
  rewrite (build_ok _ _ (fun i => sqrt (1 / nth i (p_covs p) 0))).
  - eexists; split; [reflexivity|]. split; [rewrite map_length; apply seq_length|]. intros k d Lk Ld.
    pose proof (cell_lt K D k d Lk Ld) as L. rewrite (proj2 (row_map 0 _ _) _ L). rewrite Vv by auto.
    unfold Rdiv. rewrite Rmult_1_l. apply R_sqrt.sqrt_inv.
  - intros i L. rewrite (aget_nth _ _ 0) by lia. cbn [obind]. pose proof (P i L). destruct (Rle_dec _ _); [lra|reflexivity].
Qed.

(** ** Fast assignments *)
Lemma best_mode_ok post q i : table 0 N K post q -> (i < N)%nat -> best_mode K post i = Some (argmax (K - 1) (q i)).
Proof.
  intros Hq Li. unfold best_mode. replace (i * K)%nat with (i * K + 0)%nat at 1 by lia. rewrite (table_get 0 N K _ _ i 0%nat Hq Li Kp). cbn [obind].
  match goal with |- obind (iter _ ?body _) _ = _ =>
    destruct (iter_inv (fun n s => s = (q i (argmax n (q i)), argmax n (q i))) body (K - 1) (q i 0%nat, 0%nat)) as (s & E & ->) end.
  - reflexivity.
  - intros c s Lc ->. rewrite Nat.add_comm, (table_get 0 N K _ _ i (S c) Hq Li) by lia. cbn [obind].
    eexists; split; [reflexivity|]. rewrite Nat.add_1_r. cbn [argmax]. rewrite ltb_if. destruct (Rlt_dec _ _); reflexivity.
  - rewrite E. reflexivity.
Qed.
Lemma sparsify_ok post q : table 0 N K post q -> exists post', sparsify K N post = Some post' /\ table 0 N K post' (hard K q).
Proof.
  intro Hq. unfold sparsify.
  match goal with |- exists _, iter N ?body post = _ /\ _ =>
    destruct (iter_inv (fun n l => table 0 N K l (fun i k => if (i <? n)%nat then hard K q i k else q i k)) body N post) as (l & E & H) end.
  - exact Hq.
  - intros i l Li H. rewrite (best_mode_ok _ _ i H Li). cbn [obind]. rewrite Nat.ltb_irrefl.
    replace (argmax (K - 1) (fun k => q i k)) with (argmax (K - 1) (q i)) by reflexivity.
    destruct (line_loop 0 N K (fun k post => aset post (k + i * K) (if (k =? argmax (K - 1) (q i))%nat then 1 else 0))
      (fun k _ => hard K q i k) i l _ Li H) as (l' & E & H').
    + intros k l1 F Lk Hl. rewrite Nat.add_comm. destruct (table_set 0 N K l1 F i k (hard K q i k) Hl Li Lk) as [E T]. unfold hard in E at 1. eauto.
    + exists l'. split; [exact E|]. apply (table_ext _ _ _ _ _ _ H'). intros i' k _ _.
      destruct (Nat.eqb_spec i' i) as [->|Ni]; [destruct (Nat.ltb_spec i (i + 1)); [reflexivity|lia]|].
      destruct (Nat.ltb_spec i' i), (Nat.ltb_spec i' (i + 1)); auto; lia.
  - exists l. split; [exact E|]. apply (table_ext _ _ _ _ _ _ H). intros i k Li _. destruct (Nat.ltb_spec i N); [reflexivity|lia].
Qed.

(** ** One mode *)
Section Mode.
Variables (post isg : list R) (q : nat -> nat -> R).
Hypothesis Hq : table 0 N K post q.
Hypothesis Hi : table 0 K D isg (fun k d => / sqrt (v k d)).

Notation sc := (score x mu v).
Definition with_rows (k : nat) (F : nat -> nat -> R) (g h : nat -> R) (r d : nat) : R :=
  if (r =? k)%nat then g d else if (r =? K + k)%nat then h d else F r d.
Lemma add_datum_ok k i enc terms F g h : (k < K)%nat -> (i < N)%nat -> table 0 (K + K) D enc (with_rows k F g h) ->
  exists enc', add_datum D K (p_means p) isg data post k i (enc, terms) = Some (enc', (terms + if heavy (q i k) then 1 else 0)%nat) /\
    table 0 (K + K) D enc' (with_rows k F (fun d => g d + kept q i k * sc i k d) (fun d => h d + kept q i k * (sc i k d ^ 2 - 1))).
Proof.
  intros Lk Li He. unfold add_datum. rewrite Nat.add_comm, (table_get 0 N K _ _ i k Hq Li Lk). cbn [obind].
  rewrite heavy_ltb. unfold kept. destruct (heavy (q i k)); cbn [negb].
  2:{ exists enc. rewrite Nat.add_0_r. split; [reflexivity|]. apply (table_ext _ _ _ _ _ _ He). intros r d _ _. unfold with_rows.
      destruct (r =? k)%nat; [ring|]. destruct (r =? K + k)%nat; [ring|reflexivity]. }
  match goal with |- exists _, obind (iter D ?body enc) _ = _ /\ _ =>
    destruct (pair_loop (K + K) D body (fun d z => z + q i k * sc i k d) (fun d z => z + q i k * (sc i k d ^ 2 - 1)) k (K + k)%nat enc _
      ltac:(lia) ltac:(lia) ltac:(lia) He) as (enc' & E & H') end.
  - intros d l G Ld Hl. rewrite (table_get 0 N D _ _ i d Hx Li Ld). cbn [obind]. rewrite (table_get 0 K D _ _ k d Hm Lk Ld). cbn [obind].
    rewrite (table_get 0 K D _ _ k d Hi Lk Ld). cbn [obind].
    destruct (table_modify 0 (K + K) D l G k d (fun z => z + q i k * ((x i d - mu k d) * / sqrt (v k d))) Hl ltac:(lia) Ld) as (l1 & E1 & T1).
    rewrite E1. cbn [obind].
    destruct (table_modify 0 (K + K) D l1 _ (K + k) d (fun z => z + q i k * (((x i d - mu k d) * / sqrt (v k d)) * ((x i d - mu k d) * / sqrt (v k d)) - 1)) T1 ltac:(lia) Ld) as (l2 & E2 & T2).
    replace (k * D + K * D + d)%nat with ((K + k) * D + d)%nat by lia. rewrite E2. exists l2. split; [reflexivity|].
    apply (table_ext _ _ _ _ _ _ T2). intros r d' _ _. unfold upd2, score, Rdiv.
    destruct (Nat.eqb_spec (K + k) k); [lia|]. cbn [andb].
    destruct (r =? K + k)%nat, (d' =? d)%nat, (r =? k)%nat; cbn [andb]; auto; ring.
  - rewrite E. cbn [obind]. exists enc'. split; [reflexivity|]. apply (table_ext _ _ _ _ _ _ H'). intros r d _ _. unfold with_rows.
    destruct (Nat.eqb_spec (K + k) k); [lia|]. rewrite !Nat.eqb_refl.
    destruct (r =? k)%nat; [reflexivity|]. destruct (r =? K + k)%nat; reflexivity.
Qed.
Lemma encode_mode_ok k enc terms F : (k < K)%nat -> table 0 (K + K) D enc F ->
  (forall d, (d < D)%nat -> F k d = 0 /\ F (K + k)%nat d = 0) ->
  exists enc', encode_mode D K p isg data N post k (enc, terms) =
      Some (enc', (terms + if heavy (pi k) then count N (fun i => heavy (q i k)) else 0)%nat) /\
    table 0 (K + K) D enc' (with_rows k F (first_order N x mu v q pi k) (second_order N x mu v q pi k)).
Proof.
  intros Lk He Z. unfold encode_mode. rewrite (row_get 0 K _ _ k Hp Lk). cbn [obind]. rewrite heavy_ltb.
  unfold first_order, second_order. destruct (heavy (pi k)) eqn:Hk; cbn [negb].
  2:{ exists enc. rewrite Nat.add_0_r. split; [reflexivity|]. apply (table_ext _ _ _ _ _ _ He). intros r d _ Ld. unfold with_rows.
      destruct (Z d Ld). destruct (Nat.eqb_spec r k) as [->|]; [auto|]. destruct (Nat.eqb_spec r (K + k)) as [->|]; auto. }
  destruct (iter_inv (fun n s => snd s = (terms + count n (fun i => heavy (q i k)))%nat /\
     table 0 (K + K) D (fst s) (with_rows k F (fun d => total n (fun i => kept q i k * sc i k d)) (fun d => total n (fun i => kept q i k * (sc i k d ^ 2 - 1)))))
     (add_datum D K (p_means p) isg data post k) N (enc, terms)) as ([e1 t1] & E1 & T1 & H1).
  - cbn [fst snd count sum]. split; [lia|]. apply (table_ext _ _ _ _ _ _ He). intros r d _ Ld. unfold with_rows.
    destruct (Z d Ld). destruct (Nat.eqb_spec r k) as [->|]; [auto|]. destruct (Nat.eqb_spec r (K + k)) as [->|]; auto.
  - intros i [e t] Li [Et He']. cbn [fst snd] in *.
    destruct (add_datum_ok k i e t F _ _ Lk Li He') as (e' & E & H'). exists (e', (t + if heavy (q i k) then 1 else 0)%nat). split; [exact E|].
    cbn [fst snd]. rewrite Nat.add_1_r. cbn [count sum]. split; [lia|]. exact H'.
  - rewrite E1. cbn [obind fst snd] in *. subst t1. destruct (Nat.eqb_spec N 0) as [N0|N0].
    + exists e1. split; [reflexivity|]. apply (table_ext _ _ _ _ _ _ H1). intros r d _ _. unfold with_rows. rewrite N0. cbn [sum].
      unfold Rdiv. destruct (r =? k)%nat; [ring|]. destruct (r =? K + k)%nat; [ring|reflexivity].
    + match goal with |- exists _, obind (iter D ?body e1) _ = _ /\ _ =>
        destruct (pair_loop (K + K) D body (fun d z => z * (1 / (INR N * sqrt (pi k)))) (fun d z => z * (1 / (INR N * sqrt (2 * pi k)))) k (K + k)%nat e1 _
          ltac:(lia) ltac:(lia) ltac:(lia) H1) as (enc' & E & H') end.
      * intros d l G Ld Hl.
        destruct (table_modify 0 (K + K) D l G k d (fun z => z * (1 / (INR N * sqrt (pi k)))) Hl ltac:(lia) Ld) as (l1 & E2 & T2).
        rewrite E2. cbn [obind].
        destruct (table_modify 0 (K + K) D l1 _ (K + k) d (fun z => z * (1 / (INR N * sqrt (2 * pi k)))) T2 ltac:(lia) Ld) as (l2 & E3 & T3).
        replace (k * D + K * D + d)%nat with ((K + k) * D + d)%nat by lia. rewrite E3. exists l2. split; [reflexivity|].
        apply (table_ext _ _ _ _ _ _ T3). intros r d' _ _. unfold upd2.
        destruct (Nat.eqb_spec (K + k) k); [lia|]. cbn [andb]. destruct (r =? K + k)%nat, (d' =? d)%nat, (r =? k)%nat; cbn [andb]; auto.
      * rewrite E. cbn [obind]. exists enc'. split; [reflexivity|]. apply (table_ext _ _ _ _ _ _ H'). intros r d _ _. unfold with_rows.
        destruct (Nat.eqb_spec (K + k) k); [lia|]. rewrite !Nat.eqb_refl.
        destruct (r =? k)%nat; [unfold Rdiv; ring|]. destruct (r =? K + k)%nat; [unfold Rdiv; ring|reflexivity].
Qed.
Lemma modes_ok modes : Permutation modes (seq 0 K) ->
  exists enc, over modes (encode_mode D K p isg data N post) (repeat 0 (2 * D * K), 0%nat) = Some (enc, terms K N q pi) /\
    table 0 (K + K) D enc (fisher_vector K N x mu v q pi).
Proof.
  intro P.
  assert (ND : NoDup modes) by (apply (Permutation_NoDup (Permutation_sym P)), seq_NoDup).
  set (tk := fun k => if heavy (pi k) then count N (fun i => heavy (q i k)) else 0%nat).
  set (done := fun (dn : list nat) r d => if in_dec Nat.eq_dec (if (r <? K)%nat then r else (r - K)%nat) dn then fisher_vector K N x mu v q pi r d else 0).
  assert (Q : forall order dn s, NoDup (dn ++ order) -> (forall k, In k order -> (k < K)%nat) ->
    snd s = list_sum (map tk dn) -> table 0 (K + K) D (fst s) (done dn) ->
    exists enc, over order (encode_mode D K p isg data N post) s = Some (enc, list_sum (map tk (dn ++ order))) /\ table 0 (K + K) D enc (done (dn ++ order))).
  { induction order as [|k order IH]; intros dn [enc t] Nd B Et He; cbn [over fst snd] in *.
    - exists enc. rewrite app_nil_r. subst t. auto.
    - assert (Lk : (k < K)%nat) by (apply B; now left).
      assert (Nk : ~ In k dn) by (apply NoDup_remove_2 in Nd; intro I; apply Nd, in_or_app; now left).
      destruct (encode_mode_ok k enc t _ Lk He) as (e' & E & H').
      + intros d Ld. unfold done. destruct (Nat.ltb_spec k K); [|lia]. destruct (Nat.ltb_spec (K + k) K); [lia|].
        replace (K + k - K)%nat with k by lia. destruct (in_dec Nat.eq_dec k dn); [contradiction|auto].
      + rewrite E. cbn [obind].
        destruct (IH (dn ++ [k]) (e', (t + tk k)%nat)) as (e2 & E2 & H2).
        * now rewrite <- app_assoc.
        * intros k' I. apply B. now right.
        * cbn [snd]. subst t. rewrite map_app, list_sum_app. cbn. lia.
        * cbn [fst]. apply (table_ext _ _ _ _ _ _ H'). intros r d Lr Ld. unfold with_rows, done.
          set (m := if (r <? K)%nat then r else (r - K)%nat).
          assert (M : m = k <-> (r = k \/ r = K + k)%nat) by (unfold m; destruct (Nat.ltb_spec r K); lia).
          destruct (Nat.eqb_spec r k) as [Er|Er].
          { destruct (in_dec Nat.eq_dec m (dn ++ [k])) as [_|J]; [|destruct J; apply in_or_app; right; left; symmetry; tauto].
            unfold fisher_vector. subst r. destruct (Nat.ltb_spec k K); [reflexivity|lia]. }
          destruct (Nat.eqb_spec r (K + k)) as [Er2|Er2].
          { destruct (in_dec Nat.eq_dec m (dn ++ [k])) as [_|J]; [|destruct J; apply in_or_app; right; left; symmetry; tauto].
            unfold fisher_vector. subst r. destruct (Nat.ltb_spec (K + k) K); [lia|]. now replace (K + k - K)%nat with k by lia. }
          destruct (in_dec Nat.eq_dec m dn) as [J|J], (in_dec Nat.eq_dec m (dn ++ [k])) as [J2|J2]; auto.
          { destruct J2. apply in_or_app. now left. }
          { apply in_app_or in J2 as [J2|[J2|[]]]; [contradiction|]. exfalso. symmetry in J2. tauto. }
        * exists e2. rewrite <- app_assoc in E2, H2. auto. }
  destruct (Q modes [] (repeat 0 (2 * D * K), 0%nat)) as (enc & E & H).
  - exact ND.
  - intros k I. apply (Permutation_in _ P), in_seq in I. lia.
  - reflexivity.
  - cbn [fst]. replace (2 * D * K)%nat with ((K + K) * D)%nat by lia. apply table_repeat.
  - cbn [app] in *. exists enc. split.
    + rewrite E. do 2 f_equal. unfold terms. rewrite ntotal_list. fold tk. apply Permutation_list_sum, Permutation_map, P.
    + apply (table_ext _ _ _ _ _ _ H). intros r d Lr Ld. unfold done. destruct (in_dec Nat.eq_dec _ modes) as [J|J]; [reflexivity|].
      destruct J. apply (Permutation_in _ (Permutation_sym P)), in_seq. destruct (Nat.ltb_spec r K); lia.
Qed.
End Mode.

Hypothesis Some_mode : exists k, (k < K)%nat /\ / 1000000 <= pi k.
(** the assignments used *)
Definition assignments (fast : bool) : nat -> nat -> R :=
  if fast then hard K (posterior D K x mu v pi) else posterior D K x mu v pi.
Lemma encode_ok junk order modes f : Permutation order (seq 0 N) -> Permutation modes (seq 0 K) ->
  exists enc, table 0 (K + K) D enc (fisher_vector K N x mu v (assignments (f_fast f)) pi) /\
    encode D K junk order modes p data N f =
      Some ((let enc := if f_square_root f then map signed_sqrt enc else enc in if f_normalized f then normalized enc else enc),
            terms K N (assignments (f_fast f)) pi).
Proof.
  intros P1 P2. unfold encode. destruct sqrt_inv_ok as (isg & E & Hi). rewrite E. cbn [obind].
  destruct (expectation_ok D K p data N x mu v pi Hx Hm Hv Hp Pv Some_mode order (map junk (seq 0 (N * K))) _ P1
    (table_of 0 N K _ ltac:(rewrite map_length; apply seq_length))) as (post & E1 & T1). rewrite E1. cbn [obind].
  assert (X : exists post', (if f_fast f then sparsify K N post else Some post) = Some post' /\ table 0 N K post' (assignments (f_fast f))).
  { unfold assignments. destruct (f_fast f); [now apply sparsify_ok|eauto]. }
  destruct X as (post' & E2 & T2). rewrite E2. cbn [obind].
  destruct (modes_ok post' isg _ T2 Hi modes P2) as (enc & E3 & T3). rewrite E3. cbn [obind].
  exists enc. split; [exact T3|reflexivity].
Qed.
Lemma terms_fast : terms K N (hard K (posterior D K x mu v pi)) pi = N.
Proof.
  unfold terms.
  assert (B : forall i, heavy (pi (argmax (K - 1) (posterior D K x mu v pi i))) = true /\ (argmax (K - 1) (posterior D K x mu v pi i) < K)%nat).
  { intro i. set (b := argmax (K - 1) (posterior D K x mu v pi i)).
    assert (Lb : (b < K)%nat) by (pose proof (argmax_lt (K - 1) (posterior D K x mu v pi i)); unfold b; lia). split; [|exact Lb].
    unfold heavy. destruct (Rlt_dec (pi b) (/ 1000000)) as [Q|Q]; [|reflexivity]. exfalso.
    destruct Some_mode as (k & Lk & Pk).
    pose proof (argmax_max (K - 1) (posterior D K x mu v pi i) k ltac:(lia)) as M. fold b in M.
    assert (Zb : posterior D K x mu v pi i b = 0) by (unfold posterior; rewrite (proj2 (weight_zero pi b) Q); unfold Rdiv; ring).
    assert (Pp : 0 < posterior D K x mu v pi i k).
    { unfold posterior. apply Rdiv_lt_0_compat; [|apply mixture_pos; auto]. apply Rmult_lt_0_compat; [|now apply (density_pos D K x mu v Pv)].
      unfold weight. destruct (Rlt_dec (pi k) (/ 1000000)); lra. }
    lra. }
  rewrite (ntotal_ext K _ (fun k => ntotal N (fun i => if (k =? argmax (K - 1) (posterior D K x mu v pi i))%nat then 1 else 0)%nat)).
  - rewrite ntotal_swap. rewrite (ntotal_ext N _ (fun _ => 1%nat)).
    + clear. induction N as [|n IH]; [reflexivity|]. cbn [ntotal]. lia.
    + intros i _. apply ntotal_single. apply B.
  - intros k Lk. rewrite count_ntotal. destruct (heavy (pi k)) eqn:Hk.
    + apply ntotal_ext. intros i _. unfold hard. destruct (k =? _)%nat; unfold heavy; destruct (Rlt_dec _ _); auto; lra.
    + rewrite (ntotal_ext N _ (fun _ => 0%nat)), ntotal_zero; [reflexivity|]. intros i _.
      destruct (Nat.eqb_spec k (argmax (K - 1) (posterior D K x mu v pi i))) as [->|]; [|reflexivity].
      rewrite (proj1 (B i)) in Hk. discriminate.
Qed.
End Fisher.

(** ** Square roots and norms *)
Lemma signed_sqrt_square z : signed_sqrt z * Rabs (signed_sqrt z) = z.
Proof.
  unfold signed_sqrt. destruct (Rle_dec 0 z) as [P|P].
  - rewrite Rabs_pos_eq by apply sqrt_pos. now apply sqrt_def.
  - rewrite Rabs_Ropp, Rabs_pos_eq by apply sqrt_pos. pose proof (sqrt_def (- z) ltac:(lra)). lra.
Qed.
Lemma table_map R_ D l F (g : R -> R) : table 0 R_ D l F -> g 0 = 0 -> table 0 R_ D (map g l) (fun r d => g (F r d)).
Proof.
  intros [L H] G. split; [now rewrite map_length|]. intros r d Lr Ld. rewrite <- G at 1. rewrite map_nth. now rewrite H.
Qed.
Lemma square_sum l : forall a, fold_left (fun n z => n + z * z) l a = a + fold_left (fun n z => n + z * z) l 0.
Proof.
  induction l as [|z l IH]; intro a; cbn [fold_left]; [ring|]. rewrite IH, (IH (0 + z * z)). ring.
Qed.
Lemma fold_row n l f : row 0 n l f -> fold_left (fun n z => n + z * z) l 0 = total n (fun i => f i ^ 2).
Proof.
  intros [L H]. subst n. revert f H. induction l as [|z l IH] using rev_ind; intros f H; [reflexivity|].
  rewrite fold_left_app, app_length, Nat.add_1_r. cbn [fold_left sum]. rewrite (IH f).
  - rewrite <- (H (length l)) by (rewrite app_length; cbn; lia). rewrite app_nth2, Nat.sub_diag by lia. cbn [nth]. ring.
  - intros i Li. rewrite <- H by (rewrite app_length; lia). now rewrite app_nth1.
Qed.
Lemma rsum_app n m f : total (n + m) f = total n f + total m (fun i => f (n + i)%nat).
Proof. induction m as [|m IH]; [rewrite Nat.add_0_r; cbn; ring|]. rewrite Nat.add_succ_r. cbn [sum]. rewrite IH. ring. Qed.
Lemma fold_table R_ D l F : table 0 R_ D l F -> fold_left (fun n z => n + z * z) l 0 = norm2 R_ D F.
Proof.
  intros [L H]. rewrite (fold_row (R_ * D) l (fun i => nth i l 0)) by (now apply row_of). unfold norm2.
  clear L. induction R_ as [|R' IH]; [reflexivity|]. cbn [sum]. rewrite <- IH by (intros; apply H; lia).
  replace (S R' * D)%nat with (R' * D + D)%nat by lia. rewrite rsum_app. f_equal. apply rsum_ext. intros d Ld. now rewrite H by lia.
Qed.
Lemma normalized_ok R_ D l F : table 0 R_ D l F -> table 0 R_ D (normalized l) (fun r d => F r d / Rmax (sqrt (norm2 R_ D F)) 1e-12).
Proof.
  intro T. unfold normalized. rewrite (fold_table R_ D l F T). apply (table_map R_ D l F (fun z => z / Rmax (sqrt (norm2 R_ D F)) 1e-12) T).
  unfold Rdiv. ring.
Qed.
Lemma norm2_scale R_ D F c : norm2 R_ D (fun r d => F r d / c) = norm2 R_ D F * (/ c) ^ 2.
Proof.
  unfold norm2. rewrite (Rmult_comm (total R_ _)), <- rsum_scale. apply rsum_ext. intros r _. rewrite <- rsum_scale. apply rsum_ext. intros d _. unfold Rdiv. ring.
Qed.
Lemma norm2_unit R_ D F : 1e-24 <= norm2 R_ D F -> norm2 R_ D (fun r d => F r d / Rmax (sqrt (norm2 R_ D F)) 1e-12) = 1.
Proof.
  intro L. assert (S1 : 1e-12 <= sqrt (norm2 R_ D F)).
  { replace 1e-12 with (sqrt (1e-12 * 1e-12)) by (apply sqrt_square; lra). apply sqrt_le_1; lra. }
  rewrite Rmax_left by exact S1. rewrite norm2_scale. pose proof (sqrt_def (norm2 R_ D F) ltac:(lra)) as E.
  set (s := sqrt (norm2 R_ D F)) in *. rewrite <- E. field. lra.
Qed.
