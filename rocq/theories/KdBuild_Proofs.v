(** Proofs about the construction of kd-trees. *)
From Coq Require Import List ZArith Arith Bool Lia Permutation Sorted.
From Verif Require Import Base Heap_Model KdTree_Model KdTree_Spec Qsort_Proofs.
Import ListNotations.
Local Open Scope nat_scope.

(** * Ranges of lists *)
Section Ranges.
  Context {A : Type}.
  Implicit Types l : list A.

  Lemma nth_error_range l b e k :
    nth_error (range l b e) k = if k <? e - b then nth_error l (b + k) else None.
  Proof.
    unfold range. now rewrite nth_error_firstn, nth_error_skipn.
  Qed.

  Lemma range_length l b e : e <= length l -> length (range l b e) = e - b.
  Proof. intro. unfold range. rewrite firstn_length, skipn_length. lia. Qed.

  Lemma range_ext l l' b e :
    (forall i, b <= i < e -> nth_error l' i = nth_error l i) -> range l' b e = range l b e.
  Proof.
    intro H. apply nth_error_ext'. intro k. rewrite !nth_error_range.
    destruct (Nat.ltb_spec k (e - b)); auto. apply H. lia.
  Qed.

  Lemma range_split l b s e : b <= s <= e -> range l b e = range l b s ++ range l s e.
  Proof.
    intro H. unfold range.
    replace (e - b) with ((s - b) + (e - s)) by lia.
    rewrite <- (firstn_skipn (s - b) (skipn b l)) at 1.
    set (u := skipn b l).
    assert (E : skipn s l = skipn (s - b) u).
    { unfold u. apply nth_error_ext'. intro k. rewrite !nth_error_skipn. f_equal. lia. }
    rewrite E. clear E. generalize (s - b) (e - s). intros p q.
    rewrite firstn_skipn. revert p. clearbody u. clear. induction u; intros p; cbn.
    - now rewrite !firstn_nil, skipn_nil, firstn_nil.
    - destruct p; cbn; [reflexivity|]. now rewrite IHu.
  Qed.

  Lemma range_one l b x : nth_error l b = Some x -> range l b (S b) = [x].
  Proof.
    intro H. apply nth_error_ext'. intro k. rewrite nth_error_range.
    destruct k as [|k].
    - destruct (Nat.ltb_spec 0 (S b - b)); [|lia]. rewrite Nat.add_0_r. rewrite H. reflexivity.
    - destruct (Nat.ltb_spec (S k) (S b - b)); [lia|]. destruct k; reflexivity.
  Qed.

  Lemma range_all l : range l 0 (length l) = l.
  Proof. unfold range. rewrite Nat.sub_0_r. cbn [skipn]. apply firstn_all. Qed.

  Lemma range_in l b e i x : b <= i < e -> nth_error l i = Some x -> In x (range l b e).
  Proof.
    intros H E. apply nth_error_In with (n := i - b). rewrite nth_error_range.
    destruct (Nat.ltb_spec (i - b) (e - b)); [|lia]. replace (b + (i - b)) with i by lia. auto.
  Qed.

  Lemma in_range l b e x : In x (range l b e) -> exists i, b <= i < e /\ nth_error l i = Some x.
  Proof.
    intro H. apply In_nth_error in H as [k Hk]. rewrite nth_error_range in Hk.
    destruct (Nat.ltb_spec k (e - b)); [|discriminate]. exists (b + k). split; [lia|auto].
  Qed.
End Ranges.

Lemma map_range {A B} (f : A -> B) l b e : map f (range l b e) = range (map f l) b e.
Proof. unfold range. now rewrite <- firstn_map, skipn_map. Qed.

  Lemma subtree_ext dimension x x' nodes nodes' ni p b e L :
    (forall j, In j L -> nth_error nodes' j = nth_error nodes j) ->
    (forall i d, b <= i < e -> x' i d = x i d) ->
    subtree dimension x nodes ni p b e L -> subtree dimension x' nodes' ni p b e L.
  Proof.
    intros HN HX H. revert HN HX. induction H; intros HN HX.
    - eapply sub_leaf; eauto. rewrite HN; auto. now left.
    - eapply sub_split with (s := s); eauto.
      + rewrite HN; auto. now left.
      + intros i Hi. rewrite HX by lia. auto.
      + intros i Hi. rewrite HX by lia. auto.
      + apply IHsubtree1; [|intros; apply HX; lia]. intros j Hj. apply HN. right. apply in_or_app; auto.
      + apply IHsubtree2; [|intros; apply HX; lia]. intros j Hj. apply HN. right. apply in_or_app; auto.
  Qed.

Section Build.
  Variable data : list Z.
  Variable dimension numData : nat.
  Variable meth : method.
  Variable choose : nat -> list nat -> option (nat * Z).
  Variable sorter : list entry -> list entry.
  Hypothesis Hdata : length data = numData * dimension.
  Hypothesis Hdim : 0 < dimension.
  Hypothesis Hsort : sorts sorter.
  Hypothesis Hchoose : chooses_well data dimension choose.
  Hypothesis Hsize : (Z.of_nat numData < 2 ^ 64)%Z.

  Notation coord := (coord data dimension).
  Notation valid idx := (Forall (fun en => e_index en < numData) idx).
  Notation xof idx := (fun i d => coord (nth i (map e_index idx) 0) d).

  Lemma datum_ok di d : di < numData -> d < dimension -> datum data dimension di d = Some (coord di d).
  Proof.
    intros H1 H2. unfold datum, aget, KdTree_Spec.coord.
    apply nth_error_nth'. rewrite Hdata. nia.
  Qed.

  Lemma set_values_ok d : d < dimension -> forall cnt idx i,
    valid idx -> i + cnt <= length idx ->
    exists idx', set_values data dimension idx d i cnt = Some idx' /\
      map e_index idx' = map e_index idx /\
      (forall j, j < i \/ i + cnt <= j -> nth_error idx' j = nth_error idx j) /\
      (forall j en, i <= j < i + cnt -> nth_error idx' j = Some en ->
         e_value en = coord (e_index en) d).
  Proof.
    intro Hd. induction cnt as [|cnt IH]; intros idx i HV HL; cbn [set_values].
    - exists idx. repeat split; auto. intros; lia.
    - destruct (aget_lt idx i) as [en Hen]; [lia|]. rewrite Hen. cbn [obind].
      assert (Hv : e_index en < numData).
      { rewrite Forall_forall in HV. apply HV. eapply nth_error_In; eauto. }
      rewrite datum_ok by auto. cbn [obind]. rewrite aset_lt by lia. cbn [obind].
      set (en' := mk_entry (e_index en) (coord (e_index en) d)).
      assert (EM : map e_index (upd idx i en') = map e_index idx).
      { apply nth_error_ext'. intro k. rewrite !nth_error_map, nth_error_upd.
        destruct (Nat.eqb_spec k i); cbn [andb]; auto. subst.
        destruct (Nat.ltb_spec i (length idx)); [|lia]. unfold aget in Hen. rewrite Hen. reflexivity. }
      destruct (IH (upd idx i en') (S i)) as (idx' & E & M & T & V).
      { rewrite Forall_forall in *. intros z Hz. apply In_nth_error in Hz as [k Hk].
        rewrite nth_error_upd in Hk. destruct ((k =? i) && (i <? length idx)).
        - inversion Hk; subst. exact Hv.
        - apply HV. eapply nth_error_In; eauto. }
      { rewrite upd_length. lia. }
      exists idx'. split; [exact E|]. split; [congruence|]. split.
      + intros j Hj. rewrite T by lia. apply nth_error_upd_neq. lia.
      + intros j en0 Hj Hn. destruct (Nat.eq_dec j i) as [->|].
        * rewrite T in Hn by lia. rewrite nth_error_upd_eq in Hn by lia. inversion Hn; subst. reflexivity.
        * apply (V j); auto. lia.
  Qed.

  Lemma sort_range_ok idx b e : b <= e <= length idx ->
    exists idx', sort_range sorter idx b e = Some idx' /\ length idx' = length idx /\
      (forall j, j < b \/ e <= j -> nth_error idx' j = nth_error idx j) /\
      range idx' b e = sorter (range idx b e).
  Proof.
    intro H. unfold sort_range. destruct (Nat.leb_spec e (length idx)); [|lia].
    destruct (Hsort (range idx b e)) as [P _].
    assert (LS : length (sorter (range idx b e)) = e - b).
    { rewrite (Permutation_length P). apply range_length. lia. }
    eexists. split; [reflexivity|]. split; [|split].
    - rewrite !app_length, LS, firstn_length, skipn_length. lia.
    - intros j [Hj|Hj].
      + rewrite nth_error_app1 by (rewrite firstn_length; lia). rewrite nth_error_firstn.
        destruct (Nat.ltb_spec j b); [auto|lia].
      + rewrite nth_error_app2 by (rewrite firstn_length; lia).
        rewrite nth_error_app2 by (rewrite firstn_length, LS; lia).
        rewrite nth_error_skipn, firstn_length, LS. f_equal. lia.
    - apply nth_error_ext'. intro k. rewrite nth_error_range.
      destruct (Nat.ltb_spec k (e - b)).
      + rewrite nth_error_app2 by (rewrite firstn_length; lia).
        rewrite firstn_length. replace (b + k - Nat.min b (length idx)) with k by lia.
        apply nth_error_app1. lia.
      + symmetry. apply nth_error_None. lia.
  Qed.

  Lemma sorted_pos l : StronglySorted (fun a b => (e_value a <= e_value b)%Z) l ->
    forall i j x y, i <= j -> nth_error l i = Some x -> nth_error l j = Some y ->
    (e_value x <= e_value y)%Z.
  Proof.
    induction 1 as [|a l S IH F]; intros i j x y Hij Hx Hy; [destruct i; discriminate|].
    destruct i, j; cbn in *; try lia.
    - inversion Hx; inversion Hy; subst. lia.
    - inversion Hx; subst. rewrite Forall_forall in F. apply F. eapply nth_error_In; eauto.
    - eapply IH with (i := i) (j := j); eauto. lia.
  Qed.

  Lemma scan_ok thr : forall cnt idx i, i + cnt <= length idx ->
    exists r, scan idx i cnt thr = Some r /\ i <= r <= i + cnt /\
      (forall j en, i <= j < r -> nth_error idx j = Some en -> (e_value en <= thr)%Z) /\
      (r < i + cnt -> exists en, nth_error idx r = Some en /\ (thr < e_value en)%Z).
  Proof.
    induction cnt as [|cnt IH]; intros idx i HL; cbn [scan].
    - exists i. repeat split; try lia.
    - destruct (aget_lt idx i) as [en Hen]; [lia|]. rewrite Hen. cbn [obind]. unfold aget in Hen.
      destruct (Z.leb_spec (e_value en) thr).
      + destruct (IH idx (S i)) as (r & E & B & V & W); [lia|].
        exists r. split; [exact E|]. repeat split; try lia.
        * intros j en0 Hj Hn. destruct (Nat.eq_dec j i) as [->|]; [congruence|]. apply (V j); auto. lia.
        * intro. apply W. lia.
      + exists i. repeat split; try lia. intro. eauto.
  Qed.

  Lemma usize_id z : (0 <= z < 2 ^ 64)%Z -> usize z = z.
  Proof. intro. unfold usize. apply Z.mod_small; auto. Qed.

  Lemma threshold_ok idx b e mean :
    b + 2 <= e -> e <= length idx -> e <= numData ->
    StronglySorted (fun a b => (e_value a <= e_value b)%Z) (range idx b e) ->
    (exists en, In en (range idx b e) /\ (e_value en <= mean)%Z) ->
    exists s thr, threshold meth idx b e mean = Some (s, thr) /\ b < s < e /\
      (forall i en, b <= i < s -> nth_error idx i = Some en -> (e_value en <= thr)%Z) /\
      (forall i en, s <= i < e -> nth_error idx i = Some en -> (thr <= e_value en)%Z).
  Proof.
    intros Hbe HL Hn HS (en0 & Hin & Hle).
    assert (Pos : forall i j x y, b <= i -> i <= j -> j < e ->
              nth_error idx i = Some x -> nth_error idx j = Some y -> (e_value x <= e_value y)%Z).
    { intros i j x y H1 H2 H3 Hx Hy.
      apply (sorted_pos _ HS (i - b) (j - b)); [lia| |]; rewrite nth_error_range.
      - destruct (Nat.ltb_spec (i - b) (e - b)); [|lia]. now replace (b + (i - b)) with i by lia.
      - destruct (Nat.ltb_spec (j - b) (e - b)); [|lia]. now replace (b + (j - b)) with j by lia. }
    assert (Med : exists s thr,
        (do en <- aget idx ((b + e - 1) / 2); Some (S ((b + e - 1) / 2), e_value en)) = Some (s, thr) /\
        b < s < e /\
        (forall i en, b <= i < s -> nth_error idx i = Some en -> (e_value en <= thr)%Z) /\
        (forall i en, s <= i < e -> nth_error idx i = Some en -> (thr <= e_value en)%Z)).
    { set (m := (b + e - 1) / 2).
      assert (Hm : b <= m /\ m + 1 < e).
      { unfold m. pose proof (Nat.div_mod (b + e - 1) 2 ltac:(lia)).
        pose proof (Nat.mod_upper_bound (b + e - 1) 2 ltac:(lia)). lia. }
      destruct (aget_lt idx m) as [en Hen]; [lia|]. rewrite Hen. cbn [obind]. unfold aget in Hen.
      exists (S m), (e_value en). split; [reflexivity|]. split; [lia|]. split; intros i en1 Hi He.
      - apply (Pos i m en1 en); auto; lia.
      - apply (Pos m i en en1); auto; lia. }
    unfold threshold. destruct meth; [exact Med|].
    destruct (scan_ok mean (e - b) idx b) as (r & E & B & V & W); [lia|]. rewrite E. cbn [obind].
    assert (Hr : b < r).
    { destruct (Nat.eq_dec r b) as [->|]; [|lia]. exfalso.
      destruct W as (x & Hx & Hlt); [lia|].
      apply in_range in Hin as (i & Hi & Hen).
      pose proof (Pos b i x en0 ltac:(lia) ltac:(lia) ltac:(lia) Hx Hen). lia. }
    rewrite usize_id by lia. replace (Z.of_nat r - 1 + 1)%Z with (Z.of_nat r) by lia.
    rewrite usize_id by lia.
    destruct (Z.leb_spec (Z.of_nat b) (Z.of_nat r - 1)); [|lia].
    destruct (Z.ltb_spec (Z.of_nat r) (Z.of_nat e)); cbn [andb]; [|exact Med].
    rewrite Nat2Z.id. exists r, mean. split; [reflexivity|]. split; [lia|]. split.
    - exact V.
    - intros i en Hi Hen. destruct W as (x & Hx & Hlt); [lia|].
      pose proof (Pos r i x en ltac:(lia) ltac:(lia) ltac:(lia) Hx Hen). lia.
  Qed.

  Lemma with_node_ok t ni f nd : nth_error (t_nodes t) ni = Some nd ->
    with_node t ni f = Some (mk_kdtree (upd (t_nodes t) ni (f nd)) (t_used t) (t_index t) (t_depth t)).
  Proof.
    intro H. unfold with_node, aget. rewrite H. cbn [obind].
    rewrite aset_lt by (apply nth_error_Some; congruence). reflexivity.
  Qed.

  Lemma node_new_ok t p : t_used t < length (t_nodes t) ->
    exists nd, node_new t p =
      Some (mk_kdtree (upd (t_nodes t) (t_used t) nd) (S (t_used t)) (t_index t) (t_depth t), t_used t) /\
      n_parent nd = p /\ n_dim nd = 0.
  Proof.
    intro H. unfold node_new. destruct (aget_lt (t_nodes t) (t_used t) H) as [n Hn].
    rewrite Hn. cbn [obind]. rewrite aset_lt by auto. cbn [obind]. eexists. split; [reflexivity|]. auto.
  Qed.

  Lemma perm_valid idx idx' b e : e <= length idx -> length idx' = length idx -> b <= e ->
    (forall j, j < b \/ e <= j -> nth_error idx' j = nth_error idx j) ->
    Permutation (map e_index (range idx' b e)) (map e_index (range idx b e)) ->
    valid idx -> valid idx'.
  Proof.
    intros HL HL' Hbe T P V. rewrite Forall_forall in *. intros en Hen.
    apply In_nth_error in Hen as [k Hk].
    destruct (le_lt_dec b k); [destruct (le_lt_dec e k)|].
    - apply V. rewrite T in Hk by lia. eapply nth_error_In; eauto.
    - assert (In (e_index en) (map e_index (range idx' b e))).
      { apply in_map. apply range_in with (i := k); auto. }
      eapply Permutation_in in H; [|exact P]. apply in_map_iff in H as (en' & E & H).
      rewrite <- E. apply V. apply in_range in H as (i & _ & Hi). eapply nth_error_In; eauto.
    - apply V. rewrite T in Hk by lia. eapply nth_error_In; eauto.
  Qed.

  Lemma xof_in idx b e i : e <= length idx -> b <= i < e ->
    In (nth i (map e_index idx) 0) (map e_index (range idx b e)).
  Proof.
    intros HL Hi. destruct (nth_error idx i) as [en|] eqn:E.
    - replace (nth i (map e_index idx) 0) with (e_index en).
      + apply in_map. apply range_in with (i := i); auto.
      + symmetry. apply nth_error_nth. rewrite nth_error_map, E. reflexivity.
    - apply nth_error_None in E. lia.
  Qed.

  Lemma xof_ext idx idx' i : nth_error idx' i = nth_error idx i ->
    nth i (map e_index idx') 0 = nth i (map e_index idx) 0.
  Proof.
    intro H. destruct (nth_error idx i) as [en|] eqn:E.
    - rewrite (nth_error_nth (map e_index idx') i 0 (x := e_index en)).
      + symmetry. apply nth_error_nth. now rewrite nth_error_map, E.
      + now rewrite nth_error_map, H.
    - apply nth_error_None in E, H. rewrite !nth_overflow; auto; now rewrite map_length.
  Qed.

  Lemma build_rec_ok : forall fuel t ni b e depth p nd,
    e - b <= fuel -> b < e -> e <= length (t_index t) -> e <= numData -> valid (t_index t) ->
    ni < t_used t -> t_used t + 2 * (e - b) - 2 <= length (t_nodes t) ->
    nth_error (t_nodes t) ni = Some nd -> n_parent nd = p -> n_dim nd = 0 ->
    exists t', build_rec data dimension meth choose sorter fuel t ni b e depth = Some t' /\
      length (t_nodes t') = length (t_nodes t) /\
      length (t_index t') = length (t_index t) /\
      t_used t <= t_used t' <= t_used t + 2 * (e - b) - 2 /\
      (forall j, j < t_used t -> j <> ni -> nth_error (t_nodes t') j = nth_error (t_nodes t) j) /\
      (forall j, j < b \/ e <= j -> nth_error (t_index t') j = nth_error (t_index t) j) /\
      Permutation (map e_index (range (t_index t') b e)) (map e_index (range (t_index t) b e)) /\
      subtree dimension (xof (t_index t')) (t_nodes t') ni p b e
        (ni :: seq (t_used t) (t_used t' - t_used t)).
  Proof.
    induction fuel as [|fuel IH]; intros t ni b e depth p nd Hf Hbe HL Hn HV Hni Halloc Hnd Hp Hd0; [lia|].
    cbn [build_rec].
    assert (Hnil : ni < length (t_nodes t)) by (apply nth_error_Some; congruence).
    assert (Leaf : forall dp, exists t',
      with_node (mk_kdtree (t_nodes t) (t_used t) (t_index t) dp) ni
          (fun n => set_children n (- Z.of_nat b - 1) (- Z.of_nat e - 1)) = Some t' /\
      length (t_nodes t') = length (t_nodes t) /\
      length (t_index t') = length (t_index t) /\
      t_used t <= t_used t' <= t_used t + 2 * (e - b) - 2 /\
      (forall j, j < t_used t -> j <> ni -> nth_error (t_nodes t') j = nth_error (t_nodes t) j) /\
      (forall j, j < b \/ e <= j -> nth_error (t_index t') j = nth_error (t_index t) j) /\
      Permutation (map e_index (range (t_index t') b e)) (map e_index (range (t_index t) b e)) /\
      subtree dimension (xof (t_index t')) (t_nodes t') ni p b e
        (ni :: seq (t_used t) (t_used t' - t_used t))).
    { intro dp. rewrite (with_node_ok _ ni _ nd) by exact Hnd. cbn [t_nodes t_used t_index t_depth].
      eexists. split; [reflexivity|]. cbn [t_nodes t_used t_index t_depth].
      rewrite upd_length, Nat.sub_diag. repeat split; auto; try lia.
      - intros j _ Hj. apply nth_error_upd_neq. auto.
      - eapply sub_leaf; [apply nth_error_upd_eq; auto|..]; auto; cbn. lia. }
    destruct (Nat.leb_spec (e - b) 1) as [H1|H1]; [apply Leaf|].
    destruct (choose ni (map e_index (range (t_index t) b e))) as [[d mean]|] eqn:Ech.
    2:{ specialize (Leaf (t_depth t)). destruct t; exact Leaf. }
    destruct (Hchoose _ _ _ _ Ech) as [Hd (dim & Hdimin & Hdimle)]. clear Leaf.
    rewrite (with_node_ok t ni _ nd Hnd). cbn [obind t_nodes t_used t_index t_depth].
    destruct (set_values_ok d Hd (e - b) (t_index t) b HV) as (idx1 & E1 & M1 & T1 & V1); [lia|].
    rewrite E1. cbn [obind].
    assert (L1 : length idx1 = length (t_index t)).
    { rewrite <- (map_length e_index idx1), M1, map_length. reflexivity. }
    destruct (sort_range_ok idx1 b e) as (idx2 & E2 & L2 & T2 & R2); [lia|].
    rewrite E2. cbn [obind].
    destruct (Hsort (range idx1 b e)) as [PS SS]. rewrite <- R2 in PS, SS.
    assert (P2 : Permutation (map e_index (range idx2 b e)) (map e_index (range (t_index t) b e))).
    { rewrite (map_range e_index (t_index t)), <- M1, <- map_range. now apply Permutation_map. }
    assert (Val2 : forall en, In en (range idx2 b e) -> e_value en = coord (e_index en) d).
    { intros en Hen. eapply Permutation_in in Hen; [|exact PS].
      apply in_range in Hen as (i & Hi & Hen). apply (V1 i); auto. lia. }
    destruct (threshold_ok idx2 b e mean) as (s & thr & E3 & Hs & Lo & Up); auto; try lia.
    { assert (Hin : In dim (map e_index (range idx2 b e))).
      { eapply Permutation_in; [symmetry; exact P2|auto]. }
      apply in_map_iff in Hin as (en & Ee & Hen). exists en. split; auto.
      rewrite (Val2 en Hen), Ee. auto. }
    rewrite E3. cbn [obind].
    assert (HV2 : valid idx2).
    { apply (perm_valid (t_index t) idx2 b e); auto; try lia.
      intros j Hj. rewrite T2, T1; auto. lia. }
    set (nd1 := set_dim nd d).
    rewrite (with_node_ok _ ni _ nd1) by (cbn; apply nth_error_upd_eq; auto).
    cbn [obind t_nodes t_used t_index t_depth]. rewrite upd_upd. set (nd2 := set_thr nd1 thr).
    destruct (node_new_ok (mk_kdtree (upd (t_nodes t) ni nd2) (t_used t) idx2 (t_depth t)) ni)
      as (c1 & En1 & Pc1 & Dc1).
    { cbn. rewrite upd_length. lia. }
    rewrite En1. cbn [obind t_nodes t_used t_index t_depth] in *.
    rewrite (with_node_ok _ ni _ nd2).
    2:{ cbn. rewrite nth_error_upd_neq by lia. apply nth_error_upd_eq. auto. }
    cbn [obind t_nodes t_used t_index t_depth].
    set (nd3 := set_children nd2 (Z.of_nat (t_used t)) (n_upper nd2)).
    set (nodes4 := upd (upd (upd (t_nodes t) ni nd2) (t_used t) c1) ni nd3).
    assert (Len4 : length nodes4 = length (t_nodes t)) by (unfold nodes4; now rewrite !upd_length).
    destruct (IH (mk_kdtree nodes4 (S (t_used t)) idx2 (t_depth t)) (t_used t) b s (S depth) ni c1)
      as (t5 & E5 & LN5 & LI5 & U5 & N5 & X5 & P5 & S5); auto; cbn [t_nodes t_used t_index t_depth] in *; try lia.
    { unfold nodes4. rewrite nth_error_upd_neq by lia. apply nth_error_upd_eq. rewrite upd_length. lia. }
    rewrite E5. cbn [obind].
    destruct (node_new_ok t5 ni) as (c2 & En2 & Pc2 & Dc2); [lia|].
    rewrite En2. cbn [obind].
    assert (Hn5 : nth_error (t_nodes t5) ni = Some nd3).
    { rewrite N5 by lia. unfold nodes4. apply nth_error_upd_eq. rewrite !upd_length. auto. }
    rewrite (with_node_ok _ ni _ nd3).
    2:{ cbn. rewrite nth_error_upd_neq by lia. auto. }
    cbn [obind t_nodes t_used t_index t_depth].
    set (nd4 := set_children nd3 (n_lower nd3) (Z.of_nat (t_used t5))).
    set (nodes7 := upd (upd (t_nodes t5) (t_used t5) c2) ni nd4).
    assert (Len7 : length nodes7 = length (t_nodes t)) by (unfold nodes7; rewrite !upd_length; lia).
    assert (HV5 : valid (t_index t5)).
    { apply (perm_valid idx2 (t_index t5) b s); auto; try lia. }
    destruct (IH (mk_kdtree nodes7 (S (t_used t5)) (t_index t5) (t_depth t5)) (t_used t5) s e (S depth) ni c2)
      as (t8 & E8 & LN8 & LI8 & U8 & N8 & X8 & P8 & S8); auto; cbn [t_nodes t_used t_index t_depth] in *; try lia.
    { unfold nodes7. rewrite nth_error_upd_neq by lia. apply nth_error_upd_eq. lia. }
    rewrite E8. exists t8. split; [reflexivity|].
    assert (Rlo : range (t_index t8) b s = range (t_index t5) b s).
    { apply range_ext. intros i Hi. apply X8. lia. }
    assert (Rup : range (t_index t5) s e = range idx2 s e).
    { apply range_ext. intros i Hi. apply X5. lia. }
    split; [lia|]. split; [lia|]. split; [lia|]. split.
    { intros j Hj Hjn. rewrite N8 by lia. unfold nodes7.
      rewrite !nth_error_upd_neq by lia. rewrite N5 by lia. unfold nodes4.
      rewrite !nth_error_upd_neq by lia. reflexivity. }
    split.
    { intros j Hj. rewrite X8 by lia. rewrite X5 by lia. rewrite T2, T1; auto. lia. }
    split.
    { rewrite <- P2. rewrite (range_split (t_index t8) b s e), (range_split idx2 b s e) by lia.
      rewrite !map_app. apply Permutation_app; [rewrite Rlo; exact P5|].
      rewrite P8, Rup. reflexivity. }
    (* the subtree *)
    replace (seq (t_used t) (t_used t8 - t_used t)) with
      ((t_used t :: seq (S (t_used t)) (t_used t5 - S (t_used t))) ++
       (t_used t5 :: seq (S (t_used t5)) (t_used t8 - S (t_used t5)))).
    2:{ change (t_used t :: seq (S (t_used t)) (t_used t5 - S (t_used t)))
          with (seq (t_used t) (S (t_used t5 - S (t_used t)))).
        change (t_used t5 :: seq (S (t_used t5)) (t_used t8 - S (t_used t5)))
          with (seq (t_used t5) (S (t_used t8 - S (t_used t5)))).
        replace (t_used t8 - t_used t) with (S (t_used t5 - S (t_used t)) + S (t_used t8 - S (t_used t5))) by lia.
        rewrite seq_app. f_equal. f_equal. lia. }
    assert (Hn8 : nth_error (t_nodes t8) ni = Some nd4).
    { rewrite N8 by lia. unfold nodes7. apply nth_error_upd_eq. rewrite upd_length. lia. }
    apply sub_split with (nd := nd4) (lo := t_used t) (up := t_used t5) (s := s); auto; try lia.
    - intros i Hi. cbn [nd4 nd3 nd2 nd1 n_dim n_thr set_children set_thr set_dim].
      assert (Hin : In (nth i (map e_index (t_index t8)) 0) (map e_index (range idx2 b s))).
      { eapply Permutation_in; [exact P5|]. rewrite <- Rlo. apply xof_in; auto. lia. }
      apply in_map_iff in Hin as (en & Ee & Hen). rewrite <- Ee.
      assert (Hen' : In en (range idx2 b e)).
      { rewrite (range_split idx2 b s e) by lia. apply in_or_app; auto. }
      rewrite <- (Val2 en Hen').
      apply in_range in Hen as (j & Hj & Hen). apply (Lo j); auto.
    - intros i Hi. cbn [nd4 nd3 nd2 nd1 n_dim n_thr set_children set_thr set_dim].
      assert (Hin : In (nth i (map e_index (t_index t8)) 0) (map e_index (range idx2 s e))).
      { rewrite <- Rup. eapply Permutation_in; [exact P8|]. apply xof_in; auto. lia. }
      apply in_map_iff in Hin as (en & Ee & Hen). rewrite <- Ee.
      assert (Hen' : In en (range idx2 b e)).
      { rewrite (range_split idx2 b s e) by lia. apply in_or_app; auto. }
      rewrite <- (Val2 en Hen').
      apply in_range in Hen as (j & Hj & Hen). apply (Up j); auto.
    - eapply subtree_ext; [| |exact S5].
      + intros j Hj.
        assert (t_used t <= j < t_used t5).
        { destruct Hj as [<-|Hj]; [lia|]. apply in_seq in Hj. lia. }
        rewrite N8 by lia. unfold nodes7. rewrite !nth_error_upd_neq by lia. reflexivity.
      + intros i d0 Hi. cbn beta. rewrite (xof_ext (t_index t5) (t_index t8)); auto. apply X8. lia.
  Qed.

  Lemma build_tree_ok junk : 0 < numData ->
    exists t, build_tree data dimension meth choose sorter junk numData = Some t /\
      good_tree data dimension numData t /\ length (t_nodes t) = 2 * numData - 1 /\
      t_used t <= length (t_nodes t) /\ 0 < t_used t /\
      (exists L, subtree dimension (xof (t_index t)) (t_nodes t) 0 0 0 numData L /\ L = seq 0 (t_used t)) /\
      length (t_index t) = numData.
  Proof.
    intro Hn. unfold build_tree.
    set (t0 := mk_kdtree (repeat junk (2 * numData - 1)) 0
                 (map (fun di => mk_entry di 0) (seq 0 numData)) 0).
    assert (EI : map e_index (map (fun di => mk_entry di 0) (seq 0 numData)) = seq 0 numData).
    { rewrite map_map. cbn. apply map_id. }
    assert (LI : length (map (fun di => mk_entry di 0) (seq 0 numData)) = numData).
    { rewrite map_length, seq_length. auto. }
    destruct (node_new_ok t0 0) as (nd & En & Pn & Dn).
    { cbn [t0 t_used t_nodes]. rewrite repeat_length. lia. }
    rewrite En. cbn [obind]. cbn [t0 t_used t_nodes t_index t_depth].
    destruct (build_rec_ok (2 * numData)
      (mk_kdtree (upd (repeat junk (2 * numData - 1)) 0 nd) 1
         (map (fun di => mk_entry di 0) (seq 0 numData)) 0) 0 0 numData 0 0 nd)
      as (t & E & LN & LI' & U & _ & _ & P & ST); cbn [t_used t_nodes t_index t_depth] in *; auto; try lia.
    { rewrite Forall_forall. intros en Hen.
      apply (in_map e_index) in Hen. rewrite EI in Hen. apply in_seq in Hen. lia. }
    { rewrite upd_length, repeat_length. lia. }
    { apply nth_error_upd_eq. rewrite repeat_length. lia. }
    rewrite upd_length, repeat_length in LN.
    exists t. split; [exact E|].
    assert (EL : 0 :: seq 1 (t_used t - 1) = seq 0 (t_used t)).
    { replace (t_used t) with (S (t_used t - 1)) at 2 by lia. reflexivity. }
    rewrite EL in ST.
    rewrite LI in LI'. split; [|repeat split; eauto; lia].
    split; [|split].
    - rewrite <- EI. rewrite <- (range_all (t_index t)), LI'.
      rewrite <- (range_all (map (fun di => mk_entry di 0) (seq 0 numData))), LI. exact P.
    - exists (seq 0 (t_used t)). split; auto.
    - lia.
  Qed.
End Build.
