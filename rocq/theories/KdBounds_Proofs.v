(** Proofs about the cells of kd-tree nodes and the distance lower bounds. *)
From Coq Require Import List ZArith Arith Bool Lia Permutation.
From Verif Require Import Base KdTree_Model KdTree_Spec KdBuild_Proofs.
Import ListNotations.
Local Open Scope nat_scope.

Definition fupd {A} (f : nat -> A) (i : nat) (v : A) : nat -> A :=
  fun j => if j =? i then v else f j.

(** A subtree whose nodes carry the bounds of their cell [lo, hi]. *)
Inductive csub (dimension : nat) (x : nat -> nat -> Z) (nodes : list kdnode)
  : nat -> (nat -> ext) -> (nat -> ext) -> nat -> nat -> list nat -> Prop :=
| cs_leaf ni lo hi b e nd :
    nth_error nodes ni = Some nd ->
    n_lower nd = (- Z.of_nat b - 1)%Z -> n_upper nd = (- Z.of_nat e - 1)%Z ->
    n_dim nd < dimension ->
    csub dimension x nodes ni lo hi b e [ni]
| cs_split ni lo hi b e nd l u s L U :
    nth_error nodes ni = Some nd ->
    n_lower nd = Z.of_nat l -> n_upper nd = Z.of_nat u ->
    n_dim nd < dimension -> b < s < e ->
    (forall i, b <= i < s -> (x i (n_dim nd) <= n_thr nd)%Z) ->
    (forall i, s <= i < e -> (n_thr nd <= x i (n_dim nd))%Z) ->
    n_lb nd = lo (n_dim nd) -> n_ub nd = hi (n_dim nd) ->
    csub dimension x nodes l lo (fupd hi (n_dim nd) (Fin (n_thr nd))) b s L ->
    csub dimension x nodes u (fupd lo (n_dim nd) (Fin (n_thr nd))) hi s e U ->
    csub dimension x nodes ni lo hi b e (ni :: L ++ U).

Lemma csub_frame dimension x nodes nodes' ni lo hi b e L :
  (forall j, In j L -> nth_error nodes' j = nth_error nodes j) ->
  csub dimension x nodes ni lo hi b e L -> csub dimension x nodes' ni lo hi b e L.
Proof.
  intros HN H. revert HN. induction H; intro HN.
  - eapply cs_leaf; eauto. rewrite HN; auto. now left.
  - eapply cs_split with (s := s); eauto.
    + rewrite HN; auto. now left.
    + apply IHcsub1. intros j Hj. apply HN. right. apply in_or_app; auto.
    + apply IHcsub2. intros j Hj. apply HN. right. apply in_or_app; auto.
Qed.

(** The array searchBounds spells the functions lo and hi. *)
Definition spells (dimension : nat) (sb : list ext) (lo hi : nat -> ext) : Prop :=
  forall d, d < dimension ->
    nth_error sb (2 * d + 0) = Some (lo d) /\ nth_error sb (2 * d + 1) = Some (hi d).

Lemma spells_hi dimension sb lo hi i v : i < dimension -> spells dimension sb lo hi ->
  spells dimension (upd sb (2 * i + 1) v) lo (fupd hi i v).
Proof.
  intros Hi H d Hd. destruct (H d Hd) as [H1 H2]. unfold fupd.
  rewrite nth_error_upd_neq by lia. split; auto.
  destruct (Nat.eqb_spec d i) as [->|].
  - apply nth_error_upd_eq. apply nth_error_Some. destruct (H i Hi). congruence.
  - rewrite nth_error_upd_neq by lia. auto.
Qed.

Lemma spells_lo dimension sb lo hi i v : i < dimension -> spells dimension sb lo hi ->
  spells dimension (upd sb (2 * i + 0) v) (fupd lo i v) hi.
Proof.
  intros Hi H d Hd. destruct (H d Hd) as [H1 H2]. unfold fupd.
  rewrite (nth_error_upd_neq sb (2 * i + 0) (2 * d + 1)) by lia. split; auto.
  destruct (Nat.eqb_spec d i) as [->|].
  - apply nth_error_upd_eq. apply nth_error_Some. destruct (H i Hi). congruence.
  - rewrite nth_error_upd_neq by lia. auto.
Qed.

Lemma NoDup_app_parts {A} (l1 l2 : list A) : NoDup (l1 ++ l2) ->
  NoDup l1 /\ NoDup l2 /\ (forall x, In x l1 -> ~ In x l2).
Proof.
  induction l1 as [|a l1 IH]; cbn; intro H.
  - repeat split; auto; constructor.
  - inversion H; subst. destruct (IH H3) as (N1 & N2 & D). repeat split; auto.
    + constructor; auto. intro. apply H2, in_or_app; auto.
    + intros x [->|Hx] Hx2; [apply H2, in_or_app; auto|]. now apply (D x).
Qed.

Lemma calc_bounds_ok dimension x : forall fuel ns ni p b e L lo hi sb,
  subtree dimension x ns ni p b e L -> length L <= fuel -> NoDup L ->
  (forall j, In j L -> j <> ni -> 0 < j) ->
  spells dimension sb lo hi ->
  exists ns', calc_bounds fuel ns ni sb = Some (ns', sb) /\
    length ns' = length ns /\
    (forall j, ~ In j L -> nth_error ns' j = nth_error ns j) /\
    csub dimension x ns' ni lo hi b e L.
Proof.
  induction fuel as [|fuel IH]; intros ns ni p b e L lo hi sb ST HF ND HP SP.
  { inversion ST; subst; cbn in HF; lia. }
  cbn [calc_bounds]. inversion ST as [? ? ? ? nd Hnd Hpar Hlow Hupp Hdm | ? ? ? ? nd l u s L1 U1 Hnd Hpar Hlow Hupp Hdm Hs Hlo Hhi STl STu]; subst.
  - unfold aget. rewrite Hnd. cbn [obind].
    destruct (SP _ Hdm) as [-> ->]. cbn [obind].
    assert (Hl : ni < length ns) by (apply nth_error_Some; congruence).
    rewrite aset_lt by auto. cbn [obind].
    destruct (Z.ltb_spec 0 (n_lower nd)); [lia|]. cbn [obind].
    destruct (Z.ltb_spec 0 (n_upper nd)); [lia|].
    eexists. split; [reflexivity|]. split; [apply upd_length|]. split.
    + intros j Hj. apply nth_error_upd_neq. intro; subst; apply Hj; now left.
    + eapply cs_leaf; [apply nth_error_upd_eq; auto|..]; auto.
  - unfold aget. rewrite Hnd. cbn [obind].
    pose proof (SP _ Hdm) as [Slo Shi]. rewrite Slo. cbn [obind]. rewrite Shi. cbn [obind].
    assert (Hl : ni < length ns) by (apply nth_error_Some; congruence).
    rewrite aset_lt by auto. cbn [obind].
    set (nd' := set_bounds nd (lo (n_dim nd)) (hi (n_dim nd))).
    inversion ND as [|? ? Hni ND']; subst.
    destruct (NoDup_app_parts _ _ ND') as (NDl & NDu & Dj).
    assert (Hlin : In l L1) by (inversion STl; subst; now left).
    assert (Huin : In u U1) by (inversion STu; subst; now left).
    assert (Hlpos : 0 < l).
    { apply HP; [right; apply in_or_app; auto|]. intro; subst; apply Hni, in_or_app; auto. }
    assert (Hupos : 0 < u).
    { apply HP; [right; apply in_or_app; auto|]. intro; subst; apply Hni, in_or_app; auto. }
    rewrite Hlow, Hupp. destruct (Z.ltb_spec 0 (Z.of_nat l)); [|lia].
    destruct (Z.ltb_spec 0 (Z.of_nat u)); [|lia].
    assert (Bhi : 2 * n_dim nd + 1 < length sb) by (apply nth_error_Some; congruence).
    assert (Blo : 2 * n_dim nd + 0 < length sb) by (apply nth_error_Some; congruence).
    rewrite (aset_lt sb (2 * n_dim nd + 1)) by auto. cbn [obind]. rewrite !Nat2Z.id.
    cbn [length] in HF. rewrite app_length in HF.
    assert (FL : forall j, In j L1 -> nth_error (upd ns ni nd') j = nth_error ns j).
    { intros j Hj. apply nth_error_upd_neq. intro; subst. apply Hni, in_or_app; auto. }
    assert (FU : forall j, In j U1 -> nth_error (upd ns ni nd') j = nth_error ns j).
    { intros j Hj. apply nth_error_upd_neq. intro; subst. apply Hni, in_or_app; auto. }
    destruct (IH (upd ns ni nd') l ni b s L1 lo (fupd hi (n_dim nd) (Fin (n_thr nd)))
                (upd sb (2 * n_dim nd + 1) (Fin (n_thr nd)))) as (ns2 & E2 & Len2 & F2 & C2).
    { eapply subtree_ext; [exact FL| |exact STl]. auto. }
    { lia. } { auto. }
    { intros j Hj _. apply HP; [right; apply in_or_app; auto|]. intro; subst; apply Hni, in_or_app; auto. }
    { apply spells_hi; auto. }
    rewrite E2. cbn [obind]. rewrite aset_lt by (rewrite upd_length; auto). cbn [obind].
    rewrite upd_upd, upd_id by auto.
    rewrite (aset_lt sb (2 * n_dim nd + 0)) by auto. cbn [obind].
    destruct (IH ns2 u ni s e U1 (fupd lo (n_dim nd) (Fin (n_thr nd))) hi
                (upd sb (2 * n_dim nd + 0) (Fin (n_thr nd)))) as (ns3 & E3 & Len3 & F3 & C3).
    { eapply subtree_ext; [| |exact STu]; [|auto]. intros j Hj. rewrite F2; auto.
      intro X. now apply (Dj j). }
    { lia. } { auto. }
    { intros j Hj _. apply HP; [right; apply in_or_app; auto|]. intro; subst; apply Hni, in_or_app; auto. }
    { apply spells_lo; auto. }
    rewrite E3. cbn [obind]. rewrite aset_lt by (rewrite upd_length; auto). cbn [obind].
    rewrite upd_upd, upd_id by auto.
    exists ns3. split; [reflexivity|]. rewrite upd_length in Len2. split; [lia|]. split.
    + intros j Hj. rewrite F3, F2.
      * apply nth_error_upd_neq. intro; subst; apply Hj; now left.
      * intro. apply Hj. right. apply in_or_app; auto.
      * intro. apply Hj. right. apply in_or_app; auto.
    + eapply cs_split with (nd := nd') (s := s); eauto.
      * rewrite F3, F2.
        -- apply nth_error_upd_eq; auto.
        -- intro. apply Hni, in_or_app; auto.
        -- intro. apply Hni, in_or_app; auto.
      * eapply csub_frame; [|exact C2]. intros j Hj. apply F3. now apply Dj.
Qed.

Lemma inf_bounds_spells dimension : spells dimension (inf_bounds dimension) (fun _ => NInf) (fun _ => PInf).
Proof.
  intros d. revert dimension. induction d as [|d IH]; intros [|dimension] H; try lia; cbn [inf_bounds].
  - auto.
  - destruct (IH dimension) as [H1 H2]; [lia|].
    replace (2 * S d + 0) with (S (S (2 * d + 0))) by lia.
    replace (2 * S d + 1) with (S (S (2 * d + 1))) by lia. auto.
Qed.

(** * Lower bounds *)
Local Open Scope Z_scope.

Definition sumf (f : nat -> Z) (n : nat) : Z := fold_right Z.add 0 (map f (seq 0 n)).

Lemma fold_add_app l1 l2 : fold_right Z.add 0 (l1 ++ l2) = fold_right Z.add 0 l1 + fold_right Z.add 0 l2.
Proof. induction l1; cbn; lia. Qed.

Lemma sumf_S f n : sumf f (S n) = sumf f n + f n.
Proof.
  unfold sumf. rewrite seq_S, map_app, fold_add_app. cbn. lia.
Qed.

Lemma sumf_ext f g n : (forall d, (d < n)%nat -> f d = g d) -> sumf f n = sumf g n.
Proof.
  induction n; intro H; [reflexivity|]. rewrite !sumf_S, IHn, H; auto.
Qed.

Lemma sumf_le f g n : (forall d, (d < n)%nat -> f d <= g d) -> sumf f n <= sumf g n.
Proof.
  induction n; intro H; [reflexivity|]. rewrite !sumf_S. pose proof (H n ltac:(lia)).
  pose proof (IHn ltac:(auto)). lia.
Qed.

Lemma sumf_one f g n i : (i < n)%nat -> (forall d, d <> i -> f d = g d) ->
  sumf g n = sumf f n - f i + g i.
Proof.
  induction n; intros Hi H; [lia|]. rewrite !sumf_S.
  destruct (Nat.eq_dec i n) as [->|].
  - rewrite (sumf_ext g f n); [lia|]. intros d Hd. symmetry. apply H. lia.
  - rewrite IHn by (auto; lia). rewrite <- (H n) by auto. lia.
Qed.

Lemma sumf_0 f n : (forall d, f d = 0) -> sumf f n = 0.
Proof. intro H. induction n; [reflexivity|]. rewrite sumf_S, IHn, H. reflexivity. Qed.

Definition lo_ok (lo : ext) (x : Z) : Prop :=
  match lo with NInf => True | Fin z => z <= x | PInf => False end.
Definition hi_ok (hi : ext) (x : Z) : Prop :=
  match hi with NInf => False | Fin z => x <= z | PInf => True end.

(** Squared distance of a coordinate from an interval. *)
Definition gap2 (x : Z) (lo hi : ext) : Z :=
  match lo, hi with
  | Fin a, _ => if x <? a then (x - a) * (x - a)
                else match hi with Fin b => if b <? x then (x - b) * (x - b) else 0 | _ => 0 end
  | _, Fin b => if b <? x then (x - b) * (x - b) else 0
  | _, _ => 0
  end.

Lemma sq_between x a y : x <= a <= y \/ y <= a <= x -> (x - a) * (x - a) <= (x - y) * (x - y).
Proof.
  intros [H|H].
  - assert (0 <= (y - a) * ((y - a) + 2 * (a - x))) by (apply Z.mul_nonneg_nonneg; lia). nia.
  - assert (0 <= (a - y) * ((a - y) + 2 * (x - a))) by (apply Z.mul_nonneg_nonneg; lia). nia.
Qed.

Lemma gap2_le x y lo hi : lo_ok lo y -> hi_ok hi y -> gap2 x lo hi <= (x - y) * (x - y).
Proof.
  intros H1 H2. unfold gap2, lo_ok, hi_ok in *.
  destruct lo as [|a|], hi as [|b|]; try tauto;
    repeat match goal with |- context [?u <? ?v] => destruct (Z.ltb_spec u v) end;
    first [apply Z.square_nonneg | apply sq_between; lia].
Qed.

(** One step of the search: the cell of the chosen child has the same bound, the
    other child's bound is the one the code computes. *)
Lemma gap2_next_lower x t lo hi : lo_ok lo t -> hi_ok hi t -> x <= t ->
  gap2 x lo (Fin t) = gap2 x lo hi /\
  gap2 x (Fin t) hi - gap2 x lo hi =
    (x - t) * (x - t) - (if ext_le x lo then (x - ext_val lo) * (x - ext_val lo) else 0).
Proof.
  intros H1 H2 H3. unfold gap2, lo_ok, hi_ok, ext_le, ext_val in *.
  destruct lo as [|a|], hi as [|b|]; try tauto;
    repeat match goal with
    | |- context [?u <? ?v] => destruct (Z.ltb_spec u v)
    | |- context [?u <=? ?v] => destruct (Z.leb_spec u v) end; split; try nia;
    try (assert (x = t) by lia; subst; nia); try (assert (x = a) by lia; subst; nia).
Qed.

Lemma gap2_next_upper x t lo hi : lo_ok lo t -> hi_ok hi t -> t < x ->
  gap2 x (Fin t) hi = gap2 x lo hi /\
  gap2 x lo (Fin t) - gap2 x lo hi =
    (x - t) * (x - t) - (if ext_gt x hi then (x - ext_val hi) * (x - ext_val hi) else 0).
Proof.
  intros H1 H2 H3. unfold gap2, lo_ok, hi_ok, ext_gt, ext_val in *.
  destruct lo as [|a|], hi as [|b|]; try tauto;
    repeat match goal with
    | |- context [?u <? ?v] => destruct (Z.ltb_spec u v)
    | |- context [?u <=? ?v] => destruct (Z.leb_spec u v) end; split; nia.
Qed.

Definition lbsum (query : list Z) (dimension : nat) (lo hi : nat -> ext) : Z :=
  sumf (fun d => gap2 (nth d query 0) (lo d) (hi d)) dimension.

Definition within (dimension : nat) (x : nat -> nat -> Z) (lo hi : nat -> ext) (b e : nat) : Prop :=
  forall i d, (b <= i < e)%nat -> (d < dimension)%nat -> lo_ok (lo d) (x i d) /\ hi_ok (hi d) (x i d).

Lemma lbsum_fupd_hi query dimension lo hi i v : (i < dimension)%nat ->
  lbsum query dimension lo (fupd hi i v) =
  lbsum query dimension lo hi - gap2 (nth i query 0) (lo i) (hi i) + gap2 (nth i query 0) (lo i) v.
Proof.
  intro Hi. unfold lbsum.
  rewrite (sumf_one (fun d => gap2 (nth d query 0) (lo d) (hi d)) _ dimension i) by
    (auto; intros d Hd; unfold fupd; destruct (Nat.eqb_spec d i); congruence).
  unfold fupd. rewrite Nat.eqb_refl. reflexivity.
Qed.

Lemma lbsum_fupd_lo query dimension lo hi i v : (i < dimension)%nat ->
  lbsum query dimension (fupd lo i v) hi =
  lbsum query dimension lo hi - gap2 (nth i query 0) (lo i) (hi i) + gap2 (nth i query 0) v (hi i).
Proof.
  intro Hi. unfold lbsum.
  rewrite (sumf_one (fun d => gap2 (nth d query 0) (lo d) (hi d)) _ dimension i) by
    (auto; intros d Hd; unfold fupd; destruct (Nat.eqb_spec d i); congruence).
  unfold fupd. rewrite Nat.eqb_refl. reflexivity.
Qed.

Lemma within_lower dimension x lo hi b e s i t : within dimension x lo hi b e -> (s <= e)%nat ->
  (forall j, (b <= j < s)%nat -> x j i <= t) -> within dimension x lo (fupd hi i (Fin t)) b s.
Proof.
  intros W Hs H j d Hj Hd. destruct (W j d ltac:(lia) Hd) as [W1 W2]. split; auto.
  unfold fupd. destruct (Nat.eqb_spec d i) as [->|]; auto. apply H. auto.
Qed.

Lemma within_upper dimension x lo hi b e s i t : within dimension x lo hi b e -> (b <= s)%nat ->
  (forall j, (s <= j < e)%nat -> t <= x j i) -> within dimension x (fupd lo i (Fin t)) hi s e.
Proof.
  intros W Hs H j d Hj Hd. destruct (W j d ltac:(lia) Hd) as [W1 W2]. split; auto.
  unfold fupd. destruct (Nat.eqb_spec d i) as [->|]; auto. apply H. auto.
Qed.

Lemma lo_ok_trans lo a b : lo_ok lo a -> a <= b -> lo_ok lo b.
Proof. destruct lo; cbn; auto; lia. Qed.
Lemma hi_ok_trans hi a b : hi_ok hi b -> a <= b -> hi_ok hi a.
Proof. destruct hi; cbn; auto; lia. Qed.

(** Computing the bounds changes nothing else in the nodes. *)
Definition strip (nd : kdnode) : kdnode := set_bounds nd NInf NInf.
Definition same_but_bounds (ns ns' : list kdnode) : Prop :=
  length ns' = length ns /\ forall j, option_map strip (nth_error ns' j) = option_map strip (nth_error ns j).

Lemma sbb_trans a b c : same_but_bounds a b -> same_but_bounds b c -> same_but_bounds a c.
Proof. intros [L1 H1] [L2 H2]. split; [congruence|]. intro j. now rewrite H2, H1. Qed.

Lemma calc_bounds_same : forall fuel ns ni sb ns' sb',
  calc_bounds fuel ns ni sb = Some (ns', sb') -> same_but_bounds ns ns'.
Proof.
  induction fuel as [|fuel IH]; intros ns ni sb ns' sb' H; [discriminate|].
  cbn [calc_bounds] in H. unfold obind in H.
  destruct (aget ns ni) as [n|] eqn:En; [|discriminate].
  destruct (aget sb (2 * n_dim n + 0)%nat) as [lb|]; [|discriminate].
  destruct (aget sb (2 * n_dim n + 1)%nat) as [ub|]; [|discriminate].
  destruct (aset ns ni (set_bounds n lb ub)) as [ns1|] eqn:E1; [|discriminate].
  assert (S1 : same_but_bounds ns ns1).
  { unfold aset in E1. destruct (Nat.ltb_spec ni (length ns)); [|discriminate].
    inversion E1; subst. split; [apply upd_length|]. intro j. rewrite nth_error_upd.
    destruct (Nat.eqb_spec j ni) as [->|]; cbn [andb]; auto.
    destruct (Nat.ltb_spec ni (length ns)); auto. unfold aget in En. rewrite En. reflexivity. }
  match type of H with match ?X with _ => _ end = _ => destruct X as [[ns2 sb2]|] eqn:E2; [|discriminate] end.
  assert (S2 : same_but_bounds ns ns2).
  { destruct (0 <? n_lower n); [|inversion E2; subst; auto].
    destruct (aset sb _ _); [|discriminate].
    destruct (calc_bounds fuel ns1 _ _) as [[a b]|] eqn:Ec; [|discriminate].
    destruct (aset b _ _); inversion E2; subst. eapply sbb_trans; eauto. }
  destruct (0 <? n_upper n); [|inversion H; subst; auto].
  destruct (aset sb2 _ _); [|discriminate].
  destruct (calc_bounds fuel ns2 _ _) as [[a b]|] eqn:Ec; [|discriminate].
  destruct (aset b _ _); inversion H; subst. eapply sbb_trans; eauto.
Qed.

Lemma subtree_same dimension x ns ns' ni p b e L : same_but_bounds ns ns' ->
  subtree dimension x ns ni p b e L -> subtree dimension x ns' ni p b e L.
Proof.
  intros [_ S] H. induction H as [? ? ? ? nd Hnd Hp Hl Hu Hd | ? ? ? ? nd ? ? ? ? ? Hnd Hp Hl Hu Hd Hs H1 H2 _ IH1 _ IH2].
  - specialize (S ni). rewrite Hnd in S. destruct (nth_error ns' ni) as [nd'|] eqn:E; [|discriminate].
    cbn in S. inversion S. eapply sub_leaf; eauto; congruence.
  - pose proof (S ni) as S'. rewrite Hnd in S'. destruct (nth_error ns' ni) as [nd'|] eqn:E; [|discriminate].
    cbn in S'. inversion S'. eapply sub_split with (nd := nd') (s := s); eauto; try congruence.
    + intros i Hi. replace (n_dim nd') with (n_dim nd). replace (n_thr nd') with (n_thr nd). auto.
    + intros i Hi. replace (n_dim nd') with (n_dim nd). replace (n_thr nd') with (n_thr nd). auto.
Qed.
