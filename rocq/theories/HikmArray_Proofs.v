(** Proofs about the structures of trees of integer k-means. *)
From Coq Require Import List Arith ZArith Lia Bool.
Import ListNotations.
From Verif Require Import Base Loop Ikm_Model Ikm_Spec IkmDist_Proofs IkmMean_Proofs IkmElkan_Proofs IkmInit_Proofs Hikm_Proofs HikmArray_Model HikmArray_Spec.
Local Open Scope nat_scope.

Lemma mnode_rect' (P : mnode -> Prop) : (forall mc ms, (forall l, ms = Some (Some l) -> Forall P l) -> P (MNode mc ms)) -> forall m, P m.
Proof.
  intro H. fix IH 1. intros [mc ms]. apply H. intros l E. destruct ms as [[l'|]|]; try discriminate. injection E as E. subst l.
  induction l' as [|x l' IHl]; constructor; [apply IH|apply IHl].
Qed.

Lemma copy_first_all n l : length l = n -> copy_first n l = Some l.
Proof.
  unfold copy_first. revert n. induction l as [|x l IH]; intros n L; destruct n as [|n]; cbn in *; try discriminate; [reflexivity|].
  rewrite IH by lia. reflexivity.
Qed.

(** ** Reading a structure *)
Lemma represents_valid M K h m nd : sound M K h nd -> represents M K m nd -> valid M K m.
Proof.
  revert m nd. induction h as [|h IH]; intros m nd S R; inversion S; subst; inversion R as [c f0 (A & B & C & D & E & F & G)|c f0 ms cs0 (A & B & C & D & E & F & G) L Q]; subst.
  - constructor; auto.
  - constructor; auto; [rewrite <- L; clear -Q; induction Q; cbn; congruence|].
    match goal with H : Forall (sound _ _ _) _ |- _ => revert H end. clear - Q IH. intro Fs.
    induction Q as [|x y xs ys Hx Q IHQ]; constructor.
    + eapply IH; [exact (Forall_inv Fs)|exact Hx].
    + apply IHQ. exact (Forall_inv_tail Fs).
Qed.

Lemma forall2_length {A B} (R : A -> B -> Prop) l l' : Forall2 R l l' -> length l = length l'.
Proof. induction 1; cbn; congruence. Qed.

Section read.
  Context (el : bool) (K : nat) (junk : list nat -> nat -> list Z).
  Hypothesis HJ : forall path k, length (junk path k) = k * k.

  Definition node_reads (m : mnode) : Prop := matrices_ok m -> forall tM path, exists r, from_node el K junk tM path m = Some r /\
    match r with
    | None => forall M, M <> 0 -> tM = 0 \/ tM = M -> ~ valid M K m
    | Some (nd, M) => M <> 0 /\ (tM = 0 \/ tM = M) /\ valid M K m /\ represents M K m nd /\ prepared el nd
    end.
  Lemma children_read l : Forall node_reads l -> Forall matrices_ok l -> forall path k tM, tM <> 0 ->
    exists r, from_children (from_node el K junk) path k tM l = Some r /\
    match r with
    | None => ~ Forall (valid tM K) l
    | Some (cs, M) => M = tM /\ Forall (valid M K) l /\ Forall2 (represents M K) l cs /\ Forall (prepared el) cs
    end.
  Proof.
    induction l as [|x l IH]; intros FR FM path k tM HM; cbn [from_children].
    - eexists. split; [reflexivity|]. repeat split; constructor.
    - destruct (Forall_inv FR (Forall_inv FM) tM (path ++ [k])) as (r & -> & Hr). cbn [obind]. destruct r as [[c M1]|].
      + destruct Hr as (M0 & Ht & V & R & P). destruct Ht as [Ht|Ht]; [lia|]. subst M1.
        destruct (IH (Forall_inv_tail FR) (Forall_inv_tail FM) path (k + 1) tM HM) as (r & E & Hr).
        match goal with |- context [obind ?m _] => assert (X : m = Some r) by exact E; rewrite X; clear X end. cbn [obind]. destruct r as [[cs M2]|].
        * destruct Hr as (-> & V2 & R2 & P2). eexists. split; [reflexivity|]. repeat split; constructor; assumption.
        * eexists. split; [reflexivity|]. intro Q. apply Hr. exact (Forall_inv_tail Q).
      + eexists. split; [reflexivity|]. intro Q. apply (Hr tM HM); [now right|exact (Forall_inv Q)].
  Qed.
  Lemma node_read m : node_reads m.
  Proof.
    induction m as [mc ms IH] using mnode_rect'. intros MO tM path. cbn [from_node].
    destruct mc as [c|]; [|eexists; split; [reflexivity|]; intros M _ _ V; inversion V].
    assert (LV : length (m_vals c) = m_rows c * m_cols c) by (inversion MO; assumption).
    assert (MS : forall l, ms = Some (Some l) -> Forall matrices_ok l) by (inversion MO; assumption).
    destruct (is_int32 c) eqn:E1; [|cbn [negb orb]; eexists; split; [reflexivity|]; intros M _ _ V; inversion V; congruence].
    destruct (is_matrix c) eqn:E2; [|cbn [negb orb]; eexists; split; [reflexivity|]; intros M _ _ V; inversion V; congruence].
    cbn [negb orb]. destruct (m_rows c =? 0) eqn:E3.
    { apply Nat.eqb_eq in E3. eexists; split; [reflexivity|]; intros M HM _ V; inversion V; congruence. }
    apply Nat.eqb_neq in E3. destruct (K <? m_cols c) eqn:E4.
    { apply Nat.ltb_lt in E4. eexists; split; [reflexivity|]; intros M HM _ V; inversion V; lia. }
    apply Nat.ltb_ge in E4. destruct (negb (tM =? 0) && negb (m_rows c =? tM)) eqn:E5.
    { apply andb_true_iff in E5. destruct E5 as [E5 E6]. apply negb_true_iff in E5. apply negb_true_iff in E6. apply Nat.eqb_neq in E5, E6.
      eexists; split; [reflexivity|]; intros M HM Ht V; inversion V; lia. }
    assert (ET : tM = 0 \/ tM = m_rows c).
    { apply andb_false_iff in E5. destruct E5 as [E5|E5]; apply negb_false_iff in E5; apply Nat.eqb_eq in E5; auto. }
    assert (EM : (if tM =? 0 then m_rows c else tM) = m_rows c).
    { destruct (tM =? 0) eqn:Q; [reflexivity|]. apply Nat.eqb_neq in Q. lia. }
    rewrite EM. rewrite copy_first_all by assumption. cbn [obind].
    destruct (init_ok el (m_vals c) (m_rows c) (m_cols c) 200 (junk path (m_cols c)) LV (HJ _ _)) as (f & -> & R & F1 & F2 & F3 & F4 & F5). cbn [obind].
    assert (HO : holds (m_rows c) K c f) by (repeat split; assumption).
    destruct ms as [[l|]|].
    - destruct (length l =? m_cols c) eqn:E6; cbn [negb].
      + apply Nat.eqb_eq in E6. destruct (children_read l (IH l eq_refl) (MS l eq_refl) path 0 (m_rows c) E3) as (r & -> & Hr). cbn [obind].
        destruct r as [[cs M]|].
        * destruct Hr as (-> & V & R2 & P). eexists. split; [reflexivity|]. split; [assumption|]. split; [assumption|].
          split; [constructor; auto|]. split; [|constructor; assumption]. constructor; [assumption| |assumption]. now rewrite <- (forall2_length _ _ _ R2).
        * eexists. split; [reflexivity|]. intros M HM Ht V. inversion V as [|c' ms' A B C D L Q]; subst. now apply Hr.
      + apply Nat.eqb_neq in E6. eexists. split; [reflexivity|]. intros M HM Ht V. inversion V; subst. contradiction.
    - eexists. split; [reflexivity|]. intros M HM Ht V. inversion V.
    - eexists. split; [reflexivity|]. split; [assumption|]. split; [assumption|]. split; [constructor; auto|]. split; constructor; assumption.
  Qed.
End read.

(** ** Writing a structure *)
Lemma omap_first_ok (P : node -> mnode -> Prop) l n : length l = n -> Forall (fun x => exists y, to_node x = Some y /\ P x y) l ->
  exists ys, omap_first to_node n l = Some ys /\ Forall2 (fun y x => P x y) ys l.
Proof.
  revert n. induction l as [|x l IH]; intros n L F; destruct n as [|n]; cbn [length] in L; try discriminate.
  - exists []. split; [reflexivity|constructor].
  - destruct (Forall_inv F) as (y & E & Hy). destruct (IH n ltac:(lia) (Forall_inv_tail F)) as (ys & Es & Hs).
    exists (y :: ys). cbn [omap_first]. rewrite E. cbn [obind].
    match goal with |- context [obind ?m _] => assert (X : m = Some ys) by exact Es; rewrite X; clear X end. split; [reflexivity|now constructor].
Qed.
Lemma node_written M K h nd : sound M K h nd -> exists m, to_node nd = Some m /\ represents M K m nd /\ matrices_ok m.
Proof.
  revert nd. induction h as [|h IH]; intros nd S; inversion S as [f R [Ef Eg] B|h' f cs R [Ef Eg] B L F]; subst; cbn [to_node];
    rewrite copy_first_all by exact (proj1 R); cbn [obind].
  - eexists. split; [reflexivity|]. split; [constructor; repeat split; cbn; auto|constructor; [cbn; exact (proj1 R)|discriminate]].
  - destruct (omap_first_ok (fun x y => represents (fM f) K y x /\ matrices_ok y) cs (fK f) L) as (ms & -> & Q).
    { clear -F IH. induction F as [|x cs Hx F IHF]; constructor; [|assumption]. destruct (IH x Hx) as (m & E & R & MO). exists m. auto. }
    cbn [obind]. eexists. split; [reflexivity|]. split.
    + constructor; [repeat split; cbn; auto|cbn; assumption|]. clear -Q. induction Q as [|y x ys xs [R _] Q IHQ]; constructor; auto.
    + constructor; [cbn; exact (proj1 R)|]. intros l E. injection E as <-. clear -Q. induction Q as [|y x ys xs [_ R] Q IHQ]; constructor; auto.
Qed.

(** ** Two trees of one structure *)
Lemma forall2_nth {A B} (R : A -> B -> Prop) l l' i y : Forall2 R l l' -> nth_error l' i = Some y -> exists x, nth_error l i = Some x /\ R x y.
Proof. intro F. revert i. induction F as [|a b l l' H F IH]; intros [|i] E; cbn in *; try discriminate; [injection E as <-; eauto|apply IH; assumption]. Qed.
Lemma forall2_nth_l {A B} (R : A -> B -> Prop) l l' i x : Forall2 R l l' -> nth_error l i = Some x -> exists y, nth_error l' i = Some y /\ R x y.
Proof. intro F. revert i. induction F as [|a b l l' H F IH]; intros [|i] E; cbn in *; try discriminate; [injection E as <-; eauto|apply IH; assumption]. Qed.
Lemma path_same M K u nd p : path_of M u nd p -> forall m nd', represents M K m nd -> represents M K m nd' -> path_of M u nd' p.
Proof.
  induction 1 as [f k F|f cs k c p L F E P IH]; intros m nd' R R'.
  - inversion R as [c' f0 (A & B & C & D & G & I & J)|]; subst. inversion R' as [c0 f1 (A' & B' & C' & D' & G' & I' & J')|]; subst. constructor.
    replace (fK f1) with (fK f) by congruence. replace (centers f1) with (centers f) by congruence. assumption.
  - inversion R as [|c' f0 ms cs0 (A & B & C & D & G & I & J) L0 Q]; subst. inversion R' as [|c0 f1 ms1 cs1 (A' & B' & C' & D' & G' & I' & J') L1 Q1]; subst.
    destruct (forall2_nth _ _ _ _ _ Q E) as (m & Em & Rm). destruct (forall2_nth_l _ _ _ _ _ Q1 Em) as (c1 & Ec & Rc).
    apply path_node with (c := c1); [congruence| |assumption|].
    + replace (fK f1) with (fK f) by congruence. replace (centers f1) with (centers f) by congruence. assumption.
    + apply (IH m); assumption.
Qed.
Lemma forall2_in {A B} (R : A -> B -> Prop) l l' y : Forall2 R l l' -> In y l' -> exists i x, nth_error l i = Some x /\ nth_error l' i = Some y /\ R x y.
Proof. intros F H. apply In_nth_error in H. destruct H as (i & E). destruct (forall2_nth _ _ _ _ _ F E) as (x & Ex & Rx). eauto 6. Qed.
Lemma sound_same M K h el nd m nd' : sound M K h nd -> represents M K m nd -> represents M K m nd' -> prepared el nd' -> sound M K h nd'.
Proof.
  intro S. revert m nd'. revert nd S. induction h as [|h IH]; intros nd S m nd' R R' P.
  - inversion S as [f Rf [Ef Eg] B|]; subst. inversion R as [c f0 (A & B0 & C & D & G & I & J)|]; subst.
    inversion R' as [c0 f1 (A' & B' & C' & D' & G' & I' & J')|]; subst. inversion P; subst. constructor; [assumption| |congruence]. split; [congruence|lia].
  - inversion S as [|h' f cs Rf [Ef Eg] B L F]; subst. inversion R as [|c f0 ms cs0 (A & B0 & C & D & G & I & J) L0 Q]; subst.
    inversion R' as [|c0 f1 ms1 cs1 (A' & B' & C' & D' & G' & I' & J') L1 Q1]; subst. inversion P as [|f2 cs2 P1 P2 P3]; subst.
    constructor; [assumption|split; [congruence|lia]|congruence|congruence|]. apply Forall_forall. intros x Hx.
    destruct (forall2_in _ _ _ _ Q1 Hx) as (i & m & Em & Ex & Rm). destruct (forall2_nth_l _ _ _ _ _ Q Em) as (y & Ey & Ry).
    rewrite Forall_forall in F, P3. apply (IH y (F y (nth_error_In _ _ Ey)) m x); auto.
Qed.

(** ** Columns *)
Lemma nth_column (l : list Z) d x j : j < d -> nth (x * d + j) l 0%Z = nth j (firstn d (skipn (x * d) l)) 0%Z.
Proof. intro H. rewrite nth_firstn_lt by assumption. rewrite nth_skipn_at. reflexivity. Qed.
Lemma columns_eq (a b : list Z) N d : length a = N * d -> length b = N * d ->
  (forall x, x < N -> firstn d (skipn (x * d) a) = firstn d (skipn (x * d) b)) -> a = b.
Proof.
  intros La Lb H. apply (nth_ext _ _ 0%Z 0%Z); [congruence|]. intros t Ht. destruct d as [|d]; [lia|].
  assert (Hd : S d <> 0) by lia. pose proof (Nat.div_mod t (S d) Hd) as E. pose proof (Nat.mod_upper_bound t (S d) Hd) as U.
  assert (Hx : t / S d < N) by (apply Nat.div_lt_upper_bound; lia).
  replace t with (t / S d * S d + t mod S d) by lia. rewrite !nth_column by assumption. now rewrite (H _ Hx).
Qed.
Lemma succ_small p G : (Z.of_nat G < no_center)%Z -> Forall (fun v => 0 <= v < Z.of_nat G)%Z p -> map u32_succ p = map (fun v => (v + 1)%Z) p.
Proof.
  intros HG F. induction F as [|v p Hv F IH]; cbn [map]; [reflexivity|]. f_equal; [|assumption]. unfold u32_succ, no_center in *. apply Z.mod_small. lia.
Qed.
Lemma map_column (l : list Z) d x : firstn d (skipn (x * d) (map u32_succ l)) = map u32_succ (firstn d (skipn (x * d) l)).
Proof. now rewrite skipn_map, firstn_map. Qed.

(** ** Pushing through a structure *)
Lemma positive_field_ok n : 0 < n -> (Z.of_nat n <= 2147483647)%Z -> positive_field (Some (Z.of_nat n)) = Some (Some n).
Proof.
  intros H1 H2. unfold positive_field, to_int. replace ((-2147483648 <=? Z.of_nat n) && (Z.of_nat n <=? 2147483647))%Z with true
    by (symmetry; apply andb_true_iff; split; apply Z.leb_le; lia). cbn [obind].
  replace (Z.of_nat n <? 1)%Z with false by (symmetry; apply Z.ltb_ge; lia). now rewrite Nat2Z.id.
Qed.
Lemma valid_unique M M' K m : valid M K m -> valid M' K m -> M = M'.
Proof. intros A B. inversion A; subst; inversion B; subst; congruence. Qed.
Lemma tree_read el junk K depth m : (forall path k, length (junk path k) = k * k) -> matrices_ok m -> 0 < K -> 0 < depth ->
  (Z.of_nat K <= 2147483647)%Z -> (Z.of_nat depth <= 2147483647)%Z ->
  forall M, M <> 0 -> valid M K m -> exists root, from_tree el junk (mk_mtree true (Some (Z.of_nat K)) (Some (Z.of_nat depth)) m) = Some (Some (root, M, depth)) /\
    represents M K m root /\ prepared el root.
Proof.
  intros HJ MO HK HD BK BD M HM V. unfold from_tree. cbn [is_struct negb m_K m_depth m_root]. rewrite !positive_field_ok by assumption. cbn [obind].
  destruct (node_read el K junk HJ m MO 0 []) as (r & -> & Hr). cbn [obind]. destruct r as [[nd M']|].
  - destruct Hr as (_ & _ & V' & R & P). assert (M' = M) by (eapply valid_unique; eassumption). subst M'. eauto.
  - exfalso. apply (Hr M HM); [now left|assumption].
Qed.
Lemma push_structure el junk M K h root t : (forall path k, length (junk path k) = k * k) -> (Z.of_nat M * 65025 < acc_max)%Z ->
  0 < M -> 0 < K -> (Z.of_nat K <= 2147483647)%Z -> (Z.of_nat (S h) <= 2147483647)%Z -> sound M K h root -> to_tree K (S h) root = Some t ->
  forall data N, bytes data -> N * M <= length data -> (forall x, x < N -> exists p, path_of M (coord M data x) root p) ->
  exists out, hikm_push M (S h) root (repeat 0%Z (S h * N)) data N = Some out /\ length out = N * S h /\
    (forall x, x < N -> path_of M (coord M data x) root (firstn (S h) (skipn (x * S h) out))) /\
    hikmeanspush el junk t true data N = Some (Some (map u32_succ out)).
Proof.
  intros HJ HA HM HK BK BD S ET data N B LD HP. unfold to_tree in ET. destruct (node_written M K h root S) as (m & E & R & MO). rewrite E in ET. cbn [obind] in ET.
  assert (ET' : t = mk_mtree true (Some (Z.of_nat K)) (Some (Z.of_nat (Datatypes.S h))) m) by congruence. subst t. clear ET. destruct (hikm_push_ok M K h root data N (repeat 0%Z (Datatypes.S h * N)) HA B LD S) as (out & E1 & L1 & P1); [rewrite repeat_length; lia|assumption|].
  rewrite repeat_length in L1. exists out. split; [assumption|]. split; [lia|]. split; [assumption|].
  destruct (tree_read el junk K (Datatypes.S h) m HJ MO HK ltac:(lia) BK BD M ltac:(lia) (represents_valid M K h m root S R)) as (root' & E2 & R' & P).
  unfold hikmeanspush. cbn [negb]. rewrite E2. cbn [obind].
  pose proof (sound_same M K h el root m root' S R R' P) as S'.
  assert (HP' : forall x, x < N -> exists p, path_of M (coord M data x) root' p).
  { intros x Hx. destruct (HP x Hx) as (p & Q). exists p. eapply path_same; eassumption. }
  destruct (hikm_push_ok M K h root' data N (repeat 0%Z (Datatypes.S h * N)) HA B LD S') as (out' & E3 & L3 & P3); [rewrite repeat_length; lia|assumption|].
  rewrite repeat_length in L3. rewrite E3. cbn [obind]. do 3 f_equal. apply (columns_eq _ _ N (Datatypes.S h)); [lia..|]. intros x Hx.
  apply (path_unique M K (coord M data x) h root' S'); [now apply P3|]. eapply path_same; [now apply P1|eassumption..].
Qed.
