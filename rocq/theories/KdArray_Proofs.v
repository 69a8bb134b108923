From Coq Require Import List ZArith Arith Bool Lia Permutation.
From Verif Require Import Base Heap_Model KdTree_Model KdTree_Spec KdBuild_Proofs KdBounds_Proofs KdQuery_Proofs KdForest_Proofs KdArray_Model KdArray_Spec.
Import ListNotations.
Local Open Scope nat_scope.

Lemma i32_id z : (- 2 ^ 31 <= z < 2 ^ 31)%Z -> i32 z = z.
Proof. intro H. unfold i32. rewrite Z.mod_small by lia. lia. Qed.
Lemma u32_id z : (0 <= z < 2 ^ 32)%Z -> u32 z = z.
Proof. intro H. unfold u32. now apply Z.mod_small. Qed.
Lemma child_round c : (- 2 ^ 31 <= c < 2 ^ 31 - 1)%Z -> child_in (child_out c) = c.
Proof.
  intro H. unfold child_out, child_in. rewrite (i32_id c) by lia. destruct (Z.leb_spec 0 c).
  - rewrite i32_id by lia. destruct (Z.leb_spec 1 (c + 1)); lia.
  - rewrite i32_id by lia. destruct (Z.leb_spec 1 c); lia.
Qed.
Lemma omap_seq {A} (l : list A) n : n <= length l -> omap (fun i => aget l i) (seq 0 n) = Some (firstn n l).
Proof.
  intro H. assert (G : forall k s, s + k <= length l -> omap (fun i => aget l i) (seq s k) = Some (firstn k (skipn s l))).
  { induction k as [|k IH]; intros s L; [reflexivity|]. cbn [seq omap].
    destruct (aget_lt l s ltac:(lia)) as (x & E). rewrite E. cbn [obind]. rewrite IH by lia. cbn [obind]. f_equal.
    clear IH H. revert s L E. induction l as [|y l IH]; intros s L E; [cbn in L; lia|]. destruct s; cbn in *; [congruence|].
    apply IH; auto; lia. }
  apply (G n 0). lia.
Qed.

(** loading the nodes of a good tree *)
Definition reset (n : kdnode) : kdnode := set_parent n 0.
Definition node_fits (dimension numData used : nat) (n : kdnode) : Prop :=
  (- Z.of_nat numData <= n_lower n < Z.of_nat used)%Z /\ (- Z.of_nat numData - 1 <= n_upper n < Z.of_nat used)%Z /\ n_dim n < dimension.
Lemma load_ok dimension numData index : forall nodes pre, (Z.of_nat dimension < 2 ^ 32)%Z -> (Z.of_nat numData < 2 ^ 31 - 1)%Z -> (Z.of_nat (length (pre ++ nodes)) < 2 ^ 31 - 1)%Z ->
  Forall (node_fits dimension numData (length (pre ++ nodes))) nodes ->
  let l := pre ++ nodes in
  load_nodes dimension numData (length l)
    (mk_tree_array (map (fun n => child_out (n_lower n)) l) (map (fun n => child_out (n_upper n)) l)
    (map (fun n => u32 (Z.of_nat (n_dim n) + 1)) l) (map n_thr l) (map n_lb l) (map n_ub l) index) (length nodes) (length pre) = Some (Some (map reset nodes)).
Proof.
  induction nodes as [|n nodes IH]; intros pre Hd HN HU HF l; [reflexivity|].
  inversion HF as [|? ? (F1 & F2 & F3) HF']; subst.
  cbn [length load_nodes a_lower a_upper a_dim a_thr a_lb a_ub].
  assert (G : forall B (f : kdnode -> B), aget (map f l) (length pre) = Some (f n)).
  { intros B f. unfold aget, l. rewrite nth_error_map, nth_error_app2, Nat.sub_diag by lia. reflexivity. }
  rewrite !G. cbn [obind]. fold l in F1, F2, HU.
  assert (C : forall c, (- Z.of_nat numData - 1 <= c < Z.of_nat (length l))%Z -> child_out c = if (0 <=? c)%Z then (c + 1)%Z else c).
  { intros c Hc. unfold child_out. rewrite (i32_id c) by lia. destruct (Z.leb_spec 0 c); rewrite i32_id; lia. }
  rewrite (i32_id (Z.of_nat numData)), (i32_id (Z.of_nat (length l))), (u32_id (Z.of_nat dimension)), (u32_id (Z.of_nat (n_dim n) + 1)) by lia.
  rewrite (C (n_upper n)), (C (n_lower n)) by lia.
  destruct (Z.leb_spec 0 (n_upper n)), (Z.leb_spec 0 (n_lower n));
    repeat (match goal with |- context [(?a <? ?b)%Z] => destruct (Z.ltb_spec a b); [lia|] end); cbn [orb].
  all: replace (S (length pre)) with (length (pre ++ [n])) by (rewrite app_length; cbn; lia).
  all: specialize (IH (pre ++ [n])); rewrite <- app_assoc in IH; cbn [app] in IH; cbv zeta in IH; fold l in IH; rewrite IH by auto; cbn [obind option_map map]; unfold reset at 2, set_parent.
  all: repeat f_equal.
  all: try (unfold child_in; match goal with |- context [(1 <=? ?b)%Z] => destruct (Z.leb_spec 1 b); lia end).
  all: rewrite u32_id; lia.
Qed.

(** restoring the parents *)
Lemma restore_ok dimension x nodes : forall ni p b e L, subtree dimension x nodes ni p b e L -> forall ns todo fuel, NoDup L ->
  (forall j, In j L -> exists nd nd', nth_error nodes j = Some nd /\ nth_error ns j = Some nd' /\ reset nd' = reset nd) ->
  length L <= todo -> length L < fuel ->
  exists ns', restore fuel ns ni todo = Some (Some (ns', todo - length L)) /\ length ns' = length ns /\
    (forall j, In j L -> j <> ni -> nth_error ns' j = nth_error nodes j) /\ (forall j, ~ In j L \/ j = ni -> nth_error ns' j = nth_error ns j).
Proof.
  intros ni p b e L H. induction H as [ni p b e nd Hnd Hp Hl Hu Hd|ni p b e nd lo up s L U Hnd Hp Hl Hu Hd Hs H1 H2 SL IHL SU IHU]; intros ns todo fuel ND HE HT HF.
  - destruct fuel as [|fuel]; [lia|]. cbn [restore]. destruct (HE ni ltac:(now left)) as (n1 & n2 & E1 & E2 & ER). unfold aget. rewrite E2. cbn [obind].
    assert (n1 = nd) by congruence. subst n1. assert (El : n_lower n2 = n_lower nd) by (injection ER; auto). assert (Eu : n_upper n2 = n_upper nd) by (injection ER; auto).
    cbn [length] in HT. destruct (Nat.eqb_spec todo 0); [lia|]. rewrite El, Eu, Hl, Hu. unfold visit at 1.
    destruct (Z.leb_spec 0 (- Z.of_nat b - 1)); [lia|]. cbn [obind]. unfold visit. destruct (Z.leb_spec 0 (- Z.of_nat e - 1)); [lia|].
    exists ns. split; [reflexivity|]. split; [reflexivity|]. split; [|auto]. intros j [->|[]]; congruence.
  - destruct fuel as [|fuel]; [lia|]. cbn [restore]. destruct (HE ni ltac:(now left)) as (n1 & n2 & E1 & E2 & ER). unfold aget at 1. rewrite E2. cbn [obind].
    assert (n1 = nd) by congruence. subst n1. assert (El : n_lower n2 = n_lower nd) by (injection ER; auto). assert (Eu : n_upper n2 = n_upper nd) by (injection ER; auto).
    cbn [length] in HT, HF. rewrite app_length in HT, HF. destruct (Nat.eqb_spec todo 0); [lia|]. rewrite El, Eu, Hl, Hu. unfold visit at 1.
    destruct (Z.leb_spec 0 (Z.of_nat lo)); [|lia]. rewrite Nat2Z.id.
    apply NoDup_cons_iff in ND. destruct ND as [NI ND]. 
    assert (NDL : NoDup L /\ NoDup U /\ forall j, In j L -> ~ In j U).
    { clear - ND. induction L as [|a L IH]; cbn in *; [repeat split; auto; constructor|]. inversion ND as [|? ? N1 N2]; subst. destruct (IH N2) as (A & B & C).
      repeat split; auto; [constructor; auto; intro; apply N1; apply in_or_app; auto|]. intros j [->|K] X; [apply N1; apply in_or_app; auto|exact (C j K X)]. }
    destruct NDL as (NL & NU & DJ).
    assert (root : forall y q b e M, subtree dimension x nodes y q b e M -> In y M /\ exists n, nth_error nodes y = Some n /\ n_parent n = q) by (intros ? ? ? ? ? []; (split; [now left|eauto])).
    destruct (root _ _ _ _ _ SL) as (IL & nl & NLe & NLp). destruct (root _ _ _ _ _ SU) as (IU & nu & NUe & NUp).
    assert (par : forall n n' q, reset n' = reset n -> n_parent n = q -> set_parent n' q = n) by (intros [] [] q R <-; unfold reset, set_parent in *; cbn in *; congruence).
    assert (rs : forall n q, reset (set_parent n q) = reset n) by reflexivity.
    (* lower *)
    destruct (HE lo ltac:(right; apply in_or_app; auto)) as (m1 & m2 & F1 & F2 & FR). assert (m1 = nl) by congruence. subst m1.
    unfold aget at 1. rewrite F2. cbn [obind]. rewrite aset_lt by (apply nth_error_Some; congruence). cbn [obind].
    rewrite (par nl m2 ni FR NLp).
    destruct (IHL (upd ns lo nl) (todo - 1) fuel NL) as (ns1 & ER1 & LE1 & A1 & A2); [|lia|lia|].
    { intros j Hj. destruct (HE j ltac:(right; apply in_or_app; auto)) as (k1 & k2 & K1 & K2 & KR). exists k1.
      destruct (Nat.eq_dec j lo) as [->|N]; [exists nl; rewrite nth_error_upd_eq by (apply nth_error_Some; congruence); repeat split; auto; congruence|].
      exists k2. rewrite nth_error_upd_neq by congruence. auto. }
    rewrite upd_length in LE1. rewrite ER1. cbn [obind].
    assert (B1 : forall j, In j L -> nth_error ns1 j = nth_error nodes j).
    { intros j Hj. destruct (Nat.eq_dec j lo) as [->|N]; [|now apply A1]. rewrite A2 by auto. rewrite nth_error_upd_eq by (apply nth_error_Some; congruence). congruence. }
    assert (B2 : forall j, ~ In j L -> nth_error ns1 j = nth_error ns j).
    { intros j Hj. rewrite A2 by auto. apply nth_error_upd_neq. intros <-. contradiction. }
    (* upper *)
    destruct (HE up ltac:(right; apply in_or_app; auto)) as (q1 & q2 & G1 & G2 & GR). assert (q1 = nu) by congruence. subst q1.
    assert (NUL : ~ In up L) by (intro X; exact (DJ up X IU)).
    unfold visit at 1. destruct (Z.leb_spec 0 (Z.of_nat up)); [|lia]. rewrite Nat2Z.id.
    unfold aget at 1. rewrite B2, G2 by exact NUL. cbn [obind]. rewrite aset_lt by (rewrite LE1; apply nth_error_Some; congruence). cbn [obind].
    rewrite (par nu q2 ni GR NUp). assert (UL : up < length ns1) by (rewrite LE1; apply nth_error_Some; congruence).
    destruct (IHU (upd ns1 up nu) (todo - 1 - length L) fuel NU) as (ns2 & ER2 & LE2 & C1 & C2); [|lia|lia|].
    { intros j Hj. destruct (HE j ltac:(right; apply in_or_app; auto)) as (k1 & k2 & K1 & K2 & KR). exists k1.
      destruct (Nat.eq_dec j up) as [->|N]; [exists nu; rewrite nth_error_upd_eq by exact UL; repeat split; auto; congruence|].
      exists k2. rewrite nth_error_upd_neq by congruence. rewrite B2 by (intro X; exact (DJ j X Hj)). auto. }
    rewrite upd_length in LE2. rewrite ER2. exists ns2. split; [cbn [length]; rewrite app_length; replace (todo - S (length L + length U)) with (todo - 1 - length L - length U) by lia; reflexivity|]. split; [lia|]. split.
    + intros j [->|Hj] Nj; [congruence|]. apply in_app_or in Hj. destruct Hj as [Hj|Hj].
      * rewrite C2 by (left; auto). rewrite nth_error_upd_neq by (intros ->; contradiction). auto.
      * destruct (Nat.eq_dec j up) as [->|N]; [|now apply C1]. rewrite C2 by auto. rewrite nth_error_upd_eq by exact UL. congruence.
    + intros j Hj. assert (NLU : ~ In j L /\ ~ In j U).
      { destruct Hj as [Hj| ->]; split; intro X; try (apply Hj; right; apply in_or_app; auto); apply NI; apply in_or_app; auto. }
      destruct NLU as [N1 N2]. rewrite C2 by auto. rewrite nth_error_upd_neq by (intros ->; contradiction). now apply B2.
Qed.

(** the nodes of a good tree fit into the arrays *)
Lemma subtree_fits dimension x nodes used numData : forall ni p b e L, subtree dimension x nodes ni p b e L -> b < e -> e <= numData -> (forall j, In j L -> j < used) ->
  forall j, In j L -> exists nd, nth_error nodes j = Some nd /\ node_fits dimension numData used nd.
Proof.
  intros ni p b e L H. induction H as [ni p b e nd Hnd Hp Hl Hu Hd|ni p b e nd lo up s L U Hnd Hp Hl Hu Hd Hs H1 H2 SL IHL SU IHU]; intros BE EN HJ j Hj.
  - destruct Hj as [<-|[]]. exists nd. split; [exact Hnd|]. pose proof (HJ ni ltac:(now left)). repeat split; try lia.
  - assert (root : forall y q b e M, subtree dimension x nodes y q b e M -> In y M) by (intros ? ? ? ? ? []; now left).
    pose proof (HJ lo ltac:(right; apply in_or_app; left; eapply root; eauto)). pose proof (HJ up ltac:(right; apply in_or_app; right; eapply root; eauto)).
    destruct Hj as [<-|Hj].
    + exists nd. split; [exact Hnd|]. repeat split; try lia.
    + apply in_app_or in Hj. destruct Hj as [Hj|Hj]; [apply IHL|apply IHU]; auto; try lia; intros k Hk; apply HJ; right; apply in_or_app; auto.
Qed.

Lemma tree_round data dimension numData jd jv t : good_tree data dimension numData t -> 0 < numData -> (Z.of_nat dimension < 2 ^ 32)%Z -> (2 * Z.of_nat numData < 2 ^ 31)%Z ->
  exists a t', tree_to_array numData t = Some a /\ tree_from_array jd jv dimension numData a = Some (Some t') /\ same_tree t t'.
Proof.
  intros (GP & (L & ST & PL) & GU) HN HD HB.
  assert (HJ : forall j, In j L <-> j < t_used t) by (intro j; rewrite (Permutation_in' eq_refl PL), in_seq; lia).
  assert (FIT : forall j, j < t_used t -> exists nd, nth_error (t_nodes t) j = Some nd /\ node_fits dimension numData (t_used t) nd).
  { intros j Hj. eapply subtree_fits; [exact ST|exact HN|lia| |now apply HJ]. intros k Hk. now apply HJ. }
  assert (LU : t_used t <= length (t_nodes t)).
  { destruct (t_used t) as [|u] eqn:EU; [lia|]. destruct (FIT u ltac:(lia)) as (nd & E & _). assert (u < length (t_nodes t)) by (apply nth_error_Some; congruence). lia. }
  assert (LI : length (t_index t) = numData) by (rewrite <- (map_length e_index), (Permutation_length GP), seq_length; reflexivity).
  unfold tree_to_array. rewrite omap_seq by exact LU. cbn [obind]. rewrite omap_seq by lia. cbn [obind]. rewrite (firstn_all2 (t_index t)) by lia.
  set (l := firstn (t_used t) (t_nodes t)). assert (LL : length l = t_used t) by (unfold l; rewrite firstn_length; lia).
  match goal with |- exists a t', Some ?y = Some a /\ _ => exists y; enough (X : exists t', tree_from_array jd jv dimension numData y = Some (Some t') /\ same_tree t t')
    by (destruct X as (t' & X1 & X2); exists t'; auto) end.
  unfold tree_from_array. cbn [a_lower a_upper a_dim a_thr a_lb a_ub a_index].
  rewrite !map_length, LI, !Nat.eqb_refl. cbn [andb negb].
  pose proof (load_ok dimension numData (map (fun e : entry => u32 (Z.of_nat (e_index e) + 1)) (t_index t)) l [] HD ltac:(lia)) as LO. cbn [app length] in LO.
  rewrite LO; [|lia|]; clear LO.
  2: { apply Forall_forall. intros nd Hnd. apply In_nth_error in Hnd. destruct Hnd as (j & Hj). assert (j < length l) by (apply nth_error_Some; congruence).
    destruct (FIT j ltac:(lia)) as (nd' & E & NF). rewrite LL. replace nd with nd'; [exact NF|]. 
    assert (nth_error l j = Some nd') by (unfold l; rewrite <- E; rewrite <- (firstn_skipn (t_used t) (t_nodes t)) at 2; rewrite nth_error_app1; auto). congruence. }
  cbn [obind].
  assert (NTH : forall j, j < t_used t -> nth_error l j = nth_error (t_nodes t) j) by (intros j Hj; unfold l; rewrite <- (firstn_skipn (t_used t) (t_nodes t)) at 2; rewrite nth_error_app1; auto; fold l; lia).
  assert (NDL : NoDup L) by (apply (Permutation_NoDup (Permutation_sym PL)), seq_NoDup).
  assert (LEN : length L = t_used t) by (rewrite (Permutation_length PL), seq_length; reflexivity).
  destruct (restore_ok _ _ _ _ _ _ _ _ ST (map reset l) (length l) (S (length l)) NDL) as (ns' & E & LE & R1 & R2); [|lia|lia|].
  { intros j Hj. apply HJ in Hj. destruct (FIT j Hj) as (nd & End & _). exists nd, (reset nd). split; [exact End|]. split; [|reflexivity]. rewrite nth_error_map, NTH, End by exact Hj. reflexivity. }
  rewrite E. cbn [obind]. rewrite LL, LEN, Nat.sub_diag. cbn [Nat.eqb negb]. eexists. split; [reflexivity|].
  split; [reflexivity|]. cbn [t_nodes t_index t_used]. split.
  - apply nth_error_ext'. intro j. rewrite map_length in LE. destruct (Nat.lt_ge_cases j (t_used t)) as [Lt|Ge].
    + fold l. rewrite NTH by exact Lt. destruct (Nat.eq_dec j 0) as [->|N]; [|apply R1; auto; now apply HJ].
      rewrite R2 by auto. rewrite nth_error_map, NTH by exact Lt. inversion ST as [? ? ? ? nd Hnd Hp|? ? ? ? nd ? ? ? ? ? Hnd Hp]; subst; rewrite Hnd; cbn; unfold reset, set_parent; destruct nd; cbn in *; congruence.
    + fold l. rewrite (proj2 (nth_error_None ns' j)), (proj2 (nth_error_None l j)) by lia. reflexivity.
  - rewrite !map_map. apply map_ext_in. intros en He. cbn [e_index].
    assert (e_index en < numData). { assert (In (e_index en) (seq 0 numData)) by (apply (Permutation_in _ GP); now apply in_map). apply in_seq in H. lia. }
    rewrite (u32_id (Z.of_nat (e_index en) + 1)), u32_id by lia. lia.
Qed.

(** queries only read what is kept *)
Definition covers (F' F : forest) : Prop :=
  fo_dim F' = fo_dim F /\ fo_data F' = fo_data F /\ fo_num F' = fo_num F /\ fo_max_nodes F' = fo_max_nodes F /\
  Forall2 (fun t' t => (forall i n, aget (t_nodes t') i = Some n -> aget (t_nodes t) i = Some n) /\ map e_index (t_index t') = map e_index (t_index t)) (fo_trees F') (fo_trees F).
Lemma obind_inv {A B} (m : option A) (f : A -> option B) r : obind m f = Some r -> exists a, m = Some a /\ f a = Some r.
Proof. destruct m; [eauto|discriminate]. Qed.
Section Cover.
Variables (F' F : forest) (met : metric) (maxcmp k : nat) (query : list Z).
Hypothesis HC : covers F' F.
Lemma cover_distance di : forall cnt d, distance F' met query di d cnt = distance F met query di d cnt.
Proof. destruct HC as (E1 & E2 & _). induction cnt as [|cnt IH]; intro d; cbn [distance]; [reflexivity|]. rewrite E1, E2, IH. reflexivity. Qed.
Lemma cover_leaf idx idx' : map e_index idx' = map e_index idx -> forall cnt i q r, leaf_loop F' met maxcmp k query idx' i cnt q = Some r -> leaf_loop F met maxcmp k query idx i cnt q = Some r.
Proof.
  intro EI. assert (G : forall i en, aget idx' i = Some en -> exists en', aget idx i = Some en' /\ e_index en' = e_index en).
  { intros i en E. unfold aget in *. assert (X : nth_error (map e_index idx) i = Some (e_index en)) by (rewrite <- EI, nth_error_map, E; reflexivity).
    rewrite nth_error_map in X. destruct (nth_error idx i) as [en'|]; [|discriminate]. injection X as X. eauto. }
  induction cnt as [|cnt IH]; intros i q r E; cbn [leaf_loop] in *; [exact E|]. destruct (budget maxcmp q); [|exact E].
  apply obind_inv in E. destruct E as (en & E1 & E). destruct (G _ _ E1) as (en' & E1' & EE). rewrite E1'. cbn [obind]. cbv zeta in *. rewrite EE.
  destruct (aget (q_book q) (e_index en)) as [mark|]; [|discriminate]. cbn [obind] in *. destruct (mark =? q_id q); [now apply IH|].
  destruct (aset (q_book q) (e_index en) (q_id q)) as [book|]; [|discriminate]. cbn [obind] in *. rewrite cover_distance in E. replace (fo_dim F') with (fo_dim F) in E by (symmetry; apply HC).
  destruct (distance F met query (e_index en) 0 (fo_dim F)) as [dist|]; [|discriminate]. cbn [obind] in *. destruct (add_neighbor k (q_nbs q) (e_index en) dist) as [nbs|]; [|discriminate]. cbn [obind] in *.
  now apply IH.
Qed.
Lemma cover_tree ti t' : aget (fo_trees F') ti = Some t' -> exists t, aget (fo_trees F) ti = Some t /\ (forall i n, aget (t_nodes t') i = Some n -> aget (t_nodes t) i = Some n) /\ map e_index (t_index t') = map e_index (t_index t).
Proof.
  destruct HC as (_ & _ & _ & _ & H2). revert ti t'. unfold aget. induction H2; intros [|ti] t'; cbn; intro E; try discriminate; [injection E as <-; eauto|auto].
Qed.
Lemma cover_rec : forall fuel q ti ni dist r, query_rec F' met maxcmp k query fuel q ti ni dist = Some r -> query_rec F met maxcmp k query fuel q ti ni dist = Some r.
Proof.
  induction fuel as [|fuel IH]; intros q ti ni dist r E; [discriminate|]. cbn [query_rec] in *.
  apply obind_inv in E. destruct E as (t' & E1 & E). destruct (cover_tree _ _ E1) as (t & -> & HN & HI). cbn [obind].
  apply obind_inv in E. destruct E as (n & E2 & E). rewrite (HN _ _ E2). cbn [obind]. cbv zeta in *.
  destruct (aget query (n_dim n)) as [x|]; [|discriminate]. cbn [obind] in *.
  destruct (n_lower n <? 0)%Z; [now apply (cover_leaf (t_index t) (t_index t') HI)|].
  destruct (x <=? n_thr n)%Z; cbv beta iota in E |- *;
  (apply obind_inv in E; destruct E as (push & E3 & E); rewrite E3; cbn [obind];
  apply obind_inv in E; destruct E as (q1 & E4 & E); rewrite E4; cbn [obind]; now apply IH).
Qed.
Lemma cover_search : forall fuel q r, search_loop F' met maxcmp k query fuel q = Some r -> search_loop F met maxcmp k query fuel q = Some r.
Proof.
  induction fuel as [|fuel IH]; intros q r E; [discriminate|]. cbn [search_loop] in *.
  destruct (budget maxcmp q); [|exact E]. destruct (h_size (q_heap q) =? 0); [exact E|].
  destruct (heap_pop ss_cmp (q_heap q)) as [[h i]|]; [|discriminate]. cbn [obind] in *.
  destruct (aget (h_array h) i) as [s|]; [|discriminate]. cbn [obind] in *. cbv zeta in *.
  apply obind_inv in E. destruct E as (stop & E1 & E). rewrite E1. cbn [obind]. destruct stop; [exact E|].
  apply obind_inv in E. destruct E as (q2 & E2 & E). replace (fo_max_nodes F') with (fo_max_nodes F) in E2 by (symmetry; apply HC).
  rewrite (cover_rec _ _ _ _ _ _ E2). cbn [obind]. now apply IH.
Qed.
Lemma cover_query book id harr nbs r : searcher_query F' met maxcmp k query book id harr nbs = Some r -> searcher_query F met maxcmp k query book id harr nbs = Some r.
Proof.
  unfold searcher_query. intro E. destruct (k =? 0); [exact E|].
  assert (LT : length (fo_trees F') = length (fo_trees F)) by (destruct HC as (_ & _ & _ & _ & H2); clear - H2; induction H2; cbn; congruence). rewrite LT in E.
  destruct (push_roots (mk_heap harr 0) 0 (length (fo_trees F))) as [h0|]; [|discriminate]. cbn [obind] in *.
  replace (fo_max_nodes F') with (fo_max_nodes F) in E by (symmetry; apply HC).
  apply obind_inv in E. destruct E as (q & E1 & E). rewrite (cover_search _ _ _ E1). exact E.
Qed.
End Cover.
Lemma cover_queries F' F met : covers F' F -> forall cs s os, run_queries F' met s cs = Some os -> run_queries F met s cs = Some os.
Proof.
  intro HC. induction cs as [|c cs IH]; intros s os E; [exact E|]. cbn [run_queries] in *. unfold run_query in *.
  apply obind_inv in E. destruct E as ([s1 o] & E1 & E). apply obind_inv in E1. destruct E1 as ([[[[book id] harr] out] ncmp] & E1 & E1').
  rewrite (cover_query F' F met (c_max c) (c_k c) (c_query c) HC _ _ _ _ _ E1). cbn [obind]. injection E1' as <- <-. cbn [obind] in *.
  apply obind_inv in E. destruct E as (os' & E2 & E). rewrite (IH _ _ E2). exact E.
Qed.

(** the whole forest *)
Lemma forest_round junk dimension meth chooses sorter numData data jd jv met : 0 < dimension -> (Z.of_nat dimension < 2 ^ 32)%Z -> 0 < numData -> (2 * Z.of_nat numData < 2 ^ 31)%Z ->
  length data = numData * dimension -> sorts sorter -> chooses <> [] -> Forall (chooses_well data dimension) chooses ->
  exists F a F', forest_build junk dimension meth chooses sorter numData data = Some F /\ to_array F met = Some a /\
    from_array jd jv a (dimension, numData, data) = Some (Some (F', met)) /\ same_forest F F' /\
    Forall (tree_ok F) (fo_trees F) /\ fo_max_nodes F = fold_right (fun t m => t_used t + m) 0 (fo_trees F) /\ fo_dim F = dimension /\ fo_data F = data /\ fo_num F = numData /\ fo_trees F <> [].
Proof.
  intros Hd Hd2 Hn Hn2 HL HS HNE HW.
  destruct (forest_build_ok junk dimension meth chooses sorter numData data Hd Hn ltac:(lia) HL HS HW) as (F & E & (W1 & W2 & W3 & W4 & W5) & TO & MX).
  exists F. assert (R : forall ts, Forall (good_tree data dimension numData) ts -> exists as_ ts', omap (tree_to_array numData) ts = Some as_ /\ length as_ = length ts /\
     trees_from_array jd jv dimension numData as_ = Some (Some ts') /\ Forall2 same_tree ts ts').
  { induction ts as [|t ts IH]; intro G; [exists [], []; cbn; auto|]. pose proof (Forall_inv G) as G1. pose proof (Forall_inv_tail G) as G2.
    destruct (IH G2) as (as_ & ts' & A1 & A2 & A3 & A4). destruct (tree_round data dimension numData jd jv t G1 Hn Hd2 Hn2) as (a & t' & B1 & B2 & B3).
    exists (a :: as_), (t' :: ts'). cbn [omap trees_from_array]. rewrite B1. cbn [obind]. rewrite A1. cbn [obind]. rewrite B2. cbn [obind]. rewrite A3. cbn [obind option_map length]. auto. }
  destruct (R (fo_trees F) W5) as (as_ & ts' & A1 & A2 & A3 & A4).
  assert (SM : fold_left (fun m t => m + t_used t) ts' 0 = fo_max_nodes F).
  { rewrite MX. clear - A4. assert (G : forall us us', Forall2 same_tree us us' -> forall m, fold_left (fun m t => m + t_used t) us' m = m + fold_right (fun t m => t_used t + m) 0 us).
    { induction 1 as [|t t' us us' (U & _) _ IH]; intro m; cbn; [lia|]. rewrite IH, U. lia. }
    now rewrite (G _ _ A4). }
  exists (mk_forest_array dimension numData as_ (Some met)), (mk_forest dimension data numData ts' (fo_max_nodes F)).
  split; [exact E|]. unfold to_array. rewrite W1, W3, A1. split; [reflexivity|].
  assert (NE : fo_trees F <> []) by (intro X; rewrite X in W4; destruct chooses; [congruence|discriminate]).
  split; [|split; [|auto 10]].
  - unfold from_array. cbn [a_distance a_dimension a_numData a_trees]. destruct (Nat.ltb_spec dimension 1); [lia|]. destruct (Nat.ltb_spec numData 1); [lia|].
    destruct (Nat.ltb_spec (length as_) 1); [destruct (fo_trees F); cbn in *; [congruence|lia]|]. rewrite !Nat.eqb_refl. cbn [orb andb negb]. rewrite A3. cbn [obind]. rewrite SM. reflexivity.
  - unfold same_forest. cbn. auto.
Qed.

(** loading is safe *)
Definition children_in (n : nat) (nd : kdnode) : Prop := (n_lower nd < Z.of_nat n)%Z /\ (n_upper nd < Z.of_nat n)%Z.
Lemma restore_safe : forall fuel ns ni todo, todo < fuel -> ni < length ns -> Forall (children_in (length ns)) ns ->
  exists r, restore fuel ns ni todo = Some r /\ (forall ns' todo', r = Some (ns', todo') -> length ns' = length ns /\ Forall (children_in (length ns)) ns' /\ todo' < todo).
Proof.
  induction fuel as [|fuel IH]; intros ns ni todo LT LN FC; [lia|]. cbn [restore]. destruct (aget_lt ns ni LN) as (node & E). rewrite E. cbn [obind].
  destruct (Nat.eqb_spec todo 0) as [|NZ]; [exists None; split; [reflexivity|discriminate]|].
  assert (CN : children_in (length ns) node) by (rewrite Forall_forall in FC; apply FC; eapply nth_error_In; exact E).
  assert (V : forall c ms t, (c < Z.of_nat (length ns))%Z -> length ms = length ns -> Forall (children_in (length ns)) ms -> t <= todo - 1 ->
    exists r, visit (restore fuel) ni c (Some (ms, t)) = Some r /\ (forall ns' todo', r = Some (ns', todo') -> length ns' = length ns /\ Forall (children_in (length ns)) ns' /\ todo' <= todo - 1)).
  { intros c ms t Hc LM FM Ht. unfold visit. destruct (Z.leb_spec 0 c) as [NN|NN].
    - destruct (aget_lt ms (Z.to_nat c) ltac:(lia)) as (child & EC). rewrite EC. cbn [obind]. rewrite aset_lt by lia. cbn [obind].
      destruct (IH (upd ms (Z.to_nat c) (set_parent child ni)) (Z.to_nat c) t) as (r & ER & HR); [lia|rewrite upd_length; lia| |].
      { rewrite upd_length, LM. apply Forall_forall. intros nd Hnd. apply In_nth_error in Hnd. destruct Hnd as (j & Hj). rewrite nth_error_upd in Hj. rewrite Forall_forall in FM.
        destruct ((j =? Z.to_nat c) && (Z.to_nat c <? length ms)); [injection Hj as <-; exact (FM child (nth_error_In _ _ EC))|exact (FM nd (nth_error_In _ _ Hj))]. }
      rewrite ER. exists r. split; [reflexivity|]. intros ns' todo' X. destruct (HR ns' todo' X) as (A & B & C). rewrite upd_length, LM in *. repeat split; auto; lia.
    - exists (Some (ms, t)). split; [reflexivity|]. intros ns' todo' X. injection X as <- <-. auto. }
  destruct (V (n_lower node) ns (todo - 1) (proj1 CN) eq_refl FC (le_n _)) as (r & ER & HR). rewrite ER. cbn [obind].
  destruct r as [[ms t]|]; [|exists None; split; [reflexivity|discriminate]].
  destruct (HR ms t eq_refl) as (A & B & C). destruct (V (n_upper node) ms t (proj2 CN) A B C) as (r & ER2 & HR2). rewrite ER2. exists r. split; [reflexivity|].
  intros ns' todo' X. destruct (HR2 ns' todo' X) as (A' & B' & C'). repeat split; auto; lia.
Qed.
Lemma load_safe dimension numData used a : (Z.of_nat used < 2 ^ 31)%Z -> 0 < used -> length (a_lower a) = used -> length (a_upper a) = used -> length (a_dim a) = used -> length (a_thr a) = used ->
  length (a_lb a) = used -> length (a_ub a) = used -> forall cnt ni, ni + cnt <= used ->
  exists r, load_nodes dimension numData used a cnt ni = Some r /\ (forall l, r = Some l -> length l = cnt /\ Forall (children_in used) l).
Proof.
  intros HB HU L1 L2 L3 L4 L5 L6. induction cnt as [|cnt IH]; intros ni Hc; cbn [load_nodes]; [exists (Some []); split; [reflexivity|]; intros l X; injection X as <-; auto|].
  destruct (aget_lt (a_lower a) ni ltac:(lia)) as (lc & ->). destruct (aget_lt (a_upper a) ni ltac:(lia)) as (uc & ->). destruct (aget_lt (a_dim a) ni ltac:(lia)) as (d & ->). cbn [obind].
  rewrite (i32_id (Z.of_nat used)) by lia.
  destruct ((uc <? _)%Z || _) eqn:E1; [exists None; split; [reflexivity|discriminate]|]. destruct ((lc <? _)%Z || _) eqn:E2; [exists None; split; [reflexivity|discriminate]|].
  destruct (_ <? d)%Z; [exists None; split; [reflexivity|discriminate]|].
  destruct (aget_lt (a_thr a) ni ltac:(lia)) as (thr & ->). destruct (aget_lt (a_lb a) ni ltac:(lia)) as (lb & ->). destruct (aget_lt (a_ub a) ni ltac:(lia)) as (ub & ->). cbn [obind].
  destruct (IH (S ni) ltac:(lia)) as (r & -> & HR). cbn [obind]. eexists. split; [reflexivity|]. intros l X. destruct r as [l'|]; [|discriminate]. injection X as <-.
  destruct (HR l' eq_refl) as (A & B). split; [cbn; lia|]. constructor; [|exact B]. apply orb_false_iff in E1, E2. destruct E1 as [_ E1], E2 as [_ E2]. apply Z.ltb_ge in E1, E2.
  unfold children_in, child_in. cbn [n_lower n_upper]. destruct (Z.leb_spec 1 lc), (Z.leb_spec 1 uc); lia.
Qed.
Lemma tree_safe jd jv dimension numData a : 0 < length (a_lower a) -> (Z.of_nat (length (a_lower a)) < 2 ^ 31)%Z -> exists r, tree_from_array jd jv dimension numData a = Some r /\
  (forall t, r = Some t -> 0 < t_used t /\ length (t_nodes t) = t_used t /\ Forall (children_in (t_used t)) (t_nodes t) /\ length (t_index t) = numData).
Proof.
  intros H0 HB. unfold tree_from_array. destruct (negb _) eqn:EN; [exists None; split; [reflexivity|discriminate]|].
  apply negb_false_iff in EN. repeat rewrite andb_true_iff in EN. rewrite !Nat.eqb_eq in EN. destruct EN as (((((L1 & L2) & L3) & L4) & L5) & L6).
  destruct (load_safe dimension numData (length (a_lower a)) a HB H0 eq_refl L1 L2 L3 L4 L5 (length (a_lower a)) 0 (le_n _)) as (r & -> & HR). cbn [obind].
  destruct r as [ns|]; [|exists None; split; [reflexivity|discriminate]]. destruct (HR ns eq_refl) as (A & B).
  destruct (restore_safe (S (length (a_lower a))) ns 0 (length (a_lower a))) as (r & -> & HS); [lia|lia|now rewrite A|]. cbn [obind].
  destruct r as [[ns' todo]|]; [|exists None; split; [reflexivity|discriminate]]. destruct (HS ns' todo eq_refl) as (A' & B' & _).
  destruct (negb (todo =? 0)); [exists None; split; [reflexivity|discriminate]|]. eexists. split; [reflexivity|]. intros t X. injection X as <-. cbn. rewrite map_length. rewrite A in B', A'. auto.
Qed.
Lemma csub_bound dimension x nodes : forall ni lo hi b e L j, csub dimension x nodes ni lo hi b e L -> In j L -> j < length nodes.
Proof.
  intros ni lo hi b e L j H. induction H as [? ? ? ? ? ? Hnd|? ? ? ? ? ? ? ? ? ? ? Hnd ? ? ? ? ? ? ? ? ? IH1 ? IH2]; intro Hj.
  - destruct Hj as [<-|[]]. apply nth_error_Some. congruence.
  - destruct Hj as [<-|Hj]; [apply nth_error_Some; congruence|]. apply in_app_or in Hj. destruct Hj; auto.
Qed.
