(** C262-C269: trees of integer k-means as MATLAB structures. *)
From Coq Require Import List Arith ZArith Lia Bool Reals Lra.
Import ListNotations.
From Verif Require Import Base Loop Ikm_Model Ikm_Spec IkmDist_Proofs IkmMean_Proofs IkmElkan_Proofs IkmInit_Proofs Hikm_Proofs Ikm_Props
  HikmArray_Model HikmArray_Spec HikmArray_Proofs.
Local Open Scope nat_scope.

Definition fresh_ok (junk : list nat -> nat -> list Z) : Prop := forall path k, length (junk path k) = k * k.
Definition small (n : nat) : Prop := (Z.of_nat n <= 2147483647)%Z.

(** C262: the structure of a trained tree is read back, with either method, as a tree with the same nodes and centers *)
Theorem C262_round_trip depth el M K nit ch data N root el' junk :
  0 < depth -> 0 < M -> 0 < K -> 0 < N -> small depth -> small K -> (Z.of_nat M * 65025 < acc_max)%Z -> chance_ok ch -> fresh_ok junk ->
  N * M <= length data -> bytes data -> hikm_train depth el M K nit ch data N = Some root ->
  exists t root', to_tree K depth root = Some t /\ is_struct t = true /\ m_K t = Some (Z.of_nat K) /\ m_depth t = Some (Z.of_nat depth) /\
    represents M K (m_root t) root /\
    from_tree el' junk t = Some (Some (root', M, depth)) /\ represents M K (m_root t) root' /\ prepared el' root'.
Proof.
  intros HD HM HK HN BD BK HA CH HJ LD B E. destruct depth as [|h]; [lia|]. unfold hikm_train in E. replace (S h - 1) with h in E by lia.
  destruct (xmeans_ok el M K nit ch HA CH h [] data N (Nat.min K N)) as (root0 & E' & S & _); try assumption; try lia.
  { unfold small, no_center in *. lia. }
  rewrite E' in E. injection E as ->. destruct (node_written M K h root S) as (m & Em & R & MO).
  destruct (tree_read el' junk K (Datatypes.S h) m HJ MO HK ltac:(lia) BK BD M ltac:(lia) (represents_valid M K h m root S R)) as (root' & E2 & R' & P).
  exists (mk_mtree true (Some (Z.of_nat K)) (Some (Z.of_nat (Datatypes.S h))) m), root'. unfold to_tree. rewrite Em. cbn [obind]. repeat split; assumption.
Qed.
Print Assumptions C262_round_trip.

(** C263: vl_hikmeans returns the path of every datum, counting from one; pushing the data through the structure
    gives the same assignments, with either method *)
Theorem C263_same_assignments depth el maxIters M K ch data N :
  0 < depth -> 0 < M -> 0 < K <= N -> small depth -> small K -> (1 <= maxIters)%Z -> (Z.of_nat M * 65025 < acc_max)%Z -> chance_ok ch ->
  N * M <= length data -> bytes data ->
  exists t asgn root, hikmeans depth el maxIters true M (Z.of_nat K) ch data N = Some (Some (t, asgn)) /\ represents M K (m_root t) root /\
    length asgn = N * depth /\
    (forall x, x < N -> exists p, path_of M (coord M data x) root p /\ firstn depth (skipn (x * depth) asgn) = map (fun v => (v + 1)%Z) p) /\
    forall el' junk, fresh_ok junk -> hikmeanspush el' junk t true data N = Some (Some asgn).
Proof.
  intros HD HM HK BD BK HI HA CH LD B. destruct depth as [|h]; [lia|].
  assert (BK' : (Z.of_nat K < no_center)%Z) by (unfold small, no_center in *; lia).
  destruct (xmeans_ok el M K 200 ch HA CH h [] data N (Nat.min K N)) as (root & E & S & HP); try assumption; try lia.
  destruct (node_written M K h root S) as (m & Em & R & MO).
  assert (ET : to_tree K (Datatypes.S h) root = Some (mk_mtree true (Some (Z.of_nat K)) (Some (Z.of_nat (Datatypes.S h))) m)) by (unfold to_tree; rewrite Em; reflexivity).
  pose proof (fun el' junk HJ => push_structure el' junk M K h root _ HJ HA HM (proj1 HK) BK BD S ET data N B LD HP) as Q.
  destruct (Q false (fun _ k => repeat 0%Z (k * k)) ltac:(intros; apply repeat_length)) as (out & E1 & L1 & P1 & _).
  exists (mk_mtree true (Some (Z.of_nat K)) (Some (Z.of_nat (Datatypes.S h))) m), (map u32_succ out), root.
  split. { unfold hikmeans. cbn [negb]. replace ((Z.of_nat K <? 0) || (Z.of_nat N <? Z.of_nat K))%Z with false
      by (symmetry; apply orb_false_iff; split; apply Z.ltb_ge; lia).
    replace (maxIters <? 1)%Z with false by (symmetry; apply Z.ltb_ge; lia). cbn [Nat.eqb orb].
    replace (M =? 0) with false by (symmetry; apply Nat.eqb_neq; lia). replace (Z.of_nat K =? 0)%Z with false by (symmetry; apply Z.eqb_neq; lia). cbn [orb].
    rewrite Nat2Z.id. unfold hikm_train. replace (Datatypes.S h - 1) with h by lia. rewrite E. cbn [obind]. rewrite ET. cbn [obind]. rewrite E1. reflexivity. }
  split; [exact R|]. split; [now rewrite map_length|]. split.
  - intros x Hx. exists (firstn (Datatypes.S h) (skipn (x * Datatypes.S h) out)). split; [now apply P1|]. rewrite map_column.
    apply (succ_small _ K); [assumption|]. apply (path_range M K (coord M data x) h root S). now apply P1.
  - intros el' junk HJ. destruct (Q el' junk HJ) as (out' & E2 & _ & _ & E3). rewrite E1 in E2. injection E2 as <-. exact E3.
Qed.
Print Assumptions C263_same_assignments.

(** C264: other data, if no node is without centers: vl_hikmeanspush returns their paths, whichever the method *)
Theorem C264_new_data depth el M K nit ch data N root t el' junk queries n :
  0 < depth -> 0 < M -> 0 < K -> 0 < N -> small depth -> small K -> (Z.of_nat M * 65025 < acc_max)%Z -> chance_ok ch -> fresh_ok junk ->
  N * M <= length data -> bytes data -> hikm_train depth el M K nit ch data N = Some root -> inhabited root -> to_tree K depth root = Some t ->
  n * M <= length queries -> bytes queries ->
  exists asgn, hikmeanspush el' junk t true queries n = Some (Some asgn) /\ length asgn = n * depth /\
    forall x, x < n -> exists p, path_of M (coord M queries x) root p /\ firstn depth (skipn (x * depth) asgn) = map (fun v => (v + 1)%Z) p.
Proof.
  intros HD HM HK HN BD BK HA CH HJ LD B E I ET LQ BQ. destruct depth as [|h]; [lia|]. unfold hikm_train in E. replace (S h - 1) with h in E by lia.
  assert (BK' : (Z.of_nat K < no_center)%Z) by (unfold small, no_center in *; lia).
  destruct (xmeans_ok el M K nit ch HA CH h [] data N (Nat.min K N)) as (root0 & E' & S & _); try assumption; try lia. rewrite E' in E. injection E as ->.
  destruct (push_structure el' junk M K h root t HJ HA HM HK BK BD S ET queries n BQ LQ) as (out & _ & L1 & P1 & E3).
  { intros. now apply (inhabited_path M K _ h). }
  exists (map u32_succ out). split; [assumption|]. split; [now rewrite map_length|]. intros x Hx.
  exists (firstn (Datatypes.S h) (skipn (x * Datatypes.S h) out)). split; [now apply P1|]. rewrite map_column.
  apply (succ_small _ K); [assumption|]. apply (path_range M K (coord M queries x) h root S). now apply P1.
Qed.
Print Assumptions C264_new_data.

Definition ex_junk : list nat -> nat -> list Z := fun _ k => repeat 5%Z (k * k).
Example C262_ex : fresh_ok ex_junk /\ small 2 /\
  match (do root <- ex_tree true; to_tree 2 2 root) with
  | Some t =>
      m_root t = MNode (Some (mk_matrix true true 1 2 [2; 41]%Z)) (Some (Some [
        MNode (Some (mk_matrix true true 1 2 [1; 3]%Z)) None; MNode (Some (mk_matrix true true 1 2 [40; 43]%Z)) None])) /\
      hikmeanspush false ex_junk t true [1; 3; 40; 43; 2; 41; 255]%Z 7 = Some (Some [1; 1; 1; 2; 2; 1; 2; 2; 1; 1; 2; 1; 2; 2]%Z)
  | None => False
  end.
Proof. split; [intros path k; apply repeat_length|]. split; [unfold small; lia|]. vm_compute. split; reflexivity. Qed.
Example C263_ex : match hikmeans 2 true 7 true 1 2 ex_chance [1; 3; 40; 43; 2; 41]%Z 6 with
  | Some (Some (t, asgn)) => asgn = [1; 1; 1; 2; 2; 1; 2; 2; 1; 1; 2; 1]%Z /\ hikmeanspush false ex_junk t true [1; 3; 40; 43; 2; 41]%Z 6 = Some (Some asgn)
  | _ => False
  end.
Proof. vm_compute. repeat split. Qed.

(** C265: any structure with consistent matrices is either read, as the tree it represents, or refused with an error;
    it is read exactly if it has the documented form *)
Theorem C265_checks el junk K depth m : fresh_ok junk -> matrices_ok m -> 0 < K -> 0 < depth -> small K -> small depth ->
  let t := mk_mtree true (Some (Z.of_nat K)) (Some (Z.of_nat depth)) m in
  (forall M, M <> 0 -> valid M K m -> exists root, from_tree el junk t = Some (Some (root, M, depth)) /\ represents M K m root /\ prepared el root) /\
  ((forall M, M <> 0 -> ~ valid M K m) -> from_tree el junk t = Some None).
Proof.
  intros HJ MO HK HD BK BD t. split; [intros M HM V; now apply tree_read|]. intro NV. unfold t, from_tree. cbn [is_struct negb m_K m_depth m_root].
  rewrite !positive_field_ok by assumption. cbn [obind].
  destruct (node_read el K junk HJ m MO 0 []) as (r & -> & Hr). cbn [obind]. destruct r as [[nd M]|]; [|reflexivity].
  destruct Hr as (HM & _ & V & _). exfalso. exact (NV M HM V).
Qed.
Theorem C265_scalars el junk t : is_struct t = false \/ m_K t = None \/ (exists v, m_K t = Some v /\ (-2147483648 <= v < 1)%Z) \/
  (exists K, m_K t = Some (Z.of_nat K) /\ 0 < K /\ small K) /\ (m_depth t = None \/ exists v, m_depth t = Some v /\ (-2147483648 <= v < 1)%Z) ->
  from_tree el junk t = Some None.
Proof.
  unfold from_tree. destruct (is_struct t); [|reflexivity]. cbn [negb].
  assert (NP : forall v, (-2147483648 <= v < 1)%Z -> positive_field (Some v) = Some None).
  { intros v H. unfold positive_field, to_int. replace ((-2147483648 <=? v) && (v <=? 2147483647))%Z with true by (symmetry; apply andb_true_iff; split; apply Z.leb_le; lia).
    cbn [obind]. now replace (v <? 1)%Z with true by (symmetry; apply Z.ltb_lt; lia). }
  intros [H|[H|[(v & -> & H)|((K & -> & HK & SK) & H)]]]; [discriminate|now rewrite H|now rewrite NP|].
  rewrite positive_field_ok by assumption. cbn [obind]. destruct H as [->|(v & -> & H)]; [reflexivity|now rewrite NP].
Qed.
Print Assumptions C265_checks.
Print Assumptions C265_scalars.
Definition int_matrix (r c : nat) (v : list Z) : matrix := mk_matrix true true r c v.
Example C265_ex : from_tree false ex_junk (mk_mtree true (Some 2%Z) (Some 1%Z) (MNode (Some (int_matrix 1 3 [1; 2; 3]%Z)) None)) = Some None /\
  from_tree true ex_junk (mk_mtree true (Some 2%Z) (Some 2%Z) (MNode (Some (int_matrix 1 1 [7]%Z)) (Some (Some [MNode (Some (int_matrix 2 1 [1; 2]%Z)) None])))) = Some None /\
  valid 1 2 (MNode (Some (int_matrix 1 1 [7]%Z)) (Some (Some [MNode (Some (int_matrix 1 1 [1]%Z)) None]))).
Proof. split; [reflexivity|]. split; [reflexivity|]. repeat constructor. Qed.

(** C266: the checks do not make a push safe: neither DEPTH nor the number of rows of DATA is compared with the structure *)
Theorem C266_safe_refuted : forall el junk, fresh_ok junk ->
  let leaf := MNode (Some (int_matrix 1 1 [7]%Z)) None in
  let two := MNode (Some (int_matrix 1 1 [7]%Z)) (Some (Some [leaf])) in
  (* the structure has two levels and DEPTH is one: written out of bounds *)
  hikmeanspush el junk (mk_mtree true (Some 1%Z) (Some 1%Z) two) true [9]%Z 1 = None /\
  (* the structure has one level and DEPTH is two: the path has an entry that was never computed *)
  hikmeanspush el junk (mk_mtree true (Some 1%Z) (Some 2%Z) leaf) true [9]%Z 1 = Some (Some [1; 1]%Z) /\
  (* the centers have two rows and DATA one: read out of bounds *)
  hikmeanspush el junk (mk_mtree true (Some 1%Z) (Some 1%Z) (MNode (Some (int_matrix 2 1 [7; 7]%Z)) None)) true [9]%Z 1 = None.
Proof.
  intros el junk HJ. assert (E : forall p, exists a, junk p 1 = [a]).
  { intro p. specialize (HJ p 1). destruct (junk p 1) as [|a [|]]; try discriminate. eauto. }
  destruct (E []) as (a & Ea). destruct (E [0]) as (b & Eb).
  repeat split; unfold hikmeanspush, from_tree; cbn; rewrite ?Ea; cbn; rewrite ?Eb; destruct el; vm_compute; reflexivity.
Qed.
Print Assumptions C266_safe_refuted.

(** C267: the option MaxIters has no effect, though the number of iterations matters to training *)
Theorem C267_max_iters_refuted :
  (forall depth el a b uint8 M K ch data N, (1 <= a)%Z -> (1 <= b)%Z -> hikmeans depth el a uint8 M K ch data N = hikmeans depth el b uint8 M K ch data N) /\
  (hikm_train 1 false 1 2 1 ex_chance [51; 48; 4]%Z 3 <> hikm_train 1 false 1 2 200 ex_chance [51; 48; 4]%Z 3 /\
   option_map (option_map fst) (hikmeans 1 false 1 true 1 2 ex_chance [51; 48; 4]%Z 3) <>
   option_map Some (do root <- hikm_train 1 false 1 2 1 ex_chance [51; 48; 4]%Z 3; to_tree 2 1 root)).
Proof.
  split.
  - intros depth el a b uint8 M K ch data N Ha Hb. unfold hikmeans. now replace (a <? 1)%Z with (b <? 1)%Z by (transitivity false; [apply Z.ltb_ge|symmetry; apply Z.ltb_ge]; lia).
  - split; vm_compute; discriminate.
Qed.
Print Assumptions C267_max_iters_refuted.

(** C268: with real numbers the depth is the least, not smaller than one, of a full tree with enough leaves;
    with one cluster there is none, and the quotient is a division by zero *)
Lemma ceil_spec x : (IZR (ceil x) - 1 < x <= IZR (ceil x))%R.
Proof. unfold ceil. destruct (base_Int_part (- x)) as [A B]. rewrite opp_IZR. lra. Qed.
Lemma ln_power (K : Z) (e : Z) : (2 <= K)%Z -> (0 <= e)%Z -> ln (IZR (K ^ e)) = (IZR e * ln (IZR K))%R.
Proof.
  intros HK He. rewrite <- (Z2Nat.id e) at 1 by lia. rewrite <- pow_IZR, ln_pow by (apply (IZR_lt 0); lia). rewrite INR_IZR_INZ, Z2Nat.id by lia. reflexivity.
Qed.
Lemma ln_le_iff x y : (0 < x)%R -> (0 < y)%R -> (ln x <= ln y)%R -> (x <= y)%R.
Proof. intros Hx Hy H. apply Rnot_lt_le. intro L. pose proof (ln_increasing y x Hy L). lra. Qed.
Theorem C268_depth nleaves K : (1 <= nleaves)%Z -> (2 <= K)%Z ->
  (1 <= tree_depth nleaves K)%Z /\ (nleaves <= K ^ tree_depth nleaves K)%Z /\ forall e, (1 <= e < tree_depth nleaves K)%Z -> (K ^ e < nleaves)%Z.
Proof.
  intros Hn HK. assert (LK : (0 < ln (IZR K))%R) by (rewrite <- ln_1; apply ln_increasing; [lra|apply (IZR_lt 1); lia]).
  assert (Ln : (0 < IZR nleaves)%R) by (apply (IZR_lt 0); lia).
  pose proof (ceil_spec (ln (IZR nleaves) / ln (IZR K))) as [A B]. unfold tree_depth. set (c := ceil _) in *.
  assert (E : (ln (IZR nleaves) = ln (IZR nleaves) / ln (IZR K) * ln (IZR K))%R) by (field; lra).
  set (q := (ln (IZR nleaves) / ln (IZR K))%R) in *. split; [lia|]. split.
  - apply le_IZR. apply ln_le_iff; [assumption|apply (IZR_lt 0); apply Z.pow_pos_nonneg; lia|]. rewrite ln_power by lia. rewrite E.
    apply Rmult_le_compat_r; [lra|]. apply Rle_trans with (1 := B). apply IZR_le. lia.
  - intros e He. apply lt_IZR. apply ln_lt_inv; [apply (IZR_lt 0); apply Z.pow_pos_nonneg; lia|assumption|]. rewrite ln_power by lia. rewrite E.
    apply Rmult_lt_compat_r; [lra|]. apply Rle_lt_trans with (2 := A). rewrite <- minus_IZR. apply IZR_le. lia.
Qed.
Theorem C268_one_cluster : ln (IZR 1) = 0%R /\ forall nleaves e, (2 <= nleaves)%Z -> (0 <= e)%Z -> (1 ^ e < nleaves)%Z.
Proof. split; [apply ln_1|]. intros n e H He. rewrite Z.pow_1_l by assumption. lia. Qed.
Print Assumptions C268_depth.
Print Assumptions C268_one_cluster.
Example C268_ex : tree_depth 10 3 = 3%Z.
Proof.
  destruct (C268_depth 10 3 ltac:(lia) ltac:(lia)) as (A & B & C). set (d := tree_depth 10 3) in *.
  assert (~ (4 <= d)%Z) by (intro H; specialize (C 3%Z ltac:(lia)); vm_compute in C; discriminate).
  assert (d = 1 \/ d = 2 \/ d = 3)%Z as [-> |[-> | ->]] by lia; [| |reflexivity]; exfalso; vm_compute in B; now apply B.
Qed.

(** C269: nevertheless the tree may have fewer leaves than asked for: a cluster of few data has few children *)
Theorem C269_leaves_refuted : tree_depth 4 2 = 2%Z /\
  match hikm_train 2 false 1 2 200 ex_chance [10; 200]%Z 2 with Some root => leaves root = 2 | None => False end /\
  match hikm_train 2 true 1 2 200 ex_chance [10; 200]%Z 2 with Some root => leaves root = 2 | None => False end.
Proof.
  split.
  - destruct (C268_depth 4 2 ltac:(lia) ltac:(lia)) as (A & B & C). set (d := tree_depth 4 2) in *.
    assert (~ (3 <= d)%Z) by (intro H; specialize (C 2%Z ltac:(lia)); vm_compute in C; discriminate).
    assert (d = 1 \/ d = 2)%Z as [-> | ->] by lia; [|reflexivity]. exfalso. vm_compute in B. now apply B.
  - split; vm_compute; reflexivity.
Qed.
Print Assumptions C269_leaves_refuted.
