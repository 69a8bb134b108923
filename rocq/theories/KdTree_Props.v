(** C15, C16, C17 and C61-C63: construction and queries of kd-forests. *)
From Coq Require Import List ZArith Arith Bool Permutation Sorted Lia.
From Verif Require Import Base Heap_Model KdTree_Model KdTree_Spec KdBuild_Proofs KdBounds_Proofs
  KdQuery_Proofs KdForest_Proofs.
From Coq Require Import Floats.SpecFloat.
Import ListNotations.
Local Open Scope nat_scope.

(** C15.  Whatever dimensions the random choices select, building succeeds
    inside the allocated nodes and every tree is good. *)
Theorem C15_build_gives_good_trees :
  forall junk dimension meth chooses sorter numData data,
  0 < dimension -> 0 < numData -> (Z.of_nat numData < 2 ^ 64)%Z ->
  length data = numData * dimension ->
  sorts sorter -> Forall (chooses_well data dimension) chooses ->
  exists F, forest_build junk dimension meth chooses sorter numData data = Some F /\
    length (fo_trees F) = length chooses /\
    Forall (good_tree data dimension numData) (fo_trees F).
Proof.
  intros. destruct (forest_build_ok junk dimension meth chooses sorter numData data) as (F & E & W & _); auto.
  exists F. split; [exact E|]. destruct W as (_ & _ & _ & WL & WG). auto.
Qed.
Print Assumptions C15_build_gives_good_trees.

(** Building a forest, creating a searcher and running any sequence of
    queries with any metric and budgets. *)
Definition session junk dimension meth chooses sorter numData data sjunk met cs :=
  do F <- forest_build junk dimension meth chooses sorter numData data;
  run_queries F met (new_buffers F sjunk) cs.

Definition session_ok (dimension : nat) chooses sorter numData (data : list Z) cs : Prop :=
  0 < dimension /\ 0 < numData /\ (Z.of_nat numData < 2 ^ 64)%Z /\
  length data = numData * dimension /\ sorts sorter /\ chooses <> [] /\
  Forall (chooses_well data dimension) chooses /\
  Forall (fun c => 0 < c_k c /\ length (c_query c) = dimension /\ length (c_out c) = c_k c) cs.

Lemma session_answers junk dimension meth chooses sorter numData data sjunk met cs :
  session_ok dimension chooses sorter numData data cs ->
  exists F os, session junk dimension meth chooses sorter numData data sjunk met cs = Some os /\
    fo_dim F = dimension /\ fo_data F = data /\ fo_num F = numData /\
    Forall2 (fun c o => answer F met (c_max c) (c_k c) (c_query c) (fst o) (snd o)) cs os.
Proof.
  intros (H1 & H2 & H3 & H4 & H5 & H6 & H7 & H8).
  destruct (forest_build_ok junk dimension meth chooses sorter numData data) as (F & E & W & TO & CA); auto.
  destruct W as (W1 & W2 & W3 & W4 & _).
  destruct (run_queries_ok F met) with (cs := cs) (s := new_buffers F sjunk) as (os & Eo & A); auto.
  - rewrite W2, W3, W1. auto.
  - intro X. rewrite X in W4. destruct chooses; [congruence|discriminate].
  - apply new_buffers_inv.
  - eapply Forall_impl; [|exact H8]. intros c Hc. unfold call_ok. rewrite W1. auto.
  - exists F, os. unfold session. rewrite E. cbn [obind]. auto.
Qed.

(** C16.  Without comparison limit and with the L2 distance, every query of
    every session returns min(k, n) distinct data by increasing distance, with
    their true distances, nearest among all data, and marks the others. *)
Theorem C16_exact_queries_are_nearest :
  forall junk dimension meth chooses sorter numData data sjunk cs,
  session_ok dimension chooses sorter numData data cs ->
  exists os, session junk dimension meth chooses sorter numData data sjunk L2 cs = Some os /\
    Forall2 (fun c o => c_max c = 0 ->
      exists found, length found = Nat.min (c_k c) numData /\
        reports (dist_to L2 data dimension (c_query c)) (c_k c) found (fst o) /\
        nearest_of (dist_to L2 data dimension (c_query c)) (seq 0 numData) found) cs os.
Proof.
  intros junk dimension meth chooses sorter numData data sjunk cs H.
  destruct (session_answers junk dimension meth chooses sorter numData data sjunk L2 cs H)
    as (F & os & E & <- & <- & <- & A).
  exists os. split; [exact E|]. eapply Forall2_weaken; [|exact A]. cbn beta.
  intros c o (comp & found & _ & _ & _ & _ & R & _ & _ & X) Hm. destruct (X Hm eq_refl) as [N L].
  exists found. auto.
Qed.
Print Assumptions C16_exact_queries_are_nearest.

(** C17.  With any budget and either distance, no query overruns its buffers;
    the number returned is the number of distances computed and at most the
    budget; the neighbours are the nearest of the data compared, with their
    true distances, and missing ones are marked. *)
Theorem C17_budgeted_queries :
  forall junk dimension meth chooses sorter numData data sjunk met cs,
  session_ok dimension chooses sorter numData data cs ->
  exists os, session junk dimension meth chooses sorter numData data sjunk met cs = Some os /\
    Forall2 (fun c o =>
      exists compared found, NoDup compared /\ incl compared (seq 0 numData) /\
        snd o = length compared /\ (0 < c_max c -> snd o <= c_max c) /\
        length found = Nat.min (c_k c) (snd o) /\
        reports (dist_to met data dimension (c_query c)) (c_k c) found (fst o) /\
        nearest_of (dist_to met data dimension (c_query c)) compared found) cs os.
Proof.
  intros junk dimension meth chooses sorter numData data sjunk met cs H.
  destruct (session_answers junk dimension meth chooses sorter numData data sjunk met cs H)
    as (F & os & E & <- & <- & <- & A).
  exists os. split; [exact E|]. eapply Forall2_weaken; [|exact A]. cbn beta.
  intros c o (comp & found & X1 & X2 & X3 & X4 & R & L & N & _).
  exists comp, found. auto 8.
Qed.
Print Assumptions C17_budgeted_queries.

(** * A concrete session: insertion sort as qsort, two trees, five points of
    the plane. *)
Fixpoint ins (x : entry) (l : list entry) : list entry :=
  match l with
  | [] => [x]
  | y :: r => if (e_value x <=? e_value y)%Z then x :: l else y :: ins x r
  end.
Definition isort (l : list entry) : list entry := fold_right ins [] l.

Lemma ins_perm x l : Permutation (ins x l) (x :: l).
Proof.
  induction l as [|y r IH]; cbn; [reflexivity|]. destruct (_ <=? _)%Z; [reflexivity|].
  rewrite IH. apply perm_swap.
Qed.
Lemma ins_sorted x l : StronglySorted (fun a b => (e_value a <= e_value b)%Z) l ->
  StronglySorted (fun a b => (e_value a <= e_value b)%Z) (ins x l).
Proof.
  induction 1 as [|y r S IH Fa]; cbn; [repeat constructor|].
  destruct (Z.leb_spec (e_value x) (e_value y)).
  - constructor; [now constructor|]. constructor; [auto|].
    eapply Forall_impl; [|exact Fa]. cbn. intros; lia.
  - constructor; auto. eapply Permutation_Forall; [symmetry; apply ins_perm|].
    constructor; [lia|auto].
Qed.
Example isort_sorts : sorts isort.
Proof.
  intro l. unfold isort. induction l as [|x l [P S]]; cbn; [split; constructor|]. split.
  - rewrite ins_perm, P. reflexivity.
  - apply ins_sorted; auto.
Qed.

Definition ex_data : list Z := [0; 0;  10; 2;  3; 7;  8; 8;  3; 7]%Z.
(** Split on the dimension of the given parity of the node, at the coordinate
    of the first datum of the range; no split when all first coordinates are
    equal. *)
Definition ex_choose (par : nat) (ni : nat) (l : list nat) : option (nat * Z) :=
  let d := (par + ni) mod 2 in
  match l with
  | [] => None
  | a :: r =>
    if forallb (fun b => (coord ex_data 2 b 0 =? coord ex_data 2 a 0)%Z) r then None
    else Some (d, coord ex_data 2 a d)
  end.
Definition ex_junk : kdnode := mk_kdnode 77 5 (-3) 9 4 PInf NInf.
Definition ex_nb : nbr := mk_nbr (Some 42%Z) 99%Z.
Definition ex_calls : list qcall :=
  [mk_qcall 0 2 [3; 6]%Z [ex_nb; ex_nb];
   mk_qcall 0 7 [9; 1]%Z (repeat ex_nb 7);
   mk_qcall 2 3 [9; 1]%Z (repeat ex_nb 3)].

Lemma ex_choose_well par : chooses_well ex_data 2 (ex_choose par).
Proof.
  intros ni l d mean H. unfold ex_choose in H. destruct l as [|a r]; [discriminate|].
  pose proof (Nat.mod_upper_bound (par + ni) 2 ltac:(lia)) as B.
  remember ((par + ni) mod 2) as q.
  destruct (forallb _ r); [discriminate|]. injection H as H1 H2. split.
  - lia.
  - exists a. split; [now left|]. rewrite <- H2, <- H1. lia.
Qed.

Example C15_ex_hyps : session_ok 2 [ex_choose 0; ex_choose 1] isort 5 ex_data ex_calls.
Proof.
  split; [lia|]. split; [lia|]. split; [reflexivity|]. split; [reflexivity|].
  split; [apply isort_sorts|]. split; [discriminate|].
  split; [constructor; [apply ex_choose_well|]; constructor; [apply ex_choose_well|]; constructor|].
  repeat constructor.
Qed.

Example C16_ex_run : exists ms,
  session ex_junk 2 MEDIAN [ex_choose 0; ex_choose 1] isort 5 ex_data (mk_sstate 8 8 8) L2 ex_calls = Some ms /\
  map (fun o => map nb_index (fst o)) ms =
    [[2; 4]; [1; 3; 2; 4; 0; 2 ^ 64 - 1; 2 ^ 64 - 1]; [1; 3; 2 ^ 64 - 1]]%Z.
Proof. eexists; split; vm_compute; reflexivity. Qed.

(** * C61.  The code moves the split back when no datum lies above the mean,
    but not when, by rounding, no datum lies at or below it: at the start of
    the data the split index then wraps around, the upper child has the range
    of its parent, and building never ends (it is stopped by the assertion on
    the node pool). *)
(** /repo/vl/kdtree.c:117-131: the running sums in double precision (here the
    standard library's reference implementation of IEEE arithmetic). *)
Definition f_add := SFadd 53 1024.
Definition f_mul := SFmul 53 1024.
Definition f_div := SFdiv 53 1024.
Definition f_sub := SFsub 53 1024.
Definition f_of (m : positive) (e : Z) := S754_finite false m e.
(** 0.1 in double precision is 7205759403792794 / 2^56. *)
Definition f_01 := f_of 7205759403792794 (-56).
Definition f_10 := binary_normalize 53 1024 10 0 false.
Definition f_sum := Nat.iter 10 (fun s => f_add s f_01) (S754_zero false).
Definition f_sum2 := Nat.iter 10 (fun s => f_add s (f_mul f_01 f_01)) (S754_zero false).
Definition f_mean := f_div f_sum f_10.
Definition f_variance := f_sub (f_div f_sum2 f_10) (f_mul f_mean f_mean).

(** For ten copies of 0.1 the computed mean is one unit below 0.1, and the
    computed variance is positive, so the dimension is split. *)
Example C61_ex_rounded_mean :
  SFeqb f_mean (f_of 7205759403792793 (-56)) = true /\ SFltb f_mean f_01 = true /\
  SFltb (S754_zero false) f_variance = true.
Proof. vm_compute. auto. Qed.

(** These ten points, in units of 2^-56, with that mean for every node holding
    them all: the build fails. *)
Theorem C61_build_with_rounded_mean_refuted :
  exists choose sorter, sorts sorter /\
    (forall ni l, length l = 10 -> choose ni l = Some (0, 7205759403792793%Z)) /\
    forall junk, forest_build junk 1 MEAN [choose] sorter 10 (repeat 7205759403792794%Z 10) = None.
Proof.
  exists (fun ni l => if (length l =? 10) then Some (0, 7205759403792793%Z) else None), isort.
  split; [apply isort_sorts|]. split; [intros ni l ->; reflexivity|].
  intro junk. vm_compute. reflexivity.
Qed.
Print Assumptions C61_build_with_rounded_mean_refuted.

(** * C62.  With the L1 distance the bounds of the unexplored branches are
    still squared, so the exact search may skip the nearest datum. *)
Definition exact_l1_search : Prop :=
  forall junk dimension meth chooses sorter numData data sjunk cs,
  session_ok dimension chooses sorter numData data cs ->
  exists os, session junk dimension meth chooses sorter numData data sjunk L1 cs = Some os /\
    Forall2 (fun c o => c_max c = 0 ->
      exists found, length found = Nat.min (c_k c) numData /\
    reports (dist_to L1 data dimension (c_query c)) (c_k c) found (fst o) /\
    nearest_of (dist_to L1 data dimension (c_query c)) (seq 0 numData) found) cs os.

Definition l1_data : list Z := [0; 10]%Z.
Definition l1_choose (ni : nat) (l : list nat) : option (nat * Z) :=
  match l with [] => None | a :: _ => Some (0, coord l1_data 1 a 0) end.
Definition l1_call : qcall := mk_qcall 0 1 [4%Z] [ex_nb].

Theorem C62_exact_l1_search_refuted : ~ exact_l1_search.
Proof.
  intro H.
  destruct (H ex_junk 1 MEDIAN [l1_choose] isort 2 l1_data (mk_sstate 0 0 0) [l1_call]) as (os & E & A).
  - split; [lia|]. split; [lia|]. split; [reflexivity|]. split; [reflexivity|].
    split; [apply isort_sorts|]. split; [discriminate|]. split; [|repeat constructor].
    constructor; [|constructor]. intros ni l d mean Hc. destruct l as [|a r]; [discriminate|].
    injection Hc as <- <-. split; [lia|]. exists a. split; [now left|lia].
  - vm_compute in E. injection E as <-. inversion A as [|? ? ? ? X _]; subst.
    destruct (X eq_refl) as (found & L & (R & _ & _) & (_ & N)). clear X A H.
    destruct found as [|a [|b f]]; [discriminate L| |cbn in L; lia].
    cbn [fst map repeat length Nat.sub app c_k l1_call] in R. injection R as R1 R2.
    assert (a = 1) by lia. subst a. specialize (N 1 0 (or_introl eq_refl)).
    vm_compute in N. apply N; [now left| |reflexivity]. intros [D|[]]. discriminate.
Qed.
Print Assumptions C62_exact_l1_search_refuted.

(** * C63.  A searcher keeps the buffers sized for the forest it was created
    for; after the forest is rebuilt over more data they are too small. *)
Definition searcher_survives_rebuild : Prop :=
  forall junk dimension meth chooses sorter n1 data1 n2 data2 sjunk met cs F1 F2,
  session_ok dimension chooses sorter n1 data1 cs ->
  session_ok dimension chooses sorter n2 data2 cs ->
  forest_build junk dimension meth chooses sorter n1 data1 = Some F1 ->
  forest_build junk dimension meth chooses sorter n2 data2 = Some F2 ->
  run_queries F2 met (new_buffers F1 sjunk) cs <> None.

Definition c63_choose (ni : nat) (l : list nat) : option (nat * Z) :=
  match l with [] => None | a :: _ => Some (0, 10%Z) end.

Lemma c63_ok data n cs : 0 < n -> (Z.of_nat n < 2 ^ 64)%Z -> length data = n * 1 ->
  Forall (fun z => (z <= 10)%Z) data ->
  Forall (fun c => 0 < c_k c /\ length (c_query c) = 1 /\ length (c_out c) = c_k c) cs ->
  session_ok 1 [c63_choose] isort n data cs.
Proof.
  intros Hn H64 HL HF Hcs. split; [lia|]. split; [exact Hn|]. split; [exact H64|]. split; [exact HL|].
  split; [apply isort_sorts|]. split; [discriminate|]. split; [|exact Hcs].
  constructor; [|constructor]. intros ni l d mean Hc. unfold c63_choose in Hc.
  destruct l as [|a r]; [discriminate|]. injection Hc as <- <-. split; [lia|].
  exists a. split; [now left|]. unfold coord. rewrite Forall_forall in HF.
  destruct (Nat.lt_ge_cases (a * 1 + 0) (length data)).
  - apply HF. now apply nth_In.
  - rewrite nth_overflow by lia. lia.
Qed.

Definition c63_F1 := forest_build ex_junk 1 MEDIAN [c63_choose] isort 1 [5%Z].
Definition c63_F2 := forest_build ex_junk 1 MEDIAN [c63_choose] isort 2 [0; 10]%Z.
Definition c63_query : option bool :=
  do F1 <- c63_F1; do F2 <- c63_F2;
  Some (match run_queries F2 L2 (new_buffers F1 (mk_sstate 0 0 0)) [l1_call] with
        | None => true | Some _ => false end).
Example C63_ex_overflow : c63_query = Some true.
Proof. vm_compute. reflexivity. Qed.

Theorem C63_searcher_survives_rebuild_refuted : ~ searcher_survives_rebuild.
Proof.
  intro H. pose proof C63_ex_overflow as E. unfold c63_query in E.
  destruct c63_F1 as [F1|] eqn:E1; [|discriminate E].
  destruct c63_F2 as [F2|] eqn:E2; [|discriminate E]. cbn [obind] in E.
  destruct (run_queries F2 L2 _ _) eqn:ER; [discriminate E|].
  revert ER. apply (H ex_junk 1 MEDIAN [c63_choose] isort 1 [5%Z] 2 [0; 10]%Z); [| |exact E1|exact E2].
  - apply c63_ok; [lia|reflexivity|reflexivity|repeat constructor; lia|repeat constructor].
  - apply c63_ok; [lia|reflexivity|reflexivity|repeat constructor; lia|repeat constructor].
Qed.
Print Assumptions C63_searcher_survives_rebuild_refuted.
