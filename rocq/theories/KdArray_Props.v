(** kd-forests as MATLAB structures: theorems. *)
From Coq Require Import List ZArith Arith Bool Lia Permutation.
From Verif Require Import Base KdTree_Model KdTree_Spec KdQuery_Proofs KdForest_Proofs KdTree_Props KdArray_Model KdArray_Spec KdArray_Proofs.
From Verif Require KdBounds_Proofs.
Import ListNotations.
Local Open Scope nat_scope.

(** C258: a forest converted to a structure and back is the same forest. *)
Theorem C258_round_trip : forall junk dimension meth chooses sorter numData data jd jv met,
  0 < dimension -> (Z.of_nat dimension < 2 ^ 32)%Z -> 0 < numData -> (2 * Z.of_nat numData < 2 ^ 31)%Z ->
  length data = numData * dimension -> sorts sorter -> chooses <> [] -> Forall (chooses_well data dimension) chooses ->
  exists F a F', forest_build junk dimension meth chooses sorter numData data = Some F /\ to_array F met = Some a /\
    from_array jd jv a (dimension, numData, data) = Some (Some (F', met)) /\ same_forest F F'.
Proof.
  intros junk dimension meth chooses sorter numData data jd jv met H1 H2 H3 H4 H5 H6 H7 H8.
  destruct (forest_round junk dimension meth chooses sorter numData data jd jv met H1 H2 H3 H4 H5 H6 H7 H8) as (F & a & F' & E1 & E2 & E3 & E4 & _).
  exists F, a, F'. auto.
Qed.
Definition ex_forest := forest_build ex_junk 2 MEDIAN [ex_choose 0; ex_choose 1] isort 5 ex_data.
Example C258_ex : (do F <- ex_forest; do a <- to_array F L2; do t <- nth_error (a_trees a) 0;
    do r <- from_array 3 9 a (2, 5, ex_data); do (F', _) <- r; do t' <- nth_error (fo_trees F') 0;
    Some (a_lower t, a_upper t, a_index t, map n_parent (t_nodes t')))
  = Some ([2; 3; 4; -1; -2; -3; 8; -4; -5]%Z, [7; 6; 5; -2; -3; -4; 9; -5; -6]%Z, [1; 3; 5; 4; 2]%Z, [0; 0; 1; 2; 2; 1; 0; 6; 6]).
Proof. vm_compute. reflexivity. Qed.

(** C259: and every sequence of queries to it gives what it gives for the forest that was built. *)
Theorem C259_same_queries : forall junk dimension meth chooses sorter numData data jd jv met sjunk met' cs,
  session_ok dimension chooses sorter numData data cs -> (Z.of_nat dimension < 2 ^ 32)%Z -> (2 * Z.of_nat numData < 2 ^ 31)%Z ->
  exists F a F' os, forest_build junk dimension meth chooses sorter numData data = Some F /\ to_array F met = Some a /\
    from_array jd jv a (dimension, numData, data) = Some (Some (F', met)) /\
    run_queries F' met' (new_buffers F' sjunk) cs = Some os /\ run_queries F met' (new_buffers F sjunk) cs = Some os.
Proof.
  intros junk dimension meth chooses sorter numData data jd jv met sjunk met' cs (H1 & H2 & H3 & H4 & H5 & H6 & H7 & H8) HD HN.
  destruct (forest_round junk dimension meth chooses sorter numData data jd jv met H1 HD H2 HN H4 H5 H6 H7) as (F & a & F' & E1 & E2 & E3 & (S1 & S2 & S3 & S4 & S5) & TO & MX & D1 & D2 & D3 & NE).
  exists F, a, F'.
  assert (CV : covers F' F).
  { repeat split; auto. clear - S5. induction S5 as [|t t' ts ts' (A & B & C) _ IH]; constructor; auto. split; [|exact C].
    intros i n E. rewrite B in E. unfold aget in *. rewrite <- (firstn_skipn (t_used t) (t_nodes t)). rewrite nth_error_app1; [exact E|apply nth_error_Some; congruence]. }
  assert (TO' : Forall (tree_ok F') (fo_trees F')).
  { clear - S1 S2 S3 S5 TO. revert TO. induction S5 as [|t t' ts ts' (A & B & C) _ IH]; intro TO; constructor; [|apply IH; now apply Forall_inv_tail in TO].
    apply Forall_inv in TO. destruct TO as (P & CS). split; [now rewrite C, S3|]. unfold xt in *. rewrite S1, S2, S3, A, C. eapply KdBounds_Proofs.csub_frame; [|exact CS].
    intros j Hj. apply in_seq in Hj. rewrite B. rewrite <- (firstn_skipn (t_used t) (t_nodes t)) at 2.
    assert (LU : j < length (t_nodes t)).
    { apply csub_bound with (j := j) in CS; [exact CS|apply in_seq; lia]. }
    rewrite nth_error_app1; [reflexivity|]. rewrite firstn_length. lia. }
  destruct (run_queries_ok F' met') with (cs := cs) (s := new_buffers F' sjunk) as (os & Eo & _); auto.
  - rewrite S1, S2, S3, D1, D2, D3. exact H4.
  - intro X. rewrite X in S5. inversion S5. congruence.
  - rewrite S4, MX. clear - S5. induction S5 as [|t t' ts ts' (A & _) _ IH]; cbn; [reflexivity|]. now rewrite A, IH.
  - apply new_buffers_inv.
  - eapply Forall_impl; [|exact H8]. intros c Hc. unfold call_ok. rewrite S1, D1. auto.
  - exists os. repeat (split; [assumption|]). unfold new_buffers in *. rewrite S3, S4 in Eo. now apply (cover_queries F' F).
Qed.
Example C259_ex : session_ok 2 [ex_choose 0; ex_choose 1] isort 5 ex_data ex_calls.
Proof. exact C15_ex_hyps. Qed.

(** C260: loading a structure is safe whatever its contents, if each tree has a node: it ends with an error or with nodes whose children are nodes. *)
Theorem C260_safe : forall jd jv a data, Forall (fun t => 0 < length (a_lower t) /\ (Z.of_nat (length (a_lower t)) < 2 ^ 31)%Z) (a_trees a) ->
  exists r, from_array jd jv a data = Some r /\
    forall F met, r = Some (F, met) -> Forall (fun t => length (t_nodes t) = t_used t /\ length (t_index t) = fo_num F /\
      forall n, In n (t_nodes t) -> (n_lower n < Z.of_nat (t_used t))%Z /\ (n_upper n < Z.of_nat (t_used t))%Z) (fo_trees F).
Proof.
  intros jd jv a [[M N] data] HT. unfold from_array. destruct (a_distance a) as [dist|]; [|exists None; split; [reflexivity|discriminate]].
  destruct (_ || _); [exists None; split; [reflexivity|discriminate]|].
  assert (G : exists r, trees_from_array jd jv (a_dimension a) (a_numData a) (a_trees a) = Some r /\ forall ts, r = Some ts -> Forall (fun t => length (t_nodes t) = t_used t /\ length (t_index t) = a_numData a /\
      forall n, In n (t_nodes t) -> (n_lower n < Z.of_nat (t_used t))%Z /\ (n_upper n < Z.of_nat (t_used t))%Z) ts).
  { induction HT as [|t l (H0 & HB) _ IH]; cbn [trees_from_array]; [exists (Some []); split; [reflexivity|]; intros ts X; injection X as <-; constructor|].
    destruct (tree_safe jd jv (a_dimension a) (a_numData a) t H0 HB) as (r & -> & HR). cbn [obind]. destruct r as [t'|]; [|exists None; split; [reflexivity|discriminate]].
    destruct IH as (r & -> & HR2). cbn [obind]. eexists. split; [reflexivity|]. intros ts X. destruct r as [ts'|]; [|discriminate]. injection X as <-.
    constructor; [|now apply HR2]. destruct (HR t' eq_refl) as (_ & A & B & C). split; [exact A|]. split; [exact C|]. intros n Hn. rewrite Forall_forall in B. exact (B n Hn). }
  destruct G as (r & -> & HR). cbn [obind]. destruct r as [ts|]; [|exists None; split; [reflexivity|discriminate]].
  eexists. split; [reflexivity|]. intros F met X. injection X as <- <-. cbn. now apply HR.
Qed.
(** C260: a forest is loaded only with data of its dimension and number of points, and the forest has these data. *)
Theorem C260_sizes : forall jd jv a M N data F met, from_array jd jv a (M, N, data) = Some (Some (F, met)) ->
  M = a_dimension a /\ N = a_numData a /\ 1 <= M /\ 1 <= N /\ 1 <= length (a_trees a) /\ a_distance a = Some met /\ fo_dim F = M /\ fo_num F = N /\ fo_data F = data.
Proof.
  intros jd jv a M N data F met E. unfold from_array in E. destruct (a_distance a) as [dist|]; [|discriminate].
  destruct (a_dimension a <? 1) eqn:E1; [discriminate|]. destruct (a_numData a <? 1) eqn:E2; [discriminate|]. destruct (length (a_trees a) <? 1) eqn:E3; [discriminate|]. cbn [orb] in E.
  destruct (M =? a_dimension a) eqn:E4; [|discriminate]. destruct (N =? a_numData a) eqn:E5; [|discriminate]. cbn [andb negb] in E.
  apply Nat.ltb_ge in E1, E2, E3. apply Nat.eqb_eq in E4, E5. destruct (trees_from_array _ _ _ _ _) as [[ts|]|]; cbn [obind] in E; [|discriminate|discriminate]. injection E as <- <-. cbn. repeat split; congruence || lia.
Qed.
Print Assumptions C260_sizes.
(** a structure with a cycle is reported *)
Example C260_ex : from_array 0 0 (mk_forest_array 1 1 [mk_tree_array [1; -1] [2; -2] [1; 1] [0; 0] [NInf; NInf] [PInf; PInf] [1]] (Some L2))%Z (1, 1, [5%Z]) = Some None.
Proof. reflexivity. Qed.

(** C261: a structure that is accepted may still have a data index outside of the data, or share a node between two parents; one without nodes is read out of bounds. *)
Theorem C261_checks_refuted :
  (exists a F, from_array 0 0 a (1, 1, [5%Z]) = Some (Some (F, L2)) /\
     forall sjunk, run_queries F L2 (new_buffers F sjunk) [mk_qcall 0 1 [3%Z] [mk_nbr None 0]] = None) /\
  (exists a F n, from_array 0 0 a (1, 1, [5%Z]) = Some (Some (F, L2)) /\ option_map t_nodes (nth_error (fo_trees F) 0) = Some n /\
     option_map n_lower (nth_error n 0) = Some 1%Z /\ option_map n_upper (nth_error n 0) = Some 1%Z) /\
  (exists a, from_array 0 0 a (1, 1, [5%Z]) = None).
Proof.
  split; [|split].
  - exists (mk_forest_array 1 1 [mk_tree_array [-1] [-2] [1] [0] [NInf] [PInf] [5]] (Some L2))%Z. eexists. split; [reflexivity|]. intro sjunk. reflexivity.
  - exists (mk_forest_array 1 1 [mk_tree_array [2; -1; -1] [2; -2; -2] [1; 1; 1] [0; 0; 0] [NInf; NInf; NInf] [PInf; PInf; PInf] [1]] (Some L2))%Z.
    eexists. eexists. split; [reflexivity|]. split; [reflexivity|]. split; reflexivity.
  - exists (mk_forest_array 1 1 [mk_tree_array [] [] [] [] [] [] [1]] (Some L2))%Z. reflexivity.
Qed.
Example C261_ex : from_array 0 0 (mk_forest_array 1 1 [mk_tree_array [] [] [] [] [] [] [1%Z]] (Some L2)) (1, 1, [5%Z]) = None.
Proof. reflexivity. Qed.

Print Assumptions C258_round_trip.
Print Assumptions C259_same_queries.
Print Assumptions C260_safe.
Print Assumptions C261_checks_refuted.
