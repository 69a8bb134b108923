(** Properties of batches of queries (vl_kdforest_query_with_array). *)
From Coq Require Import List ZArith Arith Bool Lia Permutation Sorted.
From Verif Require Import Base KdTree_Model KdTree_Spec KdQuery_Proofs KdForest_Proofs KdTree_Props KdBatch_Model KdBatch_Spec KdBatch_Proofs.
Import ListNotations.
Local Open Scope nat_scope.

(** *** C285: whichever thread does which query, and in whatever order, part number q of the outputs answers query q,
    and the number returned is the number of all comparisons *)
Theorem C285_batch : forall junk dimension meth chooses sorter numData data met maxcmp k T Q sjunk es queries I D,
  session_ok dimension chooses sorter numData data [] -> (Z.of_nat numData < 2 ^ 32)%Z -> 0 < k ->
  length queries = Q * dimension -> length I = Q * k -> (forall ds, D = Some ds -> length ds = Q * k) ->
  Forall (fun e => fst e < T) es -> Permutation (map snd es) (seq 0 Q) ->
  exists F I' D' cnt, forest_build junk dimension meth chooses sorter numData data = Some F /\
    query_with_array F met maxcmp k T sjunk es queries (I, D) = Some (I', D', fold_right (fun q m => cnt q + m) 0 (seq 0 Q)) /\
    length I' = Q * k /\ (D = None <-> D' = None) /\ (forall ds, D' = Some ds -> length ds = Q * k) /\
    forall q, q < Q -> answers data dimension numData met maxcmp k (part dimension q queries) (part k q I')
                         (match D' with None => None | Some ds => Some (part k q ds) end) (cnt q).
Proof.
  intros junk dimension meth chooses sorter numData data met maxcmp k T Q sjunk es queries I D (H1 & H2 & H3 & H4 & H5 & H6 & H7 & _) HN Hk LQ LI LD FT P.
  destruct (forest_build_ok junk dimension meth chooses sorter numData data) as (F & E & W & TO & CA); auto.
  destruct W as (W1 & W2 & W3 & W4 & _).
  destruct (batch_ok F met maxcmp k Q T queries) with (junk := sjunk) (es := es) (I := I) (D := D) as (I' & D' & cnt & E1 & L1 & L2 & DN & G); auto.
  - rewrite W2, W3, W1. exact H4.
  - intro X. rewrite X in W4. destruct chooses; [congruence|discriminate].
  - rewrite W3. exact HN.
  - rewrite W1. exact LQ.
  - exists F, I', D', cnt. repeat (split; [assumption|]). intros q Lq. specialize (G q Lq). unfold good, dpart in G. rewrite W1, W2, W3 in G. exact G.
Qed.
Print Assumptions C285_batch.

Definition ex_forest2 := forest_build ex_junk 2 MEDIAN [ex_choose 0; ex_choose 1] isort 5 ex_data.
(** three queries for six neighbours of five data, two threads *)
Example C285_ex : (do F <- ex_forest2;
    query_with_array F L2 0 6 2 (mk_sstate 8 8 8) [(1, 2); (0, 0); (1, 1)] [3; 6; 9; 1; 0; 1]%Z (repeat 7%Z 18, Some (repeat None 18)))
  = Some ([2; 4; 3; 0; 1; 2 ^ 32 - 1; 1; 3; 2; 4; 0; 2 ^ 32 - 1; 0; 4; 2; 1; 3; 2 ^ 32 - 1]%Z,
      Some [Some 1; Some 1; Some 29; Some 45; Some 65; None; Some 2; Some 50; Some 72; Some 72; Some 82; None; Some 1; Some 45; Some 45; Some 101; Some 113; None]%Z, 15).
Proof. vm_compute. reflexivity. Qed.
Example C285_ex_hyps : session_ok 2 [ex_choose 0; ex_choose 1] isort 5 ex_data [] /\ Permutation (map snd [(1, 2); (0, 0); (1, 1)]) (seq 0 3).
Proof.
  split.
  - destruct C15_ex_hyps as (H1 & H2 & H3 & H4 & H5 & H6 & H7 & _). repeat (split; [assumption|]). constructor.
  - cbn. apply perm_trans with [0; 2; 1]; [apply perm_swap|]. constructor. apply perm_swap.
Qed.

(** *** C286: vl_kdtreequery returns numbers of columns from one on, and zero for neighbours not found *)
Theorem C286_matlab : forall data dimension numData met maxcmp k query I D ncmp, (Z.of_nat numData < 2 ^ 32 - 1)%Z ->
  answers data dimension numData met maxcmp k query I D ncmp ->
  exists found, length found = Nat.min k ncmp /\ NoDup found /\ incl found (seq 0 numData) /\
    matlab_indexes I = map (fun a => (Z.of_nat a + 1)%Z) found ++ repeat 0%Z (k - length found) /\
    Forall (fun i => (1 <= i <= Z.of_nat numData)%Z) (firstn (length found) (matlab_indexes I)).
Proof.
  intros data dimension numData met maxcmp k query I D ncmp HN (comp & found & X1 & X2 & X3 & X4 & X5 & X6 & X7 & X8 & X9 & -> & X11). exists found.
  assert (IF : incl found (seq 0 numData)) by (intros a Ia; apply X2, X8, Ia).
  assert (E : matlab_indexes (map Z.of_nat found ++ repeat (2 ^ 32 - 1)%Z (k - length found)) = map (fun a => (Z.of_nat a + 1)%Z) found ++ repeat 0%Z (k - length found)).
  { unfold matlab_indexes. rewrite map_app, map_map, map_repeat. change ((2 ^ 32 - 1 + 1) mod 2 ^ 32)%Z with 0%Z. apply (f_equal (fun l => l ++ _)). apply map_ext_in. intros a Ia.
    apply IF, in_seq in Ia. apply Z.mod_small. lia. }
  repeat (split; [assumption|]). rewrite E. rewrite firstn_app, map_length, Nat.sub_diag, app_nil_r. rewrite firstn_all2 by (rewrite map_length; lia).
  apply Forall_forall. intros i Ii. apply in_map_iff in Ii as (a & <- & Ia). apply IF, in_seq in Ia. lia.
Qed.
Print Assumptions C286_matlab.
Example C286_ex : matlab_indexes [2; 4; 3; 0; 1; 2 ^ 32 - 1]%Z = [3; 5; 4; 1; 2; 0]%Z.
Proof. reflexivity. Qed.
