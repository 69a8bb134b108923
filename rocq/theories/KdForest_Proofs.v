(** From the construction of a forest to histories of queries. *)
From Coq Require Import List ZArith Arith Bool Lia Permutation Sorted.
From Verif Require Import Base Heap_Model KdTree_Model KdTree_Spec KdBuild_Proofs KdBounds_Proofs KdQuery_Proofs.
Import ListNotations.
Local Open Scope nat_scope.

Lemma Forall2_weaken {A B} (P Q : A -> B -> Prop) l r :
  (forall a b, P a b -> Q a b) -> Forall2 P l r -> Forall2 Q l r.
Proof. intros H F. induction F; constructor; auto. Qed.

Lemma omap_ok {A B} (f : A -> option B) (Q : B -> Prop) : forall l,
  (forall a, In a l -> exists b, f a = Some b /\ Q b) ->
  exists r, omap f l = Some r /\ length r = length l /\ Forall Q r.
Proof.
  induction l as [|a l IH]; intro H; cbn [omap].
  - exists []. auto.
  - destruct (H a) as (b & -> & Hb); [now left|]. cbn [obind].
    destruct IH as (r & -> & L & FQ); [intros; apply H; now right|]. cbn [obind].
    exists (b :: r). cbn. auto.
Qed.

Lemma omap_sum {A B} (f : A -> option B) (u : A -> nat) (v : B -> nat) : forall l r,
  (forall a b, f a = Some b -> v b = u a) -> omap f l = Some r ->
  fold_right (fun b m => v b + m) 0 r = fold_right (fun a m => u a + m) 0 l.
Proof.
  induction l as [|a l IH]; intros r H E; cbn [omap] in E.
  - inversion E; reflexivity.
  - unfold obind in E. destruct (f a) as [b|] eqn:Ef; [|discriminate].
    destruct (omap f l) as [r'|]; [|discriminate]. inversion E; subst. cbn [fold_right].
    rewrite (H _ _ Ef), (IH r'); auto.
Qed.

Definition well_built (F : forest) (data : list Z) (dimension numData numTrees : nat) : Prop :=
  fo_dim F = dimension /\ fo_data F = data /\ fo_num F = numData /\
  length (fo_trees F) = numTrees /\
  Forall (good_tree data dimension numData) (fo_trees F).

Lemma forest_build_ok junk dimension meth chooses sorter numData data :
  0 < dimension -> 0 < numData -> (Z.of_nat numData < 2 ^ 64)%Z ->
  length data = numData * dimension ->
  sorts sorter -> Forall (chooses_well data dimension) chooses ->
  exists F, forest_build junk dimension meth chooses sorter numData data = Some F /\
    well_built F data dimension numData (length chooses) /\
    Forall (tree_ok F) (fo_trees F) /\
    fo_max_nodes F = fold_right (fun t m => t_used t + m) 0 (fo_trees F).
Proof.
  intros Hd Hn Hs HL Hsort Hch. unfold forest_build.
  destruct (Nat.eqb_spec numData 0); [lia|].
  set (Q := fun t => good_tree data dimension numData t /\ 0 < t_used t /\
    subtree dimension (fun i d => coord data dimension (nth i (map e_index (t_index t)) 0) d)
      (t_nodes t) 0 0 0 numData (seq 0 (t_used t))).
  destruct (omap_ok (fun ch => build_tree data dimension meth ch sorter junk numData) Q chooses)
    as (ts & E1 & L1 & F1).
  { intros ch Hc. rewrite Forall_forall in Hch.
    destruct (build_tree_ok data dimension numData meth ch sorter HL Hd Hsort (Hch ch Hc) Hs junk Hn)
      as (t & E & G & _ & _ & U & (L & ST & ->) & _). exists t. split; [exact E|]. split; auto. }
  rewrite E1. cbn [obind].
  set (Q2 := fun t => good_tree data dimension numData t /\
    csub dimension (fun i d => coord data dimension (nth i (map e_index (t_index t)) 0) d)
      (t_nodes t) 0 (fun _ => NInf) (fun _ => PInf) 0 numData (seq 0 (t_used t))).
  destruct (omap_ok (tree_bounds dimension) Q2 ts) as (ts' & E2 & L2 & F2).
  { intros t Ht. rewrite Forall_forall in F1. destruct (F1 t Ht) as ((GP & GL & GU) & U & ST).
    unfold tree_bounds.
    destruct (calc_bounds_ok dimension _ (S (t_used t)) (t_nodes t) 0 0 0 numData (seq 0 (t_used t))
       (fun _ => NInf) (fun _ => PInf) (inf_bounds dimension) ST) as (ns & E & Len & _ & CS).
    { rewrite seq_length. lia. } { apply seq_NoDup. } { intros; lia. } { apply inf_bounds_spells. }
    rewrite E. cbn [obind]. eexists. split; [reflexivity|]. split; [|exact CS].
    split; [exact GP|]. cbn [t_nodes t_index t_used]. split; [|exact GU].
    exists (seq 0 (t_used t)). split; [|reflexivity]. eapply subtree_same; [|exact ST].
    eapply calc_bounds_same; eauto. }
  rewrite E2. cbn [obind]. eexists. split; [reflexivity|]. split.
  { repeat split; cbn; auto; try congruence. eapply Forall_impl; [|exact F2]. intros t [X _]; exact X. }
  split.
  - eapply Forall_impl; [|exact F2]. intros t [(GP & _ & _) CS]. split; auto.
  - cbn [fo_max_nodes fo_trees]. symmetry.
    apply (omap_sum (tree_bounds dimension) t_used t_used); auto.
    intros a b H. unfold tree_bounds, obind in H.
    destruct (calc_bounds _ _ _ _) as [[ns sb]|]; inversion H; reflexivity.
Qed.

(** A call the interface allows. *)
Definition call_ok (F : forest) (c : qcall) : Prop :=
  0 < c_k c /\ length (c_query c) = fo_dim F /\ length (c_out c) = c_k c.

Definition searcher_inv (F : forest) (s : searcher) : Prop :=
  length (se_book s) = fo_num F /\ Forall (fun m => m <= se_id s) (se_book s) /\
  length (se_heap s) = fo_max_nodes F.

Lemma run_queries_ok F met :
  length (fo_data F) = fo_num F * fo_dim F -> fo_trees F <> [] ->
  Forall (tree_ok F) (fo_trees F) ->
  fo_max_nodes F = fold_right (fun t m => t_used t + m) 0 (fo_trees F) ->
  forall cs s, searcher_inv F s -> Forall (call_ok F) cs ->
  exists os, run_queries F met s cs = Some os /\
    Forall2 (fun c o => answer F met (c_max c) (c_k c) (c_query c) (fst o) (snd o)) cs os.
Proof.
  intros HL Hne HT HC. induction cs as [|c cs IH]; intros s (B1 & B2 & B3) Hcs; cbn [run_queries].
  - exists []. auto.
  - inversion Hcs as [|? ? (K & Q & O) Hcs']; subst.
    destruct (searcher_query_ok F met (c_max c) (c_k c) (c_query c) HL Q K HT HC
                (se_book s) (se_id s) (se_heap s) (c_out c)) as (book' & harr' & out & ncmp & E & L1 & M1 & H1 & A1); auto.
    unfold run_query. rewrite E. cbn [obind].
    destruct (IH (mk_searcher book' (S (se_id s)) harr')) as (os & -> & F2); auto.
    { repeat split; auto. }
    cbn [obind]. exists ((out, ncmp) :: os). split; [reflexivity|]. constructor; auto.
Qed.

Lemma new_buffers_inv F junk : searcher_inv F (new_buffers F junk).
Proof.
  repeat split; cbn; rewrite ?repeat_length; auto.
  apply Forall_forall. intros m Hm. apply repeat_spec in Hm. lia.
Qed.
