(** Properties of the hash table of labels. *)
From Coq Require Import List Arith Bool ZArith Lia.
Import ListNotations.
From Verif Require Import Base IHash_Model IHash_Spec IHash_Proofs.

(** C197: after any number of calls the table tells, for every label, whether and how often it was given *)
Theorem C197_counts D K (B : list (list label)) : 1 <= K -> Forall (Forall (proper D)) B ->
  exists t, sums D K B (empty D K) = Some (Some t) /\ forall y, proper D y ->
    (In y (concat B) -> exists p, find1 K t y = Some (S p) /\ nth_error (t_id t) p = Some y /\ nth_error (t_h t) p = Some (Z.of_nat (occurrences y (concat B)) mod 2 ^ 32)%Z) /\
    (~ In y (concat B) -> find1 K t y = Some 0).
Proof.
  intros H F. destruct (empty_ok D K H) as [W C]. destruct (sums_ok D K B _ _ W C F) as (t & E & W' & C'). exists t. split; [exact E|]. intros y P. exact (find_ok D K t _ y W' C' P).
Qed.
Print Assumptions C197_counts.
(** every slot in use holds a label that was given *)
Theorem C197_slots D K (B : list (list label)) t : 1 <= K -> Forall (Forall (proper D)) B -> sums D K B (empty D K) = Some (Some t) ->
  length (t_h t) = length (t_id t) /\ length (t_next t) = length (t_id t) /\ K <= length (t_id t) /\
  forall p l, nth_error (t_id t) p = Some l -> l = repeat 0%Z D /\ nth_error (t_h t) p = Some 0%Z \/ In l (concat B) /\ find1 K t l = Some (S p).
Proof.
  intros H F E. destruct (empty_ok D K H) as [W C]. destruct (sums_ok D K B _ _ W C F) as (t' & E' & W' & C'). rewrite E in E'. injection E' as <-. split; [apply W'|]. split; [apply W'|]. split; [apply W'|].
  intros p l I. destruct (is_null l) eqn:N.
  - left. split; [|destruct C' as (_ & C2 & _); eauto]. pose proof (wf_D _ _ _ _ W' p l I) as L. clear -N L. revert D L. induction l as [|a l IH]; intros D L; destruct D; try discriminate; [reflexivity|]. unfold is_null in N. cbn [forallb] in N. apply andb_true_iff in N. destruct N as [A N]. apply Z.eqb_eq in A. subst a. cbn [repeat]. f_equal. apply IH; auto.
  - right. pose proof C' as (C1 & C2 & C4 & C3). destruct (C1 p l I) as [?|Y]; [congruence|]. split; [exact Y|].
    destruct (C3 l Y) as (P & _). destruct (find_ok D K t _ l W' C' P) as [G _]. destruct (G Y) as (q & Q & I' & _). rewrite Q. do 2 f_equal. exact (C4 q p l I' I N).
Qed.
Print Assumptions C197_slots.
(** a column of zeros is an error, and is not found *)
Theorem C197_null D K (B : list (list label)) X x : 1 <= K -> Forall (Forall (proper D)) B -> Forall (fun y => length y = D) X -> In x X -> x = repeat 0%Z D -> sums D K (B ++ [X]) (empty D K) = Some None.
Proof.
  intros H F FX I E. destruct (empty_ok D K H) as [W C]. assert (G : forall t seen, wf D K t (length (t_id t)) -> counts D K t seen -> sums D K (B ++ [X]) t = Some None).
  { clear W C. induction B as [|X' B' IH]; intros t seen W C; cbn [app sums].
    - unfold ihashsum. pose proof (wf_h _ _ _ _ W) as WH. pose proof (wf_K _ _ _ _ W). rewrite WH, fold_max; [|intros p n Q; destruct (wf_next _ _ _ _ W p n Q); lia].
      replace (length (t_id t) <? K) with false by (symmetry; apply Nat.ltb_ge; lia). rewrite Nat.ltb_irrefl. cbn [orb]. rewrite (add_null D K X t _ seen x W C FX I); [reflexivity|]. subst x. apply is_null_repeat.
    - inversion F as [|? ? F1 F2]; subst. destruct (sum_ok D K X' t seen W C F1) as (t1 & -> & W1 & C1). exact (IH F2 t1 _ W1 C1). }
  eapply G; eauto.
Qed.
Print Assumptions C197_null.
Example C197_ex_doc : sums 2 5 [[[1; 1]; [1; 2]; [2; 1]; [1; 1]]]%Z (empty 2 5) = Some (Some (Table [1; 0; 1; 2; 0]%Z [[1; 2]; [0; 0]; [2; 1]; [1; 1]; [0; 0]]%Z [0; 0; 0; 0; 0])) /\
  Forall (proper 2) [[1; 1]; [1; 2]; [2; 1]; [1; 1]]%Z.
Proof. split; [vm_compute; reflexivity|]. repeat constructor; eexists; (split; [left; reflexivity|discriminate]). Qed.
Example C197_ex_overflow : sums 1 1 [[[1]; [2]]; [[3]; [1]]; [[4]; [5]]]%Z (empty 1 1) = Some (Some (Table [2; 1; 1; 1; 1]%Z [[1]; [2]; [3]; [4]; [5]]%Z [2; 3; 4; 5; 0])) /\
  Forall (Forall (proper 1)) [[[1]; [2]]; [[3]; [1]]; [[4]; [5]]]%Z.
Proof. split; [vm_compute; reflexivity|]. repeat constructor; eexists; (split; [left; reflexivity|discriminate]). Qed.
Example C197_ex_find : map (find1 1 (Table [2; 1; 1]%Z [[1]; [2]; [3]]%Z [2; 3; 0])) [[3]; [1]; [7]; [0]]%Z = [Some 3; Some 1; Some 0; Some 0].
Proof. vm_compute. reflexivity. Qed.
Example C197_ex_null : sums 1 1 ([[[1]]] ++ [[[2]; [0]]])%Z (empty 1 1) = Some None.
Proof. vm_compute. reflexivity. Qed.

(** C198, refuted: with K = 0, which passes the check K <= NBUCKETS, the code divides by zero *)
Theorem C198_zero_refuted : (0 <=? length (t_h (empty 1 2))) = true /\ ihashsum 1 0 [[1%Z]] (empty 1 2) = None /\ forall D t x, is_null x = false -> add1 D 0 x t (length (t_h t)) = None /\ find1 0 t x = None.
Proof. split; [reflexivity|]. split; [vm_compute; reflexivity|]. intros D t x N. unfold add1, find1. now rewrite N. Qed.
Print Assumptions C198_zero_refuted.

(** C199, refuted: a label goes to the overflow area while buckets are free, since the step from bucket to bucket need not be prime to K *)
Theorem C199_full_refuted : exists t, ihashsum 1 3 [[1]; [4]]%Z (empty 1 3) = Some (Some t) /\ length (t_id t) = 4 /\ nth_error (t_id t) 0 = Some [0%Z] /\ nth_error (t_id t) 1 = Some [0%Z] /\ find1 3 t [4%Z] = Some 4.
Proof. eexists. split; [vm_compute; reflexivity|]. repeat split; vm_compute; reflexivity. Qed.
Print Assumptions C199_full_refuted.
