(** Properties of the MATLAB interface of AIB (toolbox/aib/vl_aib.c). *)
From Coq Require Import List Arith ZArith Lia Bool QArith Qcanon.
From Verif Require Import Base Loop MserSort_Proofs Kmeans_Spec KmeansUpdate_Proofs Rat Aib_Model Aib_Spec Aib_Proofs AibRun_Proofs Aib_Props AibNull_Model AibNull_Spec AibNull_Proofs.
Import ListNotations.
Local Open Scope nat_scope.

Lemma occurring_count N nl P : length (occurring N nl P) = count N (fun x => nonnull (prob nl (joint N nl P x))).
Proof.
  unfold occurring, count. generalize (seq 0 N). induction l as [|x l IH]; [reflexivity|]. cbn [map filter snd].
  destruct (nonnull (prob nl (joint N nl P x))); cbn [length]; rewrite IH; reflexivity.
Qed.

(** *** C281: joining the values of null probability *)
Theorem C281_joins log_ N nl P bidx ms parents costs : 0 < N -> length P = N * nl -> length bidx = N ->
  (forall i, i < N * nl -> (0 <= nth i P 0)%Qc) -> total N nl P <> 0%Qc ->
  aib_run log_ N nl P bidx = Some (ms, parents, costs) ->
  let used := fun x => nonnull (prob nl (joint N nl P x)) in
  let K := count N used in
  2 <= K -> K < N ->
  exists new first, cluster_parents N parents = Some new /\ joins N K used parents new first /\ binary_tree N N (fun _ => true) new.
Proof.
  intros HN LP Lb Hp Ht E used K HK HKN. destruct (C25_tree log_ N nl P bidx ms parents costs HN LP Lb Hp Ht) as (_ & T); [rewrite occurring_count; exact HK|exact E|].
  rewrite occurring_count in T. fold used K in T. destruct (cluster_joins N K used parents T HK HKN eq_refl) as (new & first & E1 & J). exists new, first.
  split; [exact E1|]. split; [exact J|]. exact (joins_tree N K used parents T HK HKN eq_refl new first J).
Qed.
Print Assumptions C281_joins.
(** without such values nothing changes *)
Theorem C281_no_null log_ N nl P bidx ms parents costs : 2 <= N -> length P = N * nl -> length bidx = N ->
  (forall i, i < N * nl -> (0 <= nth i P 0)%Qc) -> total N nl P <> 0%Qc ->
  aib_run log_ N nl P bidx = Some (ms, parents, costs) ->
  (forall x, x < N -> prob nl (joint N nl P x) <> 0%Qc) -> cluster_parents N parents = Some parents /\ cluster_costs N 0 costs = Some costs.
Proof.
  intros HN LP Lb Hp Ht E A. split; [|reflexivity].
  assert (K : length (occurring N nl P) = N).
  { rewrite occurring_count, (count_ext N _ (fun _ => true)); [|intros x Lx; apply nonnull_true, A; exact Lx].
    clear. induction N as [|N IH]; [reflexivity|]. rewrite <- Nat.add_1_r, count_S, IH. reflexivity. }
  destruct (C25_tree log_ N nl P bidx ms parents costs ltac:(lia) LP Lb Hp Ht) as (_ & T); [rewrite K; exact HN|exact E|].
  rewrite K in T. destruct T as (L & _ & T1 & _). apply no_null; [lia|]. intros x Lx. specialize (T1 x Lx ltac:(cbv beta; apply nonnull_true, A; exact Lx)). lia.
Qed.
Print Assumptions C281_no_null.

(** five values, the second and the fourth null: 0, 2 are merged by 5, then 4 by 6 *)
Example C281_ex_tree : binary_tree 5 3 (fun x => Nat.even x) [5; 10; 5; 10; 6; 6; 0; 10; 10] /\ count 5 (fun x => Nat.even x) = 3 /\
  cluster_parents 5 [5; 10; 5; 10; 6; 6; 0; 10; 10] = Some [7; 5; 6; 5; 8; 6; 7; 8; 0].
Proof.
  split; [|split; reflexivity]. split; [reflexivity|]. split; [reflexivity|]. split; [|split; [|split]].
  - intros x Lx U. do 5 (destruct x as [|x]; [cbn in *; first [discriminate | lia]|]). lia.
  - intros x Lx Hx. assert (x = 5) by lia. subst. cbn. lia.
  - intros p Hp. assert (D : p = 5 \/ p = 6) by lia. destruct D as [-> | ->]; reflexivity.
  - intros x Lx [(H & U)|H]; do 9 (destruct x as [|x]; [cbn in *; first [discriminate | lia | reflexivity]|]); lia.
Qed.

(** *** C282: the costs *)
Theorem C282_costs {A} (d : A) N K cost : length cost = N -> 2 <= K -> K < N ->
  exists new, cluster_costs N (N - K) cost = Some new /\ length new = N /\ nth 0 new d = nth 0 cost d /\
    (forall x, 1 <= x -> x <= N - K -> nth x new d = nth 1 cost d) /\ (forall x, N - K < x -> x < N -> nth x new d = nth (x - (N - K)) cost d).
Proof. apply costs_moved. Qed.
Print Assumptions C282_costs.
(** joining null values loses nothing, but the cost reported after it is the one after the first merge of others *)
Theorem C282_null_cost_refuted : exists N K (cost : list Z), length cost = N /\ 2 <= K /\ K < N /\
  exists new, cluster_costs N (N - K) cost = Some new /\ nth 1 new 0%Z <> nth 0 cost 0%Z.
Proof. exists 4, 3, [9; 7; 0; (-1)]%Z. split; [reflexivity|]. split; [lia|]. split; [lia|]. exists [9; 7; 7; 0]%Z. split; [reflexivity|discriminate]. Qed.
Print Assumptions C282_null_cost_refuted.
Example C282_ex : cluster_costs 5 2 [9; 7; 0; (-1); (-1)]%Z = Some [9; 7; 7; 7; 0]%Z.
Proof. reflexivity. Qed.

(** *** C283: fewer than two values of positive probability *)
Theorem C283_out_of_bounds_refuted log_ N nl P bidx : 0 < N -> length P = N * nl -> length bidx = N ->
  (forall i, i < N * nl -> (0 <= nth i P 0)%Qc) -> total N nl P <> 0%Qc -> length (occurring N nl P) <= 1 ->
  exists parents costs, aib_run log_ N nl P bidx = Some ([], parents, costs) /\ cluster_parents N parents = None.
Proof.
  intros HN LP Lb Hp Ht H1. destruct (C84_single_value log_ N nl P bidx HN LP Lb Hp Ht H1) as (costs & E). eexists. exists costs. split; [exact E|].
  apply no_tree. lia.
Qed.
Print Assumptions C283_out_of_bounds_refuted.
Example C283_ex : exists P, length P = 2 * 2 /\ (forall i, i < 2 * 2 -> (0 <= nth i P 0)%Qc) /\ total 2 2 P <> 0%Qc /\ length (occurring 2 2 P) = 1.
Proof.
  exists (map zq [0; 0; 3; 1]%Z). split; [reflexivity|]. split; [|split].
  - intros i L. do 4 (destruct i as [|i]; [discriminate|]). lia.
  - intro E. apply (f_equal this) in E. vm_compute in E. discriminate.
  - vm_compute. reflexivity.
Qed.

(** *** C284: numbers of MATLAB *)
Theorem C284_numbers N K used parents : binary_tree N K used parents -> 2 <= K -> K <= N ->
  let out := matlab_parents N parents in
  length out = 2 * N - 1 /\ nth (N + K - 2) out 0 = 1 /\
  (forall x, x < N -> used x = false -> nth x out 0 = 0) /\ (forall x, N + K - 2 < x -> x < 2 * N - 1 -> nth x out 0 = 0) /\
  (forall x, (x < N /\ used x = true) \/ (N <= x /\ x < N + K - 2) -> nth x out 0 = nth x parents 0 + 1 /\ N < nth x out 0 <= N + K - 1).
Proof.
  intros (L & R & T1 & T2 & T3 & T4) HK HN. cbv zeta.
  assert (V : forall x, x < 2 * N - 1 -> nth x (matlab_parents N parents) 0 = if 2 * N - 1 <? nth x parents 0 then 0 else nth x parents 0 + 1).
  { intros x Lx. unfold matlab_parents. set (f := fun p => if 2 * N - 1 <? p then 0 else p + 1). rewrite (nth_indep _ 0 (f 0)) by (rewrite map_length; lia). rewrite map_nth. reflexivity. }
  split; [unfold matlab_parents; rewrite map_length; exact L|]. split; [rewrite V by lia; rewrite R; destruct (Nat.ltb_spec (2 * N - 1) 0); [lia|reflexivity]|].
  split; [|split].
  - intros x Lx U. rewrite V by lia. rewrite T4 by (auto; lia). destruct (Nat.ltb_spec (2 * N - 1) (2 * N)); [reflexivity|lia].
  - intros x Lx Hx. rewrite V by lia. rewrite T4 by (auto; lia). destruct (Nat.ltb_spec (2 * N - 1) (2 * N)); [reflexivity|lia].
  - intros x [(Lx & U)|(Lx & Hx)]; [specialize (T1 x Lx U)|specialize (T2 x Lx Hx)]; rewrite V by lia; destruct (Nat.ltb_spec (2 * N - 1) (nth x parents 0)); lia.
Qed.
Print Assumptions C284_numbers.
Example C284_ex : matlab_parents 5 [5; 10; 5; 10; 6; 6; 0; 10; 10] = [6; 0; 6; 0; 7; 7; 1; 0; 0] /\ matlab_parents 5 [7; 5; 6; 5; 8; 6; 7; 8; 0] = [8; 6; 7; 6; 9; 7; 8; 9; 1].
Proof. split; reflexivity. Qed.
