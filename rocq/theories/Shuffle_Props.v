(** Properties C03 and C56: random permutations. *)
From Coq Require Import List NArith ZArith Arith Lia Permutation.
From Verif Require Import Base Random_Model Random_Spec Random_Proofs Shuffle_Model Shuffle_Proofs.
Import ListNotations.

(** C03.  With the library's generator after any legal history of calls, both
    functions complete without leaving the array and the result is a
    rearrangement of the array. *)
Theorem C03_shuffle_permutes : forall (A : Type) g0 ops g outs (a : list A),
  Forall op_ok ops -> rand_run g0 (OpInit :: ops) = Some (g, outs) ->
  exists g' a', shuffle rand_uindex g a = Some (g', a') /\ Permutation a a'.
Proof.
  intros A g0 ops g outs a HO HR.
  assert (HW : rand_wf g) by (eapply init_run_wf; eauto).
  destruct (shuffle_loop_perm rand_uindex rand_wf rand_draw_ok (length a) g a HW (le_n _))
    as (g' & a' & E & HP & _). exists g', a'. auto.
Qed.
Print Assumptions C03_shuffle_permutes.

Theorem C03_permute_indexes_permutes : forall (A : Type) g0 ops g outs (a : list A),
  Forall op_ok ops -> rand_run g0 (OpInit :: ops) = Some (g, outs) ->
  (Z.of_nat (length a) <= 2 ^ 31)%Z ->
  exists g' a', permute_indexes rand_uindex g a = Some (g', a') /\ Permutation a a'.
Proof.
  intros A g0 ops g outs a HO HR HB.
  assert (HW : rand_wf g) by (eapply init_run_wf; eauto).
  unfold permute_indexes. destruct a as [|x a].
  - cbn. eauto.
  - rewrite (permute_eq_shuffle rand_uindex rand_wf rand_draw_ok _ _ _ HW); [|cbn [length]; lia|lia].
    destruct (shuffle_loop_perm rand_uindex rand_wf rand_draw_ok
       (S (length (x :: a) - 1)) g (x :: a) HW) as (g' & a' & E & HP & _); [cbn [length]; lia|].
    exists g', a'. auto.
Qed.
Print Assumptions C03_permute_indexes_permutes.

(** Every rearrangement is the result of some draws, each below its range. *)
Theorem C03_shuffle_reaches_all : forall (A : Type) (a t : list A), Permutation a t ->
  exists ds, shuffle draw_list ds a = Some ([], t).
Proof.
  intros A a t HP. pose proof (Permutation_length HP) as HL.
  apply shuffle_reach; auto.
  - rewrite firstn_all, HL, firstn_all. auto.
  - rewrite skipn_all, HL, skipn_all. auto.
Qed.
Print Assumptions C03_shuffle_reaches_all.

Theorem C03_permute_indexes_reaches_all : forall (A : Type) (a t : list A),
  Permutation a t -> (Z.of_nat (length a) <= 2 ^ 31)%Z ->
  exists ds, permute_indexes draw_list ds a = Some ([], t).
Proof. exact @permute_reach. Qed.
Print Assumptions C03_permute_indexes_reaches_all.

Example C03_case :
  shuffle draw_list [1; 0; 1]%N [10; 20; 30; 40] = Some ([], [30; 40; 10; 20]).
Proof. vm_compute. reflexivity. Qed.
Example C03_case_generator :
  option_map snd (permute_indexes rand_uindex (seeded 5489) [10; 20; 30; 40])
  = Some [20; 30; 40; 10].
Proof. vm_compute. reflexivity. Qed.

(** C56.  vl_rand_permute_indexes is declared for arrays of any vl_size, but the
    index drawn is converted to a 32-bit int: as soon as the array has more than
    2^31 entries an in-range draw indexes outside the array. *)
Theorem C56_permute_indexes_large_refuted : forall (A : Type) (a : list A),
  (2 ^ 31 < Z.of_nat (length a))%Z ->
  exists d, (d < N.of_nat (length a))%N /\
    forall ds, permute_indexes draw_list (d :: ds) a = None.
Proof.
  intros A a H. exists (2 ^ 31)%N. split; [lia|]. apply permute_big; auto.
Qed.
Print Assumptions C56_permute_indexes_large_refuted.

Example C56_case : exists a : list nat, (2 ^ 31 < Z.of_nat (length a))%Z.
Proof. exists (repeat 0 (Z.to_nat (2 ^ 31 + 1))). rewrite repeat_length. lia. Qed.
