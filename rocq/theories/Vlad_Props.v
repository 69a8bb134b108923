(** Theorems about the VLAD encoding (C46). *)
From Coq Require Import List Arith ZArith Lia Bool QArith Qcanon Permutation.
From Verif Require Import Base Loop MserSort_Proofs ImOp_Spec ImOp_Proofs Rat Gauss_Model Gauss_Proofs Vlad_Model Vlad_Spec Vlad_Proofs.
Import ListNotations.
Local Open Scope nat_scope.

(** entry j of row i of a matrix stored by rows of n entries *)
Definition entry (n : nat) (l : list Qc) (i j : nat) : Qc := nth (i * n + j) l 0%Qc.

(** The unnormalised encoding: sums of residuals, whatever the order in which the
    clusters are processed and whatever the buffer held. *)
Theorem C46_residual_sums root tiny means D K data N assignments order enc :
  length means = D * K -> length data = N * D -> length assignments = N * K -> length enc = D * K ->
  Permutation order (seq 0 K) ->
  exists enc', encode root tiny means D K data N assignments (mk_flags false false false true) order enc = Some enc' /\
    length enc' = D * K /\
    forall k d, k < K -> d < D ->
      entry D enc' k d = sum 0%Qc Qcplus N (fun i =>
        let a := entry K assignments i k in
        ((if Qclt_le_dec 0 a then a else 0) * (entry D data i d - entry D means k d))%Qc).
Proof.
  intros Hm Hx Ha He P.
  destruct (encode_ok root tiny means D K data N assignments (mk_flags false false false true) Hm Hx Ha order enc He P) as (e & E & L & V).
  exists e. split; [exact E|]. split; [exact L|]. intros k d Lk Ld. unfold entry at 1. rewrite V by auto. reflexivity.
Qed.

(** With any combination of flags. *)
Theorem C46_encoding root tiny means D K data N assignments flags order enc :
  length means = D * K -> length data = N * D -> length assignments = N * K -> length enc = D * K ->
  Permutation order (seq 0 K) ->
  exists enc', encode root tiny means D K data N assignments flags order enc = Some enc' /\
    length enc' = D * K /\
    forall k d, k < K -> d < D ->
      entry D enc' k d = encoded root tiny (entry D means) (entry D data) (entry K assignments) D K N
        (f_mass flags) (f_root flags) (f_components flags) (f_unnormalized flags) k d.
Proof.
  intros Hm Hx Ha He P.
  destruct (encode_ok root tiny means D K data N assignments flags Hm Hx Ha order enc He P) as (e & E & L & V).
  exists e. split; [exact E|]. split; [exact L|]. exact V.
Qed.

Lemma same_entries D K (a b : list Qc) : length a = D * K -> length b = D * K ->
  (forall k d, k < K -> d < D -> entry D a k d = entry D b k d) -> a = b.
Proof.
  intros La Lb H. apply (nth_ext _ _ 0%Qc 0%Qc); [lia|]. intros n Ln. rewrite La in Ln.
  assert (D <> 0) by nia. pose proof (Nat.div_mod n D H0) as E. pose proof (Nat.mod_upper_bound n D H0) as M.
  assert (n / D < K) by (apply Nat.div_lt_upper_bound; lia).
  specialize (H (n / D) (n mod D) H1 M). unfold entry in H. now replace (n / D * D + n mod D) with n in H by lia.
Qed.

(** Neither the schedule of the clusters nor the order of the data matters. *)
Theorem C46_order_irrelevant root tiny means D K data data' N assignments assignments' flags order order' enc enc' sigma :
  length means = D * K -> length data = N * D -> length assignments = N * K ->
  length data' = N * D -> length assignments' = N * K -> length enc = D * K -> length enc' = D * K ->
  Permutation order (seq 0 K) -> Permutation order' (seq 0 K) -> Permutation sigma (seq 0 N) ->
  (forall i d, i < N -> d < D -> entry D data' i d = entry D data (nth i sigma 0) d) ->
  (forall i k, i < N -> k < K -> entry K assignments' i k = entry K assignments (nth i sigma 0) k) ->
  encode root tiny means D K data' N assignments' flags order' enc' =
  encode root tiny means D K data N assignments flags order enc.
Proof.
  intros Hm Hx Ha Hx' Ha' He He' P P' Ps Ex Ea.
  destruct (C46_encoding root tiny means D K data N assignments flags order enc Hm Hx Ha He P) as (e & E & L & V).
  destruct (C46_encoding root tiny means D K data' N assignments' flags order' enc' Hm Hx' Ha' He' P') as (e' & E' & L' & V').
  rewrite E, E'. f_equal. apply (same_entries D K); auto. intros k d Lk Ld. rewrite V, V' by auto.
  apply encoded_ext; auto.
  - intros k' Lk'. unfold mass. rewrite <- (sum_reorder N (fun i => weight (entry K assignments) i k') sigma Ps).
    apply qsum_ext. intros i Li. symmetry. apply weight_ext. symmetry. auto.
  - intros k' d' Lk' Ld'. unfold residual. rewrite <- (sum_reorder N (fun i => (weight (entry K assignments) i k' * (entry D data i d' - entry D means k' d'))%Qc) sigma Ps).
    apply qsum_ext. intros i Li. rewrite Ex by auto. f_equal. apply weight_ext. auto.
Qed.
Print Assumptions C46_residual_sums.
Print Assumptions C46_encoding.
Print Assumptions C46_order_irrelevant.

(** two clusters in dimension 2, three data, one soft assignment, one negative *)
Definition ex_means : list Qc := map zq [0; 1; 10; 20]%Z.
Definition ex_data : list Qc := map zq [2; 3; 11; 25; 7; 7]%Z.
Definition ex_assign : list Qc := map zq [1; 0; 0; 2; 1; -5]%Z.
Definition ex_data' : list Qc := map zq [7; 7; 2; 3; 11; 25]%Z.
Definition ex_assign' : list Qc := map zq [1; -5; 1; 0; 0; 2]%Z.
Definition ex_run fl order data assign : option (list Q) :=
  match encode (fun x => x) (zq 1) ex_means 2 2 data 3 assign fl order (map zq [9; 9; 9; 9]%Z) with
  | Some e => Some (map this e) | None => None end.
Example C46_ex_sums : ex_run (mk_flags false false false true) [0; 1] ex_data ex_assign = Some [9 # 1; 8 # 1; 2 # 1; 10 # 1]%Q.
Proof. vm_compute. reflexivity. Qed.
Example C46_ex_schedule : ex_run (mk_flags false false false true) [1; 0] ex_data' ex_assign' = Some [9 # 1; 8 # 1; 2 # 1; 10 # 1]%Q.
Proof. vm_compute. reflexivity. Qed.
Example C46_ex_mass : ex_run (mk_flags true false false true) [1; 0] ex_data ex_assign = Some [9 # 2; 4 # 1; 1 # 1; 5 # 1]%Q.
Proof. vm_compute. reflexivity. Qed.
Example C46_ex_hyp : Permutation [2; 0; 1] (seq 0 3) /\
  (forall i d, i < 3 -> d < 2 -> entry 2 ex_data' i d = entry 2 ex_data (nth i [2; 0; 1] 0) d) /\
  (forall i k, i < 3 -> k < 2 -> entry 2 ex_assign' i k = entry 2 ex_assign (nth i [2; 0; 1] 0) k).
Proof.
  split; [exact (Permutation_middle [0; 1] [] 2)|].
  split; intros i d Li Ld;
    (destruct i as [|[|[|i]]]; [| | |lia]); (destruct d as [|[|d]]; [reflexivity|reflexivity|lia]).
Qed.
