(** Properties of bins, sums over bins and running maxima. *)
From Coq Require Import List Arith Bool ZArith QArith Qcanon Lia.
Import ListNotations.
From Verif Require Import Base Rat Loop Gauss_Model Gauss_Proofs Bins_Model Bins_Spec Bins_Proofs.
Local Open Scope nat_scope.
Definition q (z : Z) : Qc := zq z.

(** C203: the number returned is the bin of x *)
Theorem C203_binsearch B x : nondecreasing B -> exists k, binsearch B x = Some k /\ bin B x k /\ forall k', bin B x k' -> k' = k.
Proof. intros M. destruct (binsearch_ok B x M) as (k & E & H). exists k. split; [exact E|]. split; [exact H|]. intros k' H'. eapply bin_unique; eauto. Qed.
Print Assumptions C203_binsearch.
Example C203_ex : map (binsearch [q 1; q 2; q 2; q 5]) [q 0; q 1; q 2; q 3; q 5; q 9] = [Some 0; Some 1; Some 3; Some 3; Some 4; Some 4] /\ binsearch [] (q 3) = Some 0.
Proof. split; vm_compute; reflexivity. Qed.
Example C203_ex_mono : nondecreasing [q 1; q 2; q 2; q 5].
Proof. intros i j a b L A B. destruct i as [|[|[|[|i]]]], j as [|[|[|[|j]]]]; cbn in A, B; try discriminate; try lia; try (destruct i; discriminate); try (destruct j; discriminate); injection A as <-; injection B as <-; apply zq_le; lia. Qed.

(** C204: each element of the accumulator grows by the values with its index, an index out of bounds is an error *)
Theorem C204_all (H X : list Qc) (B : list Z) : length X = 1 \/ length X = length B ->
  (Forall (fun b => 0 <= b <= Z.of_nat (length H))%Z B -> exists r, binsum_all H X B = Some (Some r) /\ length r = length H /\
    forall k, k < length H -> nth k r 0%Qc = (nth k H 0 + binned X B (fun _ b => b =? Z.of_nat k + 1)%Z)%Qc) /\
  (~ Forall (fun b => 0 <= b <= Z.of_nat (length H))%Z B -> binsum_all H X B = Some None).
Proof.
  intros L. unfold binsum_all. replace (negb (length X =? length B) && (1 <? length X)) with false by (symmetry; destruct L as [->| ->]; [now rewrite andb_false_r|now rewrite Nat.eqb_refl]).
  exact (all_from X B H L (length B) 0 H eq_refl eq_refl (fun k _ => eq_sym (Qcplus_0_r _))).
Qed.
Print Assumptions C204_all.
Theorem C204_sizes (H X : list Qc) (B : list Z) : length X <> length B -> 1 < length X -> binsum_all H X B = Some None.
Proof. intros N L. unfold binsum_all. apply Nat.eqb_neq in N. apply Nat.ltb_lt in L. now rewrite N, L. Qed.
Print Assumptions C204_sizes.
Example C204_ex : binsum_all [q 0; q 0; q 7] [q 1; q 2; q 3; q 4] [2; 0; 2; 3]%Z = Some (Some [q 0; q 4; q 11]) /\ binsum_all [q 0; q 0] [q 1] [2]%Z = Some (Some [q 0; q 1]) /\ binsum_all [q 1; q 7] [(- q 1)%Qc] [1]%Z = Some (Some [q 0; q 7]) /\
  binsum_all [q 0] [q 1; q 1] [1; 2]%Z = Some None.
Proof. repeat split; vm_compute; reflexivity. Qed.

(** C205: along a dimension, element (u, k, z) of the accumulator, with u the position before the dimension and z after it, grows by the values at (u, v, z) with index k *)
Theorem C205_dim (H X : list Qc) (B : list Z) (pre post : list nat) (h b : nat) (Xdims : list nat) :
  length H = size (pre ++ h :: post) -> length B = size (pre ++ b :: post) ->
  1 < length X /\ length X = length B /\ Xdims = pre ++ b :: post \/ length X = 1 /\ Xdims = [1; 1] /\ length pre <= 2 /\ 1 <= length pre + length post ->
  (Forall (fun v => 0 <= v <= Z.of_nat h)%Z B -> exists r, binsum_dim H (pre ++ h :: post) X Xdims B (pre ++ b :: post) (length pre) = Some (Some r) /\ length r = length H /\
    forall u k z, u < size pre -> k < h -> z < size post ->
      nth (at3 (size pre) h u k z) r 0%Qc = (nth (at3 (size pre) h u k z) H 0 + binned X B (fun i v => (v =? Z.of_nat k + 1)%Z && (i mod size pre =? u) && (i / (size pre * b) =? z)))%Qc) /\
  (~ Forall (fun v => 0 <= v <= Z.of_nat h)%Z B -> binsum_dim H (pre ++ h :: post) X Xdims B (pre ++ b :: post) (length pre) = Some None).
Proof.
  intros LH LB HX. rewrite size_app, size_cons, Nat.mul_assoc in LH, LB. assert (LX : length X = 1 \/ length X = length B) by tauto. unfold binsum_dim.
  replace (negb (length X =? length B) && (1 <? length X)) with false by (symmetry; destruct LX as [->| ->]; [now rewrite andb_false_r|now rewrite Nat.eqb_refl]).
  assert (LD : length (pre ++ h :: post) = length (pre ++ b :: post)) by (rewrite !app_length; reflexivity). rewrite LD, Nat.eqb_refl. cbn [negb andb].
  assert (LB' : length (pre ++ b :: post) = S (length pre + length post)) by (rewrite app_length; cbn; lia). replace (length (pre ++ b :: post) <=? length pre) with false by (symmetry; apply Nat.leb_gt; lia).
  replace (negb (length (pre ++ b :: post) =? length Xdims) && (1 <? length X)) with false.
  2:{ symmetry. destruct HX as [(_ & _ & ->)|(-> & _)]; [now rewrite Nat.eqb_refl|now rewrite andb_false_r]. }
  rewrite strides_ok.
  2:{ intros L. destruct HX as [(_ & _ & ->)|(E & _)]; [reflexivity|lia]. }
  2:{ destruct HX as [(_ & _ & ->)|(_ & -> & L & _)]; cbn [length Nat.add]; lia. }
  2:{ destruct HX as [(_ & _ & ->)|(_ & -> & _ & L)]; cbn [length Nat.add]; lia. }
  2:{ reflexivity. }
  2:{ lia. }
  cbn [obind]. unfold aget. rewrite !nth_error_app2, Nat.sub_diag by lia. cbn [nth_error obind].
  destruct (Nat.eq_dec (length B) 0) as [Z|Z].
  - rewrite Z. cbn [binsum_dim_from]. destruct B; [|discriminate]. split; [|intros N; exfalso; apply N; constructor]. intros _. exists H. split; [reflexivity|]. split; [reflexivity|]. intros u k z _ _ _. unfold binned. cbn. ring.
  - assert (1 <= size pre /\ 1 <= b) as [A1 A2] by (rewrite LB in Z; destruct (size pre), b; cbn in Z; lia).
    pose proof (dim_from X B H (size pre) h b (size post) LX LB LH (length B) 0 0 0 0 H) as G. cbn [Nat.add] in G. replace (size pre * h * 0) with 0 in G by lia.
    destruct G as [G1 G2]; [unfold at3; lia|lia|lia|reflexivity|reflexivity|intros; unfold part; cbn; ring|]. cbn [skipn] in G1, G2. replace (size pre * b * 1) with (size pre * b) in G1, G2 by lia. replace (size pre * (b * 0 + 1)) with (size pre) in G1, G2 by lia.
    split; [exact G1|exact G2].
Qed.
Print Assumptions C205_dim.
(** the 3 by 3 example of the documentation, with the values in a column; three histograms side by side *)
Example C205_ex : binsum_dim [q 1; q 0; q 0; q 0; q 1; q 0; q 0; q 0; q 1] [3; 3] [q 1; q 1; q 1] [1; 3] [1; 2; 3]%Z [1; 3] 0 = Some (Some [q 2; q 0; q 0; q 0; q 2; q 0; q 0; q 0; q 2]) /\
  binsum_dim (repeat (q 0) 4) [2; 2] [q 1; q 10; q 100; q 1000; q 10000; q 100000] [2; 3] [1; 2; 2; 1; 1; 1]%Z [2; 3] 1 = Some (Some [q 10001; q 101000; q 100; q 10]) /\
  binsum_dim (repeat (q 0) 4) [2; 2] [q 1] [1; 1] [1; 2; 3; 1; 1; 1]%Z [2; 3] 1 = Some None.
Proof. repeat split; vm_compute; reflexivity. Qed.

(** C206, refuted: with one value for all and the fourth dimension the stride is wrong: the value for the second element along the dimension is added elsewhere.
    The arrays are 1 by 1 by 2 by 2; the accumulator element 2 of the third and 2 of the fourth dimension should get 1.
    A third dimension that differs is not noticed either, and the code writes outside of the accumulator. *)
Theorem C206_scalar_refuted :
  binsum_dim (repeat (q 0) 4) [1; 1; 2; 2] [q 1; q 1] [1; 1; 2; 1] [2; 2]%Z [1; 1; 2; 1] 3 = Some (Some [q 0; q 0; q 1; q 1]) /\
  binsum_dim (repeat (q 0) 4) [1; 1; 2; 2] [q 1] [1; 1] [2; 2]%Z [1; 1; 2; 1] 3 <> Some (Some [q 0; q 0; q 1; q 1]) /\
  binsum_dim (repeat (q 0) 4) [1; 1; 2; 2] [q 1] [1; 1] [2; 2; 2; 2]%Z [1; 1; 4; 1] 3 = None.
Proof. split; [vm_compute; reflexivity|]. split; [vm_compute; discriminate|vm_compute; reflexivity]. Qed.
Print Assumptions C206_scalar_refuted.

(** C207, refuted: if INDEXES lacks the last dimension, as MATLAB drops it when it is one, the size along it is read beyond the array of dimensions *)
Theorem C207_last_refuted : forall H X B, length X = length B -> length B = 6 -> binsum_dim H [2; 3; 4] X [2; 3] B [2; 3] 2 = None.
Proof. intros H X B LX LB. unfold binsum_dim. rewrite LX, LB. reflexivity. Qed.
Print Assumptions C207_last_refuted.

(** C208: running maxima along a dimension *)
Theorem C208_cummax (X : list Qc) (pre post : list nat) (n : nat) : length X = size (pre ++ n :: post) ->
  exists Y, cummax X (pre ++ n :: post) (Some (length pre)) = Some Y /\ length Y = length X /\
    forall u k z, u < size pre -> k < n -> z < size post -> greatest (fun i => nth (at3 (size pre) n u i z) X 0%Qc) k (nth (at3 (size pre) n u k z) Y 0%Qc).
Proof.
  intros L. rewrite size_app, size_cons, Nat.mul_assoc in L. unfold cummax. unfold aget. rewrite nth_error_app2, Nat.sub_diag by lia. cbn [nth_error obind]. rewrite firstn_app, Nat.sub_diag, firstn_all. cbn [firstn]. rewrite app_nil_r.
  exact (cum_ok X (size pre) n (size post) L).
Qed.
Print Assumptions C208_cummax.
(** without DIM it is the first dimension that is not one, or the last *)
Theorem C208_default (X : list Qc) dims : dims <> [] -> cummax X dims None = cummax X dims (Some (first_dim dims)) /\
  first_dim dims < length dims /\ (forall i, i < first_dim dims -> nth_error dims i = Some 1) /\ (nth_error dims (first_dim dims) = Some 1 -> S (first_dim dims) = length dims).
Proof.
  intros N. assert (G : fold_left Nat.mul (firstn (first_dim dims) dims) 1 = 1 /\ first_dim dims < length dims /\ (forall i, i < first_dim dims -> nth_error dims i = Some 1) /\ (nth_error dims (first_dim dims) = Some 1 -> S (first_dim dims) = length dims)).
  { induction dims as [|a dims IH]; [congruence|]. destruct dims as [|b dims]; [cbn; repeat split; lia|]. destruct IH as (I1 & I2 & I3 & I4); [discriminate|]. change (first_dim (a :: b :: dims)) with (if a =? 1 then S (first_dim (b :: dims)) else 0). destruct (Nat.eqb_spec a 1) as [->|A].
    - split; [exact I1|]. split; [cbn [length] in *; lia|]. split; [intros [|i] Hi; [reflexivity|apply I3; lia]|]. intros Q. cbn [nth_error] in Q. specialize (I4 Q). cbn [length] in *. lia.
    - split; [reflexivity|]. split; [cbn; lia|]. split; [intros; lia|]. cbn [nth_error]. congruence. }
  destruct G as (G1 & G2). split; [|exact G2]. unfold cummax. now rewrite G1.
Qed.
Print Assumptions C208_default.
Example C208_ex : cummax [q 3; q 1; q 2; q 5; q 4; q 6] [2; 3] (Some 1) = Some [q 3; q 1; q 3; q 5; q 4; q 6] /\ cummax [q 3; q 1; q 2; q 5; q 4; q 6] [2; 3] (Some 0) = Some [q 3; q 3; q 2; q 5; q 4; q 6] /\
  cummax [q 3; q 1; q 4] [1; 3] None = Some [q 3; q 3; q 4].
Proof. repeat split; vm_compute; reflexivity. Qed.
