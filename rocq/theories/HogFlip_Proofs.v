(** Proofs about HOG: mirrored histograms give permuted features. *)
From Coq Require Import List Arith ZArith Lia Bool QArith Qcanon Qcabs Lqa Permutation.
From Verif Require Import Base Loop MserSort_Proofs ImOp_Spec ImOp_Proofs Rat Gauss_Model Gauss_Proofs Lbp_Model Lbp_Spec Vlad_Proofs.
From Verif Require Import Hog_Model Hog_Spec Hog_Proofs HogExtract_Proofs.
Import ListNotations.
Local Open Scope Qc_scope.

Section Flip.
Variables (n W H : nat) (v : variant) (transposed : bool) (isq : Qc -> Qc) (eps c02 c18 : Qc).
Variables (h h' : nat -> nat -> nat -> Qc) (u u' : nat -> nat -> Qc).
Hypothesis Hn : (0 < n)%nat.
Notation fx := (flip_x W transposed).
Notation fy := (flip_y H transposed).
Hypothesis Hh : forall x y k, (x < W)%nat -> (y < H)%nat -> (k < 2 * n)%nat -> h' x y k = h (fx x) (fy y) (flip_orientation n k).

Lemma flip_x_lt x : (x < W)%nat -> (fx x < W)%nat.
Proof. unfold flip_x. destruct transposed; lia. Qed.
Lemma flip_y_lt y : (y < H)%nat -> (fy y < H)%nat.
Proof. unfold flip_y. destruct transposed; lia. Qed.

Definition turn (k : nat) : nat := ((n - k) mod n)%nat.
Lemma turn_lt k : (turn k < n)%nat.
Proof. apply Nat.mod_upper_bound. lia. Qed.
Lemma turn_turn k : (k < n)%nat -> turn (turn k) = k.
Proof.
  intro L. unfold turn. rewrite (mod_flip n k) by lia. destruct (Nat.eqb_spec k 0) as [->|].
  - rewrite mod_flip by lia. reflexivity.
  - rewrite mod_flip by lia. destruct (Nat.eqb_spec (n - k) 0); lia.
Qed.
Lemma turn_perm : Permutation (map turn (seq 0 n)) (seq 0 n).
Proof.
  apply NoDup_Permutation_bis.
  - apply (NoDup_map_inv turn). rewrite map_map. rewrite (map_ext_in _ (fun k => k)).
    + rewrite map_id. apply seq_NoDup.
    + intros k Ik. apply in_seq in Ik. apply turn_turn. lia.
  - now rewrite map_length.
  - intros k Ik. apply in_map_iff in Ik as (j & <- & Ij). apply in_seq. pose proof (turn_lt j). lia.
Qed.
Lemma sum_turn f : sum 0 Qcplus n (fun k => f (turn k)) = sum 0 Qcplus n f.
Proof.
  rewrite <- (sum_reorder n f (map turn (seq 0 n)) turn_perm). apply qsum_ext. intros k Lk.
  f_equal. rewrite (nth_indep _ 0%nat (turn 0)) by (rewrite map_length, seq_length; lia).
  rewrite map_nth, seq_nth by lia. reflexivity.
Qed.

Lemma both x y k : (x < W)%nat -> (y < H)%nat -> (k < n)%nat ->
  h' x y k + h' x y (k + n)%nat = h (fx x) (fy y) (turn k) + h (fx x) (fy y) (turn k + n)%nat.
Proof.
  intros Lx Ly Lk. rewrite !Hh by lia. unfold turn. rewrite mod_flip by lia. rewrite !flip_orientation_eq by lia.
  destruct (Nat.leb_spec k n); [|lia]. destruct (Nat.eqb_spec k 0) as [->|].
  - destruct (Nat.leb_spec (0 + n) n); [|lia]. replace (n - 0)%nat with n by lia. replace (n - (0 + n))%nat with 0%nat by lia. cbn [Nat.add]. ring.
  - destruct (Nat.leb_spec (k + n) n); [lia|]. replace (3 * n - (k + n))%nat with (n - k + n)%nat by lia. reflexivity.
Qed.

Lemma cell_norm_flip x y : (x < W)%nat -> (y < H)%nat -> cell_norm n h' x y = cell_norm n h (fx x) (fy y).
Proof.
  intros Lx Ly. unfold cell_norm.
  rewrite <- (sum_turn (fun k => (h (fx x) (fy y) k + h (fx x) (fy y) (k + n)%nat) * (h (fx x) (fy y) k + h (fx x) (fy y) (k + n)%nat))).
  apply qsum_ext. intros k Lk. rewrite both by auto. reflexivity.
Qed.

Hypothesis Hu : forall x y, (x < W)%nat -> (y < H)%nat -> u' x y = u (fx x) (fy y).

Lemma clamp_lt m z : (0 < m)%nat -> (clamp m z < m)%nat.
Proof. unfold clamp. lia. Qed.
Lemma clamp_flip m x r a : (x < m)%nat -> (r <= 1)%nat -> (a <= 1)%nat ->
  (m - 1 - clamp m (Z.of_nat x + Z.of_nat r - 1 + Z.of_nat a))%nat = clamp m (Z.of_nat (m - 1 - x) + Z.of_nat (1 - r) - 1 + Z.of_nat (1 - a)).
Proof. intros. unfold clamp. lia. Qed.

Lemma gain_flip x y j : (x < W)%nat -> (y < H)%nat -> (j < 4)%nat ->
  gain W H u' transposed isq eps x y j = gain W H u transposed isq eps (fx x) (fy y) (block_flip j).
Proof.
  intros Lx Ly Lj. unfold gain. f_equal. f_equal. unfold block_norm.
  assert (A : forall r d, (r <= 1)%nat -> (d <= 1)%nat ->
    sum 0 Qcplus 2 (fun b => sum 0 Qcplus 2 (fun a => u' (clamp W (Z.of_nat x + Z.of_nat r - 1 + Z.of_nat a)) (clamp H (Z.of_nat y + Z.of_nat d - 1 + Z.of_nat b)))) =
    sum 0 Qcplus 2 (fun b => sum 0 Qcplus 2 (fun a => u (clamp W (Z.of_nat (fx x) + Z.of_nat (if transposed then r else 1 - r) - 1 + Z.of_nat a))
       (clamp H (Z.of_nat (fy y) + Z.of_nat (if transposed then 1 - d else d) - 1 + Z.of_nat b))))).
  { intros r d Lr Ld. cbn [sum]. rewrite !Hu by (apply clamp_lt; lia). unfold flip_x, flip_y. destruct transposed.
    - rewrite !clamp_flip by lia. cbn [Nat.sub]. ring.
    - rewrite !clamp_flip by lia. cbn [Nat.sub]. ring. }
  destruct transposed; do 4 (destruct j as [|j]; [cbn [Nat.div Nat.divmod Nat.modulo fst snd Nat.sub block_flip Nat.add Nat.mul]; rewrite A by lia; reflexivity|]); lia.
Qed.

Lemma undirected_flip x y k j : (x < W)%nat -> (y < H)%nat -> (k < n)%nat -> (j < 4)%nat ->
  undirected_value n W H h' u' transposed isq eps c02 x y k j =
  undirected_value n W H h u transposed isq eps c02 (fx x) (fy y) (turn k) (block_flip j).
Proof. intros. unfold undirected_value. now rewrite gain_flip, both by auto. Qed.
Lemma directed_flip x y k j : (x < W)%nat -> (y < H)%nat -> (k < 2 * n)%nat -> (j < 4)%nat ->
  directed_value W H h' u' transposed isq eps c02 x y k j =
  directed_value W H h u transposed isq eps c02 (fx x) (fy y) (flip_orientation n k) (block_flip j).
Proof. intros. unfold directed_value. now rewrite gain_flip, Hh by auto. Qed.

Lemma feature_flip x y d : (x < W)%nat -> (y < H)%nat -> (d < hog_dimension v n)%nat ->
  feature n W H v transposed isq eps c02 c18 h' u' x y d =
  feature n W H v transposed isq eps c02 c18 h u (fx x) (fy y) (flip_channel v n d).
Proof.
  intros Lx Ly Ld. unfold feature. destruct v; cbn [hog_dimension] in Ld.
  - destruct (Nat.lt_ge_cases d (2 * n)) as [L1|L1].
    + rewrite flip_directed by auto. pose proof (flip_orientation_lt n d Hn). unfold uoctti.
      destruct (Nat.ltb_spec d (2 * n)); [|lia]. destruct (Nat.ltb_spec (flip_orientation n d) (2 * n)); [|lia].
      f_equal. cbn [sum]. rewrite !directed_flip by lia. cbn [block_flip Nat.div Nat.divmod Nat.modulo fst snd Nat.sub Nat.add Nat.mul]. ring.
    + unfold flip_channel. destruct (Nat.ltb_spec d n); [lia|]. destruct (Nat.ltb_spec d (2 * n)); [lia|].
      destruct (Nat.ltb_spec d (3 * n)) as [L2|L2].
      * fold (turn (d - 2 * n)). pose proof (turn_lt (d - 2 * n)). unfold uoctti.
        destruct (Nat.ltb_spec d (2 * n)); [lia|]. destruct (Nat.ltb_spec d (3 * n)); [|lia].
        destruct (Nat.ltb_spec (turn (d - 2 * n) + 2 * n) (2 * n)); [lia|]. destruct (Nat.ltb_spec (turn (d - 2 * n) + 2 * n) (3 * n)); [|lia].
        replace (turn (d - 2 * n) + 2 * n - 2 * n)%nat with (turn (d - 2 * n)) by lia.
        f_equal. cbn [sum]. rewrite !undirected_flip by lia. cbn [block_flip Nat.div Nat.divmod Nat.modulo fst snd Nat.sub Nat.add Nat.mul]. ring.
      * pose proof (block_flip_lt (d - n * 3) ltac:(lia)). unfold uoctti.
        destruct (Nat.ltb_spec d (2 * n)); [lia|]. destruct (Nat.ltb_spec d (3 * n)); [lia|].
        destruct (Nat.ltb_spec (block_flip (d - n * 3) + n * 3) (2 * n)); [lia|]. destruct (Nat.ltb_spec (block_flip (d - n * 3) + n * 3) (3 * n)); [lia|].
        f_equal. replace (block_flip (d - n * 3) + n * 3 - 3 * n)%nat with (block_flip (d - n * 3)) by lia.
        replace (d - n * 3)%nat with (d - 3 * n)%nat by lia.
        rewrite <- (sum_turn (fun k => undirected_value n W H h u transposed isq eps c02 (fx x) (fy y) k (block_flip (d - 3 * n)))).
        apply qsum_ext. intros k Lk. rewrite undirected_flip by lia. reflexivity.
  - assert (Lq : (d / n < 4)%nat) by (apply Nat.div_lt_upper_bound; lia). pose proof (Nat.mod_upper_bound d n ltac:(lia)) as Lm.
    unfold dalal_triggs, flip_channel. fold (turn (d mod n)). pose proof (turn_lt (d mod n)).
    rewrite Nat.mod_add, Nat.div_add, (Nat.mod_small (turn _)), (Nat.div_small (turn _)) by lia. cbn [Nat.add].
    apply undirected_flip; auto.
Qed.
End Flip.
