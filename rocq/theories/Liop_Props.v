(** C35: the LIOP permutation index. *)
From Coq Require Import List Arith ZArith Lia Bool Permutation.
From Verif Require Import Base Loop Liop_Model Liop_Spec Liop_Proofs.
Import ListNotations.

(** the index of a permutation of 0..n-1 is its lexicographic rank: it is always
    defined and below n!, it is strictly increasing in the lexicographic order,
    and every number below n! is the index of exactly one permutation *)
Theorem C35_permutation_index n :
  factorial n = fact n /\
  (forall p, is_perm n p -> exists r, permutation_index p n = Some r /\ r < fact n) /\
  (forall p q r s, is_perm n p -> is_perm n q ->
     permutation_index p n = Some r -> permutation_index q n = Some s ->
     (r < s <-> lex_lt p q) /\ (r = s <-> p = q)) /\
  (forall r, r < fact n -> exists p, is_perm n p /\ permutation_index p n = Some r).
Proof.
  assert (X : forall p, is_perm n p -> permutation_index p n = Some (rank n 0 p)).
  { intros p P. apply permutation_index_rank. apply is_perm_iff in P. tauto. }
  split; [apply factorial_ok|]. split; [|split].
  - intros p P. exists (rank n 0 p). split; [auto|]. now apply rank_bound.
  - intros p q r s P Q. rewrite (X p P), (X q Q). intros [= <-] [= <-].
    split; [now apply rank_lex|]. split; [now apply rank_inj|now intros ->].
  - intros r L. destruct (rank_onto n r L) as (p & P & E). exists p. split; [exact P|]. rewrite X by exact P. now f_equal.
Qed.
Print Assumptions C35_permutation_index.

(** the descriptor: never indexed out of its numNeighbours! * numSpatialBins
    entries; each entry is the total weight of the pixels of one spatial bin whose
    neighbours are ordered by one permutation *)
Theorem C35_histogram (neighbours bins patch_size : nat) (perm : nat -> list nat) (weight : nat -> Z) :
  0 < bins -> (forall i, i < patch_size -> is_perm neighbours (perm i)) ->
  exists desc, liop_process neighbours bins patch_size perm weight = Some desc /\
    length desc = fact neighbours * bins /\
    forall b p r, b < bins -> is_perm neighbours p -> permutation_index p neighbours = Some r ->
      nth_error desc (b * fact neighbours + r) =
      Some (weighted_count patch_size (fun i => (spatial_bin bins (patch_size / bins) i =? b) &&
        if list_eq_dec Nat.eq_dec (perm i) p then true else false) weight).
Proof.
  intros Hb Hp. destruct (liop_process_ok neighbours bins patch_size perm weight Hb Hp) as (desc & E & L & V).
  exists desc. split; [exact E|]. split; [exact L|]. intros b p r Lb P Er.
  rewrite permutation_index_rank in Er by (apply is_perm_iff in P; tauto). injection Er as <-.
  rewrite <- V by auto. apply nth_error_nth'. rewrite L. pose proof (rank_bound neighbours p P). nia.
Qed.
Print Assumptions C35_histogram.

Example C35_ex_index : map (fun p => permutation_index p 3)
  [[0;1;2]; [0;2;1]; [1;0;2]; [1;2;0]; [2;0;1]; [2;1;0]] = map Some [0; 1; 2; 3; 4; 5].
Proof. reflexivity. Qed.

Definition ex_perm (i : nat) : list nat := nth (i mod 3) [[0;1;2]; [2;0;1]; [1;2;0]] [].
Example C35_ex_perm : forall i, i < 7 -> is_perm 3 (ex_perm i).
Proof.
  intros i L. unfold ex_perm. pose proof (Nat.mod_upper_bound i 3 ltac:(lia)) as U.
  apply is_perm_iff. destruct (i mod 3) as [|[|[|]]]; cbn; try lia; (split; [|split]); try reflexivity;
    try (intros y I; cbn in I; lia); repeat constructor; cbn; lia.
Qed.
Example C35_ex_histogram : liop_process 3 2 7 ex_perm (fun i => Z.of_nat i + 1)%Z =
  Some [1; 0; 0; 3; 2; 0;  11; 0; 0; 6; 5; 0]%Z.
Proof. reflexivity. Qed.
