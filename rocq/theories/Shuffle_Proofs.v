From Coq Require Import List NArith ZArith Arith Lia Permutation Bool.
From Verif Require Import Base Random_Model Random_Spec Random_Proofs Shuffle_Model Qsort_Proofs.
Import ListNotations.

Lemma to_int_small n : (n < 2 ^ 31)%N -> to_int n = Z.of_N n.
Proof.
  intro H. unfold to_int. rewrite Z.mod_small.
  - destruct (Z.ltb_spec (Z.of_N n) (2 ^ 31)); lia.
  - lia.
Qed.

Section Shuffle.
  Context {G A : Type} (draw : G -> N -> option (G * N)) (ok : G -> Prop).
  Hypothesis draw_ok : forall g r, ok g -> (0 < r)%N ->
    exists g' d, draw g r = Some (g', d) /\ (d < r)%N /\ ok g'.

  Lemma shuffle_loop_perm : forall n g (a : list A), ok g -> n <= length a ->
    exists g' a', shuffle_loop draw n g a = Some (g', a') /\ Permutation a a' /\ ok g'.
  Proof.
    induction n as [|n IH]; intros g a HG Hn; cbn [shuffle_loop].
    - exists g, a. auto.
    - destruct n as [|m]; [exists g, a; auto|].
      destruct (draw_ok g (N.of_nat (S (S m)))) as (g1 & d & E & Hd & H1); auto; [lia|].
      rewrite E. cbn [obind].
      assert (exists a1, aswap a (S m) (N.to_nat d) = Some a1) as [a1 E1].
      { apply aswap_Some; lia. }
      rewrite E1. cbn [obind].
      destruct (IH g1 a1) as (g2 & a2 & E2 & HP & H2); auto.
      { rewrite (aswap_length _ _ _ _ E1). lia. }
      exists g2, a2. split; auto. split; auto.
      eapply Permutation_trans; [|exact HP]. apply Permutation_sym. exact (aswap_perm _ _ _ _ E1).
  Qed.

  Lemma permute_eq_shuffle : forall i g (a : list A), ok g -> i < length a ->
    (Z.of_nat i < 2 ^ 31)%Z ->
    permute_loop draw i g a = shuffle_loop draw (S i) g a.
  Proof.
    induction i as [|i IH]; intros g a HG Hi HB; cbn [permute_loop]; [reflexivity|].
    cbn [shuffle_loop].
    replace (N.of_nat (S i) + 1)%N with (N.of_nat (S (S i))) by lia.
    destruct (draw_ok g (N.of_nat (S (S i)))) as (g1 & d & E & Hd & H1); auto; [lia|].
    rewrite E. cbn [obind].
    rewrite to_int_small by lia.
    unfold zget. destruct (Z.ltb_spec (Z.of_N d) 0); [lia|].
    replace (Z.to_nat (Z.of_N d)) with (N.to_nat d) by lia.
    unfold zset. destruct (Z.ltb_spec (Z.of_N d) 0); [lia|].
    replace (Z.to_nat (Z.of_N d)) with (N.to_nat d) by lia.
    unfold aswap.
    destruct (aget_lt a (S i)) as [t ->]; [lia|]. cbn [obind].
    destruct (aget_lt a (N.to_nat d)) as [x ->]; [lia|]. cbn [obind].
    rewrite aset_lt by lia. cbn [obind].
    rewrite aset_lt by (rewrite upd_length; lia). cbn [obind].
    apply IH; auto; [rewrite !upd_length; lia|lia].
  Qed.
End Shuffle.

Lemma rand_draw_ok g r : rand_wf g -> (0 < r)%N ->
  exists g' d, rand_uindex g r = Some (g', d) /\ (d < r)%N /\ rand_wf g'.
Proof.
  intros HG Hr. destruct (step_ok g (OpUindex r) HG) as (g' & o & E & HW & HO).
  - cbn. lia.
  - cbn [rand_step] in E. destruct (rand_uindex g r) as [[g1 d]|]; [|discriminate].
    cbn [obind] in E. inversion E; subst. cbn in HO. eauto.
Qed.

(** Reachability: the tail of the array is fixed from the end. *)
Lemma nth_error_last_firstn {A} (l : list A) n x :
  nth_error l n = Some x -> firstn (S n) l = firstn n l ++ [x].
Proof.
  revert l; induction n as [|n IH]; intros [|y l] H; try discriminate.
  - cbn in *. congruence.
  - change (firstn (S (S n)) (y :: l)) with (y :: firstn (S n) l).
    rewrite (IH l H). reflexivity.
Qed.

Lemma shuffle_reach {A} : forall n (a t : list A),
  n <= length a -> length a = length t ->
  Permutation (firstn n a) (firstn n t) -> skipn n a = skipn n t ->
  exists ds, shuffle_loop draw_list n ds a = Some ([], t).
Proof.
  induction n as [|n IH]; intros a t Hn HL HP HS.
  - exists []. cbn in *. subst; reflexivity.
  - destruct n as [|m].
    + exists []. cbn [shuffle_loop]. f_equal. f_equal.
      rewrite <- (firstn_skipn 1 a), <- (firstn_skipn 1 t), HS. f_equal.
      destruct a as [|x a], t as [|y t]; cbn in *; try lia.
      apply Permutation_length_1_inv in HP. congruence.
    + assert (Ht : exists y, nth_error t (S m) = Some y).
      { apply aget_lt. lia. }
      destruct Ht as [y Hy].
      assert (Hin : In y (firstn (S (S m)) a)).
      { eapply Permutation_in; [apply Permutation_sym; exact HP|].
        rewrite (nth_error_last_firstn t (S m) y Hy). apply in_or_app. right; left; auto. }
      apply In_nth_error in Hin as [k Hk].
      assert (Hk1 : k < S (S m)).
      { assert (k < length (firstn (S (S m)) a)) by (apply nth_error_Some; congruence).
        rewrite firstn_length in H. lia. }
      rewrite nth_error_firstn in Hk. destruct (Nat.ltb_spec k (S (S m))); [|lia].
      destruct (aswap_Some a (S m) k) as [a1 E1]; [lia|lia|].
      pose proof (aswap_length _ _ _ _ E1) as HL1.
      pose proof (fun q => aswap_nth _ _ _ _ q E1) as HN.
      assert (Hlast : nth_error a1 (S m) = Some y).
      { rewrite HN. destruct (Nat.eqb_spec (S m) (S m)); [|congruence].
        destruct (Nat.eqb_spec (S m) k) as [e'|]; auto. rewrite e'. auto. }
      assert (HS1 : skipn (S (S m)) a1 = skipn (S (S m)) t).
      { rewrite <- HS. apply nth_error_ext'. intro j. rewrite !nth_error_skipn, HN.
        destruct (Nat.eqb_spec (S (S m) + j) k), (Nat.eqb_spec (S (S m) + j) (S m));
          try lia; reflexivity. }
      destruct (IH a1 t) as [ds Hds]; [lia|lia| |..].
      * assert (HP1 : Permutation (firstn (S (S m)) a1) (firstn (S (S m)) t)).
        { eapply Permutation_trans; [|exact HP].
          apply Permutation_sym.
          assert (Permutation a a1) as PA by (apply Permutation_sym; eapply aswap_perm; eauto).
          rewrite <- (firstn_skipn (S (S m)) a), <- (firstn_skipn (S (S m)) a1) in PA.
          rewrite HS, HS1 in PA. apply Permutation_app_inv_r in PA. exact PA. }
        rewrite (nth_error_last_firstn a1 (S m) y Hlast),
                (nth_error_last_firstn t (S m) y Hy) in HP1.
        apply Permutation_app_inv_r in HP1. exact HP1.
      * apply nth_error_ext'. intro j. rewrite !nth_error_skipn. destruct j as [|j].
        -- rewrite Nat.add_0_r. congruence.
        -- assert (HH : nth_error (skipn (S (S m)) a1) j = nth_error (skipn (S (S m)) t) j)
             by (rewrite HS1; auto).
           rewrite !nth_error_skipn in HH. replace (S m + S j) with (S (S m) + j) by lia. auto.
      * exists (N.of_nat k :: ds). cbn [shuffle_loop]. cbn [draw_list].
        destruct (N.ltb_spec (N.of_nat k) (N.of_nat (S (S m)))); [|lia]. cbn [obind].
        rewrite Nat2N.id, E1. cbn [obind]. exact Hds.
Qed.

(** The same draws drive the other function. *)
Lemma permute_shuffle_list {A} : forall i ds (a : list A), i < length a -> (Z.of_nat i < 2 ^ 31)%Z ->
  permute_loop draw_list i ds a = shuffle_loop draw_list (S i) ds a.
Proof.
  induction i as [|i IH]; intros ds a Hi HB; cbn [permute_loop]; [reflexivity|].
  cbn [shuffle_loop].
  replace (N.of_nat (S i) + 1)%N with (N.of_nat (S (S i))) by lia.
  destruct ds as [|d ds]; [reflexivity|]. cbn [draw_list].
  destruct (N.ltb_spec d (N.of_nat (S (S i)))) as [Hd|]; [|reflexivity]. cbn [obind].
  rewrite to_int_small by lia.
  unfold zget. destruct (Z.ltb_spec (Z.of_N d) 0); [lia|].
  replace (Z.to_nat (Z.of_N d)) with (N.to_nat d) by lia.
  unfold zset. destruct (Z.ltb_spec (Z.of_N d) 0); [lia|].
  replace (Z.to_nat (Z.of_N d)) with (N.to_nat d) by lia.
  unfold aswap.
  destruct (aget_lt a (S i)) as [t ->]; [lia|]. cbn [obind].
  destruct (aget_lt a (N.to_nat d)) as [x ->]; [lia|]. cbn [obind].
  rewrite aset_lt by lia. cbn [obind].
  rewrite aset_lt by (rewrite upd_length; lia). cbn [obind].
  apply IH; [rewrite !upd_length; lia|lia].
Qed.

Lemma permute_reach {A} (a t : list A) : Permutation a t -> (Z.of_nat (length a) <= 2 ^ 31)%Z ->
  exists ds, permute_indexes draw_list ds a = Some ([], t).
Proof.
  intros HP HB. pose proof (Permutation_length HP) as HL.
  destruct (shuffle_reach (length a) a t) as [ds Hds]; auto.
  - rewrite firstn_all, HL, firstn_all. auto.
  - rewrite skipn_all, HL, skipn_all. auto.
  - exists ds. unfold permute_indexes. destruct a as [|x a].
    + cbn [length shuffle_loop] in *. exact Hds.
    + rewrite permute_shuffle_list; [|cbn [length]; lia|lia].
      replace (S (length (x :: a) - 1)) with (length (x :: a)) by (cbn; lia). exact Hds.
Qed.

Lemma permute_big {A} (a : list A) : (2 ^ 31 < Z.of_nat (length a))%Z ->
  forall ds, permute_indexes draw_list (2 ^ 31 :: ds)%N a = None.
Proof.
  intros HB ds. unfold permute_indexes.
  destruct (length a - 1) as [|i] eqn:E; [lia|]. cbn [permute_loop draw_list].
  destruct (N.ltb_spec (2 ^ 31) (N.of_nat (S i) + 1)); [|lia]. cbn [obind].
  destruct (aget a (S i)); [|reflexivity]. cbn [obind]. reflexivity.
Qed.
