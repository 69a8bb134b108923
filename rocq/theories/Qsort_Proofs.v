From Coq Require Import List ZArith Arith Lia Permutation Bool.
From Verif Require Import Base Order_Spec Qsort_Model Qsort_Spec.
Import ListNotations.

Section Proofs.
  Context {A : Type}.
  Variable cmp : A -> A -> Z.
  Hypothesis Hcmp : total_preorder cmp.

  Definition same_outside (b e : nat) (l' l : list A) : Prop :=
    forall k, k < b \/ e < k -> nth_error l' k = nth_error l k.

  Definition seg (b e : nat) (l : list A) : list A := firstn (S e - b) (skipn b l).

  Lemma nth_error_skipn (l : list A) m k : nth_error (skipn m l) k = nth_error l (m + k).
  Proof. revert l; induction m; destruct l; cbn; auto. destruct k; auto. Qed.

  Lemma nth_error_firstn (l : list A) m k :
    nth_error (firstn m l) k = if k <? m then nth_error l k else None.
  Proof.
    revert m k; induction l; intros m k.
    - rewrite firstn_nil. destruct k; destruct (_ <? m); auto.
    - destruct m, k; cbn; auto. rewrite IHl. reflexivity.
  Qed.

  Lemma nth_error_seg b e (l : list A) k :
    nth_error (seg b e l) k = if k <? S e - b then nth_error l (b + k) else None.
  Proof. unfold seg. rewrite nth_error_firstn, nth_error_skipn. reflexivity. Qed.

  Lemma seg_perm b e (l' l : list A) :
    b <= S e -> Permutation l' l -> same_outside b e l' l -> Permutation (seg b e l') (seg b e l).
  Proof.
    intros Hbe P O.
    assert (E1 : firstn b l' = firstn b l).
    { apply nth_error_ext'. intro k. rewrite !nth_error_firstn.
      destruct (Nat.ltb_spec k b); auto. }
    assert (E2 : skipn (S e - b) (skipn b l') = skipn (S e - b) (skipn b l)).
    { apply nth_error_ext'. intro k. rewrite !nth_error_skipn. apply O. lia. }
    rewrite <- (firstn_skipn b l'), <- (firstn_skipn b l), E1 in P.
    apply Permutation_app_inv_l in P.
    rewrite <- (firstn_skipn (S e - b) (skipn b l')), <- (firstn_skipn (S e - b) (skipn b l)), E2 in P.
    apply Permutation_app_inv_r in P. exact P.
  Qed.

  (** an element found in the segment afterwards was in the segment before *)
  Lemma seg_elem b e (l' l : list A) k x :
    Permutation l' l -> same_outside b e l' l -> b <= k <= e -> nth_error l' k = Some x ->
    exists k', b <= k' <= e /\ nth_error l k' = Some x.
  Proof.
    intros P O Hk Hx.
    assert (Hin : In x (seg b e l')).
    { apply (nth_error_In _ (k - b)). rewrite nth_error_seg.
      destruct (Nat.ltb_spec (k - b) (S e - b)); [|lia].
      replace (b + (k - b)) with k by lia. exact Hx. }
    assert (Hin' : In x (seg b e l)).
    { eapply Permutation_in; [apply seg_perm; [lia|exact P|exact O]|exact Hin]. }
    apply In_nth_error in Hin' as [j Hj]. rewrite nth_error_seg in Hj.
    destruct (Nat.ltb_spec j (S e - b)); [|discriminate].
    exists (b + j). split; [lia|exact Hj].
  Qed.

  Lemma qs_cmp_Some l i j : i < length l -> j < length l ->
    exists x y, nth_error l i = Some x /\ nth_error l j = Some y /\ qs_cmp cmp l i j = Some (cmp x y).
  Proof.
    intros Hi Hj. unfold qs_cmp.
    destruct (aget_lt _ _ Hi) as [x Hx]. destruct (aget_lt _ _ Hj) as [y Hy].
    exists x, y. rewrite Hx, Hy. auto.
  Qed.

  Lemma qs_scan_spec pv : forall n l i e low b,
    i + n = e -> b <= low <= i -> e < length l ->
    nth_error l e = Some pv ->
    (forall k x, b <= k < low -> nth_error l k = Some x -> (cmp x pv <= 0)%Z) ->
    (forall k x, low <= k < i -> nth_error l k = Some x -> (0 < cmp x pv)%Z) ->
    exists l' low', qs_scan cmp n l i e low = Some (l', low') /\
      b <= low' <= e /\ Permutation l' l /\
      (forall k, k < b \/ e <= k -> nth_error l' k = nth_error l k) /\
      (forall k x, b <= k < low' -> nth_error l' k = Some x -> (cmp x pv <= 0)%Z) /\
      (forall k x, low' <= k < e -> nth_error l' k = Some x -> (0 < cmp x pv)%Z).
  Proof.
    induction n as [|n IH]; intros l i e low b Hi Hlow He Hpv H1 H2; cbn [qs_scan].
    - exists l, low. repeat split; auto; try lia. intros k x Hk. apply H2. lia.
    - destruct (qs_cmp_Some l i e) as (x & y & Hx & Hy & ->); try lia. cbn [obind].
      assert (y = pv) by congruence. subst y.
      destruct (Z.leb_spec (cmp x pv) 0) as [C|C].
      + destruct (aswap_Some l low i) as [l1 Hl1]; try lia. rewrite Hl1. cbn [obind].
        pose proof (aswap_length _ _ _ _ Hl1) as Len.
        pose proof (fun k => aswap_nth _ _ _ _ k Hl1) as N.
        destruct (IH l1 (i+1) e (low+1) b) as (l' & low' & E & Hb & P & O & A1 & A2); try lia.
        * rewrite N. destruct (Nat.eqb_spec e i); [lia|]. destruct (Nat.eqb_spec e low); [lia|]. auto.
        * intros k z Hk. rewrite N.
          destruct (Nat.eqb_spec k i) as [->|].
          { intro Hz. assert (low = i) by lia. subst low. assert (z = x) by congruence. subst. lia. }
          destruct (Nat.eqb_spec k low).
          { intro Hz. assert (z = x) by congruence. subst. lia. }
          apply H1. lia.
        * intros k z Hk. rewrite N.
          destruct (Nat.eqb_spec k i) as [->|].
          { intro Hz. apply (H2 low z); auto. lia. }
          destruct (Nat.eqb_spec k low); [lia|]. apply H2. lia.
        * exists l', low'. repeat split; auto; try lia.
          -- etransitivity; [exact P|]. eapply aswap_perm; eauto.
          -- intros k Hk. rewrite O by auto. rewrite N.
             destruct (Nat.eqb_spec k i); [lia|]. destruct (Nat.eqb_spec k low); [lia|]. auto.
      + apply (IH l (i+1) e low b); auto; try lia.
        intros k z Hk Hz. destruct (Nat.eq_dec k i).
        * subst. assert (z = x) by congruence. subst. lia.
        * apply (H2 k z); auto. lia.
  Qed.

  Definition sorted_seg (b e : nat) (l : list A) : Prop :=
    forall i j x y, b <= i -> i < j -> j <= e -> nth_error l i = Some x -> nth_error l j = Some y ->
      (cmp x y <= 0)%Z.

  Lemma qs_rec_spec : forall fuel l b e,
    e - b < fuel -> b <= e -> e < length l ->
    exists l', qs_sort_recursive cmp fuel l b e = Some l' /\ Permutation l' l /\
      same_outside b e l' l /\ sorted_seg b e l'.
  Proof.
    induction fuel as [|fuel IH]; intros l b e Hf Hbe He; [lia|].
    cbn [qs_sort_recursive]. destruct (Nat.leb_spec b e); [|lia].
    set (piv := (e + b) / 2).
    assert (Hp : b <= piv <= e).
    { unfold piv. split; [apply Nat.div_le_lower_bound; lia|].
      apply Nat.div_le_upper_bound; lia. }
    destruct (aswap_Some l piv e) as [l1 Hl1]; try lia. rewrite Hl1. cbn [obind].
    pose proof (aswap_length _ _ _ _ Hl1) as Len1.
    pose proof (fun k => aswap_nth _ _ _ _ k Hl1) as N1.
    destruct (aget_lt l1 e) as [pv Hpv]; [lia|]. unfold aget in Hpv.
    destruct (qs_scan_spec pv (e - b) l1 b e b b) as (l2 & low & E2 & Hlow & P2 & O2 & S1 & S2);
      try lia; auto.
    rewrite E2. cbn [obind].
    pose proof (Permutation_length P2) as Len2.
    destruct (aswap_Some l2 low e) as [l3 Hl3]; try lia. rewrite Hl3. cbn [obind].
    pose proof (aswap_length _ _ _ _ Hl3) as Len3.
    pose proof (fun k => aswap_nth _ _ _ _ k Hl3) as N3.
    assert (Hpv2 : nth_error l2 e = Some pv) by (rewrite O2; auto).
    assert (P3 : Permutation l3 l).
    { etransitivity; [eapply aswap_perm; eauto|]. etransitivity; [exact P2|].
      eapply aswap_perm; eauto. }
    assert (O3 : same_outside b e l3 l).
    { intros k Hk. rewrite N3. destruct (Nat.eqb_spec k e); [lia|]. destruct (Nat.eqb_spec k low); [lia|].
      rewrite O2 by lia. rewrite N1.
      destruct (Nat.eqb_spec k e); [lia|]. destruct (Nat.eqb_spec k piv); [lia|]. auto. }
    assert (L3 : forall k x, b <= k < low -> nth_error l3 k = Some x -> (cmp x pv <= 0)%Z).
    { intros k x Hk. rewrite N3. destruct (Nat.eqb_spec k e); [lia|]. destruct (Nat.eqb_spec k low); [lia|].
      apply S1; auto. }
    assert (M3 : nth_error l3 low = Some pv).
    { rewrite N3. destruct (Nat.eqb_spec low e); [subst; auto|]. rewrite Nat.eqb_refl. auto. }
    assert (G3 : forall k x, low < k <= e -> nth_error l3 k = Some x -> (0 < cmp x pv)%Z).
    { intros k x Hk. rewrite N3. destruct (Nat.eqb_spec k e) as [->|].
      - intro Hx. apply (S2 low x); auto; lia.
      - destruct (Nat.eqb_spec k low); [lia|]. apply S2; lia. }
    (* left recursion *)
    assert (HL : exists l4, (if b <? low then qs_sort_recursive cmp fuel l3 b (low - 1) else Some l3) = Some l4 /\
       Permutation l4 l3 /\ (forall k, k < b \/ low <= k -> nth_error l4 k = nth_error l3 k) /\
       (low = b \/ same_outside b (low-1) l4 l3) /\
       (forall i j x y, b <= i -> i < j -> j < low -> nth_error l4 i = Some x -> nth_error l4 j = Some y -> (cmp x y <= 0)%Z)).
    { destruct (Nat.ltb_spec b low).
      - destruct (IH l3 b (low - 1)) as (l4 & E & P & O & S); try lia.
        exists l4. repeat split; auto.
        + intros k Hk. apply O. lia.
        + intros i j x y. intros. apply (S i j); auto; lia.
      - exists l3. repeat split; auto; try lia. }
    destruct HL as (l4 & E4 & P4 & O4 & O4' & S4). rewrite E4. cbn [obind].
    pose proof (Permutation_length P4) as Len4.
    assert (L4 : forall k x, b <= k < low -> nth_error l4 k = Some x -> (cmp x pv <= 0)%Z).
    { intros k x Hk Hx. destruct O4' as [->|O4']; [lia|].
      destruct (seg_elem b (low-1) l4 l3 k x) as (k' & Hk' & Hx'); auto; [lia|].
      apply (L3 k' x); auto; lia. }
    assert (HR : exists l5, (if low <? e then qs_sort_recursive cmp fuel l4 (low + 1) e else Some l4) = Some l5 /\
       Permutation l5 l4 /\ same_outside (low+1) e l5 l4 /\ sorted_seg (low+1) e l5).
    { destruct (Nat.ltb_spec low e).
      - apply IH; lia.
      - exists l4. repeat split; auto. intros i j x y. lia. }
    destruct HR as (l5 & E5 & P5 & O5 & S5). exists l5. split; [exact E5|].
    split; [rewrite P5, P4; exact P3|].
    split. { intros k Hk. rewrite O5 by lia. rewrite O4 by lia. apply O3; auto. }
    assert (M5 : nth_error l5 low = Some pv).
    { rewrite O5 by lia. rewrite O4 by lia. auto. }
    assert (L5 : forall k, k < low -> nth_error l5 k = nth_error l4 k).
    { intros k Hk. apply O5. lia. }
    assert (G5 : forall k x, low < k <= e -> nth_error l5 k = Some x -> (0 < cmp x pv)%Z).
    { intros k x Hk Hx. destruct (seg_elem (low+1) e l5 l4 k x) as (k' & Hk' & Hx'); auto; [lia|].
      rewrite O4 in Hx' by lia. apply (G3 k' x); auto; lia. }
    assert (G5' : forall k x, low < k <= e -> nth_error l5 k = Some x -> (cmp pv x <= 0)%Z).
    { intros k x Hk Hx. specialize (G5 k x Hk Hx). pose proof (cmp_flip _ Hcmp pv x). lia. }
    intros i j x y Hi Hij Hj Hx Hy.
    destruct (lt_eq_lt_dec j low) as [[C|C]|C].
    - rewrite L5 in Hx, Hy by lia. eapply S4; [| | |exact Hx|exact Hy]; lia.
    - subst j. assert (y = pv) by congruence. subst. rewrite L5 in Hx by lia. apply (L4 i); auto; lia.
    - destruct (lt_eq_lt_dec i low) as [[D|D]|D].
      + rewrite L5 in Hx by lia. eapply (cmp_trans _ Hcmp); [apply (L4 i x); auto; lia|].
        apply (G5' j); auto; lia.
      + subst i. assert (x = pv) by congruence. subst. apply (G5' j); auto; lia.
      + eapply (S5 i j); eauto; lia.
  Qed.

  Lemma qs_sort_spec l n : 1 <= n -> n <= length l ->
    exists l', qs_sort cmp l n = Some l' /\
      skipn n l' = skipn n l /\ Permutation (firstn n l') (firstn n l) /\
      sorted_by cmp (firstn n l').
  Proof.
    intros H1 Hn. unfold qs_sort. destruct (Nat.leb_spec 1 n); [|lia].
    destruct (qs_rec_spec n l 0 (n-1)) as (l' & E & P & O & SS); try lia.
    exists l'. split; [exact E|]. split; [|split].
    - apply nth_error_ext'. intro k. rewrite !nth_error_skipn. apply O; lia.
    - pose proof (seg_perm 0 (n-1) l' l ltac:(lia) P O) as Q. unfold seg in Q.
      replace (S (n-1) - 0) with n in Q by lia. cbn [skipn] in Q. exact Q.
    - intros i j x y Hij Hx Hy. rewrite nth_error_firstn in Hx, Hy.
      destruct (Nat.ltb_spec i n); [|discriminate]. destruct (Nat.ltb_spec j n); [|discriminate].
      eapply (SS i j); eauto; lia.
  Qed.
End Proofs.
