From Coq Require Import List ZArith Arith Lia Permutation Bool.
From Verif Require Import Base Heap_Model Heap_Spec Order_Spec.
Import ListNotations.

Definition child (i c : nat) : Prop := c = 2 * i + 1 \/ c = 2 * i + 2.

Lemma parent_child c : 0 < c -> child (heap_parent c) c.
Proof.
  intro H. unfold heap_parent. destruct (Nat.eqb_spec c 0); [lia|].
  unfold child. pose proof (Nat.div_mod (c-1) 2 ltac:(lia)).
  pose proof (Nat.mod_upper_bound (c-1) 2 ltac:(lia)). lia.
Qed.

Section Proofs.
  Context {A : Type}.
  Variable cmp : A -> A -> Z.
  Hypothesis Hcmp : total_preorder cmp.

  Lemma cmp_total a b : (cmp a b <= 0 \/ cmp b a <= 0)%Z.
  Proof. pose proof (cmp_flip _ Hcmp a b). pose proof (cmp_flip _ Hcmp b a). lia. Qed.

  Lemma cmp_gt a b : (cmp a b > 0 -> cmp b a <= 0)%Z.
  Proof. pose proof (cmp_flip _ Hcmp b a). lia. Qed.

  Definition R (l : list A) (i j : nat) : Prop :=
    exists x y, nth_error l i = Some x /\ nth_error l j = Some y /\ (cmp x y <= 0)%Z.

  Lemma R_trans l i j k : R l i j -> R l j k -> R l i k.
  Proof.
    intros (x & y & Hx & Hy & H1) (y' & z & Hy' & Hz & H2).
    rewrite Hy in Hy'; inversion Hy'; subst y'.
    exists x, z. repeat split; auto. eapply (cmp_trans _ Hcmp); eauto.
  Qed.

  Definition sw (i j k : nat) : nat := if k =? j then i else if k =? i then j else k.

  Lemma R_swap l i j l' a b : aswap l i j = Some l' ->
    (R l' a b <-> R l (sw i j a) (sw i j b)).
  Proof.
    intro H.
    assert (E : forall k, nth_error l' k = nth_error l (sw i j k)).
    { intro k. rewrite (aswap_nth _ _ _ _ k H). unfold sw.
      destruct (k =? j); auto. destruct (k =? i); auto. }
    unfold R. rewrite !E. reflexivity.
  Qed.

  Lemma heap_cmp_Some l i j : i < length l -> j < length l ->
    exists c, heap_cmp cmp l i j = Some c.
  Proof.
    intros Hi Hj. unfold heap_cmp, obind.
    destruct (aget_lt _ _ Hi) as [x ->]. destruct (aget_lt _ _ Hj) as [y ->]. eauto.
  Qed.

  Lemma heap_cmp_le l i j c : heap_cmp cmp l i j = Some c -> (c <= 0)%Z -> R l i j.
  Proof.
    unfold heap_cmp, obind, aget.
    destruct (nth_error l i) eqn:Ei; [|discriminate].
    destruct (nth_error l j) eqn:Ej; [|discriminate].
    intros H Hc; inversion H; subst. exists a, a0; auto.
  Qed.

  Lemma heap_cmp_ge l i j c : heap_cmp cmp l i j = Some c -> (0 <= c)%Z -> R l j i.
  Proof.
    unfold heap_cmp, obind, aget.
    destruct (nth_error l i) eqn:Ei; [|discriminate].
    destruct (nth_error l j) eqn:Ej; [|discriminate].
    intros H Hc; inversion H; subst. exists a0, a. repeat split; auto.
    pose proof (cmp_flip _ Hcmp a a0). pose proof (cmp_flip _ Hcmp a0 a). lia.
  Qed.

  (** every parent/child pair inside the first n entries is in order *)
  Definition ordered (l : list A) (n : nat) : Prop :=
    forall p c, child p c -> c < n -> R l p c.

  (** all pairs but (parent i, i) *)
  Definition ordered_but_up (l : list A) (n i : nat) : Prop :=
    (forall p c, child p c -> c < n -> c <> i -> R l p c) /\
    (forall p c, child p i -> child i c -> c < n -> R l p c).

  (** all pairs but those involving i *)
  Definition ordered_but (l : list A) (n i : nat) : Prop :=
    (forall p c, child p c -> c < n -> c <> i -> p <> i -> R l p c) /\
    (forall p c, child p i -> child i c -> c < n -> R l p c).

  Ltac cases_sw :=
    unfold sw;
    repeat match goal with |- context [?a =? ?b] => destruct (Nat.eqb_spec a b) end.

  Lemma R_refl l i : i < length l -> R l i i.
  Proof.
    intro H. destruct (aget_lt _ _ H) as [x Hx]. exists x, x. repeat split; auto.
    destruct (cmp_total x x); auto.
  Qed.

  (** [heap_up] (sift towards the leaves) *)
  Lemma heap_up_spec : forall fuel l n i,
    n - i < fuel -> n <= length l -> i < length l ->
    ordered_but l n i ->
    exists l', heap_up cmp fuel l n i = Some l' /\ Permutation l' l /\
      (forall k, n <= k -> k <> i -> nth_error l' k = nth_error l k) /\
      ordered_but_up l' n i /\
      (forall p, child p i -> R l p i -> R l' p i).
  Proof.
    induction fuel as [|fuel IH]; intros l n i Hf Hn Hi [O1 O2]; [lia|].
    cbn [heap_up]. unfold heap_left_child, heap_right_child, heap_left_child.
    destruct (Nat.leb_spec n (2*i+1)) as [L|L].
    { exists l. repeat split; auto.
      - intros p c Hpc Hc Hci. apply O1; auto. unfold child in *; lia. }
    destruct (Nat.leb_spec n (2*i+1+1)) as [L2|L2].
    { destruct (heap_cmp_Some l i (2*i+1)) as [c Hc]; try lia. rewrite Hc. cbn [obind].
      destruct (Z.ltb_spec 0 c) as [P|P].
      - destruct (aswap_Some l i (2*i+1)) as [l' Hl']; try lia. exists l'.
        pose proof (R_swap l i (2*i+1) l') as RS.
        assert (Rc : R l (2*i+1) i) by (eapply heap_cmp_ge; [exact Hc|lia]).
        assert (OU : forall p c0, child p c0 -> c0 < n -> R l' p c0).
        { intros p c0 Hpc Hc0. apply RS; auto.
          cases_sw; subst; unfold child in *; try lia;
          solve [exact Rc | apply O2; unfold child; lia | apply O1; unfold child; lia]. }
        repeat split.
        + exact Hl'.
        + eapply aswap_perm; eauto.
        + intros k Hk Hki. rewrite (aswap_nth _ _ _ _ k Hl').
          destruct (Nat.eqb_spec k (2*i+1)); [lia|]. destruct (Nat.eqb_spec k i); [lia|]. auto.
        + intros; apply OU; auto.
        + intros p c0 Hp Hc0 Hn0. apply (R_trans _ p i c0).
          * apply OU; auto. lia.
          * apply OU; auto.
        + intros p Hp _. apply OU; auto; lia.
      - exists l. repeat split; auto.
        intros p c0 Hpc Hc0 Hci. destruct (Nat.eq_dec p i).
        + subst. assert (c0 = 2*i+1) by (unfold child in *; lia). subst.
          eapply heap_cmp_le; eauto.
        + apply O1; auto. }
    (* both children: common argument for the chosen child m with sibling q *)
    assert (Main : forall m q, child i m -> child i q -> m <> q -> R l m q ->
      exists l', (do c2 <- heap_cmp cmp l i m;
          if (0 <? c2)%Z then do array1 <- aswap l i m; heap_up cmp fuel array1 n m else Some l) = Some l'
        /\ Permutation l' l /\
      (forall k, n <= k -> k <> i -> nth_error l' k = nth_error l k) /\
      ordered_but_up l' n i /\
      (forall p, child p i -> R l p i -> R l' p i)).
    { intros m q Hm Hq Hmq Rmq.
      destruct (heap_cmp_Some l i m) as [c Hc]; [lia|unfold child in *; lia|]. rewrite Hc. cbn [obind].
      destruct (Z.ltb_spec 0 c) as [P|P].
      - destruct (aswap_Some l i m) as [l1 Hl1]; [lia|unfold child in *; lia|]. rewrite Hl1. cbn [obind].
        pose proof (fun a b => R_swap l i m l1 a b Hl1) as RS.
        pose proof (aswap_length _ _ _ _ Hl1) as Len.
        assert (Rc : R l m i) by (eapply heap_cmp_ge; [exact Hc|lia]).
        assert (A1 : forall p c0, child p c0 -> c0 < n -> c0 <> m -> p <> m -> R l1 p c0).
        { intros p c0 Hpc Hc0 Hn1 Hn2. apply RS. cases_sw; subst; unfold child in *; try lia;
          solve [ assert (c0 = q) by lia; subst; exact Rmq
                | apply O2; unfold child; lia | apply O1; unfold child; lia]. }
        assert (A2 : R l1 i m).
        { apply RS. cases_sw; subst; unfold child in *; try lia. exact Rc. }
        destruct (IH l1 n m) as (l2 & E2 & P2 & T2 & (B1 & B2) & B3).
        + unfold child in *; lia.
        + lia.
        + unfold child in *; lia.
        + split; [exact A1|].
          intros p c0 Hp Hc0 Hlt. assert (p = i) by (unfold child in *; lia). subst p.
          apply RS. cases_sw; subst; unfold child in *; try lia.
          apply O1; unfold child; lia.
        + assert (OU : forall p c0, child p c0 -> c0 < n -> R l2 p c0).
          { intros p c0 Hpc Hc0. destruct (Nat.eq_dec c0 m).
            - subst. assert (p = i) by (unfold child in *; lia). subst. apply B3; auto.
            - apply B1; auto. }
          exists l2. split; [exact E2|]. repeat split.
          * etransitivity; [exact P2|]. eapply aswap_perm; eauto.
          * intros k Hk Hki. rewrite T2; auto; [|unfold child in *; lia].
            rewrite (aswap_nth _ _ _ _ k Hl1).
            destruct (Nat.eqb_spec k m); [unfold child in *; lia|].
            destruct (Nat.eqb_spec k i); [lia|]. auto.
          * intros; apply OU; auto.
          * intros p c0 Hp Hc0 Hn0. apply (R_trans _ p i c0); apply OU; auto; lia.
          * intros p Hp _. apply OU; auto; lia.
      - exists l. repeat split; auto.
        assert (Rim : R l i m) by (eapply heap_cmp_le; eauto).
        intros p c0 Hpc Hc0 Hci. destruct (Nat.eq_dec p i).
        + subst. assert (c0 = m \/ c0 = q) as [->| ->] by (unfold child in *; lia); auto.
          eapply R_trans; eauto.
        + apply O1; auto. }
    destruct (heap_cmp_Some l (2*i+1) (2*i+1+1)) as [c0 Hc0]; try lia. rewrite Hc0. cbn [obind].
    destruct (Z.ltb_spec c0 0) as [P|P].
    - apply (Main (2*i+1) (2*i+1+1)); unfold child; try lia.
      eapply heap_cmp_le; [exact Hc0|lia].
    - apply (Main (2*i+1+1) (2*i+1)); unfold child; try lia.
      eapply heap_cmp_ge; [exact Hc0|lia].
  Qed.

  (** [heap_down] (sift towards the root) *)
  Lemma heap_down_spec : forall fuel l n i,
    i < fuel -> i < n -> n <= length l ->
    ordered_but_up l n i ->
    exists l', heap_down cmp fuel l i = Some l' /\ Permutation l' l /\
      (forall k, n <= k -> nth_error l' k = nth_error l k) /\
      ordered l' n.
  Proof.
    induction fuel as [|fuel IH]; intros l n i Hf Hi Hn [O1 O2]; [lia|].
    cbn [heap_down].
    destruct (Nat.eqb_spec i 0) as [Z|Z].
    { exists l. repeat split; auto. intros p c Hpc Hc. apply O1; auto.
      unfold child in *; lia. }
    pose proof (parent_child i ltac:(lia)) as Hp. set (p := heap_parent i) in *.
    assert (p < i) by (unfold child in *; lia).
    destruct (heap_cmp_Some l i p) as [c Hc]; try lia. rewrite Hc. cbn [obind].
    destruct (Z.ltb_spec c 0) as [P|P].
    - destruct (aswap_Some l i p) as [l1 Hl1]; try lia. rewrite Hl1. cbn [obind].
      pose proof (fun a b => R_swap l i p l1 a b Hl1) as RS.
      pose proof (aswap_length _ _ _ _ Hl1) as Len.
      assert (Rip : R l i p) by (eapply heap_cmp_le; [exact Hc|lia]).
      destruct (IH l1 n p) as (l2 & E2 & P2 & T2 & OU); try lia.
      { split.
        - intros p' c' Hpc Hc' Hne. apply RS.
          cases_sw; subst; unfold child in *; try lia;
          solve [ exact Rip | apply O2; unfold child; lia | apply O1; unfold child; lia
                | eapply R_trans; [exact Rip|]; apply O1; unfold child; lia ].
        - intros p' c' Hp' Hc' Hn'. apply RS.
          assert (Rpp : R l p' p) by (apply O1; auto; lia).
          cases_sw; subst; unfold child in *; try lia;
          solve [ exact Rpp | eapply R_trans; [exact Rpp|]; apply O1; unfold child; lia ]. }
      exists l2. repeat split; auto.
      + etransitivity; [exact P2|]. eapply aswap_perm; eauto.
      + intros k Hk. rewrite T2 by auto. rewrite (aswap_nth _ _ _ _ k Hl1).
        destruct (Nat.eqb_spec k p); [lia|]. destruct (Nat.eqb_spec k i); [lia|]. auto.
    - exists l. repeat split; auto. intros p' c' Hpc Hc'.
      destruct (Nat.eq_dec c' i).
      + subst. assert (p' = p) by (unfold child in *; lia). subst. eapply heap_cmp_ge; eauto.
      + apply O1; auto.
  Qed.

  (** the root is a minimum *)
  Lemma ordered_root l n i : ordered l n -> n <= length l -> i < n -> R l 0 i.
  Proof.
    intros O Hn. induction i as [i IH] using lt_wf_ind. intro Hi.
    destruct (Nat.eq_dec i 0) as [->|Hz]; [apply R_refl; lia|].
    pose proof (parent_child i ltac:(lia)) as Hp.
    assert (heap_parent i < i) by (unfold child in *; lia).
    eapply R_trans; [apply (IH (heap_parent i)); lia|]. apply O; auto.
  Qed.

  Lemma perm_firstn (l l' : list A) n :
    Permutation l' l -> (forall k, n <= k -> nth_error l' k = nth_error l k) ->
    Permutation (firstn n l') (firstn n l).
  Proof.
    intros P T.
    assert (E : skipn n l' = skipn n l).
    { apply nth_error_ext'. intro k.
      assert (S : forall m (a : list A), nth_error (skipn m a) k = nth_error a (m + k)).
      { induction m; destruct a; cbn; auto. destruct k; auto. }
      rewrite !S. apply T; lia. }
    rewrite <- (firstn_skipn n l'), <- (firstn_skipn n l), E in P.
    eapply Permutation_app_inv_r; eauto.
  Qed.

  Definition hinv (cap : nat) (h : heap) : Prop :=
    length (h_array h) = cap /\ h_size h <= cap /\ ordered (h_array h) (h_size h).

  Definition contents (h : heap) : list A := firstn (h_size h) (h_array h).

  Lemma firstn_upd_same (l : list A) n x : firstn n (upd l n x) = firstn n l.
  Proof. revert n; induction l; destruct n; cbn; auto; intros; f_equal; auto. Qed.

  Lemma firstn_S (l : list A) n x : nth_error l n = Some x -> firstn (S n) l = firstn n l ++ [x].
  Proof.
    revert n; induction l as [|h t IH]; intros n H; [destruct n; discriminate|].
    destruct n; cbn [nth_error] in H.
    - inversion H; subst. reflexivity.
    - change (firstn (S (S n)) (h :: t)) with (h :: firstn (S n) t).
      rewrite (IH n H). reflexivity.
  Qed.

  Lemma R_upd_other l k x i j : i <> k -> j <> k -> R l i j -> R (upd l k x) i j.
  Proof.
    intros Hi Hj (a & b & Ha & Hb & H). exists a, b.
    rewrite !nth_error_upd_neq by auto. auto.
  Qed.

  Lemma step_push cap h x : hinv cap h -> h_size h < cap ->
    exists h', heap_step cmp h (Push x) = Some (h', OPush) /\ hinv cap h' /\
      h_size h' = h_size h + 1 /\ Permutation (contents h') (x :: contents h).
  Proof.
    intros (HL & HS & HO) Hlt. unfold heap_step.
    rewrite aset_lt by lia. cbn [obind]. unfold heap_push. cbn [h_size h_array].
    set (l := upd (h_array h) (h_size h) x).
    assert (Ll : length l = cap) by (unfold l; rewrite upd_length; auto).
    destruct (heap_down_spec (S (h_size h)) l (h_size h + 1) (h_size h)) as (l' & E & P & T & O); try lia.
    { split.
      - intros p c Hpc Hc Hne. apply R_upd_other; try (unfold child in *; lia).
        apply HO; auto. lia.
      - intros p c Hp Hc Hlt2. unfold child in *; lia. }
    rewrite E. cbn [obind]. eexists. split; [reflexivity|].
    repeat split; cbn [h_size h_array]; auto.
    - rewrite (Permutation_length P); auto.
    - lia.
    - unfold contents; cbn [h_size h_array].
      etransitivity; [apply perm_firstn; [exact P|exact T]|].
      rewrite Nat.add_1_r. rewrite (firstn_S l (h_size h) x).
      + unfold l; rewrite firstn_upd_same. rewrite <- Permutation_cons_append. reflexivity.
      + apply nth_error_upd_eq; lia.
  Qed.

  Lemma step_pop cap h : hinv cap h -> 0 < h_size h ->
    exists h' y, heap_step cmp h Pop = Some (h', OPop y) /\ hinv cap h' /\
      h_size h' = h_size h - 1 /\
      Permutation (contents h) (y :: contents h') /\
      (forall z, In z (contents h') -> (cmp y z <= 0)%Z).
  Proof.
    intros (HL & HS & HO) Hpos. unfold heap_step, heap_pop.
    destruct (Nat.eqb_spec (h_size h) 0) as [Hz0|Hz0]; [lia|].
    set (n := h_size h - 1) in *. set (l := h_array h) in *.
    destruct (aswap_Some l 0 n) as [l1 Hl1]; try lia. rewrite Hl1. cbn [obind].
    pose proof (fun a b => R_swap l 0 n l1 a b Hl1) as RS.
    pose proof (aswap_length _ _ _ _ Hl1) as Len.
    destruct (aget_lt l 0) as [y Hy]; [lia|]. unfold aget in Hy.
    assert (Hn1 : nth_error l1 n = Some y).
    { rewrite (aswap_nth _ _ _ _ n Hl1), Nat.eqb_refl. exact Hy. }
    assert (Main : exists l2, (if 1 <? n then heap_up cmp (S n) l1 n 0 else Some l1) = Some l2 /\
        Permutation l2 l1 /\ (forall k, n <= k -> nth_error l2 k = nth_error l1 k) /\ ordered l2 n).
    { destruct (Nat.ltb_spec 1 n).
      - destruct (heap_up_spec (S n) l1 n 0) as (l2 & E & P & T & (O1 & _) & _); try lia.
        { split.
          - intros p c Hpc Hc Hc0 Hp0. apply RS. cases_sw; subst; unfold child in *; try lia.
            apply HO; unfold child; lia.
          - intros p c Hp. unfold child in *; lia. }
        exists l2. repeat split; auto.
        + intros k Hk. apply T; lia.
        + intros p c Hpc Hc. apply O1; auto. unfold child in *; lia.
      - exists l1. repeat split; auto. intros p c Hpc Hc. unfold child in *; lia. }
    destruct Main as (l2 & E & P & T & O). rewrite E. cbn [obind h_array].
    assert (Hn2 : nth_error l2 n = Some y) by (rewrite T; auto).
    unfold aget. rewrite Hn2. cbn [obind].
    exists (mk_heap l2 n), y. split; [reflexivity|].
    assert (PC : Permutation (contents h) (y :: firstn n l2)).
    { unfold contents. fold l.
      assert (firstn (S n) l2 = firstn n l2 ++ [y]) by (apply firstn_S; auto).
      rewrite Permutation_cons_append, <- H.
      replace (h_size h) with (S n) by lia.
      symmetry. apply perm_firstn.
      - etransitivity; [exact P|]. eapply aswap_perm; eauto.
      - intros k Hk. rewrite T by lia. rewrite (aswap_nth _ _ _ _ k Hl1).
        destruct (Nat.eqb_spec k n); [lia|]. destruct (Nat.eqb_spec k 0); [lia|]. auto. }
    repeat split; cbn [h_size h_array]; auto.
    - rewrite (Permutation_length P); lia.
    - lia.
    - intros z Hz. unfold contents in Hz; cbn [h_size h_array] in Hz.
      assert (Hin : In z (contents h)).
      { eapply Permutation_in; [symmetry; exact PC|]. right; auto. }
      unfold contents in Hin. fold l in Hin.
      apply In_nth_error in Hin as [k Hk].
      assert (k < h_size h).
      { assert (k < length (firstn (h_size h) l)) by (apply nth_error_Some; congruence).
        rewrite firstn_length in H. lia. }
      assert (Hk' : nth_error l k = Some z).
      { rewrite <- Hk. clear -H. revert k H. generalize (h_size h). revert l.
        induction l; intros m k Hk; destruct m, k; cbn; auto; try lia. apply IHl; lia. }
      destruct (ordered_root l (h_size h) k HO) as (a & b & Ha & Hb & Hab); try lia.
      rewrite Hy in Ha; inversion Ha; subst. rewrite Hk' in Hb; inversion Hb; subst. auto.
  Qed.

  Lemma perm_upd (l : list A) i x old : nth_error l i = Some old ->
    exists rest, Permutation l (old :: rest) /\ Permutation (upd l i x) (x :: rest).
  Proof.
    intro H. exists (firstn i l ++ skipn (S i) l). split.
    - rewrite (split_at l i old H) at 1. symmetry. apply Permutation_middle.
    - rewrite upd_split by (apply nth_error_Some; congruence).
      symmetry. apply Permutation_middle.
  Qed.

  Lemma firstn_upd_lt (l : list A) n i x : i < n -> firstn n (upd l i x) = upd (firstn n l) i x.
  Proof.
    revert n i; induction l; destruct n, i; cbn; intros; auto; try lia.
    f_equal; apply IHl; lia.
  Qed.

  Lemma step_update cap h i x : hinv cap h -> i < h_size h ->
    exists h' old, heap_step cmp h (Update i x) = Some (h', OUpdate old) /\ hinv cap h' /\
      h_size h' = h_size h /\
      exists rest, Permutation (contents h) (old :: rest) /\ Permutation (contents h') (x :: rest).
  Proof.
    intros (HL & HS & HO) Hi. unfold heap_step.
    set (l := h_array h) in *.
    destruct (aget_lt l i) as [old Hold]; [lia|]. rewrite Hold. cbn [obind].
    rewrite aset_lt by lia. cbn [obind]. unfold heap_update. cbn [h_size h_array].
    set (l0 := upd l i x).
    assert (Ll : length l0 = cap) by (unfold l0; rewrite upd_length; auto).
    destruct (heap_up_spec (S (h_size h)) l0 (h_size h) i) as (l1 & E1 & P1 & T1 & O1 & _); try lia.
    { split.
      - intros p c Hpc Hc Hne Hne2. apply R_upd_other; auto.
      - intros p c Hp Hc Hlt. apply R_upd_other; try (unfold child in *; lia).
        eapply R_trans; apply HO; eauto. }
    rewrite E1. cbn [obind].
    pose proof (Permutation_length P1).
    destruct (heap_down_spec (S i) l1 (h_size h) i) as (l2 & E2 & P2 & T2 & O2); try lia; auto.
    rewrite E2. cbn [obind].
    exists (mk_heap l2 (h_size h)), old. split; [reflexivity|].
    pose proof (Permutation_length P2).
    split; [repeat split; cbn [h_size h_array]; auto; lia|]. split; [reflexivity|].
    destruct (perm_upd (firstn (h_size h) l) i x old) as (rest & Q1 & Q2).
    { rewrite <- Hold. unfold aget. clear -Hi. revert i Hi. generalize (h_size h).
      induction l; intros m k Hk; destruct m, k; cbn; auto; try lia. apply IHl; lia. }
    exists rest. split; [exact Q1|].
    unfold contents; cbn [h_size h_array].
    etransitivity; [apply perm_firstn|].
    - etransitivity; [exact P2|exact P1].
    - intros k Hk. rewrite T2 by auto. apply T1; lia.
    - unfold l0. rewrite firstn_upd_lt by auto. exact Q2.
  Qed.

  Lemma pq_trace_perm bag bag0 ops outs bag' :
    Permutation bag bag0 -> pq_trace cmp bag ops outs bag' -> pq_trace cmp bag0 ops outs bag'.
  Proof.
    intros P H. revert bag0 P. induction H; intros bag0 P.
    - constructor. etransitivity; [symmetry; exact P|auto].
    - constructor. apply IHpq_trace. auto.
    - econstructor; eauto. etransitivity; [symmetry; exact P|auto].
    - econstructor; eauto. etransitivity; [symmetry; exact P|auto].
  Qed.

  Lemma heap_run_ok cap : forall ops h,
    hinv cap h -> allowed cap (h_size h) ops ->
    exists h' outs, heap_run cmp h ops = Some (h', outs) /\ hinv cap h' /\
      pq_trace cmp (contents h) ops outs (contents h').
  Proof.
    induction ops as [|o ops IH]; intros h HI HA.
    - exists h, []. repeat split; auto; try apply HI. constructor; reflexivity.
    - destruct o as [x| |i x]; cbn [allowed] in HA; destruct HA as [HA1 HA2].
      + destruct (step_push cap h x HI HA1) as (h1 & E & HI1 & S1 & P1).
        rewrite <- S1 in HA2. destruct (IH h1 HI1 HA2) as (h2 & outs & E2 & HI2 & T2).
        exists h2, (OPush :: outs). cbn [heap_run]. rewrite E. cbn [obind]. rewrite E2. cbn [obind].
        split; [reflexivity|]. split; [exact HI2|].
        constructor. eapply pq_trace_perm; eauto.
      + destruct (step_pop cap h HI HA1) as (h1 & y & E & HI1 & S1 & P1 & M1).
        rewrite <- S1 in HA2. destruct (IH h1 HI1 HA2) as (h2 & outs & E2 & HI2 & T2).
        exists h2, (OPop y :: outs). cbn [heap_run]. rewrite E. cbn [obind]. rewrite E2. cbn [obind].
        split; [reflexivity|]. split; [exact HI2|]. econstructor; eauto.
      + destruct (step_update cap h i x HI HA1) as (h1 & old & E & HI1 & S1 & rest & Q1 & Q2).
        rewrite <- S1 in HA2. destruct (IH h1 HI1 HA2) as (h2 & outs & E2 & HI2 & T2).
        exists h2, (OUpdate old :: outs). cbn [heap_run]. rewrite E. cbn [obind]. rewrite E2. cbn [obind].
        split; [reflexivity|]. split; [exact HI2|]. econstructor; eauto.
        eapply pq_trace_perm; eauto.
  Qed.

  Lemma heap_run_from_empty a ops :
    allowed (length a) 0 ops ->
    exists h' outs, heap_run cmp (mk_heap a 0) ops = Some (h', outs) /\
      pq_trace cmp [] ops outs (firstn (h_size h') (h_array h')).
  Proof.
    intro HA. destruct (heap_run_ok (length a) ops (mk_heap a 0)) as (h' & outs & E & _ & T); auto.
    - repeat split; cbn; try lia. intros p c Hp Hc. cbn in Hc; lia.
    - exists h', outs. split; auto.
  Qed.
End Proofs.
