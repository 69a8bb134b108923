(** Proofs about kd-forest queries. *)
From Coq Require Import List ZArith Arith Bool Lia Permutation Sorted.
From Verif Require Import Base Order_Spec Heap_Model Heap_Spec Heap_Proofs
  KdTree_Model KdTree_Spec KdBuild_Proofs KdBounds_Proofs.
Import ListNotations.
Local Open Scope nat_scope.

(** * The heap operations as the query uses them *)
Section HeapUse.
  Context {A : Type}.
  Variable cmp : A -> A -> Z.
  Hypothesis Hcmp : total_preorder cmp.

  Lemma push_ok cap h x : hinv cmp cap h -> h_size h < cap ->
    exists h', (do a <- aset (h_array h) (h_size h) x; heap_push cmp (mk_heap a (h_size h))) = Some h' /\
      hinv cmp cap h' /\ h_size h' = h_size h + 1 /\ Permutation (contents h') (x :: contents h).
  Proof.
    intros I Hc. destruct (step_push cmp Hcmp cap h x I Hc) as (h' & E & I' & S & P).
    exists h'. split; auto. unfold heap_step in E. unfold obind in *.
    destruct (aset (h_array h) (h_size h) x); [|discriminate].
    destruct (heap_push cmp (mk_heap l (h_size h))); [|discriminate]. inversion E; auto.
  Qed.

  Lemma update_ok cap h i x old : hinv cmp cap h -> i < h_size h -> nth_error (h_array h) i = Some old ->
    exists h', (do a <- aset (h_array h) i x; heap_update cmp (mk_heap a (h_size h)) i) = Some h' /\
      hinv cmp cap h' /\ h_size h' = h_size h /\
      exists rest, Permutation (contents h) (old :: rest) /\ Permutation (contents h') (x :: rest).
  Proof.
    intros I Hc Ho. destruct (step_update cmp Hcmp cap h i x I Hc) as (h' & old' & E & I' & S & rest & P1 & P2).
    unfold heap_step in E. unfold obind, aget in *. rewrite Ho in E.
    destruct (aset (h_array h) i x) as [a|]; [|discriminate].
    destruct (heap_update cmp (mk_heap a (h_size h)) i) as [h1|]; [|discriminate].
    inversion E; subst. exists h'. split; auto. split; auto. split; auto. eauto.
  Qed.

  Lemma root_ok cap h x y : hinv cmp cap h -> nth_error (h_array h) 0 = Some x -> In y (contents h) ->
    (cmp x y <= 0)%Z.
  Proof.
    intros (HL & HS & HO) Hx Hy. unfold contents in Hy. apply In_nth_error in Hy as [k Hk].
    rewrite Qsort_Proofs.nth_error_firstn in Hk. destruct (Nat.ltb_spec k (h_size h)); [|discriminate].
    destruct (ordered_root cmp Hcmp (h_array h) (h_size h) k HO) as (a & b & Ha & Hb & Hab); try lia.
    rewrite Hx in Ha. rewrite Hk in Hb. inversion Ha; inversion Hb; subst. auto.
  Qed.

  Lemma heap_up_frame : forall fuel l n i l', heap_up cmp fuel l n i = Some l' -> i < n ->
    forall k, n <= k -> nth_error l' k = nth_error l k.
  Proof.
    induction fuel as [|fuel IH]; intros l n i l' H Hi k Hk; [discriminate|].
    cbn [heap_up] in H. unfold obind in H.
    assert (SW : forall a b l1, aswap l a b = Some l1 -> a < n -> b < n -> nth_error l1 k = nth_error l k).
    { intros a b l1 E Ha Hb. rewrite (aswap_nth _ _ _ _ k E).
      destruct (Nat.eqb_spec k b); [lia|]. destruct (Nat.eqb_spec k a); [lia|]. auto. }
    destruct (Nat.leb_spec n (heap_left_child i)) as [H1|H1]; [inversion H; auto|].
    destruct (Nat.leb_spec n (heap_right_child i)) as [H2|H2].
    - destruct (heap_cmp cmp l i (heap_left_child i)) as [c|]; [|discriminate].
      destruct (0 <? c)%Z; [|inversion H; auto]. eapply SW; eauto.
    - destruct (heap_cmp cmp l (heap_left_child i) (heap_right_child i)) as [c|]; [|discriminate].
      destruct (c <? 0)%Z.
      + destruct (heap_cmp cmp l i (heap_left_child i)) as [c2|]; [|discriminate].
        destruct (0 <? c2)%Z; [|inversion H; auto].
        destruct (aswap l i (heap_left_child i)) as [l1|] eqn:E; [|discriminate].
        rewrite (IH _ _ _ _ H) by auto. eapply SW; eauto.
      + destruct (heap_cmp cmp l i (heap_right_child i)) as [c2|]; [|discriminate].
        destruct (0 <? c2)%Z; [|inversion H; auto].
        destruct (aswap l i (heap_right_child i)) as [l1|] eqn:E; [|discriminate].
        rewrite (IH _ _ _ _ H) by auto. eapply SW; eauto.
  Qed.

  Lemma pop_ok cap h : hinv cmp cap h -> 0 < h_size h ->
    exists h' y, heap_pop cmp h = Some (h', h_size h - 1) /\ hinv cmp cap h' /\
      nth_error (h_array h') (h_size h - 1) = Some y /\
      h_size h' = h_size h - 1 /\ Permutation (contents h) (y :: contents h') /\
      (forall z, In z (contents h') -> (cmp y z <= 0)%Z) /\
      (forall k, h_size h <= k -> nth_error (h_array h') k = nth_error (h_array h) k).
  Proof.
    intros I Hp. destruct (step_pop cmp Hcmp cap h I Hp) as (h' & y & E & I' & S & P & M).
    unfold heap_step in E. destruct (heap_pop cmp h) as [[h1 i]|] eqn:Ep; [|discriminate].
    cbn [obind] in E. unfold aget in E. destruct (nth_error (h_array h1) i) as [y1|] eqn:Ey; [|discriminate].
    cbn [obind] in E. inversion E; subst h1 y1.
    assert (Ei : i = h_size h - 1 /\ forall k, h_size h <= k -> nth_error (h_array h') k = nth_error (h_array h) k).
    { unfold heap_pop in Ep. destruct (Nat.eqb_spec (h_size h) 0); [lia|].
      unfold obind in Ep. destruct (aswap (h_array h) 0 (h_size h - 1)) as [a|] eqn:Ea; [|discriminate].
      assert (Fa : forall k, h_size h <= k -> nth_error a k = nth_error (h_array h) k).
      { intros k Hk. rewrite (aswap_nth _ _ _ _ k Ea).
        destruct (Nat.eqb_spec k (h_size h - 1)); [lia|]. destruct (Nat.eqb_spec k 0) as [Hk0|Hk0]; [lia|]. auto. }
      destruct (Nat.ltb_spec 1 (h_size h - 1)).
      - destruct (heap_up cmp (Datatypes.S (h_size h - 1)) a (h_size h - 1) 0) as [a'|] eqn:Eu; [|discriminate].
        inversion Ep; subst. split; auto. cbn [h_array]. intros k Hk.
        rewrite (heap_up_frame _ _ _ _ _ Eu) by lia. auto.
      - inversion Ep; subst. split; auto. }
    destruct Ei as [-> Fr]. exists h', y. repeat split; auto; apply I'.
  Qed.
End HeapUse.

Lemma nb_pre : total_preorder nb_cmp.
Proof. unfold nb_cmp; split; intros; lia. Qed.
Lemma ss_pre : total_preorder ss_cmp.
Proof. unfold ss_cmp; split; intros; lia. Qed.

Section Query.
  Variable F : forest.
  Variable met : metric.
  Variable maxcmp k : nat.
  Variable query : list Z.
  Notation n := (fo_num F).
  Notation dim := (fo_dim F).
  Notation cap := (fo_max_nodes F).
  Hypothesis Hdata : length (fo_data F) = n * dim.
  Hypothesis Hquery : length query = dim.
  Hypothesis Hk : 0 < k.

  Definition xt (t : kdtree) : nat -> nat -> Z :=
    fun i d => coord (fo_data F) dim (nth i (map e_index (t_index t)) 0) d.

  Definition tree_ok (t : kdtree) : Prop :=
    Permutation (map e_index (t_index t)) (seq 0 n) /\
    csub dim (xt t) (t_nodes t) 0 (fun _ => NInf) (fun _ => PInf) 0 n (seq 0 (t_used t)).
  Hypothesis Htrees : Forall tree_ok (fo_trees F).
  Hypothesis Hcap : cap = fold_right (fun t m => t_used t + m) 0 (fo_trees F).

  Notation D := (dist_to met (fo_data F) dim query).

  Lemma distance_ok di : di < n -> forall cnt d, d + cnt <= dim ->
    distance F met query di d cnt =
    Some (fold_right Z.add 0%Z (map (fun d => term met (nth d query 0 - coord (fo_data F) dim di d)%Z) (seq d cnt))).
  Proof.
    intro Hdi. induction cnt as [|cnt IH]; intros d Hd; [reflexivity|]. cbn [distance].
    unfold aget. rewrite (nth_error_nth' query 0%Z) by lia. cbn [obind].
    rewrite (nth_error_nth' (fo_data F) 0%Z) by (rewrite Hdata; nia). cbn [obind].
    rewrite IH by lia. reflexivity.
  Qed.

  Definition nb (di : nat) : nbr := mk_nbr (Some (D di)) (Z.of_nat di).

  (** The neighbours held are the best of the data [P] compared so far. *)
  Definition nbinv (P : list nat) (h : heap (A:=nbr)) : Prop :=
    hinv nb_cmp k h /\ exists N, Permutation (contents h) (map nb N) /\ NoDup N /\ incl N P /\
      length N = Nat.min k (length P) /\
      (forall a b, In a N -> In b P -> ~ In b N -> (D a <= D b)%Z).

  Lemma contents_length {A} (cmp : A -> A -> Z) c h : hinv cmp c h -> length (contents h) = h_size h.
  Proof. intros (HL & HS & _). unfold contents. rewrite firstn_length. lia. Qed.

  Definition all_below (h : heap (A:=nbr)) (B : Z) : Prop :=
    h_size h = k /\ forall x, In x (contents h) -> (nb_key x <= B)%Z.

  Lemma add_neighbor_ok P h di : nbinv P h -> NoDup P -> ~ In di P ->
    exists h', add_neighbor k h di (D di) = Some h' /\ nbinv (di :: P) h' /\
      (forall B, all_below h B -> all_below h' B).
  Proof.
    intros (I & N & PN & NDN & IN & LN & BN) NDP Hdi. unfold add_neighbor.
    pose proof (contents_length _ _ _ I) as CL.
    assert (Hsz : h_size h = length N).
    { rewrite <- CL, (Permutation_length PN), map_length. auto. }
    destruct (Nat.ltb_spec (h_size h) k) as [Hlt|Hge].
    - destruct (push_ok nb_cmp nb_pre k h (nb di) I Hlt) as (h' & E & I' & S' & P').
      change (mk_nbr (Some (D di)) (Z.of_nat di)) with (nb di).
      rewrite E. exists h'. split; [reflexivity|]. split.
      + split; auto. exists (di :: N). split; [|split; [|split; [|split]]].
        * rewrite P', PN. reflexivity.
        * constructor; auto.
        * intros x [->|Hx]; [now left|right; auto].
        * cbn [length]. lia.
        * intros a b _ Hb Hnb. exfalso. destruct Hb as [->|Hb]; [apply Hnb; now left|].
          apply Hnb. right. assert (X : incl P N) by (apply NoDup_length_incl; auto; lia). now apply X.
      + intros B [HB _]. lia.
    - assert (Hszk : h_size h = k) by lia.
      destruct (nth_error (h_array h) 0) as [lg|] eqn:E0.
      2:{ apply nth_error_None in E0. destruct I as (HL & _ & _). lia. }
      unfold aget. rewrite E0. cbn [obind].
      assert (Hlg : In lg (contents h)).
      { apply nth_error_In with (n := 0). unfold contents. rewrite Qsort_Proofs.nth_error_firstn.
        destruct (Nat.ltb_spec 0 (h_size h)); [auto|lia]. }
      pose proof (Permutation_in _ PN Hlg) as Hlg'. apply in_map_iff in Hlg' as (dm & Em & Hdm).
      assert (Kd : nb_key lg = D dm) by (subst lg; reflexivity).
      assert (Max : forall a, In a N -> (D a <= D dm)%Z).
      { intros a Ha. assert (In (nb a) (contents h)).
        { eapply Permutation_in; [symmetry; exact PN|]. now apply in_map. }
        pose proof (root_ok nb_cmp nb_pre k h lg (nb a) I E0 H) as R. unfold nb_cmp in R.
        rewrite Kd in R. change (nb_key (nb a)) with (D a) in R. lia. }
      change (mk_nbr (Some (D di)) (Z.of_nat di)) with (nb di).
      rewrite Kd. destruct (Z.ltb_spec (D di) (D dm)) as [Hd|Hd].
      + destruct (update_ok nb_cmp nb_pre k h 0 (nb di) lg I ltac:(lia) E0)
          as (h' & E & I' & S' & rest & P1 & P2).
        rewrite E. exists h'. split; [reflexivity|].
        assert (HN : exists N0, Permutation N (dm :: N0)).
        { apply in_split in Hdm as (l1 & l2 & ->). exists (l1 ++ l2). symmetry. apply Permutation_middle. }
        destruct HN as [N0 PN0].
        assert (PR : Permutation rest (map nb N0)).
        { apply (Permutation_cons_inv (a := lg)). rewrite <- P1, PN, PN0. cbn [map]. rewrite Em. reflexivity. }
        assert (ND0 : NoDup (dm :: N0)) by (eapply Permutation_NoDup; eauto).
        inversion ND0 as [|? ? Hdm0 ND0']; subst.
        assert (IN0 : forall a, In a N0 -> In a N).
        { intros a Ha. eapply Permutation_in; [symmetry; exact PN0|]. now right. }
        split.
        * split; auto. exists (di :: N0). split; [|split; [|split; [|split]]].
          -- rewrite P2, PR. reflexivity.
          -- constructor; auto.
          -- intros a [->|Ha]; [now left|]. right. auto.
          -- cbn [length]. apply Permutation_length in PN0. cbn [length] in PN0. lia.
          -- intros a b Ha Hb Hnb. destruct Hb as [->|Hb]; [exfalso; apply Hnb; now left|].
             assert (Hb2 : b = dm \/ ~ In b N).
             { destruct (Nat.eq_dec b dm); auto. right. intro X.
               eapply Permutation_in in X; [|exact PN0]. destruct X; [congruence|]. apply Hnb. now right. }
             assert (Hdmb : (D dm <= D b)%Z) by (destruct Hb2 as [->|]; [lia|auto]).
             destruct Ha as [->|Ha]; [lia|]. pose proof (Max a (IN0 a Ha)). lia.
        * intros B [_ HB]. split; [lia|]. intros x Hx. eapply Permutation_in in Hx; [|exact P2].
          destruct Hx as [<-|Hx].
          -- change (nb_key (nb di)) with (D di). pose proof (HB (nb dm) Hlg) as HX.
             change (nb_key (nb dm)) with (D dm) in HX. lia.
          -- apply HB. eapply Permutation_in; [symmetry; exact P1|]. now right.
      + exists h. split; [reflexivity|]. split; [|auto].
        split; auto. exists N. split; [|split; [|split; [|split]]]; auto.
        * intros a Ha. right. auto.
        * cbn [length]. lia.
        * intros a b Ha [->|Hb] Hnb; [|auto]. pose proof (Max a Ha). lia.
  Qed.

  (** The state of the searcher, apart from the search heap: [P] are the data
      compared so far. *)
  Definition ninv (P : list nat) (q : qstate) : Prop :=
    NoDup P /\ length (q_book q) = n /\
    (forall di, In di P <-> nth_error (q_book q) di = Some (q_id q)) /\
    Forall (fun m => m <= q_id q) (q_book q) /\
    q_ncmp q = length P /\ (0 < maxcmp -> q_ncmp q <= maxcmp) /\ nbinv P (q_nbs q).

  Definition better (q q' : qstate) : Prop :=
    forall B, all_below (q_nbs q) B -> all_below (q_nbs q') B.

  Lemma budget_spec q : budget maxcmp q = true -> 0 < maxcmp -> q_ncmp q < maxcmp.
  Proof.
    unfold budget. intros H Hm. apply orb_true_iff in H as [H|H].
    - apply Nat.eqb_eq in H. lia.
    - now apply Nat.ltb_lt in H.
  Qed.

  Lemma leaf_loop_ok idx : Forall (fun en => e_index en < n) idx ->
    forall cnt iter P q, iter + cnt <= length idx -> ninv P q ->
    exists q' P', leaf_loop F met maxcmp k query idx iter cnt q = Some q' /\ ninv P' q' /\
      incl P P' /\ q_id q' = q_id q /\ q_heap q' = q_heap q /\ better q q' /\
      (maxcmp = 0 -> forall i, iter <= i < iter + cnt -> In (nth i (map e_index idx) 0) P').
  Proof.
    intro HV. induction cnt as [|cnt IH]; intros iter P q HL I; cbn [leaf_loop].
    { exists q, P. split; [reflexivity|]. split; [exact I|].
      split; [apply incl_refl|]. split; auto. split; auto. split; [intros B HB; exact HB|]. intros; lia. }
    destruct (budget maxcmp q) eqn:Eb.
    2:{ exists q, P. split; [reflexivity|]. split; [exact I|].
        split; [apply incl_refl|]. split; auto. split; auto. split; [intros B HB; exact HB|].
        intro Hm. exfalso. unfold budget in Eb. rewrite Hm in Eb. discriminate. }
    destruct (nth_error idx iter) as [en|] eqn:Een.
    2:{ apply nth_error_None in Een. lia. }
    unfold aget at 1. rewrite Een. cbn [obind].
    assert (Hdi : e_index en < n).
    { rewrite Forall_forall in HV. apply HV. eapply nth_error_In; eauto. }
    assert (Hnth : nth iter (map e_index idx) 0 = e_index en).
    { apply nth_error_nth. rewrite nth_error_map, Een. reflexivity. }
    destruct I as (NDP & LB & MB & FB & NC & BU & NBI).
    destruct (nth_error (q_book q) (e_index en)) as [mark|] eqn:Em.
    2:{ apply nth_error_None in Em. lia. }
    unfold aget at 1. rewrite Em. cbn [obind].
    destruct (Nat.eqb_spec mark (q_id q)) as [->|Hne].
    - destruct (IH (S iter) P q) as (q' & P' & E & I' & Inc & Id & Hh & Be & All); [lia| |].
      { repeat split; auto; apply NBI || apply MB. }
      exists q', P'. split; [exact E|]. split; [exact I'|]. split; [exact Inc|].
      split; [exact Id|]. split; [exact Hh|]. split; [exact Be|].
      intros Hm i Hi; destruct (Nat.eq_dec i iter) as [->|];
        [rewrite Hnth; apply Inc, MB; auto | apply All; auto; lia].
    - assert (Hnin : ~ In (e_index en) P) by (rewrite MB; congruence).
      rewrite aset_lt by lia. cbn [obind].
      rewrite distance_ok by lia. cbn [obind].
      destruct (add_neighbor_ok P (q_nbs q) (e_index en) NBI NDP Hnin) as (h' & E & NBI' & Be1).
      unfold dist_to in E. rewrite E. cbn [obind].
      set (q1 := mk_qstate _ _ _ _ _).
      destruct (IH (S iter) (e_index en :: P) q1) as (q' & P' & E' & I' & Inc & Id & Hh & Be & All); [lia| |].
      { unfold q1. split; [constructor; auto|]. cbn [q_book q_id q_ncmp q_nbs].
        split; [rewrite upd_length; auto|]. split; [|split; [|split; [|split]]].
        - intro di. rewrite nth_error_upd. cbn [In]. rewrite MB.
          destruct (Nat.eqb_spec di (e_index en)) as [->|Hd]; cbn [andb].
          + destruct (Nat.ltb_spec (e_index en) (length (q_book q))); [|lia]. tauto.
          + split; [intros [X|X]; [congruence|auto] | auto].
        - rewrite Forall_forall in *. intros m Hm. apply In_nth_error in Hm as [j Hj].
          rewrite nth_error_upd in Hj. destruct ((j =? e_index en) && (e_index en <? length (q_book q))).
          + inversion Hj; subst. lia.
          + apply FB. eapply nth_error_In; eauto.
        - cbn [length]. lia.
        - intro Hm. pose proof (budget_spec q Eb Hm). lia.
        - exact NBI'. }
      exists q', P'. split; [exact E'|]. split; [exact I'|]. split.
      { intros x Hx. apply Inc. now right. }
      split; [exact Id|]. split; [exact Hh|]. split.
      { intros B HB. apply Be. apply Be1. exact HB. }
      intros Hm i Hi. destruct (Nat.eq_dec i iter) as [->|].
      + rewrite Hnth. apply Inc. now left.
      + apply All; auto. lia.
  Qed.

  (** A pending branch, with its cell and its nodes. *)
  Record ghost := mk_ghost {
    g_ti : nat; g_ni : nat; g_lo : nat -> ext; g_hi : nat -> ext; g_b : nat; g_e : nat; g_L : list nat }.
  Definition to_ss (g : ghost) : sstate := mk_sstate (g_ti g) (g_ni g) (lbsum query dim (g_lo g) (g_hi g)).
  Definition good (g : ghost) : Prop :=
    exists t, nth_error (fo_trees F) (g_ti g) = Some t /\
      csub dim (xt t) (t_nodes t) (g_ni g) (g_lo g) (g_hi g) (g_b g) (g_e g) (g_L g) /\
      within dim (xt t) (g_lo g) (g_hi g) (g_b g) (g_e g) /\ g_e g <= n.
  Definition weight (G : list ghost) : nat := fold_right (fun g m => length (g_L g) + m) 0 G.

  Definition hrep (G : list ghost) (h : heap (A:=sstate)) : Prop :=
    hinv ss_cmp cap h /\ Permutation (contents h) (map to_ss G) /\ Forall good G.

  Lemma weight_perm G G' : Permutation G G' -> weight G = weight G'.
  Proof. unfold weight. induction 1; cbn [fold_right]; lia. Qed.

  Lemma csub_nonempty t ni lo hi b e L : csub dim (xt t) (t_nodes t) ni lo hi b e L -> 0 < length L.
  Proof. inversion 1; cbn; lia. Qed.

  Lemma weight_length G : Forall good G -> length G <= weight G.
  Proof.
    induction 1 as [|g G (t & _ & C & _) _ IH]; [cbn; lia|]. apply csub_nonempty in C.
    unfold weight in *. cbn [fold_right length]. lia.
  Qed.

  (** The datum [di] lies in a pending branch of tree [ti]. *)
  Definition pending (G : list ghost) (ti di : nat) : Prop :=
    exists g t i, In g G /\ g_ti g = ti /\ nth_error (fo_trees F) ti = Some t /\
      g_b g <= i < g_e g /\ nth i (map e_index (t_index t)) 0 = di.

  Definition covered (q : qstate) (P : list nat) (G : list ghost) (ti di : nat) : Prop :=
    In di P \/ pending G ti di \/ all_below (q_nbs q) (D di).

  Lemma lower_bound_sound t lo hi b e i : met = L2 -> within dim (xt t) lo hi b e -> b <= i < e ->
    (lbsum query dim lo hi <= D (nth i (map e_index (t_index t)) 0%nat))%Z.
  Proof.
    intros -> W Hi. unfold lbsum, dist_to. fold (sumf (fun d => term L2 (nth d query 0 - coord (fo_data F) dim (nth i (map e_index (t_index t)) 0%nat) d)%Z) dim).
    apply sumf_le. intros d Hd. destruct (W i d Hi Hd). cbn [term]. now apply gap2_le.
  Qed.

  Lemma query_rec_ok : forall fuel ti t ni lo hi b e L P q G,
    length L <= fuel -> nth_error (fo_trees F) ti = Some t -> tree_ok t ->
    csub dim (xt t) (t_nodes t) ni lo hi b e L -> within dim (xt t) lo hi b e -> e <= n ->
    ninv P q -> hrep G (q_heap q) -> weight G + length L <= cap ->
    exists q' P' G', query_rec F met maxcmp k query fuel q ti ni (lbsum query dim lo hi) = Some q' /\
      ninv P' q' /\ hrep G' (q_heap q') /\ q_id q' = q_id q /\
      weight G' < weight G + length L /\ incl P P' /\ incl G G' /\ better q q' /\
      (maxcmp = 0 -> met = L2 -> forall i, b <= i < e ->
         covered q' P' G' ti (nth i (map e_index (t_index t)) 0)).
  Proof.
    induction fuel as [|fuel IH]; intros ti t ni lo hi b e L P q G HF Ht TO CS W He NI HR HW.
    { apply csub_nonempty in CS. lia. }
    assert (LI : length (t_index t) = n).
    { destruct TO as [TP _]. apply Permutation_length in TP. rewrite map_length, seq_length in TP. auto. }
    assert (VI : Forall (fun en => e_index en < n) (t_index t)).
    { destruct TO as [TP _]. rewrite Forall_forall. intros en Hen. apply (in_map e_index) in Hen.
      eapply Permutation_in in Hen; [|exact TP]. apply in_seq in Hen. lia. }
    cbn [query_rec]. unfold aget at 1. rewrite Ht. cbn [obind].
    inversion CS as [? ? ? ? ? nd Hnd Hlow Hupp Hdm | ? ? ? ? ? nd l u s L1 U1 Hnd Hlow Hupp Hdm Hs Hlo Hhi Hlb Hub CSl CSu]; subst.
    - unfold aget at 1. rewrite Hnd. cbn [obind].
      unfold aget at 1. rewrite (nth_error_nth' query 0%Z) by lia. cbn [obind].
      destruct (Z.ltb_spec (n_lower nd) 0); [|lia].
      replace (Z.to_nat (- n_lower nd - 1)) with b by lia.
      replace (Z.to_nat (- n_upper nd - 1)) with e by lia.
      destruct (le_lt_dec b e) as [Hbe|Hbe].
      + destruct (leaf_loop_ok (t_index t) VI (e - b) b P q) as (q' & P' & E & I' & Inc & Id & Hh & Be & All); auto; [lia|].
        exists q', P', G. split; [exact E|]. split; [exact I'|]. rewrite Hh. split; [exact HR|].
        split; [exact Id|]. cbn [length]. split; [lia|]. split; [exact Inc|]. split; [apply incl_refl|].
        split; [exact Be|]. intros Hm _ i Hi. left. apply All; auto. lia.
      + replace (e - b) with 0 by lia. cbn [leaf_loop].
        exists q, P, G. split; [reflexivity|]. split; [exact NI|]. split; [exact HR|]. split; auto.
        cbn [length]. split; [lia|]. split; [apply incl_refl|]. split; [apply incl_refl|].
        split; [intros B HB; exact HB|]. intros; lia.
    - unfold aget at 1. rewrite Hnd. cbn [obind].
      unfold aget at 1. rewrite (nth_error_nth' query 0%Z) by lia. cbn [obind].
      destruct (Z.ltb_spec (n_lower nd) 0); [lia|].
      set (x := nth (n_dim nd) query 0%Z). set (th := n_thr nd) in *.
      rewrite Hlb, Hub. set (dd := n_dim nd) in *.
      assert (Wl : within dim (xt t) lo (fupd hi dd (Fin th)) b s).
      { eapply within_lower; eauto. lia. }
      assert (Wu : within dim (xt t) (fupd lo dd (Fin th)) hi s e).
      { eapply within_upper; eauto. lia. }
      assert (Tlo : lo_ok (lo dd) th).
      { destruct (W b dd) as [X _]; [lia|auto|]. eapply lo_ok_trans; [exact X|]. apply Hlo. lia. }
      assert (Thi : hi_ok (hi dd) th).
      { destruct (W s dd) as [_ X]; [lia|auto|]. eapply hi_ok_trans; [exact X|]. apply Hhi. lia. }
      cbn [length] in HF, HW. rewrite app_length in HF, HW.
      (* the two children, in the order chosen by the code *)
      assert (Main : forall cn ln hn bn en Ln cs ls hs bs es Ls sd,
        csub dim (xt t) (t_nodes t) cn ln hn bn en Ln -> within dim (xt t) ln hn bn en -> en <= n ->
        csub dim (xt t) (t_nodes t) cs ls hs bs es Ls -> within dim (xt t) ls hs bs es -> es <= n ->
        lbsum query dim ln hn = lbsum query dim lo hi -> sd = lbsum query dim ls hs ->
        length Ln + length Ls = length L1 + length U1 ->
        (forall i, b <= i < e -> bn <= i < en \/ bs <= i < es) ->
        exists q' P' G',
          (do push <-
            (if h_size (q_nbs q) <? k then Some true
             else do largest <- aget (h_array (q_nbs q)) 0; Some (sd <? nb_key largest)%Z);
          do q1 <-
            (if push : bool then
               do a <- aset (h_array (q_heap q)) (h_size (q_heap q)) (mk_sstate ti (Z.to_nat (Z.of_nat cs)) sd);
               do h <- heap_push ss_cmp (mk_heap a (h_size (q_heap q)));
               Some (mk_qstate (q_book q) (q_id q) (q_ncmp q) h (q_nbs q))
             else Some q);
          query_rec F met maxcmp k query fuel q1 ti (Z.to_nat (Z.of_nat cn)) (lbsum query dim lo hi)) = Some q' /\
          ninv P' q' /\ hrep G' (q_heap q') /\ q_id q' = q_id q /\
          weight G' < weight G + length (ni :: L1 ++ U1) /\ incl P P' /\ incl G G' /\ better q q' /\
          (maxcmp = 0 -> met = L2 -> forall i, b <= i < e ->
             covered q' P' G' ti (nth i (map e_index (t_index t)) 0))).
      { intros cn ln hn bn en Ln cs ls hs bs es Ls sd Cn Wn Hen Cs Ws Hes Eln Esd HLs Hcov.
        rewrite !Nat2Z.id. rewrite <- Eln.
        pose proof (csub_nonempty _ _ _ _ _ _ _ Cs) as Pos.
        assert (Hpush : exists push,
          (if h_size (q_nbs q) <? k then Some true
           else do largest <- aget (h_array (q_nbs q)) 0; Some (sd <? nb_key largest)%Z) = Some push /\
          (push = false -> all_below (q_nbs q) sd)).
        { destruct NI as (_ & _ & _ & _ & _ & _ & (HI & _)).
          destruct (Nat.ltb_spec (h_size (q_nbs q)) k).
          - exists true. split; auto. discriminate.
          - pose proof HI as (HL0 & HS0 & _).
            destruct (nth_error (h_array (q_nbs q)) 0) as [lg|] eqn:E0.
            2:{ apply nth_error_None in E0. lia. }
            unfold aget. rewrite E0. cbn [obind]. eexists. split; [reflexivity|].
            intro Hf. apply Z.ltb_ge in Hf. split; [lia|]. intros y Hy.
            pose proof (root_ok nb_cmp nb_pre k _ lg y HI E0 Hy) as R. unfold nb_cmp in R. lia. }
        destruct Hpush as (push & -> & Hpf). cbn [obind].
        destruct push.
        - set (g := mk_ghost ti cs ls hs bs es Ls).
          destruct HR as (HI & HP & HG).
          assert (Hsz : h_size (q_heap q) = length G).
          { rewrite <- (contents_length _ _ _ HI), (Permutation_length HP), map_length. auto. }
          pose proof (weight_length G HG) as WL.
          destruct (push_ok ss_cmp ss_pre cap (q_heap q) (to_ss g) HI) as (h' & E & HI' & _ & P'); [lia|].
          assert (E2 : (do a <- aset (h_array (q_heap q)) (h_size (q_heap q)) (mk_sstate ti cs sd);
                        do h <- heap_push ss_cmp (mk_heap a (h_size (q_heap q)));
                        Some (mk_qstate (q_book q) (q_id q) (q_ncmp q) h (q_nbs q)))
                       = Some (mk_qstate (q_book q) (q_id q) (q_ncmp q) h' (q_nbs q))).
          { replace (mk_sstate ti cs sd) with (to_ss g) by (unfold to_ss, g; cbn; now rewrite Esd).
            unfold obind in *. destruct (aset _ _ _); [|discriminate].
            now rewrite E. }
          rewrite E2. cbn [obind]. set (q1 := mk_qstate _ _ _ _ _).
          destruct (IH ti t cn ln hn bn en Ln P q1 (g :: G)) as (q' & P'' & G' & E' & I' & R' & Id & Wt & IP & IG & Be & Cov); auto.
          { lia. }
          { unfold q1. cbn [q_heap]. split; [exact HI'|]. split.
            - rewrite P', HP. reflexivity.
            - constructor; auto. exists t. auto. }
          { cbn [weight fold_right g_L g]. change (fold_right _ 0 G) with (weight G). lia. }
          exists q', P'', G'. split; [exact E'|]. split; [exact I'|]. split; [exact R'|].
          split; [exact Id|]. split.
          { cbn [weight fold_right g_L g] in Wt. change (fold_right _ 0 G) with (weight G) in Wt.
            cbn [length]. rewrite app_length. lia. }
          split; [exact IP|]. split; [intros z Hz; apply IG; now right|]. split; [exact Be|].
          intros Hm Hl2 i Hi. destruct (Hcov i Hi) as [Hin|Hin]; [apply Cov; auto|].
          right. left. exists g, t, i. split; [apply IG; now left|]. auto.
        - destruct (IH ti t cn ln hn bn en Ln P q G) as (q' & P'' & G' & E' & I' & R' & Id & Wt & IP & IG & Be & Cov); auto.
          { lia. } { lia. }
          exists q', P'', G'. split; [exact E'|]. split; [exact I'|]. split; [exact R'|].
          split; [exact Id|]. split. { cbn [length]. rewrite app_length. lia. }
          split; [exact IP|]. split; [exact IG|]. split; [exact Be|].
          intros Hm Hl2 i Hi. destruct (Hcov i Hi) as [Hin|Hin]; [apply Cov; auto|].
          right. right. apply Be. destruct (Hpf eq_refl) as [X1 X2]. split; auto.
          intros y Hy. specialize (X2 y Hy).
          pose proof (lower_bound_sound t ls hs bs es i Hl2 Ws Hin). lia. }
      rewrite Hlow, Hupp.
      destruct (Z.leb_spec x th) as [Hx|Hx].
      + destruct (gap2_next_lower x th (lo dd) (hi dd) Tlo Thi Hx) as [G1 G2].
        apply (Main l lo (fupd hi dd (Fin th)) b s L1 u (fupd lo dd (Fin th)) hi s e U1); auto; try lia.
        * rewrite lbsum_fupd_hi by auto. fold x. lia.
        * rewrite lbsum_fupd_lo by auto. fold x. destruct (ext_le x (lo dd)); lia.
      + destruct (gap2_next_upper x th (lo dd) (hi dd) Tlo Thi Hx) as [G1 G2].
        apply (Main u (fupd lo dd (Fin th)) hi s e U1 l lo (fupd hi dd (Fin th)) b s L1); auto; try lia.
        * rewrite lbsum_fupd_lo by auto. fold x. lia.
        * rewrite lbsum_fupd_hi by auto. fold x. destruct (ext_gt x (hi dd)); lia.
  Qed.

  Lemma tree_at ti t : nth_error (fo_trees F) ti = Some t -> tree_ok t.
  Proof. intro H. rewrite Forall_forall in Htrees. apply Htrees. eapply nth_error_In; eauto. Qed.

  Lemma tree_used_le ti t : nth_error (fo_trees F) ti = Some t -> t_used t <= cap.
  Proof.
    intro H. rewrite Hcap. apply nth_error_In in H. clear -H. induction (fo_trees F) as [|a l IH]; [easy|].
    cbn. destruct H as [->|H]; [lia|]. specialize (IH H). lia.
  Qed.

  Lemma search_loop_ok : forall fuel P q G,
    weight G < fuel -> weight G <= cap -> ninv P q -> hrep G (q_heap q) ->
    (maxcmp = 0 -> met = L2 -> forall di, di < n -> covered q P G 0 di) ->
    exists q' P', search_loop F met maxcmp k query fuel q = Some q' /\ ninv P' q' /\ q_id q' = q_id q /\
      length (h_array (q_heap q')) = cap /\
      (maxcmp = 0 -> met = L2 -> forall di, di < n -> In di P' \/ all_below (q_nbs q') (D di)).
  Proof.
    induction fuel as [|fuel IH]; intros P q G HF HW NI HR HC; [lia|]. cbn [search_loop].
    destruct HR as (HI & HP & HG).
    assert (Hsz : h_size (q_heap q) = length G).
    { rewrite <- (contents_length _ _ _ HI), (Permutation_length HP), map_length. auto. }
    destruct (budget maxcmp q) eqn:Eb.
    2:{ exists q, P. split; [reflexivity|]. split; [exact NI|]. split; auto. split; [apply HI|].
        intros Hm. exfalso. unfold budget in Eb. rewrite Hm in Eb. discriminate. }
    destruct (Nat.eqb_spec (h_size (q_heap q)) 0) as [H0|H0].
    { exists q, P. split; [reflexivity|]. split; [exact NI|]. split; auto. split; [apply HI|].
      intros Hm Hl2 di Hdi. destruct (HC Hm Hl2 di Hdi) as [X|[X|X]]; auto.
      destruct X as (g & t & i & Hg & _). destruct G; [easy|cbn in Hsz; lia]. }
    destruct (pop_ok ss_cmp ss_pre cap (q_heap q) HI) as (h' & s & Ep & HI' & Es & Hs' & HPp & Hmin & _); [lia|].
    rewrite Ep. cbn [obind]. unfold aget at 1. rewrite Es. cbn [obind].
    assert (Hsplit : exists g G', Permutation G (g :: G') /\ to_ss g = s /\ Permutation (contents h') (map to_ss G')).
    { assert (In s (map to_ss G)).
      { eapply Permutation_in; [exact HP|]. eapply Permutation_in; [symmetry; exact HPp|]. now left. }
      apply in_map_iff in H as (g & Eg & Hg). apply in_split in Hg as (l1 & l2 & ->).
      exists g, (l1 ++ l2). split; [symmetry; apply Permutation_middle|]. split; auto.
      apply (Permutation_cons_inv (a := s)). rewrite <- HPp, HP.
      rewrite !map_app. cbn [map]. rewrite Eg. symmetry. apply Permutation_middle. }
    destruct Hsplit as (g & G' & PG & Eg & PG').
    assert (HG2 : Forall good (g :: G')) by (eapply Permutation_Forall; eauto).
    inversion HG2 as [|? ? Gg HG']; subst.
    rewrite (weight_perm _ _ PG) in HF, HW. cbn [weight fold_right] in HF, HW.
    change (fold_right _ 0 G') with (weight G') in HF, HW.
    set (q1 := mk_qstate (q_book q) (q_id q) (q_ncmp q) h' (q_nbs q)).
    assert (Hstop : exists stop,
       (if h_size (q_nbs q) =? k then
          do largest <- aget (h_array (q_nbs q)) 0; Some (nb_key largest <? ss_dist (to_ss g))%Z
        else Some false) = Some stop /\
       (stop = true -> forall B, (ss_dist (to_ss g) <= B)%Z -> all_below (q_nbs q) B)).
    { destruct NI as (_ & _ & _ & _ & _ & _ & (HN & _)).
      destruct (Nat.eqb_spec (h_size (q_nbs q)) k) as [Hq|Hq].
      - pose proof HN as (HL0 & HS0 & _).
        destruct (nth_error (h_array (q_nbs q)) 0) as [lg|] eqn:E0.
        2:{ apply nth_error_None in E0. lia. }
        unfold aget. rewrite E0. cbn [obind]. eexists. split; [reflexivity|].
        intros Hst B HB. apply Z.ltb_lt in Hst. split; [auto|]. intros y Hy.
        pose proof (root_ok nb_cmp nb_pre k _ lg y HN E0 Hy) as R. unfold nb_cmp in R. lia.
      - exists false. split; auto. discriminate. }
    destruct Hstop as (stop & Est & Hst). unfold q1. cbn [q_nbs]. rewrite Est. cbn [obind]. fold q1.
    assert (Hlbg : forall t lo hi b e i, met = L2 -> within dim (xt t) lo hi b e -> b <= i < e ->
              (lbsum query dim lo hi <= D (nth i (map e_index (t_index t)) 0%nat))%Z)
      by (intros; eapply lower_bound_sound; eauto).
    destruct stop.
    - exists q1, P. split; [reflexivity|]. split; [exact NI|]. split; [reflexivity|]. split; [apply HI'|].
      intros Hm Hl2 di Hdi. destruct (HC Hm Hl2 di Hdi) as [X|[X|X]]; auto. right.
      destruct X as (g0 & t & i & Hg0 & Eti & Ht & Hi & <-).
      apply (Hst eq_refl).
      eapply Permutation_in in Hg0; [|exact PG].
      assert (Hgood : good g0) by (rewrite Forall_forall in HG2; apply HG2; auto).
      destruct Hgood as (t' & Ht' & _ & W0 & _). rewrite Eti in Ht'. rewrite Ht in Ht'. inversion Ht'; subst t'.
      pose proof (Hlbg t _ _ _ _ i Hl2 W0 Hi) as LB.
      destruct Hg0 as [<-|Hg0]; [exact LB|].
      assert (In (to_ss g0) (contents h')).
      { eapply Permutation_in; [symmetry; exact PG'|]. now apply in_map. }
      specialize (Hmin _ H). unfold ss_cmp in Hmin. cbn [ss_dist to_ss] in *. lia.
    - destruct Gg as (t & Ht & CS & W & He).
      destruct (query_rec_ok (S cap) (g_ti g) t (g_ni g) (g_lo g) (g_hi g) (g_b g) (g_e g) (g_L g) P q1 G')
        as (q2 & P2 & G2 & E2 & I2 & R2 & Id2 & Wt2 & IP2 & IG2 & Be2 & Cov2); auto; try lia.
      { eapply tree_at; eauto. }
      { split; [exact HI'|]. split; auto. }
      cbn [ss_tree ss_node ss_dist to_ss]. rewrite E2. cbn [obind].
      destruct (IH P2 q2 G2) as (q' & P' & E' & I' & Id' & Ca & Fin); auto; try lia.
      { intros Hm Hl2 di Hdi. destruct (HC Hm Hl2 di Hdi) as [X|[X|X]].
        - left. auto.
        - destruct X as (g0 & t0 & i & Hg0 & Eti & Ht0 & Hi & <-).
          eapply Permutation_in in Hg0; [|exact PG]. destruct Hg0 as [<-|Hg0].
          + rewrite Eti in *. rewrite Ht in Ht0. inversion Ht0; subst t0. apply Cov2; auto.
          + right. left. exists g0, t0, i. auto.
        - right. right. apply Be2. exact X. }
      exists q', P'. split; [exact E'|]. split; [exact I'|]. split; [rewrite Id', Id2; reflexivity|]. auto.
  Qed.

  Definition root_ghost (ti : nat) (t : kdtree) : ghost :=
    mk_ghost ti 0 (fun _ => NInf) (fun _ => PInf) 0 n (seq 0 (t_used t)).

  Lemma lbsum_inf : lbsum query dim (fun _ => NInf) (fun _ => PInf) = 0%Z.
  Proof. unfold lbsum. apply sumf_0. reflexivity. Qed.

  Lemma root_good ti t : nth_error (fo_trees F) ti = Some t -> good (root_ghost ti t).
  Proof.
    intro H. exists t. split; auto. destruct (tree_at ti t H) as [_ CS]. split; [exact CS|].
    split; [|cbn; lia]. intros i d _ _. cbn. auto.
  Qed.

  Lemma push_roots_ok : forall cnt ti h G, ti + cnt = length (fo_trees F) -> hrep G h ->
    weight G + fold_right (fun t m => t_used t + m) 0 (skipn ti (fo_trees F)) = cap ->
    exists h' G', push_roots h ti cnt = Some h' /\ hrep G' h' /\ weight G' = cap /\ incl G G' /\
      (forall j t, ti <= j -> nth_error (fo_trees F) j = Some t -> In (root_ghost j t) G').
  Proof.
    induction cnt as [|cnt IH]; intros ti h G Hc HR HW; cbn [push_roots].
    - exists h, G. split; [reflexivity|]. split; [exact HR|].
      rewrite skipn_all2 in HW by lia. cbn in HW. split; [lia|]. split; [apply incl_refl|].
      intros j t Hj Ht. assert (j < length (fo_trees F)) by (apply nth_error_Some; congruence). lia.
    - destruct (nth_error (fo_trees F) ti) as [t|] eqn:Et.
      2:{ apply nth_error_None in Et. lia. }
      assert (Esk : skipn ti (fo_trees F) = t :: skipn (S ti) (fo_trees F)).
      { apply nth_error_ext'. intros [|j]; rewrite ?Qsort_Proofs.nth_error_skipn; cbn [nth_error].
        - rewrite Nat.add_0_r. auto.
        - rewrite Qsort_Proofs.nth_error_skipn. f_equal. lia. }
      rewrite Esk in HW. cbn [fold_right] in HW.
      pose proof (root_good ti t Et) as Gg. pose proof Gg as (t' & Ht' & CS & _). cbn [g_ti root_ghost] in Ht'.
      rewrite Et in Ht'. inversion Ht'; subst t'.
      apply csub_nonempty in CS. cbn [g_L root_ghost] in CS. rewrite seq_length in CS.
      destruct HR as (HI & HP & HG).
      assert (Hsz : h_size h = length G).
      { rewrite <- (contents_length _ _ _ HI), (Permutation_length HP), map_length. auto. }
      pose proof (weight_length G HG) as WL.
      destruct (push_ok ss_cmp ss_pre cap h (to_ss (root_ghost ti t)) HI) as (h1 & E & HI' & _ & P'); [lia|].
      assert (Ers : mk_sstate ti 0 0 = to_ss (root_ghost ti t)).
      { unfold to_ss. cbn [g_ti g_ni g_lo g_hi root_ghost]. now rewrite lbsum_inf. }
      rewrite Ers.
      destruct (IH (S ti) h1 (root_ghost ti t :: G)) as (h' & G' & E' & R' & W' & Inc & Hin); [lia| | |].
      { split; [exact HI'|]. split; [rewrite P', HP; reflexivity|]. now constructor. }
      { cbn [weight fold_right g_L root_ghost]. rewrite seq_length.
        change (fold_right _ 0 G) with (weight G). lia. }
      exists h', G'. split.
      { unfold obind in *. destruct (aset _ _ _); [|discriminate]. rewrite E. exact E'. }
      split; [exact R'|]. split; [exact W'|]. split; [intros z Hz; apply Inc; now right|].
      intros j t0 Hj Hjt. destruct (Nat.eq_dec j ti) as [->|].
      + rewrite Et in Hjt. inversion Hjt; subst. apply Inc. now left.
      + apply Hin; auto. lia.
  Qed.

  Lemma mark_unfilled_ok : forall cnt a i, i + cnt <= length a ->
    exists a', mark_unfilled a i cnt = Some a' /\ length a' = length a /\
      (forall j, j < i \/ i + cnt <= j -> nth_error a' j = nth_error a j) /\
      (forall j, i <= j < i + cnt -> nth_error a' j = Some (mk_nbr None (2 ^ 64 - 1)%Z)).
  Proof.
    induction cnt as [|cnt IH]; intros a i HL; cbn [mark_unfilled].
    - exists a. repeat split; auto. intros; lia.
    - rewrite aset_lt by lia. cbn [obind].
      destruct (IH (upd a i (mk_nbr None (2 ^ 64 - 1)%Z)) (S i)) as (a' & E & L & T & V).
      { rewrite upd_length. lia. }
      rewrite upd_length in L. exists a'. split; [exact E|]. split; [auto|]. split.
      + intros j Hj. rewrite T by lia. apply nth_error_upd_neq. lia.
      + intros j Hj. destruct (Nat.eq_dec j i) as [->|].
        * rewrite T by lia. apply nth_error_upd_eq. lia.
        * apply V. lia.
  Qed.

  Lemma SS_snoc {A} (R : A -> A -> Prop) l y : StronglySorted R l -> Forall (fun x => R x y) l ->
    StronglySorted R (l ++ [y]).
  Proof.
    induction 1 as [|a l S IH Fa]; cbn; intro H; [repeat constructor|].
    inversion H; subst. constructor; auto. apply Forall_app. auto.
  Qed.

  Lemma pop_all_ok : forall m h, hinv nb_cmp k h -> h_size h = m ->
    exists h', pop_all m h = Some h' /\ length (h_array h') = k /\
      (forall j, m <= j -> nth_error (h_array h') j = nth_error (h_array h) j) /\
      Permutation (firstn m (h_array h')) (contents h) /\
      StronglySorted (fun a b => (nb_key a <= nb_key b)%Z) (firstn m (h_array h')).
  Proof.
    induction m as [|m IH]; intros h HI Hm; cbn [pop_all].
    - exists h. split; [reflexivity|]. split; [apply HI|]. split; auto. cbn [firstn].
      unfold contents. rewrite Hm. cbn. split; constructor.
    - destruct (pop_ok nb_cmp nb_pre k h HI) as (h1 & y & E & HI1 & Hy & S1 & PC & Mx & Fr); [lia|].
      rewrite E. cbn [obind].
      destruct (IH h1 HI1) as (h' & E' & L' & Fr' & P' & Srt); [lia|].
      exists h'. split; [exact E'|]. split; [exact L'|]. split.
      { intros j Hj. rewrite Fr' by lia. apply Fr. lia. }
      assert (EQ : firstn (S m) (h_array h') = firstn m (h_array h') ++ [y]).
      { apply firstn_S. rewrite Fr' by lia. rewrite <- Hy. f_equal. lia. }
      rewrite EQ. split.
      + rewrite <- Permutation_cons_append, P', PC. reflexivity.
      + apply SS_snoc; auto. rewrite Forall_forall. intros z Hz.
        eapply Permutation_in in Hz; [|exact P']. specialize (Mx z Hz). unfold nb_cmp in Mx. lia.
  Qed.

  (** What a query reports. *)
  Definition answer (out : list nbr) (ncmp : nat) : Prop :=
    exists compared found,
      NoDup compared /\ incl compared (seq 0 n) /\ ncmp = length compared /\
      (0 < maxcmp -> ncmp <= maxcmp) /\
      reports D k found out /\ length found = Nat.min k ncmp /\
      nearest_of D compared found /\
      (maxcmp = 0 -> met = L2 -> nearest_of D (seq 0 n) found /\ length found = Nat.min k n).

  Lemma searcher_query_ok book id harr nbs :
    fo_trees F <> [] ->
    length book = n -> Forall (fun m => m <= id) book -> length harr = cap -> length nbs = k ->
    exists book' harr' out ncmp,
      searcher_query F met maxcmp k query book id harr nbs = Some (book', S id, harr', out, ncmp) /\
      length book' = n /\ Forall (fun m => m <= S id) book' /\ length harr' = cap /\
      answer out ncmp.
  Proof.
    intros Hne HB HM HA HN. unfold searcher_query.
    destruct (Nat.eqb_spec k 0) as [Hk0|Hk0]; [lia|].
    destruct (push_roots_ok (length (fo_trees F)) 0 (mk_heap harr 0) []) as (h0 & G & E0 & R0 & W0 & _ & Roots); auto.
    { split; [|split; [reflexivity|constructor]].
      split; [exact HA|]. cbn. split; [lia|]. intros p c _ Hc. lia. }
    rewrite E0. cbn [obind].
    assert (NI0 : ninv [] (mk_qstate book (S id) 0 h0 (mk_heap nbs 0))).
    { split; [constructor|]. cbn. split; auto. split; [|split; [|split; [|split]]]; auto; try lia.
      - intro di. split; [easy|]. intro X. apply nth_error_In in X. rewrite Forall_forall in HM.
        apply HM in X. lia.
      - eapply Forall_impl; [|exact HM]. cbn. lia.
      - split.
        + split; [exact HN|]. cbn. split; [lia|]. intros p c _ Hc. lia.
        + exists []. cbn. repeat split; auto; try constructor; try easy. lia. }
    destruct (search_loop_ok (S cap) [] _ G ltac:(lia) ltac:(lia) NI0 R0)
      as (q & P & E1 & NI & Id & Ca & Fin).
    { intros Hm Hl2 di Hdi. right. left.
      destruct (nth_error (fo_trees F) 0) as [t|] eqn:Et.
      2:{ apply nth_error_None in Et. destruct (fo_trees F); [congruence|cbn in Et; lia]. }
      destruct (tree_at 0 t Et) as [TP _].
      assert (In di (map e_index (t_index t))).
      { eapply Permutation_in; [symmetry; exact TP|]. apply in_seq. lia. }
      apply In_nth with (d := 0) in H as (i & Hi & Ei).
      exists (root_ghost 0 t), t, i. split; [apply Roots; auto; lia|]. split; auto. split; auto.
      split; auto. cbn. apply Permutation_length in TP. rewrite seq_length in TP. lia. }
    rewrite E1. cbn [obind].
    pose proof NI as (NDP & LB & MB & FB & NC & BU & (HI & N & PN & NDN & IN & LN & BN)).
    assert (Hsz : h_size (q_nbs q) = length N).
    { rewrite <- (contents_length _ _ _ HI), (Permutation_length PN), map_length. auto. }
    pose proof HI as (HLn & HSn & HOn).
    destruct (mark_unfilled_ok (k - h_size (q_nbs q)) (h_array (q_nbs q)) (h_size (q_nbs q)))
      as (a1 & E2 & L2' & T2 & V2); [lia|].
    rewrite E2. cbn [obind].
    assert (HI1 : hinv nb_cmp k (mk_heap a1 (h_size (q_nbs q)))).
    { split; [cbn; lia|]. cbn [h_size h_array]. split; [auto|].
      intros p c Hpc Hc. destruct (HOn p c Hpc Hc) as (u & v & Hu & Hv & Huv).
      exists u, v. unfold child in Hpc. rewrite !T2 by lia. auto. }
    destruct (pop_all_ok (h_size (q_nbs q)) _ HI1 eq_refl) as (h & E3 & L3 & T3 & P3 & S3).
    rewrite E3. cbn [obind]. cbn [q_id] in Id. rewrite Id in *.
    eexists _, _, _, _. split; [reflexivity|]. split; auto. split; auto. split; auto.
    assert (CE : contents (mk_heap a1 (h_size (q_nbs q))) = contents (q_nbs q)).
    { unfold contents. cbn [h_array h_size]. apply nth_error_ext'. intro j.
      rewrite !Qsort_Proofs.nth_error_firstn. destruct (Nat.ltb_spec j (h_size (q_nbs q))); auto. }
    rewrite CE in P3.
    assert (PF : Permutation (firstn (h_size (q_nbs q)) (h_array h)) (map nb N)) by (rewrite P3; exact PN).
    apply Permutation_map_inv in PF as (found & Ef & Pf).
    assert (LF : length found = length N) by (symmetry; apply Permutation_length; auto).
    assert (NDF : NoDup found) by (eapply Permutation_NoDup; eauto).
    assert (InF : forall z, In z found <-> In z N).
    { intro z. split; intro; [eapply Permutation_in; [symmetry; exact Pf|auto]|eapply Permutation_in; [exact Pf|auto]]. }
    assert (InP : incl P (seq 0 n)).
    { intros z Hz. apply MB in Hz. apply in_seq. assert (z < length (q_book q)) by (apply nth_error_Some; congruence). lia. }
    assert (NF : nearest_of D P found).
    { split.
      - intros z Hz. apply IN. now apply InF.
      - intros a b Ha Hb Hnb. apply BN; auto. now apply InF. rewrite <- InF. auto. }
    exists P, found. split; auto. split; auto. split; auto. split; auto.
    split; [|split; [|split; [exact NF|]]].
    - split; [|split; auto].
      + rewrite <- (firstn_skipn (h_size (q_nbs q)) (h_array h)). rewrite Ef. f_equal.
        apply nth_error_ext'. intro j. rewrite Qsort_Proofs.nth_error_skipn.
        rewrite T3 by lia. cbn [h_array].
        destruct (lt_dec j (k - length found)) as [Hj|Hj].
        * rewrite V2 by lia. symmetry. apply nth_error_repeat. auto.
        * transitivity (@None nbr).
          -- apply nth_error_None. lia.
          -- symmetry. apply nth_error_None. rewrite repeat_length. lia.
      + rewrite Ef in S3. clear -S3. induction found as [|a l IH]; [constructor|].
        cbn [map] in S3. inversion S3; subst. constructor; auto.
        rewrite Forall_map in H2. exact H2.
    - rewrite LF, NC. exact LN.
    - intros Hm Hl2. specialize (Fin Hm Hl2).
      assert (LP : length N < k -> length P = n).
      { intro Hlt. apply Nat.le_antisymm.
        - rewrite <- (seq_length n 0). now apply NoDup_incl_length.
        - rewrite <- (seq_length n 0) at 1. apply NoDup_incl_length; [apply seq_NoDup|].
          intros z Hz. apply in_seq in Hz. destruct (Fin z ltac:(lia)) as [X|[X _]]; [auto|lia]. }
      assert (LPn : length P <= n).
      { rewrite <- (seq_length n 0). now apply NoDup_incl_length. }
      split; [|lia]. split.
      + intros z Hz. apply InP. now apply NF.
      + intros a b Ha Hb Hnb. apply in_seq in Hb. destruct (Fin b ltac:(lia)) as [X|[X1 X2]].
        * now apply NF.
        * apply InF in Ha. assert (Hin : In (nb a) (contents (q_nbs q))).
          { eapply Permutation_in; [symmetry; exact PN|]. now apply in_map. }
          exact (X2 _ Hin).
  Qed.
End Query.
