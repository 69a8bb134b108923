(** What the union phase of MSER maintains. *)
From Coq Require Import List Arith ZArith Lia Bool Permutation Sorted.
From Verif Require Import Base Mser_Model Mser_Spec MserSort_Proofs MserNbr_Proofs MserForest_Proofs.
Import ListNotations.

Lemma nodup_app {A} (l1 l2 : list A) : NoDup l1 -> NoDup l2 -> (forall x, In x l1 -> In x l2 -> False) -> NoDup (l1 ++ l2).
Proof.
  intros N1 N2 D. induction N1 as [|x l1 Hx N1 IH]; [exact N2|]. cbn. constructor.
  - rewrite in_app_iff. intros [H|H]; [auto|]. apply (D x); cbn; auto.
  - apply IH. intros y Y1 Y2. apply (D y); cbn; auto.
Qed.

Lemma list_eq_nil_dec_last {A} (l : list A) : l = [] \/ exists l' x, l = l' ++ [x].
Proof. destruct l using rev_ind; [auto|right; eauto]. Qed.

Section Union.
  Variable dims im : list nat.
  Hypothesis Hdims : pos_dims dims.
  Hypothesis Hlen : length im = nel_of dims.
  Let v (p : nat) : nat := nth p im 0.
  Let conn := connected dims im.

  Lemma conn_lt w p q : conn w p q -> (p < length im /\ v p <= w) /\ (q < length im /\ v q <= w).
  Proof. induction 1 as [A B|q s C IH Ad A B]; [auto|]. split; [tauto|auto]. Qed.
  Lemma conn_trans w p q s : conn w p q -> conn w q s -> conn w p s.
  Proof. intros A B. induction B; auto. econstructor; eauto. Qed.
  Lemma conn_edge w p q : p < length im -> v p <= w -> q < length im -> v q <= w -> adjacent dims p q -> conn w p q.
  Proof. intros. eapply conn_step; eauto. now constructor. Qed.
  Lemma conn_sym w p q : conn w p q -> conn w q p.
  Proof.
    induction 1 as [A B|q s C IH Ad A B]; [now constructor|].
    apply conn_lt in C as C'. eapply conn_trans; [|exact IH].
    apply conn_edge; try tauto. now apply adjacent_sym.
  Qed.
  Lemma conn_mono w w' p q : w <= w' -> conn w p q -> conn w' p q.
  Proof. intros L. induction 1; [constructor; lia|econstructor; eauto; lia]. Qed.

  Definition is_count (S : nat -> Prop) (k : nat) : Prop :=
    exists l, NoDup l /\ (forall q, In q l <-> S q) /\ length l = k.

  Lemma is_count_ext (S T : nat -> Prop) k : (forall q, S q <-> T q) -> is_count S k -> is_count T k.
  Proof. intros H (l & A & B & C). exists l. split; auto. split; auto. intro q. rewrite B. apply H. Qed.

  Lemma is_count_fun (S : nat -> Prop) j k : is_count S j -> is_count S k -> j = k.
  Proof.
    intros (l & A & B & <-) (l' & A' & B' & <-). apply Permutation_length.
    apply NoDup_Permutation; auto. intro x. now rewrite B, B'.
  Qed.

  Record Inv (r : list reg) (P : nat -> option nat) (val : nat) (joins : list nat) (ner : nat) : Prop := {
    inv_len : length r = length im;
    inv_P : forall p, par r p = P p;
    inv_par : forall p q, P p = Some q -> P q <> None /\ v p <= v q /\ conn (v q) p q;
    inv_root : forall p, P p <> None -> exists x, anc P p x /\ P x = Some x;
    inv_sc : forall p j, P p <> None -> sc r p = Some j -> anc P p j /\ (j = p -> P p = Some p);
    inv_area : forall p a, P p <> None -> ar r p = Some a -> is_count (fun q => anc P q p) a;
    inv_val : forall p, P p <> None -> v p <= val;
    inv_ner : is_count (fun p => exists q, P p = Some q /\ v p < v q) ner;
    inv_nodup : NoDup joins;
    inv_joins : forall p, In p joins <-> exists q, P p = Some q /\ q <> p;
    inv_order : forall j1 p j2, joins = j1 ++ p :: j2 -> forall c, P c = Some p -> c <> p -> In c j1 }.

  Lemma dom_lt r P val joins ner p : Inv r P val joins ner -> P p <> None -> p < length r.
  Proof.
    intros I D. rewrite <- (inv_P _ _ _ _ _ I) in D. unfold par in D.
    destruct (nth_error r p) eqn:E; [|congruence]. apply nth_error_Some. congruence.
  Qed.

  Lemma anc_conn r P val joins ner p a : Inv r P val joins ner -> anc P p a -> v p <= v a /\ conn (v a) p a.
  Proof.
    intros I [k X]. induction X as [p D|k p q a E N X IH].
    - split; auto. constructor; auto. rewrite <- (inv_len _ _ _ _ _ I). eapply dom_lt; eauto.
    - destruct (inv_par _ _ _ _ _ I _ _ E) as (A & B & C). destruct IH as [L K]. split; [lia|].
      eapply conn_trans; [|exact K]. eapply conn_mono; [|exact C]. lia.
  Qed.

  Lemma spath_ex r P val joins ner : Inv r P val joins ner ->
    forall m p x, ancn P m p x -> P x = Some x -> exists l, spath r p l x.
  Proof.
    intros I m. induction m as [m IH] using lt_wf_ind. intros p x X R.
    destruct (ancn_dom _ _ _ _ X) as [D _]. pose proof (dom_lt _ _ _ _ _ _ I D) as L.
    destruct (sc r p) as [j|] eqn:E.
    2: { unfold sc in E. destruct (nth_error r p) eqn:E'; [discriminate|]. apply nth_error_None in E'. lia. }
    destruct (inv_sc _ _ _ _ _ I _ _ D E) as [A Hj]. destruct (Nat.eq_dec j p) as [->|N].
    - specialize (Hj eq_refl). assert (x = p) by (apply (anc_root P p x Hj); now exists m). subst x.
      exists [p]. now constructor.
    - destruct A as [k A]. destruct (ancn_split P k m p x j X R A) as (m' & B & ->).
      destruct k as [|k]; [inversion A; congruence|].
      destruct (IH m') with (p := j) (x := x) as [l Sl]; auto; [lia|]. exists (p :: l). econstructor; eauto.
  Qed.

  Lemma spath_anc r P val joins ner : Inv r P val joins ner -> forall i l x, spath r i l x -> P i <> None ->
    forall p, In p l -> anc P p x.
  Proof.
    intros I i l x S. induction S as [x E|i j l x E N S IH]; intros D p [<-|H].
    - now apply anc_refl.
    - destruct H.
    - destruct (inv_sc _ _ _ _ _ I _ _ D E) as [A _]. eapply anc_trans; [exact A|].
      apply IH; [eapply anc_dom; eauto|]. inversion S; subst; cbn; auto.
    - destruct (inv_sc _ _ _ _ _ I _ _ D E) as [A _]. apply IH; auto. eapply anc_dom; eauto.
  Qed.

  Lemma climb_inv r P val joins ner i : Inv r P val joins ner -> P i <> None ->
    exists r' x, climb r i = Some (r', x) /\ Inv r' P val joins ner /\ anc P i x /\ P x = Some x.
  Proof.
    intros I D. destruct (inv_root _ _ _ _ _ I i D) as (x & A & R). pose proof A as [m X].
    destruct (spath_ex _ _ _ _ _ I m i x X R) as [l S].
    destruct (climb_ok r i l x S) as (r' & E & L & T). exists r', x. split; [exact E|]. split; [|auto].
    pose proof (spath_anc _ _ _ _ _ I i l x S D) as SA.
    assert (PE : forall p, par r' p = par r p).
    { intro p. unfold par. rewrite T. destruct (existsb _ l); [|auto]. now destruct (nth_error r p). }
    assert (AE : forall p, ar r' p = ar r p).
    { intro p. unfold ar. rewrite T. destruct (existsb _ l); [|auto]. now destruct (nth_error r p). }
    destruct I. constructor; auto.
    - congruence.
    - intro p. rewrite PE. auto.
    - intros p j Dp Ep. unfold sc in Ep. rewrite T in Ep. destruct (existsb (Nat.eqb p) l) eqn:X'.
      + apply existsb_eqb in X'. assert (j = x) by (destruct (nth_error r p); cbn in Ep; congruence). subst j.
        split; [auto|]. intros ->. exact R.
      + apply inv_sc0; auto.
    - intros p a Dp Ep. rewrite AE in Ep. auto.
  Qed.

  (** Linking the root a below the root b. *)
  Definition linked (P : nat -> option nat) (a b : nat) : nat -> option nat := fun p => if p =? a then Some b else P p.

  Lemma link_inv r P val joins ner a b r' :
    Inv r P val joins ner -> P a = Some a -> P b = Some b -> a <> b -> v a <= v b -> conn (v b) a b ->
    length r' = length r -> (forall p, par r' p = linked P a b p) ->
    sc r' a = Some b -> (forall p, p <> a -> sc r' p = sc r p) ->
    (forall p, p <> b -> ar r' p = ar r p) ->
    (forall x y, ar r a = Some x -> ar r b = Some y -> ar r' b = Some (y + x)) ->
    Inv r' (linked P a b) val (joins ++ [a]) (if v a =? v b then ner else ner + 1).
  Proof.
    intros I Ra Rb N Vab Cab L EP ES1 ES2 EA1 EA2.
    pose proof (anc_link P a b Ra Rb N) as AL. fold (linked P a b) in AL. cbn zeta in AL.
    assert (QN : forall p, p <> a -> linked P a b p = P p).
    { intros p Hp. unfold linked. destruct (Nat.eqb_spec p a); congruence. }
    assert (Qa : linked P a b a = Some b) by (unfold linked; now rewrite Nat.eqb_refl).
    assert (QD : forall p, linked P a b p <> None <-> P p <> None).
    { intro p. destruct (Nat.eq_dec p a) as [->|E]; [rewrite Qa, Ra; split; discriminate|now rewrite QN]. }
    pose proof (dom_lt _ _ _ _ _ a I ltac:(congruence)) as La.
    pose proof (dom_lt _ _ _ _ _ b I ltac:(congruence)) as Lb.
    destruct I. constructor.
    - congruence.
    - exact EP.
    - intros p q E. destruct (Nat.eq_dec p a) as [->|Np].
      + rewrite Qa in E. inversion E; subst q. split; [apply QD; congruence|auto].
      + rewrite QN in E by auto. destruct (inv_par0 _ _ E) as (A & B). split; [now apply QD|exact B].
    - intros p D. apply QD in D. destruct (inv_root0 p D) as (x & A & R).
      destruct (Nat.eq_dec x a) as [->|Nx].
      + exists b. split; [apply AL; auto|now rewrite QN by auto].
      + exists x. split; [apply AL; auto|now rewrite QN].
    - intros p j D E. apply QD in D. destruct (Nat.eq_dec p a) as [->|Np].
      + rewrite ES1 in E. inversion E; subst j. split; [|congruence]. apply AL. right. split; auto. now apply anc_refl.
      + rewrite ES2 in E by auto. destruct (inv_sc0 _ _ D E) as [A B]. split; [apply AL; auto|].
        rewrite QN by auto. exact B.
    - intros p c D E. apply QD in D. destruct (Nat.eq_dec p b) as [->|Np].
      + destruct (ar r a) as [x|] eqn:Ea; [|unfold ar in Ea; destruct (nth_error r a) eqn:Ea'; [discriminate|apply nth_error_None in Ea'; lia]].
        destruct (ar r b) as [y|] eqn:Eb; [|unfold ar in Eb; destruct (nth_error r b) eqn:Eb'; [discriminate|apply nth_error_None in Eb'; lia]].
        rewrite (EA2 x y eq_refl eq_refl) in E. inversion E; subst c.
        destruct (inv_area0 a x ltac:(congruence) Ea) as (l1 & A1 & B1 & C1).
        destruct (inv_area0 b y D Eb) as (l2 & A2 & B2 & C2).
        exists (l2 ++ l1). split; [|split; [|rewrite app_length; lia]].
        * apply nodup_app; auto. intros z Z1 Z2. apply B2 in Z1. apply B1 in Z2.
          apply N. exact (root_unique P z a b Z2 Z1 Ra Rb).
        * intro q. rewrite in_app_iff, B1, B2, AL. tauto.
      + rewrite EA1 in E by auto. eapply is_count_ext; [|exact (inv_area0 p c D E)].
        intro q. cbn. rewrite AL. tauto.
    - intros p D. apply inv_val0. now apply QD.
    - destruct inv_ner0 as (l & A & B & C). destruct (Nat.eqb_spec (v a) (v b)) as [Ev|Nv].
      + exists l. split; auto. split; auto. intro q. rewrite B. destruct (Nat.eq_dec q a) as [->|Nq].
        * rewrite Ra, Qa. split; intros (z & X & Y); inversion X; subst; lia.
        * now rewrite QN.
      + exists (a :: l). split; [constructor; auto|split; [|cbn; lia]].
        * rewrite B. intros (z & X & Y). rewrite Ra in X. inversion X; subst. lia.
        * intro q. cbn. rewrite B. destruct (Nat.eq_dec q a) as [->|Nq].
          -- rewrite Qa. split; [intros _; exists b; split; auto; lia|auto].
          -- rewrite QN by auto. split; [intros [X|X]; [congruence|exact X]|auto].
    - apply nodup_app; auto; [repeat constructor; intros []|].
      intros z Z1 [<-|[]]. apply inv_joins0 in Z1. destruct Z1 as (q & X & Y). congruence.
    - intro p. rewrite in_app_iff. cbn. rewrite inv_joins0. destruct (Nat.eq_dec p a) as [->|Np].
      + rewrite Qa. split; [intros _; exists b; auto|auto].
      + rewrite QN by auto. split; [intros [X|[X|[]]]; [exact X|congruence]|auto].
    - intros j1 p j2 E c Ec Nc. destruct (list_eq_nil_dec_last j2) as [->|(j2' & z & ->)].
      + apply app_inj_tail in E. destruct E as [<- <-].
        assert (c <> a) by auto. rewrite QN in Ec by auto. apply inv_joins0. exists a. auto.
      + rewrite app_comm_cons, app_assoc in E. apply app_inj_tail in E. destruct E as [-> <-].
        destruct (Nat.eq_dec c a) as [->|Nca].
        * rewrite Qa in Ec. inversion Ec; subst p. exfalso.
          assert (X : In b (j1 ++ b :: j2')) by (apply in_app_iff; cbn; auto).
          apply inv_joins0 in X. destruct X as (q & X & Y). congruence.
        * rewrite QN in Ec by auto. eapply inv_order0; eauto.
  Qed.

  Definition extends (P Q : nat -> option nat) : Prop :=
    (forall p a, anc P p a -> anc Q p a) /\ (forall p, Q p <> None <-> P p <> None).
  Definition joined (P : nat -> option nat) (p q : nat) : Prop :=
    exists a, anc P p a /\ anc P q a /\ v a <= Nat.max (v p) (v q).

  Lemma extends_refl P : extends P P.
  Proof. split; [auto|tauto]. Qed.
  Lemma extends_trans P Q R : extends P Q -> extends Q R -> extends P R.
  Proof. intros [A B] [C D]. split; [auto|]. intro p. now rewrite D, B. Qed.
  Lemma joined_mono P Q p q : extends P Q -> joined P p q -> joined Q p q.
  Proof. intros [A B] (a & X & Y & Z). exists a. auto. Qed.
  Lemma joined_sym P p q : joined P p q -> joined P q p.
  Proof. intros (a & X & Y & Z). exists a. repeat split; auto. lia. Qed.

  Lemma linked_extends P a b : P a = Some a -> P b = Some b -> a <> b -> extends P (linked P a b).
  Proof.
    intros A B N. split.
    - intros p y X. apply (anc_link P a b A B N). auto.
    - intro p. unfold linked. destruct (Nat.eqb_spec p a) as [->|]; [rewrite A; split; discriminate|tauto].
  Qed.

  Lemma joins_room r P val joins ner b : Inv r P val joins ner -> P b = Some b -> length joins < length im.
  Proof.
    intros I B. assert (H : length (b :: joins) <= length (seq 0 (length im))).
    { apply NoDup_incl_length.
      - constructor; [|apply I]. rewrite (inv_joins _ _ _ _ _ I). intros (q & X & Y). congruence.
      - intros p Hp. apply in_seq. rewrite <- (inv_len _ _ _ _ _ I).
        enough (p < length r) by lia. eapply dom_lt; eauto. destruct Hp as [<-|Hp]; [congruence|].
        apply (inv_joins _ _ _ _ _ I) in Hp. destruct Hp as (q & X & _). congruence. }
    rewrite seq_length in H. cbn in H. lia.
  Qed.

  (** Two writes that link a below b. *)
  Lemma link_writes r P val joins ner a b ga gb h1 h2 :
    Inv r P val joins ner -> P a = Some a -> P b = Some b -> a <> b -> v a <= v b -> conn (v b) a b ->
    nth_error r a = Some ga -> nth_error r b = Some gb ->
    Inv (upd (upd r a (mk_reg (Some b) b h1 (g_area ga))) b (mk_reg (g_parent gb) (g_shortcut gb) h2 (g_area gb + g_area ga)))
        (linked P a b) val (joins ++ [a]) (if v a =? v b then ner else ner + 1).
  Proof.
    intros I Ra Rb N Vab Cab Ea Eb.
    assert (La : a < length r) by (apply nth_error_Some; congruence).
    assert (Lb : b < length r) by (apply nth_error_Some; congruence).
    assert (T : forall p, nth_error (upd (upd r a (mk_reg (Some b) b h1 (g_area ga))) b
       (mk_reg (g_parent gb) (g_shortcut gb) h2 (g_area gb + g_area ga))) p =
       if p =? b then Some (mk_reg (g_parent gb) (g_shortcut gb) h2 (g_area gb + g_area ga))
       else if p =? a then Some (mk_reg (Some b) b h1 (g_area ga)) else nth_error r p).
    { intro p. rewrite nth_error_upd, upd_length. apply Nat.ltb_lt in Lb. rewrite Lb, andb_true_r.
      destruct (p =? b); auto. rewrite nth_error_upd. apply Nat.ltb_lt in La. rewrite La, andb_true_r. reflexivity. }
    apply link_inv with (r := r); auto.
    - now rewrite !upd_length.
    - intro p. unfold par. rewrite T. unfold linked. pose proof (inv_P _ _ _ _ _ I) as IP.
      destruct (Nat.eqb_spec p b) as [->|Nb].
      + destruct (Nat.eqb_spec b a); [congruence|]. rewrite <- IP. unfold par. now rewrite Eb.
      + destruct (Nat.eqb_spec p a); [reflexivity|]. rewrite <- IP. reflexivity.
    - unfold sc. rewrite T. destruct (Nat.eqb_spec a b); [congruence|]. now rewrite Nat.eqb_refl.
    - intros p Np. unfold sc. rewrite T. destruct (Nat.eqb_spec p b) as [->|Nb]; [now rewrite Eb|].
      destruct (Nat.eqb_spec p a); [congruence|]. reflexivity.
    - intros p Np. unfold ar. rewrite T. destruct (Nat.eqb_spec p b) as [->|Nb]; [congruence|].
      destruct (Nat.eqb_spec p a) as [->|]; [now rewrite Ea|]. reflexivity.
    - intros x y Ex Ey. unfold ar in *. rewrite T, Nat.eqb_refl. rewrite Ea in Ex. rewrite Eb in Ey.
      cbn. congruence.
  Qed.

  Lemma aget_v p : p < length im -> aget im p = Some (v p).
  Proof. intro H. unfold v. now apply aget_nth. Qed.

  Lemma visit_inv r P val joins ner ridx idx q :
    Inv r P val joins ner -> P idx <> None -> v idx = val -> ridx < length im -> q < length im -> adjacent dims idx q ->
    exists r' ridx' joins' ner' P',
      visit_neighbor im idx q (mk_ust r ridx joins ner) = Some (mk_ust r' ridx' joins' ner') /\
      Inv r' P' val joins' ner' /\ extends P P' /\ ridx' < length im /\ (P q <> None -> joined P' idx q).
  Proof.
    intros I D Vi Lr Lq Ad. pose proof (inv_len _ _ _ _ _ I) as EL.
    assert (Li : idx < length im) by (rewrite <- EL; eapply dom_lt; eauto).
    unfold visit_neighbor. destruct (Nat.eqb_spec q idx) as [->|Nq].
    { exists r, ridx, joins, ner, P. split; [reflexivity|]. split; [auto|]. split; [apply extends_refl|].
      split; [auto|]. intros _. exists idx. repeat split; try (now apply anc_refl). lia. }
    cbn [u_r u_ridx u_joins u_ner].
    destruct (nth_error r q) as [gq|] eqn:Eq; [|apply nth_error_None in Eq; lia].
    unfold aget at 1. rewrite Eq. cbn [obind].
    assert (PE : P q = g_parent gq) by (rewrite <- (inv_P _ _ _ _ _ I); unfold par; now rewrite Eq).
    destruct (g_parent gq) as [pq|] eqn:Epq.
    2: { exists r, ridx, joins, ner, P. split; [reflexivity|]. split; [auto|]. split; [apply extends_refl|].
         split; [auto|]. congruence. }
    destruct (aget_lt r ridx ltac:(lia)) as [g Eg]. rewrite Eg. cbn [obind].
    destruct (aget_lt r 0 ltac:(lia)) as [g0 Eg0]. rewrite Eg0. cbn [obind].
    set (hgt := g_height g). set (nh := g_height g0).
    destruct (climb_inv _ _ _ _ _ idx I D) as (r1 & a & C1 & I1 & A1 & R1). rewrite C1. cbn [obind].
    assert (Dq : P q <> None) by congruence.
    destruct (climb_inv _ _ _ _ _ q I1 Dq) as (r2 & b & C2 & I2 & A2 & R2). rewrite C2. cbn [obind].
    assert (La : a < length im).
    { rewrite <- (inv_len _ _ _ _ _ I2). eapply dom_lt; eauto. congruence. }
    assert (Lb : b < length im).
    { rewrite <- (inv_len _ _ _ _ _ I2). eapply dom_lt; eauto. congruence. }
    destruct (anc_conn _ _ _ _ _ _ _ I2 A1) as [V1 K1]. destruct (anc_conn _ _ _ _ _ _ _ I2 A2) as [V2 K2].
    assert (Va : v a <= val) by (apply (inv_val _ _ _ _ _ I2); congruence).
    assert (Vb : v b <= val) by (apply (inv_val _ _ _ _ _ I2); congruence).
    assert (Va' : v a = val) by lia.
    assert (CAB : conn val a b).
    { eapply conn_trans; [apply conn_sym; eapply conn_mono; [|exact K1]; lia|].
      eapply conn_trans; [|eapply conn_mono; [|exact K2]; lia].
      apply conn_edge; auto; lia. }
    destruct (Nat.eqb_spec a b) as [<-|Nab].
    { exists r2, a, joins, ner, P. split; [reflexivity|]. split; [auto|]. split; [apply extends_refl|].
      split; [auto|]. intros _. exists a. repeat split; auto. lia. }
    rewrite (aget_v idx Li). cbn [obind]. rewrite (aget_v b Lb). cbn [obind].
    destruct (nth_error r2 a) as [ga|] eqn:Ega; [|apply nth_error_None in Ega; rewrite (inv_len _ _ _ _ _ I2) in Ega; lia].
    destruct (nth_error r2 b) as [gb|] eqn:Egb; [|apply nth_error_None in Egb; rewrite (inv_len _ _ _ _ _ I2) in Egb; lia].
    unfold aget. rewrite Ega. cbn [obind]. rewrite Egb. cbn [obind].
    assert (L2 : length r2 = length im) by apply I2.
    pose proof (joins_room _ _ _ _ _ a I2 R1) as JR.
    destruct ((v b =? v idx) && (hgt <? nh)%Z) eqn:B.
    - apply andb_prop in B. destruct B as [B _]. apply Nat.eqb_eq in B.
      rewrite aset_lt by lia. cbn [obind]. rewrite aset_lt by (rewrite upd_length; lia). cbn [obind].
      unfold add_join. apply Nat.ltb_lt in JR. rewrite JR. cbn [obind].
      exists (upd (upd r2 a (mk_reg (Some b) b (g_height ga) (g_area ga))) b
               (mk_reg (g_parent gb) (g_shortcut gb) (Z.max nh (hgt + 1)) (g_area gb + g_area ga))),
             a, (joins ++ [a]), ner, (linked P a b).
      split; [reflexivity|]. split; [|split; [now apply linked_extends|split; [auto|]]].
      + replace ner with (if v a =? v b then ner else ner + 1).
        2: { replace (v a) with (v b) by lia. now rewrite Nat.eqb_refl. }
        apply link_writes; auto; [lia|]. eapply conn_mono; [|exact CAB]. lia.
      + intros _. pose proof (anc_link P a b R1 R2 Nab) as AL. cbn zeta in AL. fold (linked P a b) in AL.
        exists b. split; [apply AL; auto|]. split; [apply AL; auto|lia].
    - rewrite aset_lt by lia. cbn [obind]. rewrite aset_lt by (rewrite upd_length; lia). cbn [obind].
      unfold add_join. apply Nat.ltb_lt in JR. rewrite JR. cbn [obind].
      exists (upd (upd r2 b (mk_reg (Some a) a (g_height gb) (g_area gb))) a
               (mk_reg (g_parent ga) (g_shortcut ga) (Z.max hgt (nh + 1)) (g_area ga + g_area gb))),
             a, (joins ++ [b]), (if v b =? v idx then ner else ner + 1), (linked P b a).
      split; [reflexivity|]. split; [|split; [apply linked_extends; auto|split; [auto|]]].
      + replace (v idx) with (v a) by lia.
        apply link_writes; auto; [lia|]. apply conn_sym. eapply conn_mono; [|exact CAB]. lia.
      + intros _. pose proof (anc_link P b a R2 R1 (not_eq_sym Nab)) as AL. cbn zeta in AL. fold (linked P b a) in AL.
        exists a. split; [apply AL; auto|]. split; [apply AL; auto|lia].
  Qed.

  Lemma fold_inv idx val : v idx = val -> forall l r P joins ner ridx,
    Inv r P val joins ner -> P idx <> None -> ridx < length im ->
    (forall q, In q l -> q < length im /\ adjacent dims idx q) ->
    exists r' ridx' joins' ner' P',
      ofold (visit_neighbor im idx) l (mk_ust r ridx joins ner) = Some (mk_ust r' ridx' joins' ner') /\
      Inv r' P' val joins' ner' /\ extends P P' /\ (forall q, In q l -> P q <> None -> joined P' idx q).
  Proof.
    intros Vi l. induction l as [|q l IH]; intros r P joins ner ridx I D L H.
    - exists r, ridx, joins, ner, P. split; [reflexivity|]. split; [auto|]. split; [apply extends_refl|]. intros q [].
    - destruct (H q) as [Lq Aq]; [cbn; auto|].
      destruct (visit_inv r P val joins ner ridx idx q I D Vi L Lq Aq) as (r1 & x1 & j1 & n1 & P1 & E1 & I1 & X1 & L1 & J1).
      destruct (IH r1 P1 j1 n1 x1 I1) as (r2 & x2 & j2 & n2 & P2 & E2 & I2 & X2 & J2); auto.
      { now apply X1. } { intros z Z. apply H. cbn; auto. }
      exists r2, x2, j2, n2, P2. split; [cbn [ofold]; rewrite E1; exact E2|]. split; [auto|].
      split; [eapply extends_trans; eauto|]. intros z [<-|Z] Dz.
      + eapply joined_mono; eauto.
      + apply J2; auto. now apply X1.
  Qed.

  (** A new pixel. *)
  Definition added (P : nat -> option nat) (i : nat) : nat -> option nat := fun p => if p =? i then Some i else P p.

  Lemma add_inv r P val joins ner i h : Inv r P val joins ner -> i < length im -> P i = None -> val <= v i ->
    Inv (upd r i (mk_reg (Some i) i h 1)) (added P i) (v i) joins ner /\
    (forall p a, anc P p a -> anc (added P i) p a).
  Proof.
    intros I L E Vi.
    assert (cl : forall p q, P p = Some q -> P q <> None) by (intros p q X; now apply (inv_par _ _ _ _ _ I _ _ X)).
    pose proof (anc_add P i E cl) as AA. cbn zeta in AA. fold (added P i) in AA.
    assert (QN : forall p, p <> i -> added P i p = P p).
    { intros p Hp. unfold added. destruct (Nat.eqb_spec p i); congruence. }
    assert (Qi : added P i i = Some i) by (unfold added; now rewrite Nat.eqb_refl).
    assert (NP : forall p q, P p = Some q -> p <> i /\ q <> i).
    { intros p q X. split; intros ->; [congruence|]. now apply (cl _ _ X). }
    split; [|intros p a X; apply AA; auto].
    assert (T : forall p, nth_error (upd r i (mk_reg (Some i) i h 1)) p = if p =? i then Some (mk_reg (Some i) i h 1) else nth_error r p).
    { intro p. rewrite nth_error_upd. rewrite <- (inv_len _ _ _ _ _ I) in L. apply Nat.ltb_lt in L. now rewrite L, andb_true_r. }
    destruct I. constructor; auto.
    - now rewrite upd_length.
    - intro p. unfold par. rewrite T. unfold added. destruct (p =? i); [reflexivity|]. apply inv_P0.
    - intros p q X. destruct (Nat.eq_dec p i) as [->|N].
      + rewrite Qi in X. inversion X; subst q. split; [congruence|]. split; [auto|]. now constructor.
      + rewrite QN in X by auto. destruct (inv_par0 _ _ X) as (A & B). split; [|exact B].
        rewrite QN; auto. now apply (NP _ _ X).
    - intros p X. destruct (Nat.eq_dec p i) as [->|N].
      + exists i. split; auto. now apply anc_refl.
      + rewrite QN in X by auto. destruct (inv_root0 p X) as (x & A & B). exists x. split; [apply AA; auto|].
        rewrite QN; auto. now apply (NP _ _ B).
    - intros p j X S. unfold sc in S. rewrite T in S. destruct (Nat.eqb_spec p i) as [->|N].
      + inversion S; subst. split; auto. now apply anc_refl.
      + rewrite QN in X by auto. destruct (inv_sc0 p j X S) as [A B]. split; [apply AA; auto|].
        rewrite QN by auto. exact B.
    - intros p a X S. unfold ar in S. rewrite T in S. destruct (Nat.eqb_spec p i) as [->|N].
      + inversion S; subst. exists [i]. split; [repeat constructor; intros []|]. split; [|reflexivity].
        intro q. rewrite AA. cbn. split.
        * intros [<-|[]]. auto.
        * intros [Y|[-> _]]; [|auto]. exfalso. apply anc_dom in Y. now apply (proj2 Y).
      + rewrite QN in X by auto. eapply is_count_ext; [|exact (inv_area0 p a X S)]. intro q. cbn. rewrite AA.
        split; [auto|]. intros [Y|[_ Y]]; [auto|congruence].
    - intros p X. destruct (Nat.eq_dec p i) as [->|N]; [auto|]. rewrite QN in X by auto.
      specialize (inv_val0 p X). lia.
    - eapply is_count_ext; [|exact inv_ner0]. intro p. cbn. destruct (Nat.eq_dec p i) as [->|N].
      + rewrite Qi, E. split; intros (q & X & Y); inversion X; subst; lia.
      + now rewrite QN.
    - intro p. rewrite inv_joins0. destruct (Nat.eq_dec p i) as [->|N].
      + rewrite Qi, E. split; intros (q & X & Y); congruence.
      + now rewrite QN.
    - intros j1 p j2 X c Y Z. destruct (Nat.eq_dec c i) as [->|N]; [congruence|].
      rewrite QN in Y by auto. eapply inv_order0; eauto.
  Qed.

  (** The state between two pixels. *)
  Definition all_joined (P : nat -> option nat) : Prop :=
    forall p q, P p <> None -> P q <> None -> adjacent dims p q -> joined P p q.

  Lemma pixel_inv r P val joins ner i : Inv r P val joins ner -> all_joined P -> i < length im -> P i = None -> val <= v i ->
    exists r' joins' ner' P', add_pixel dims im i r joins ner = Some (r', joins', ner') /\
      Inv r' P' (v i) joins' ner' /\ all_joined P' /\ (forall p, P' p <> None <-> P p <> None \/ p = i).
  Proof.
    intros I AJ L E Vi. unfold add_pixel. rewrite aset_lt by (rewrite (inv_len _ _ _ _ _ I); auto). cbn [obind].
    destruct (add_inv r P val joins ner i 1%Z I L E Vi) as [I1 M].
    assert (QN : forall p, p <> i -> added P i p = P p).
    { intros p Hp. unfold added. destruct (Nat.eqb_spec p i); congruence. }
    assert (Qi : added P i i = Some i) by (unfold added; now rewrite Nat.eqb_refl).
    rewrite neighbor_loop_nbs by (auto; lia).
    destruct (fold_inv i (v i) eq_refl (nbs dims i) _ _ _ _ i I1) as (r2 & x2 & j2 & n2 & P2 & E2 & I2 & X2 & J2); auto.
    { congruence. }
    { intros q Hq. apply nbs_spec in Hq; auto; [|lia]. rewrite Hlen. exact Hq. }
    rewrite E2. cbn [obind u_r u_joins u_ner]. exists r2, j2, n2, P2. split; [reflexivity|]. split; [auto|].
    assert (DD : forall p, P2 p <> None <-> P p <> None \/ p = i).
    { intro p. rewrite (proj2 X2). destruct (Nat.eq_dec p i) as [->|N]; [rewrite Qi; split; [auto|discriminate]|].
      rewrite QN by auto. split; [auto|]. intros [?|?]; [auto|congruence]. }
    split; [|exact DD].
    assert (Ji : forall q, P2 q <> None -> adjacent dims i q -> joined P2 i q).
    { intros q Dq A. apply J2; [apply nbs_spec; auto; try lia|now apply X2].
      split; [|auto]. rewrite <- Hlen, <- (inv_len _ _ _ _ _ I2). eapply dom_lt; eauto. }
    intros p q Dp Dq A. destruct (Nat.eq_dec p i) as [->|Np]; [auto|].
    destruct (Nat.eq_dec q i) as [->|Nq]; [apply joined_sym, Ji; auto; now apply adjacent_sym|].
    apply DD in Dp. apply DD in Dq. destruct Dp as [Dp|]; [|congruence]. destruct Dq as [Dq|]; [|congruence].
    eapply joined_mono; [exact X2|]. destruct (AJ p q Dp Dq A) as (a & Y1 & Y2 & Y3). exists a. auto.
  Qed.

  Lemma loop_inv : forall perm r P val joins ner, Inv r P val joins ner -> all_joined P ->
    StronglySorted (fun i j => v i < v j \/ (v i = v j /\ i < j)) perm ->
    Forall (fun i => i < length im /\ P i = None /\ val <= v i) perm ->
    exists r' joins' ner' P' val', union_loop dims im perm r joins ner = Some (r', joins', ner') /\
      Inv r' P' val' joins' ner' /\ all_joined P' /\ (forall p, P' p <> None <-> P p <> None \/ In p perm).
  Proof.
    induction perm as [|i perm IH]; intros r P val joins ner I AJ SS F.
    - exists r, joins, ner, P, val. split; [reflexivity|]. split; [auto|]. split; [auto|]. intro p. cbn. tauto.
    - inversion SS as [|? ? SS' Fi]; subst. inversion F as [|? ? (L & E & Vi) F']; subst.
      destruct (pixel_inv r P val joins ner i I AJ L E Vi) as (r1 & j1 & n1 & P1 & E1 & I1 & A1 & D1).
      destruct (IH r1 P1 (v i) j1 n1 I1 A1 SS') as (r2 & j2 & n2 & P2 & w & E2 & I2 & A2 & D2).
      { rewrite Forall_forall in Fi, F' |- *. intros k Hk. destruct (F' k Hk) as (Lk & Ek & _). specialize (Fi k Hk).
        split; [auto|]. split; [|destruct Fi; lia]. destruct (P1 k) eqn:X; [exfalso|reflexivity].
        assert (Y : P1 k <> None) by congruence. apply D1 in Y. destruct Y as [Y|Y]; [congruence|]. subst k.
        destruct Fi; lia. }
      exists r2, j2, n2, P2, w. split; [cbn [union_loop]; rewrite E1; cbn [obind]; exact E2|]. split; [auto|]. split; [auto|].
      intro p. rewrite D2, D1. cbn. intuition congruence.
  Qed.

  Lemma union_ok perm r0 : in_stable_order im perm -> length r0 = length im ->
    exists r joins ner P val, union_loop dims im perm (clear r0) [] 0 = Some (r, joins, ner) /\
      Inv r P val joins ner /\ all_joined P /\ (forall p, P p <> None <-> p < length im).
  Proof.
    intros [Pe SS] L0.
    assert (N0 : forall p, par (clear r0) p = None).
    { intro p. unfold par, clear. rewrite nth_error_map. now destruct (nth_error r0 p). }
    assert (I0 : Inv (clear r0) (fun _ => None) 0 [] 0).
    { constructor; try congruence; auto; try apply NoDup_nil.
      - unfold clear. now rewrite map_length.
      - exists []. split; [constructor|]. split; [|reflexivity]. intro q. split; [intros []|intros (x & X & _); discriminate].
      - intro p. split; [intros []|intros (x & X & _); discriminate]. }
    destruct (loop_inv perm _ _ _ _ _ I0) as (r & j & n & P & w & E & I & A & D); auto.
    - intros p q X. congruence.
    - apply Forall_forall. intros i Hi. apply (Permutation_in _ Pe) in Hi. apply in_seq in Hi. repeat split; lia.
    - exists r, j, n, P, w. split; [exact E|]. split; [auto|]. split; [auto|]. intro p. rewrite D. split.
      + intros [X|X]; [congruence|]. apply (Permutation_in _ Pe) in X. apply in_seq in X. lia.
      + intro X. right. apply (Permutation_in _ (Permutation_sym Pe)). apply in_seq. lia.
  Qed.
End Union.
