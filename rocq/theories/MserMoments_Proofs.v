(** Integration of moments along the MSER forest. *)
From Coq Require Import List Arith ZArith Lia Bool QArith.
From Verif Require Import Base Mser_Model Mser_Spec MserSort_Proofs MserNbr_Proofs MserForest_Proofs MserUnion_Proofs.
Local Open Scope nat_scope.
Import ListNotations.

Notation zsum := total_of.

Lemma zsum_app f l1 l2 : zsum f (l1 ++ l2) = (zsum f l1 + zsum f l2)%Z.
Proof. unfold total_of. induction l1 as [|a l1 IH]; cbn; [reflexivity|]. rewrite IH. lia. Qed.

Section Moments.
  Variable dims im : list nat.
  Variable r : list reg.
  Variable P : nat -> option nat.
  Variable val ner : nat.
  Variable joins : list nat.
  Hypothesis HI : Inv dims im r P val joins ner.
  Hypothesis HD : forall p, P p <> None <-> p < length im.
  Variable acc0 : list Z.
  Hypothesis Hacc : length acc0 = length im.
  Let f (q : nat) : Z := nth q acc0 0%Z.

  (** The links of the joins in [j] only. *)
  Definition part (j : list nat) (p : nat) : option nat :=
    match P p with None => None | Some q => if existsb (Nat.eqb p) j then Some q else Some p end.

  Definition sums (j : list nat) (acc : list Z) : Prop :=
    length acc = length im /\
    forall p, p < length im -> exists l, NoDup l /\ (forall q, In q l <-> anc (part j) q p) /\ nth p acc 0%Z = zsum f l.

  Lemma integrate_ok : forall j2 j1 acc, joins = j1 ++ j2 -> sums j1 acc ->
    exists acc', integrate r j2 acc = Some acc' /\ sums joins acc'.
  Proof.
    induction j2 as [|a j2 IH]; intros j1 acc EJ [LA S].
    - exists acc. split; [reflexivity|]. rewrite app_nil_r in EJ. subst j1. split; auto.
    - cbn [integrate].
      assert (Ia : In a joins) by (rewrite EJ; apply in_app_iff; cbn; auto).
      destruct (proj1 (inv_joins _ _ _ _ _ _ _ HI a) Ia) as (b & Pa & Nba).
      assert (La : a < length im) by (apply HD; congruence).
      assert (Lb : b < length im) by (apply HD; apply (inv_par _ _ _ _ _ _ _ HI _ _ Pa)).
      pose proof (inv_len _ _ _ _ _ _ _ HI) as Lr.
      destruct (nth_error r a) as [g|] eqn:Eg; [|apply nth_error_None in Eg; lia].
      unfold aget at 1. rewrite Eg. cbn [obind].
      assert (Gp : g_parent g = Some b) by (rewrite <- Pa, <- (inv_P _ _ _ _ _ _ _ HI); unfold par; now rewrite Eg).
      rewrite Gp. cbn [obind]. rewrite (aget_nth acc a 0%Z) by lia. cbn [obind].
      rewrite (aget_nth acc b 0%Z) by lia. cbn [obind]. rewrite aset_lt by lia. cbn [obind].
      apply (IH (j1 ++ [a])); [rewrite <- app_assoc; exact EJ|].
      assert (NDJ : NoDup (j1 ++ a :: j2)) by (rewrite <- EJ; apply HI).
      assert (Na : ~ In a j1).
      { intro X. apply NoDup_remove_2 in NDJ. apply NDJ. apply in_app_iff. auto. }
      assert (Nb : ~ In b j1).
      { intro X. apply in_split in X. destruct X as (k1 & k2 & ->).
        assert (Y : In a k1).
        { apply (inv_order _ _ _ _ _ _ _ HI k1 b (k2 ++ a :: j2)); auto. rewrite EJ, <- app_assoc. reflexivity. }
        apply Na. apply in_app_iff. auto. }
      assert (EB : forall p j, In p j -> existsb (Nat.eqb p) j = true) by (intros; now apply existsb_eqb).
      assert (EN : forall p j, ~ In p j -> existsb (Nat.eqb p) j = false).
      { intros p j X. destruct (existsb (Nat.eqb p) j) eqn:Y; [|auto]. apply existsb_eqb in Y. contradiction. }
      assert (Ra : part j1 a = Some a) by (unfold part; rewrite Pa, EN by auto; reflexivity).
      assert (Rb : part j1 b = Some b).
      { unfold part. destruct (P b) eqn:Eb; [|apply HD in Lb; congruence]. now rewrite EN. }
      assert (PE : forall p, part (j1 ++ [a]) p = (fun p => if p =? a then Some b else part j1 p) p).
      { intro p. cbn. unfold part. destruct (Nat.eqb_spec p a) as [->|Np].
        - rewrite Pa, EB; [reflexivity|]. apply in_app_iff. cbn. auto.
        - destruct (P p); [|reflexivity]. rewrite existsb_app. cbn [existsb].
          destruct (Nat.eqb_spec p a); [congruence|]. now rewrite !orb_false_r. }
      assert (AL : forall p y, anc (part (j1 ++ [a])) p y <-> anc (part j1) p y \/ (anc (part j1) p a /\ y = b)).
      { intros p y. rewrite (anc_ext _ _ p y PE). apply (anc_link (part j1) a b Ra Rb). congruence. }
      split; [now rewrite upd_length|]. intros p Hp. rewrite nth_upd by lia. destruct (Nat.eqb_spec p b) as [->|Np].
      + destruct (S b Lb) as (l2 & A2 & B2 & C2). destruct (S a La) as (l1 & A1 & B1 & C1).
        exists (l2 ++ l1). split; [|split].
        * apply nodup_app; auto. intros z Z1 Z2. apply B2 in Z1. apply B1 in Z2. apply Nba.
          symmetry. exact (root_unique (part j1) z a b Z2 Z1 Ra Rb).
        * intro q. rewrite in_app_iff, B1, B2, AL. tauto.
        * rewrite zsum_app, C1, C2. reflexivity.
      + destruct (S p Hp) as (l & A & B & C). exists l. split; [auto|]. split; [|auto].
        intro q. rewrite B, AL. split; [auto|]. intros [X|[_ X]]; [auto|congruence].
  Qed.

  Lemma moments_ok : exists acc, integrate r joins acc0 = Some acc /\ length acc = length im /\
    forall p, p < length im -> exists l, NoDup l /\ (forall q, In q l <-> anc P q p) /\ nth p acc 0%Z = zsum f l.
  Proof.
    destruct (integrate_ok joins [] acc0 eq_refl) as (acc & E & L & S).
    - split; [auto|]. intros p Hp. exists [p]. split; [repeat constructor; intros []|]. split.
      + intro q. assert (PP : forall q, q < length im -> part [] q = Some q).
        { intros z Hz. unfold part. destruct (P z) eqn:E; [reflexivity|]. apply HD in Hz. congruence. }
        split.
        * intros [<-|[]]. apply anc_refl. rewrite PP by auto. discriminate.
        * intro A. assert (Hq : q < length im).
          { apply HD. apply anc_dom in A. destruct A as [A _]. unfold part in A. destruct (P q); congruence. }
          left. apply (anc_root (part []) q p); auto.
      + unfold total_of, f. cbn. lia.
    - exists acc. split; [exact E|]. split; [exact L|]. intros p Hp. destruct (S p Hp) as (l & A & B & C).
      exists l. split; [auto|]. split; [|auto]. intro q. rewrite B. apply anc_ext. intro x. unfold part.
      destruct (P x) as [y|] eqn:Ex; [|reflexivity]. destruct (existsb (Nat.eqb x) joins) eqn:Ej; [reflexivity|].
      destruct (Nat.eq_dec y x) as [->|N]; [reflexivity|]. exfalso.
      assert (In x joins) by (apply (inv_joins _ _ _ _ _ _ _ HI); eauto). apply existsb_eqb in H. congruence.
  Qed.
End Moments.

Lemma adv_coords dims : pos_dims dims -> forall p, adv dims (coords dims p) = coords dims (p + 1).
Proof.
  induction 1 as [|d dims Hd HP IH]; intro p; cbn [adv coords]; [reflexivity|].
  pose proof (Nat.div_mod p d ltac:(lia)) as DM. pose proof (Nat.mod_upper_bound p d ltac:(lia)).
  destruct (Nat.ltb_spec (p mod d + 1) d) as [L|L].
  - assert (X : p + 1 = (p mod d + 1) + (p / d) * d) by nia.
    assert (M : (p + 1) mod d = p mod d + 1) by (rewrite X, Nat.mod_add by lia; now apply Nat.mod_small).
    assert (D : (p + 1) / d = p / d) by (rewrite X, Nat.div_add by lia; rewrite Nat.div_small by lia; lia).
    now rewrite M, D.
  - assert (X : p + 1 = (p / d + 1) * d) by nia.
    assert (M : (p + 1) mod d = 0) by (rewrite X; apply Nat.mod_mul; lia).
    assert (D : (p + 1) / d = p / d + 1) by (rewrite X; apply Nat.div_mul; lia).
    now rewrite M, D, IH.
Qed.

Lemma coords_zero dims : pos_dims dims -> coords dims 0 = repeat 0 (length dims).
Proof.
  induction 1 as [|d dims Hd HP IH]; cbn [coords length repeat]; [reflexivity|].
  rewrite Nat.mod_0_l, Nat.div_0_l by lia. now rewrite IH.
Qed.

Lemma fill_length f dims : forall n s, length (fill f dims n s) = n.
Proof. induction n; intro s; cbn; auto. Qed.

Lemma fill_nth f dims : pos_dims dims -> forall n b k, k < n -> nth k (fill f dims n (coords dims b)) 0%Z = f (coords dims (b + k)).
Proof.
  intro HP. induction n as [|n IH]; intros b k H; [lia|]. cbn [fill]. destruct k as [|k]; cbn [nth].
  - now rewrite Nat.add_0_r.
  - rewrite adv_coords by auto. rewrite IH by lia. do 2 f_equal. lia.
Qed.

Lemma unpack_ok : forall m fuel i k t, i <= k + m -> 2 * t + k * (k + 1) = (k + m) * (k + m + 1) + 2 * i -> m < fuel ->
  unpack fuel t k = Some (i, k + m).
Proof.
  induction m as [|m IH]; intros fuel i k t Hi Ht Hf; (destruct fuel as [|fuel]; [lia|]); cbn [unpack].
  - rewrite Nat.add_0_r in *. assert (t = i) by nia. subst t. destruct (Nat.ltb_spec k i); [lia|reflexivity].
  - destruct (Nat.ltb_spec k t) as [L|L]; [|nia].
    rewrite (IH fuel i (k + 1) (t - (k + 1))); [do 2 f_equal; lia|lia|nia|lia].
Qed.

Definition dof_index (n i j : nat) : nat := n + j * (j + 1) / 2 + i.

Lemma even_tri j : 2 * (j * (j + 1) / 2) = j * (j + 1).
Proof.
  assert (E : Nat.even (j * (j + 1)) = true).
  { rewrite Nat.even_mul, Nat.even_add. destruct (Nat.even j); reflexivity. }
  apply Nat.even_spec in E. destruct E as [c ->]. rewrite Nat.mul_comm with (n := 2) (m := c), Nat.div_mul by lia. lia.
Qed.

Lemma dof_index_pair n i j : i <= j -> dof_pair n (dof_index n i j) = Some (i, j).
Proof.
  intro H. unfold dof_pair, dof_index. pose proof (even_tri j).
  rewrite (unpack_ok j _ i 0); [reflexivity|lia|nia|nia].
Qed.

Lemma dof_index_lt n i j : i <= j -> j < n -> n <= dof_index n i j < dof_of n.
Proof.
  intros H H'. unfold dof_index, dof_of. pose proof (even_tri j). pose proof (even_tri n).
  split; nia.
Qed.

Lemma tri_ex t : exists i j, i <= j /\ t = j * (j + 1) / 2 + i.
Proof.
  induction t as [|t (i & j & H & E)].
  - exists 0, 0. cbn. auto.
  - destruct (Nat.eq_dec i j) as [->|N].
    + exists 0, (j + 1). split; [lia|]. pose proof (even_tri j). pose proof (even_tri (j + 1)). nia.
    + exists (i + 1), j. split; lia.
Qed.

Lemma dof_cover n d : n <= d -> d < dof_of n -> exists i j, i <= j /\ j < n /\ d = dof_index n i j.
Proof.
  intros H1 H2. destruct (tri_ex (d - n)) as (i & j & H & E). exists i, j. split; [auto|].
  unfold dof_index, dof_of in *. pose proof (even_tri j). pose proof (even_tri n). split; [nia|lia].
Qed.

(** The value of each central moment. *)
Definition cmoment (n : nat) (area : Q) (o : list Q) (k : nat) : Q :=
  if k <? n then (nth k o 0 / area)%Q
  else match dof_pair n k with
       | Some (i, j) => (nth k o 0 / area - (nth i o 0 / area) * (nth j o 0 / area))%Q
       | None => 0%Q
       end.

Lemma central_ok n area o : length o = dof_of n -> forall m d pt, m + d = dof_of n -> length pt = dof_of n ->
  (forall k, k < d -> nth k pt 0%Q = cmoment n area o k) -> (forall k, d <= k -> nth k pt 0%Q = nth k o 0%Q) ->
  exists pt', central m d n area pt = Some pt' /\ length pt' = dof_of n /\
    forall k, k < dof_of n -> nth k pt' 0%Q = cmoment n area o k.
Proof.
  intro LO. induction m as [|m IH]; intros d pt Hm LP Hd Hu.
  - exists pt. split; [reflexivity|]. split; [auto|]. intros k Hk. apply Hd. lia.
  - cbn [central]. rewrite (aget_nth pt d 0%Q) by lia. cbn [obind]. rewrite aset_lt by lia. cbn [obind].
    rewrite (Hu d) by lia. destruct (Nat.ltb_spec d n) as [L|L]; cbn [obind].
    + apply IH; [lia|now rewrite upd_length| |].
      * intros k Hk. rewrite nth_upd by lia. destruct (Nat.eqb_spec k d) as [->|]; [|apply Hd; lia].
        unfold cmoment. destruct (Nat.ltb_spec d n); [reflexivity|lia].
      * intros k Hk. rewrite nth_upd by lia. destruct (Nat.eqb_spec k d); [lia|apply Hu; lia].
    + destruct (dof_cover n d L ltac:(lia)) as (i & j & Hij & Hj & Ed).
      assert (DP : dof_pair n d = Some (i, j)) by (rewrite Ed; now apply dof_index_pair).
      rewrite DP. cbn [obind].
      assert (LU : length (upd pt d (nth d o 0 / area)%Q) = dof_of n) by (now rewrite upd_length).
      rewrite (aget_nth _ d 0%Q) by lia. cbn [obind]. rewrite (aget_nth _ i 0%Q) by lia. cbn [obind].
      rewrite (aget_nth _ j 0%Q) by lia. cbn [obind]. rewrite aset_lt by lia. cbn [obind].
      rewrite upd_upd. rewrite !nth_upd by lia. rewrite Nat.eqb_refl.
      destruct (Nat.eqb_spec i d); [lia|]. destruct (Nat.eqb_spec j d); [lia|].
      assert (Ci : nth i pt 0%Q = (nth i o 0 / area)%Q).
      { rewrite Hd by lia. unfold cmoment. destruct (Nat.ltb_spec i n); [reflexivity|lia]. }
      assert (Cj : nth j pt 0%Q = (nth j o 0 / area)%Q).
      { rewrite Hd by lia. unfold cmoment. destruct (Nat.ltb_spec j n); [reflexivity|lia]. }
      rewrite Ci, Cj. apply IH; [lia|now rewrite upd_length| |].
      * intros k Hk. rewrite nth_upd by lia. destruct (Nat.eqb_spec k d) as [->|]; [|apply Hd; lia].
        unfold cmoment. destruct (Nat.ltb_spec d n); [lia|]. rewrite DP. reflexivity.
      * intros k Hk. rewrite nth_upd by lia. destruct (Nat.eqb_spec k d); [lia|apply Hu; lia].
Qed.

Lemma each_ok {A B} (f : A -> option B) (R : A -> B -> Prop) : forall l,
  (forall a, In a l -> exists b, f a = Some b /\ R a b) -> exists r, each f l = Some r /\ Forall2 R l r.
Proof.
  induction l as [|a l IH]; intro H; cbn [each].
  - exists []. split; [reflexivity|constructor].
  - destruct (H a) as (b & E & Rb); [cbn; auto|]. rewrite E. cbn [obind].
    destruct IH as (r & E' & F); [intros; apply H; cbn; auto|]. rewrite E'. cbn [obind].
    exists (b :: r). split; [reflexivity|now constructor].
Qed.

Lemma Forall2_len {A B} (R : A -> B -> Prop) l r : Forall2 R l r -> length l = length r.
Proof. induction 1; cbn; auto. Qed.

Lemma collect_ok idx : forall accs, Forall (fun acc => idx < length acc) accs ->
  collect accs idx = Some (map (fun acc => inject_Z (nth idx acc 0%Z)) accs).
Proof.
  induction 1 as [|acc accs H F IH]; cbn [collect map]; [reflexivity|].
  rewrite (aget_nth acc idx 0%Z) by auto. cbn [obind]. rewrite IH. reflexivity.
Qed.

Lemma total_ext f g l : (forall q, In q l -> f q = g q) -> total_of f l = total_of g l.
Proof.
  intro H. unfold total_of. f_equal. apply map_ext_in. auto.
Qed.

Section Ell.
  Variable dims im : list nat.
  Hypothesis Hdims : pos_dims dims.
  Hypothesis Hlen : length im = nel_of dims.
  Variable r : list reg.
  Variable P : nat -> option nat.
  Variable val ner : nat.
  Variable joins : list nat.
  Hypothesis HI : Inv dims im r P val joins ner.
  Hypothesis HD : forall p, P p <> None <-> p < length im.
  Let n := length dims.

  Definition dfun (d : nat) (q : nat) : Z :=
    if d <? n then coord dims d q
    else match dof_pair n d with Some (i, j) => (coord dims i q * coord dims j q)%Z | None => 0%Z end.

  Lemma moment_ok d : d < dof_of n ->
    exists acc, moment dims r joins d = Some acc /\ length acc = length im /\
      forall p, p < length im -> forall l, NoDup l -> (forall q, In q l <-> anc P q p) -> nth p acc 0%Z = total_of (dfun d) l.
  Proof.
    intro Hd. unfold moment.
    assert (F : exists f, (if d <? length dims then Some (fun s => Z.of_nat (nth d s 0))
           else do (i, j) <- dof_pair (length dims) d; Some (fun s => Z.of_nat (nth i s 0 * nth j s 0))) = Some f /\
           forall q, f (coords dims q) = dfun d q).
    { unfold dfun. fold n. destruct (Nat.ltb_spec d n) as [L|L].
      - eexists. split; [reflexivity|]. reflexivity.
      - destruct (dof_cover n d L Hd) as (i & j & Hij & Hj & ->). rewrite dof_index_pair by auto. cbn [obind].
        eexists. split; [reflexivity|]. intro q. unfold coord. now rewrite Nat2Z.inj_mul. }
    destruct F as (f & -> & Hf). cbn [obind]. rewrite <- coords_zero by auto.
    destruct (moments_ok dims im r P val ner joins HI HD (fill f dims (nel_of dims) (coords dims 0))) as (acc & E & L & S).
    { now rewrite fill_length. }
    exists acc. split; [exact E|]. split; [exact L|]. intros p Hp l ND Hl. destruct (S p Hp) as (l' & ND' & Hl' & ->).
    assert (Pe : Permutation.Permutation l' l).
    { apply Permutation.NoDup_Permutation; auto. intro q. now rewrite Hl, Hl'. }
    transitivity (total_of (dfun d) l').
    - apply total_ext. intros q Hq. apply Hl' in Hq. apply anc_dom in Hq. destruct Hq as [Hq _]. apply HD in Hq.
      rewrite fill_nth by (auto; lia). apply Hf.
    - unfold total_of. clear - Pe. induction Pe; cbn; lia.
  Qed.

  Lemma ell_ok mer : Forall (fun p => p < length im) mer ->
    exists ell, ell_fit dims r joins mer = Some ell /\
      Forall2 (fun p pt => length pt = dof_of n /\ exists l, NoDup l /\ (forall q, In q l <-> anc P q p) /\
         (forall i, i < n -> nth i pt 0%Q = mean_of (coord dims i) l) /\
         (forall i j, i <= j -> j < n -> nth (dof_index n i j) pt 0%Q = covariance dims i j l)) mer ell.
  Proof.
    intro HM. unfold ell_fit.
    destruct (each_ok (moment dims r joins) (fun d acc => length acc = length im /\
      forall p, p < length im -> forall l, NoDup l -> (forall q, In q l <-> anc P q p) -> nth p acc 0%Z = total_of (dfun d) l)
      (seq 0 (dof_of n))) as (accs & E & F).
    { intros d Hd. apply in_seq in Hd. destruct (moment_ok d ltac:(lia)) as (acc & A & B). exists acc. auto. }
    fold n. rewrite E. cbn [obind].
    assert (LF : forall k, k < dof_of n -> exists acc, nth_error accs k = Some acc /\ length acc = length im /\
      forall p, p < length im -> forall l, NoDup l -> (forall q, In q l <-> anc P q p) -> nth p acc 0%Z = total_of (dfun k) l).
    { intros k Hk. assert (G : forall a ds accs, Forall2 (fun d acc => length acc = length im /\
      forall p, p < length im -> forall l, NoDup l -> (forall q, In q l <-> anc P q p) -> nth p acc 0%Z = total_of (dfun d) l) ds accs ->
        nth_error ds k = Some a -> exists acc, nth_error accs k = Some acc /\ length acc = length im /\
      forall p, p < length im -> forall l, NoDup l -> (forall q, In q l <-> anc P q p) -> nth p acc 0%Z = total_of (dfun a) l).
      { clear. intros a ds accs F. revert k. induction F as [|d acc ds accs H F IH]; intros [|k] E; cbn in *; try discriminate.
        - inversion E; subst. exists acc. auto.
        - apply IH. exact E. }
      destruct (G k (seq 0 (dof_of n)) accs F) as (acc & A); [|exists acc; exact A].
      rewrite nth_error_nth' with (d := 0) by (now rewrite seq_length). now rewrite seq_nth. }
    assert (LA : length accs = dof_of n) by (pose proof (Forall2_len _ _ _ F) as FL; now rewrite seq_length in FL).
    assert (FA : Forall (fun acc => length acc = length im) accs).
    { apply Forall_forall. intros acc Ha. apply In_nth_error in Ha. destruct Ha as [k Hk].
      destruct (LF k) as (acc' & A & B & _); [rewrite <- LA; apply nth_error_Some; congruence|]. congruence. }
    apply each_ok. intros p Hp. rewrite Forall_forall in HM. specialize (HM p Hp).
    rewrite collect_ok by (eapply Forall_impl; [|exact FA]; cbn; intros; lia). cbn [obind].
    pose proof (inv_len _ _ _ _ _ _ _ HI) as Lr.
    destruct (nth_error r p) as [g|] eqn:Eg; [|apply nth_error_None in Eg; lia].
    unfold aget. rewrite Eg. cbn [obind].
    set (o := map (fun acc => inject_Z (nth p acc 0%Z)) accs).
    assert (LO : length o = dof_of n) by (unfold o; now rewrite map_length).
    destruct (central_ok n (inject_Z (Z.of_nat (g_area g))) o LO (dof_of n) 0 o) as (pt & C1 & C2 & C3); auto; try lia.
    rewrite C1. exists pt. split; [reflexivity|]. split; [auto|].
    destruct (inv_area _ _ _ _ _ _ _ HI p (g_area g) (proj2 (HD p) HM)) as (l & A & B & C).
    { unfold ar. now rewrite Eg. }
    exists l. split; [auto|]. split; [auto|].
    assert (NO : forall k, k < dof_of n -> nth k o 0%Q = inject_Z (total_of (dfun k) l)).
    { intros k Hk. destruct (LF k Hk) as (acc & X1 & X2 & X3). unfold o.
      rewrite nth_error_nth with (x := inject_Z (nth p acc 0%Z)); [|rewrite nth_error_map, X1; reflexivity].
      now rewrite (X3 p HM l A B). }
    assert (ME : forall i, i < n -> nth i pt 0%Q = mean_of (coord dims i) l).
    { intros i Hi. assert (i < dof_of n) by (unfold dof_of; lia). rewrite C3 by auto. unfold cmoment.
      destruct (Nat.ltb_spec i n); [|lia]. rewrite NO by auto. unfold mean_of. rewrite C. do 2 f_equal.
      apply total_ext. intros q _. unfold dfun. destruct (Nat.ltb_spec i n); [reflexivity|lia]. }
    split; [exact ME|]. intros i j Hij Hj. pose proof (dof_index_lt n i j Hij Hj) as DL.
    rewrite C3 by lia. unfold cmoment. destruct (Nat.ltb_spec (dof_index n i j) n); [lia|].
    rewrite dof_index_pair by auto. unfold covariance.
    rewrite <- (ME i), <- (ME j) by lia. rewrite (C3 i), (C3 j) by (unfold dof_of; lia). unfold cmoment.
    destruct (Nat.ltb_spec i n); [|lia]. destruct (Nat.ltb_spec j n); [|lia].
    rewrite NO by lia. f_equal. unfold mean_of. rewrite C. do 2 f_equal. apply total_ext. intros q _.
    unfold dfun. destruct (Nat.ltb_spec (dof_index n i j) n); [lia|]. now rewrite dof_index_pair.
  Qed.
End Ell.
