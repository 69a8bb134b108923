(** Elkan's training keeps valid bounds and stops at a fixed point. *)
From Coq Require Import List Arith ZArith Lia Bool.
Import ListNotations.
From Verif Require Import Base Loop MserSort_Proofs Ikm_Model Ikm_Spec IkmDist_Proofs IkmMean_Proofs.
Local Open Scope nat_scope.

Section Elkan.
  Variables (M K N : nat) (data : list Z).
  Definition D (cs : list Z) (x c : nat) : Z := sqdist M (coord M data x) (coord M cs c).
  Definition sizes (b : bounds) : Prop :=
    length (asg b) = N /\ length (up b) = N /\ length (stale b) = N /\ length (low b) = N * K.
  Definition valid (cs : list Z) (b : bounds) (x : nat) : Prop :=
    exists cx, cx < K /\ nth x (asg b) 0%Z = Z.of_nat cx /\ (D cs x cx <= nth x (up b) 0%Z)%Z /\
      (nth x (stale b) true = false -> nth x (up b) 0%Z = D cs x cx) /\
      forall c, c < K -> (coord N (low b) c x <= D cs x c)%Z.
  Definition same_at (b b' : bounds) (x : nat) : Prop :=
    nth x (asg b') 0%Z = nth x (asg b) 0%Z /\ nth x (up b') 0%Z = nth x (up b) 0%Z /\ nth x (stale b') true = nth x (stale b) true /\
    forall c, c < K -> coord N (low b') c x = coord N (low b) c x.
  Lemma valid_same cs b b' x : same_at b b' x -> valid cs b x -> valid cs b' x.
  Proof.
    intros (A & B & C & E) (cx & V1 & V2 & V3 & V4 & V5). exists cx. rewrite A, B, C. repeat split; try assumption.
    intros c Hc. rewrite E; auto.
  Qed.
  Lemma same_refl b x : same_at b b x.
  Proof. repeat split. Qed.
  Lemma same_trans b1 b2 b3 x : same_at b1 b2 x -> same_at b2 b3 x -> same_at b1 b3 x.
  Proof. intros (A & B & C & E) (A' & B' & C' & E'). repeat split; [congruence..|]. intros c Hc. rewrite E', E; auto. Qed.

  Lemma D_nonneg cs x c : (0 <= D cs x c)%Z.
  Proof. apply sqdist_nonneg. Qed.
  Lemma dist_data cs x c : N * M <= length data -> length cs = M * K -> x < N -> c < K -> dist2 M data (x * M) cs (c * M) = Some (D cs x c).
  Proof. intros LD LC Hx Hc. apply dist2_ok; [nia|]. rewrite LC. now apply row_fits. Qed.

  Definition nearest_at (cs : list Z) (asgn : list Z) (x : nat) : Prop :=
    exists cx, nth x asgn 0%Z = Z.of_nat cx /\ a_nearest M K cs (coord M data x) cx.

  (** *** The first assignment *)
  Lemma first_ok cs d b x : N * M <= length data -> length cs = M * K -> current M K cs d -> sizes b -> x < N -> 0 < K ->
    nth x (stale b) true = false -> (forall c, c < K -> coord N (low b) c x = 0%Z) ->
    exists b', elkan_first M K N cs d data x b = Some b' /\ sizes b' /\ valid cs b' x /\
      stale b' = stale b /\ forall x', x' < N -> x' <> x -> same_at b b' x'.
  Proof.
    intros LD LC [Ld Cd] (S1 & S2 & S3 & S4) Hx HK St Lo. unfold elkan_first.
    pose proof (dist_data cs x 0 LD LC Hx HK) as E0. change (0 * M) with 0 in E0. rewrite E0. cbn [obind].
    assert (Z0 : 0 * N + x < N * K) by (apply cell_row; lia). change (aset (low b) x) with (aset (low b) (0 * N + x)). rewrite aset_lt by lia. cbn [obind].
    set (l0 := upd (low b) (0 * N + x) (D cs x 0)).
    match goal with |- context [iter_from (K - 1) 1 ?f ?s] => destruct (iter_from_inv (fun j (st : nat * Z * list Z) =>
      let '(cx, best, l) := st in cx < K /\ best = D cs x cx /\ length l = N * K /\
        (forall c x', c < K -> x' < N -> x' <> x -> coord N l c x' = coord N (low b) c x') /\
        forall c, c < K -> (coord N l c x <= D cs x c)%Z) f K (K - 1) 1 s) as ([[cx best] l] & -> & I1 & I2 & I3 & I4 & I5) end.
    - lia.
    - cbv beta iota. split; [assumption|]. split; [reflexivity|]. unfold l0. rewrite upd_length. split; [assumption|]. split.
      + intros c x' Hc Hx' Ne. rewrite (coord_upd N K) by assumption. destruct (Nat.eqb_spec x' x); [contradiction|]. now rewrite andb_false_r.
      + intros c Hc. rewrite (coord_upd N K) by assumption. rewrite Nat.eqb_refl, andb_true_r. destruct (Nat.eqb_spec c 0) as [->|]; [lia|].
        rewrite Lo by assumption. apply D_nonneg.
    - intros j [[cx best] l] _ Lj (I1 & I2 & I3 & I4 & I5). cbv beta iota.
      rewrite (aget_nth d _ 0%Z) by (rewrite Ld, (Nat.mul_comm K cx); apply cell_lt; assumption). cbn [obind].
      destruct (Z.ltb_spec (nth (K * cx + j) d 0%Z) best).
      + rewrite dist_data by assumption. cbn [obind]. rewrite (Nat.mul_comm N j), aset_lt by (rewrite I3; apply cell_row; assumption). cbn [obind].
        eexists. split; [reflexivity|].
        assert (X : length (upd l (j * N + x) (D cs x j)) = N * K /\
          (forall c x', c < K -> x' < N -> x' <> x -> coord N (upd l (j * N + x) (D cs x j)) c x' = coord N (low b) c x') /\
          forall c, c < K -> (coord N (upd l (j * N + x) (D cs x j)) c x <= D cs x c)%Z).
        { rewrite upd_length. split; [assumption|]. split.
          - intros c x' Hc Hx' Ne. rewrite (coord_upd N K) by assumption. destruct (Nat.eqb_spec x' x); [contradiction|]. rewrite andb_false_r. auto.
          - intros c Hc. rewrite (coord_upd N K) by assumption. rewrite Nat.eqb_refl, andb_true_r. destruct (Nat.eqb_spec c j) as [->|]; [lia|auto]. }
        destruct (Z.ltb_spec (D cs x j) best); cbv beta iota.
        * split; [assumption|]. split; [reflexivity|exact X].
        * split; [assumption|]. split; [assumption|exact X].
      + eexists. split; [reflexivity|]. cbv beta iota. auto.
    - cbn [obind]. rewrite aset_lt by lia. cbn [obind]. rewrite aset_lt by lia. cbn [obind]. eexists. split; [reflexivity|].
      split; [unfold sizes; cbn [asg up stale low]; rewrite !upd_length; auto|]. split; [|split; [reflexivity|]].
      + exists cx. cbn [asg up stale low]. rewrite !nth_upd by lia. rewrite Nat.eqb_refl. repeat split; try assumption; try lia.
      + intros x' Hx' Ne. unfold same_at. cbn [asg up stale low]. rewrite !nth_upd by lia.
        destruct (Nat.eqb_spec x' x); [contradiction|]. repeat split. intros c Hc. auto.
  Qed.
  Lemma first_all cs d asgn : N * M <= length data -> length cs = M * K -> current M K cs d -> length asgn = N -> (0 < N -> 0 < K) ->
    exists b, iter N (elkan_first M K N cs d data) (mk_bounds asgn (repeat 0%Z N) (repeat false N) (repeat 0%Z (N * K))) = Some b /\
      sizes b /\ forall x, x < N -> valid cs b x.
  Proof.
    intros LD LC Cd LA HK.
    match goal with |- context [iter N ?f ?s] => destruct (iter_inv (fun j b => sizes b /\ (forall x, x < j -> x < N -> valid cs b x) /\
      forall x, j <= x -> x < N -> nth x (stale b) true = false /\ forall c, c < K -> coord N (low b) c x = 0%Z) f N s) as (b & -> & S & V & _) end.
    - split; [unfold sizes; cbn [asg up stale low]; rewrite !repeat_length; auto|]. split; [lia|].
      intros x _ Hx. cbn [stale low]. split; [|intros; apply nth_repeat].
      rewrite (nth_indep _ true false) by now rewrite repeat_length. apply nth_repeat.
    - intros x b Hx (S & V & R). destruct (R x (Nat.le_refl _) Hx) as [R1 R2].
      destruct (first_ok cs d b x LD LC Cd S Hx ltac:(apply HK; lia) R1 R2) as (b' & E & S' & V' & Est & O). exists b'. split; [exact E|].
      rewrite Nat.add_1_r. split; [assumption|]. split.
      + intros x' L Hx'. destruct (Nat.eq_dec x' x) as [->|Ne]; [assumption|]. apply (valid_same cs b b'); [now apply O|apply V; lia].
      + intros x' L Hx'. destruct (O x' Hx' ltac:(lia)) as (_ & _ & O3 & O4). destruct (R x' ltac:(lia) Hx') as [Q1 Q2].
        split; [congruence|]. intros c Hc. rewrite O4, Q2; auto.
    - exists b. split; [reflexivity|]. split; [assumption|]. intros x Hx. now apply V.
  Qed.

  (** *** Moving the centers *)
  Lemma move_datum_ok cs cs' c b x : sizes b -> x < N -> c < K -> valid cs b x ->
    (forall c', c' < K -> c' <> c -> forall i, i < M -> coord M cs' c' i = coord M cs c' i) ->
    exists b', move_datum N c (sqdist M (coord M cs c) (coord M cs' c)) x b = Some b' /\ sizes b' /\ valid cs' b' x /\
      asg b' = asg b /\ forall x', x' < N -> x' <> x -> same_at b b' x'.
  Proof.
    intros (S1 & S2 & S3 & S4) Hx Hc (cx & V1 & V2 & V3 & V4 & V5) HC. unfold move_datum. set (d := sqdist M (coord M cs c) (coord M cs' c)).
    pose proof (cell_row N K c x Hc Hx) as Lc. rewrite (aget_nth (low b) _ 0%Z) by lia. cbn [obind].
    fold (coord N (low b) c x). rewrite (aget_nth (asg b) _ 0%Z) by lia. cbn [obind]. rewrite V2.
    set (l' := if (d <? coord N (low b) c x)%Z then _ else _). rewrite aset_lt by lia. cbn [obind].
    assert (OD : forall c', c' < K -> c' <> c -> D cs' x c' = D cs x c').
    { intros c' H1 H2. apply sqdist_ext; [reflexivity|]. intros. now apply HC. }
    assert (HL : forall c', c' < K -> (coord N (upd (low b) (c * N + x) l') c' x <= D cs' x c')%Z).
    { intros c' Hc'. rewrite (coord_upd N K) by assumption. rewrite Nat.eqb_refl, andb_true_r. destruct (Nat.eqb_spec c' c) as [->|Ne].
      - unfold l'. destruct (Z.ltb_spec d (coord N (low b) c x)); [|apply D_nonneg]. apply lower_moves; [now apply V5|assumption].
      - rewrite OD by assumption. auto. }
    assert (HO : forall x' c', c' < K -> x' < N -> x' <> x -> coord N (upd (low b) (c * N + x) l') c' x' = coord N (low b) c' x').
    { intros. rewrite (coord_upd N K) by assumption. destruct (Nat.eqb_spec x' x); [contradiction|]. now rewrite andb_false_r. }
    destruct (Z.eqb_spec (Z.of_nat c) (Z.of_nat cx)) as [E|E].
    - assert (c = cx) by lia. subst cx. rewrite (aget_nth (up b) _ 0%Z) by lia. cbn [obind]. rewrite !aset_lt by lia. cbn [obind].
      eexists. split; [reflexivity|]. split; [unfold sizes; cbn [asg up stale low]; rewrite !upd_length; auto|]. split; [|split; [reflexivity|]].
      + exists c. cbn [asg up stale low]. rewrite !nth_upd by lia. rewrite Nat.eqb_refl. repeat split; try assumption; [|discriminate].
        apply upper_moves. exact V3.
      + intros x' Hx' Ne. unfold same_at. cbn [asg up stale low]. rewrite !nth_upd by lia. destruct (Nat.eqb_spec x' x); [contradiction|].
        repeat split. intros. now apply HO.
    - eexists. split; [reflexivity|]. split; [unfold sizes; cbn [asg up stale low]; rewrite !upd_length; auto|]. split; [|split; [reflexivity|]].
      + exists cx. cbn [asg up stale low]. assert (cx <> c) by lia. rewrite !OD by assumption. repeat split; assumption.
      + intros x' Hx' Ne. unfold same_at. cbn [asg up stale low]. repeat split. intros. now apply HO.
  Qed.
  Lemma move_center_ok m c cs b : length m = M * K -> length cs = M * K -> sizes b -> c < K -> (forall x, x < N -> valid cs b x) ->
    exists cs' b', move_center M N m c (cs, b) = Some (cs', b') /\ length cs' = M * K /\ sizes b' /\ asg b' = asg b /\
      (forall c' i, c' < K -> i < M -> coord M cs' c' i = if c' =? c then coord M m c i else coord M cs c' i) /\
      forall x, x < N -> valid cs' b' x.
  Proof.
    intros Lm LC S Hc V. unfold move_center.
    match goal with |- context [iter M ?f ?s] => destruct (iter_inv (fun j (st : Z * list Z) => let (dist, r) := st in
      dist = zsum j (fun i => (coord M cs c i - coord M m c i) * (coord M cs c i - coord M m c i))%Z /\ length r = M * K /\
      forall c' i, c' < K -> i < M -> coord M r c' i = if (c' =? c) && (i <? j) then coord M m c i else coord M cs c' i) f M s) as ([dist r] & -> & I1 & I2 & I3) end.
    - cbv beta iota. split; [reflexivity|]. split; [assumption|]. intros. change (i <? 0) with false. now rewrite andb_false_r.
    - intros i [dist r] Li (I1 & I2 & I3). cbv beta iota. rewrite Nat.add_1_r. pose proof (cell_row M K c i Hc Li).
      rewrite (aget_nth m _ 0%Z) by lia. cbn [obind]. rewrite (aget_nth r _ 0%Z) by lia. cbn [obind]. rewrite aset_lt by lia. cbn [obind].
      eexists. split; [reflexivity|]. cbv beta iota. fold (coord M m c i) (coord M r c i). rewrite upd_length. split; [|split; [assumption|]].
      + cbn [zsum]. rewrite I1, I3 by assumption. destruct (Nat.ltb_spec i i); [lia|]. rewrite andb_false_r. ring.
      + intros c' i' Hc' Hi'. rewrite (coord_upd M K) by assumption. rewrite I3 by assumption. destruct (Nat.eqb_spec c' c) as [->|]; cbn [andb]; [|reflexivity].
        destruct (Nat.ltb_spec i' i); destruct (Nat.ltb_spec i' (Datatypes.S i)); destruct (Nat.eqb_spec i' i) as [Ei|]; try subst i'; try lia; reflexivity.
    - cbn [obind]. assert (I4 : forall c' i, c' < K -> i < M -> coord M r c' i = if c' =? c then coord M m c i else coord M cs c' i).
      { intros c' i A B. rewrite I3 by assumption. destruct (Nat.ltb_spec i M); [|lia]. now rewrite andb_true_r. }
      assert (Dd : dist = sqdist M (coord M cs c) (coord M r c)).
      { rewrite I1. apply zsum_ext. intros i Li. rewrite I4 by assumption. now rewrite Nat.eqb_refl. }
      rewrite Dd.
      assert (HC : forall c', c' < K -> c' <> c -> forall i, i < M -> coord M r c' i = coord M cs c' i).
      { intros c' A B i Li. rewrite I4 by assumption. now destruct (Nat.eqb_spec c' c). }
      match goal with |- context [iter N ?f ?s] => destruct (iter_inv (fun j b' => sizes b' /\ asg b' = asg b /\ (forall x, x < j -> x < N -> valid r b' x) /\
        forall x, j <= x -> x < N -> valid cs b' x) f N s) as (b' & -> & J1 & J2 & J3 & J4) end.
      + split; [assumption|]. split; [reflexivity|]. split; [lia|auto].
      + intros x b1 Hx (J1 & J2 & J3 & J4). destruct (move_datum_ok cs r c b1 x J1 Hx Hc (J4 x (Nat.le_refl _) Hx) HC) as (b2 & E & S2 & V2 & A2 & O2).
        exists b2. split; [exact E|]. rewrite Nat.add_1_r. split; [assumption|]. split; [congruence|]. split.
        * intros x' L Hx'. destruct (Nat.eq_dec x' x) as [->|Ne]; [assumption|]. apply (valid_same r b1 b2); [now apply O2|apply J3; lia].
        * intros x' L Hx'. apply (valid_same cs b1 b2); [apply O2; lia|apply J4; lia].
      + cbn [obind]. exists r, b'. split; [reflexivity|]. split; [assumption|]. split; [assumption|]. split; [assumption|]. split; [assumption|].
        intros x Hx. now apply J3.
  Qed.
  Lemma move_all m cs b : length m = M * K -> length cs = M * K -> sizes b -> (forall x, x < N -> valid cs b x) ->
    exists cs' b', iter K (move_center M N m) (cs, b) = Some (cs', b') /\ length cs' = M * K /\ sizes b' /\ asg b' = asg b /\
      (forall c i, c < K -> i < M -> coord M cs' c i = coord M m c i) /\ forall x, x < N -> valid cs' b' x.
  Proof.
    intros Lm LC S V.
    match goal with |- context [iter K ?f ?s] => destruct (iter_inv (fun j (st : list Z * bounds) => let (cs', b') := st in length cs' = M * K /\ sizes b' /\ asg b' = asg b /\
      (forall c i, c < K -> i < M -> c < j -> coord M cs' c i = coord M m c i) /\ forall x, x < N -> valid cs' b' x) f K s) as ([cs' b'] & -> & I1 & I2 & I3 & I4 & I5) end.
    - cbv beta iota. repeat split; try assumption; try apply S. lia.
    - intros c [cs1 b1] Hc (I1 & I2 & I3 & I4 & I5). destruct (move_center_ok m c cs1 b1 Lm I1 I2 Hc I5) as (cs2 & b2 & E & L2 & S2 & A2 & C2 & V2).
      exists (cs2, b2). split; [exact E|]. cbv beta iota. rewrite Nat.add_1_r. split; [assumption|]. split; [assumption|]. split; [congruence|]. split; [|assumption].
      intros c' i Hc' Hi L. rewrite C2 by assumption. destruct (Nat.eqb_spec c' c) as [->|]; [reflexivity|]. apply I4; [assumption..|lia].
    - exists cs', b'. split; [reflexivity|]. repeat split; try assumption; try apply I2. intros c i Hc Hi. now apply I4.
  Qed.

  (** *** The smallest distance to another center *)
  Lemma closest_ok d : length d = K * K ->
    exists s, closest K d = Some s /\ length s = K /\ forall c cp, c < K -> cp < K -> cp <> c -> (nth c s 0 <= nth (c * K + cp) d 0 / 4)%Z.
  Proof.
    intro Ld. unfold closest.
    match goal with |- context [iter K ?f ?t] => destruct (iter_inv (fun j (s : list Z) => length s = j /\
      forall c cp, c < j -> cp < K -> cp <> c -> (nth c s 0 <= nth (c * K + cp) d 0 / 4)%Z) f K t) as (s & -> & I1 & I2) end.
    - split; [reflexivity|lia].
    - intros c s Hc [I1 I2]. cbv beta.
      match goal with |- context [iter K ?f ?s] => destruct (iter_inv (fun j best => forall cp, cp < j -> cp <> c -> (best <= nth (c * K + cp) d 0)%Z) f K s) as (best & -> & J) end.
      + lia.
      + intros cp best Hp J. cbv beta. rewrite (aget_nth d _ 0%Z) by (rewrite Ld; now apply cell_lt). cbn [obind]. eexists. split; [reflexivity|].
        rewrite Nat.add_1_r. intros cp' L Ne. destruct (Nat.eqb_spec c cp) as [->|]; cbn [negb andb].
        * apply J; lia.
        * destruct (Nat.eq_dec cp' cp) as [->|]; [destruct (Z.ltb_spec (nth (c * K + cp) d 0%Z) best); lia|].
          specialize (J cp' ltac:(lia) Ne). destruct (Z.ltb_spec (nth (c * K + cp) d 0%Z) best); lia.
      + cbn [obind]. eexists. split; [reflexivity|]. rewrite app_length, I1. cbn [length]. split; [reflexivity|]. rewrite Nat.add_1_r.
        intros c' cp L Hp Ne. destruct (Nat.eq_dec c' c) as [->|].
        * rewrite app_nth2, I1, Nat.sub_diag by lia. cbn [nth]. rewrite Z.shiftr_div_pow2 by lia. apply Z.div_le_mono; [lia|]. now apply J.
        * rewrite app_nth1 by lia. apply I2; [lia|assumption..].
    - exists s. split; [reflexivity|]. split; [assumption|]. intros. now apply I2.
  Qed.

  (** *** Reassigning a datum *)
  Lemma compare_ok cs d x cx done0 asg0 : N * M <= length data -> length cs = M * K -> current M K cs d -> x < N -> cx < K ->
    nth x asg0 0%Z = Z.of_nat cx ->
    forall b ux done c,
    let I := fun j (st : bounds * Z * bool) => let '(b, ux, done) := st in
      sizes b /\ (forall x', x' < N -> valid cs b x') /\ ux = nth x (up b) 0%Z /\
      (nth x (stale b) true = true -> nth x (asg b) 0%Z = Z.of_nat cx) /\
      (done = true -> done0 = true /\ asg b = asg0 /\ forall c, c < K -> c < j -> (D cs x cx <= D cs x c)%Z) in
    c < K -> I c (b, ux, done) ->
    exists st, compare_center M K N cs d data x (Z.of_nat cx) c (b, ux, done) = Some st /\ I (c + 1) st.
  Proof.
    intros LD LC [Ld Cd] Hx Hcx A0 b ux done c I Hc H. rewrite Nat.add_1_r. destruct H as (S & V & U & St & Dn). unfold compare_center.
    destruct (Z.eqb_spec (Z.of_nat c) (Z.of_nat cx)) as [E|E].
    { assert (c = cx) by lia. subst cx. eexists. split; [reflexivity|]. cbv beta iota. repeat split; try assumption; try apply S.
      - now apply Dn.
      - now apply Dn.
      - intros c' Hc' L. destruct (Nat.eq_dec c' c) as [->|]; [lia|]. apply Dn; [assumption..|lia]. }
    assert (Ne : c <> cx) by lia. clear E. destruct S as (S1 & S2 & S3 & S4). pose proof (cell_row N K c x Hc Hx) as Lc.
    rewrite (Nat.mul_comm N c), (aget_nth (low b) _ 0%Z) by lia. cbn [obind]. fold (coord N (low b) c x).
    rewrite <- Nat2Z.inj_add, (Nat.mul_comm K c), zget_nth by (rewrite Ld; now apply cell_lt). cbn [obind]. rewrite Cd by assumption.
    set (l := coord N (low b) c x) in *. set (dd := (sqdist M (coord M cs c) (coord M cs cx) / 4)%Z) in *.
    destruct (V x Hx) as (ca & V1 & V2 & V3 & V4 & V5).
    (* skipping is justified when the bound concerns the old center *)
    assert (SK : forall w, (D cs x cx <= w)%Z -> (w <=? l)%Z || (w <=? dd)%Z = true -> (D cs x cx <= D cs x c)%Z).
    { intros w Hw O. apply orb_prop in O. destruct O as [O|O]; apply Z.leb_le in O.
      - specialize (V5 c Hc). fold l in V5. lia.
      - apply prune. rewrite (sqdist_sym M (coord M cs cx)). fold (D cs x cx). unfold dd in O.
        pose proof (Z.mul_div_le (sqdist M (coord M cs c) (coord M cs cx)) 4 ltac:(lia)). lia. }
    destruct ((ux <=? l)%Z || (ux <=? dd)%Z) eqn:Skip.
    { eexists. split; [reflexivity|]. cbv beta iota. split; [repeat split; assumption|]. split; [assumption|]. split; [assumption|]. split; [assumption|].
      intro Dt. destruct (Dn Dt) as (D1 & D2 & D3). split; [assumption|]. split; [assumption|]. intros c' Hc' L.
      destruct (Nat.eq_dec c' c) as [->|]; [|apply D3; [assumption|lia]]. apply (SK ux); [|assumption].
      rewrite D2, A0 in V2. assert (ca = cx) by lia. subst ca. lia. }
    rewrite (aget_nth (stale b) _ true) by lia. cbn [obind].
    set (mid := if nth x (stale b) true then _ else _).
    assert (HM : exists b1 ux1 skip, mid = Some (b1, ux1, skip) /\ sizes b1 /\ (forall x', x' < N -> valid cs b1 x') /\ ux1 = nth x (up b1) 0%Z /\
      nth x (stale b1) true = false /\ asg b1 = asg b /\ low b1 = low b /\ (skip = true -> (ux1 <=? l)%Z || (ux1 <=? dd)%Z = true)).
    { unfold mid. destruct (nth x (stale b) true) eqn:Es.
      - specialize (St eq_refl). rewrite Nat2Z.id, dist_data by assumption. cbn [obind]. rewrite aset_lt by lia. cbn [obind]. rewrite aset_lt by lia. cbn [obind].
        eexists _, _, _. split; [reflexivity|]. split; [unfold sizes; cbn [asg up stale low]; rewrite !upd_length; auto|]. cbn [asg up stale low].
        rewrite !nth_upd by lia. rewrite Nat.eqb_refl. repeat split; auto.
        intros x' Hx'. destruct (Nat.eq_dec x' x) as [->|Nx].
        + exists cx. cbn [asg up stale low]. rewrite !nth_upd by lia. rewrite Nat.eqb_refl. repeat split; auto. lia.
        + apply (valid_same cs b); [|now apply V]. unfold same_at. cbn [asg up stale low]. rewrite !nth_upd by lia. destruct (Nat.eqb_spec x' x); [contradiction|]. repeat split.
      - exists b, ux, false. split; [reflexivity|]. repeat split; auto. discriminate. }
    destruct HM as (b1 & ux1 & skip & -> & T & V' & U' & St' & A' & L' & K'). cbn [obind].
    destruct (V' x Hx) as (ca' & W1 & W2 & W3 & W4 & W5). specialize (W4 St').
    destruct skip.
    { specialize (K' eq_refl). eexists. split; [reflexivity|]. cbv beta iota. split; [assumption|]. split; [assumption|]. split; [assumption|]. split; [congruence|].
      intro Dt. destruct (Dn Dt) as (D1 & D2 & D3). split; [assumption|]. split; [congruence|]. intros c' Hc' L.
      destruct (Nat.eq_dec c' c) as [->|]; [|apply D3; [assumption|lia]]. apply (SK ux1); [|assumption].
      rewrite A', D2, A0 in W2. assert (ca' = cx) by lia. subst ca'. lia. }
    rewrite dist_data by assumption. cbn [obind]. destruct T as (T1 & T2 & T3 & T4). rewrite aset_lt by lia. cbn [obind asg up stale low].
    assert (HL : forall x' c', x' < N -> c' < K -> coord N (upd (low b1) (c * N + x) (D cs x c)) c' x' = if (c' =? c) && (x' =? x) then D cs x c else coord N (low b1) c' x').
    { intros. now rewrite (coord_upd N K). }
    destruct (Z.ltb_spec (D cs x c) ux1) as [Lt|Ge].
    - rewrite aset_lt by lia. cbn [obind]. rewrite aset_lt by lia. cbn [obind]. eexists. split; [reflexivity|]. cbv beta iota.
      split; [unfold sizes; cbn [asg up stale low]; rewrite !upd_length; auto|]. cbn [asg up stale low]. split; [|split; [|split; [|discriminate]]].
      + intros x' Hx'. destruct (Nat.eq_dec x' x) as [->|Nx].
        * exists c. cbn [asg up stale low]. rewrite !nth_upd by lia. rewrite Nat.eqb_refl. repeat split; auto; [lia|].
          intros c' Hc'. rewrite HL by assumption. rewrite Nat.eqb_refl, andb_true_r. destruct (Nat.eqb_spec c' c) as [->|]; [lia|auto].
        * apply (valid_same cs b1); [|now apply V']. unfold same_at. cbn [asg up stale low]. rewrite !nth_upd by lia.
          destruct (Nat.eqb_spec x' x); [contradiction|]. repeat split. intros c' Hc'. rewrite HL by assumption.
          destruct (Nat.eqb_spec x' x); [contradiction|]. now rewrite andb_false_r.
      + rewrite nth_upd by lia. now rewrite Nat.eqb_refl.
      + congruence.
    - eexists. split; [reflexivity|]. cbv beta iota.
      split; [unfold sizes; cbn [asg up stale low]; rewrite !upd_length; auto|]. cbn [asg up stale low]. split; [|split; [assumption|split; [congruence|]]].
      + intros x' Hx'. destruct (Nat.eq_dec x' x) as [->|Nx].
        * exists ca'. cbn [asg up stale low]. repeat split; auto.
          intros c' Hc'. rewrite HL by assumption. rewrite Nat.eqb_refl, andb_true_r. destruct (Nat.eqb_spec c' c) as [->|]; [lia|auto].
        * apply (valid_same cs b1); [|now apply V']. unfold same_at. cbn [asg up stale low].
          repeat split. intros c' Hc'. rewrite HL by assumption.
          destruct (Nat.eqb_spec x' x); [contradiction|]. now rewrite andb_false_r.
      + intro Dt. destruct (Dn Dt) as (D1 & D2 & D3). split; [assumption|]. split; [congruence|]. intros c' Hc' L.
        destruct (Nat.eq_dec c' c) as [->|]; [|apply D3; [assumption|lia]].
        rewrite A', D2, A0 in W2. assert (ca' = cx) by lia. subst ca'. lia.
  Qed.
  Lemma assign_ok cs d s asg0 b : N * M <= length data -> length cs = M * K -> current M K cs d -> length s = K ->
    (forall c cp, c < K -> cp < K -> cp <> c -> (nth c s 0 <= nth (c * K + cp) d 0 / 4)%Z) ->
    sizes b -> (forall x, x < N -> valid cs b x) -> asg b = asg0 ->
    exists b' done, iter N (assign_datum M K N cs d s data) (b, true) = Some (b', done) /\ sizes b' /\ (forall x, x < N -> valid cs b' x) /\
      (done = true -> asg b' = asg0 /\ forall x, x < N -> nearest_at cs asg0 x).
  Proof.
    intros LD LC Cur Ls HS S V A0.
    match goal with |- context [iter N ?f ?t] => destruct (iter_inv (fun j (st : bounds * bool) => let (b', done) := st in sizes b' /\ (forall x, x < N -> valid cs b' x) /\
      (done = true -> asg b' = asg0 /\ forall x, x < j -> nearest_at cs asg0 x)) f N t) as ([b' done] & -> & I) end.
    - cbv beta iota. split; [assumption|]. split; [assumption|]. intros _. split; [assumption|lia].
    - intros x [b1 done] Hx (S1 & V1 & D1). unfold assign_datum. destruct (V1 x Hx) as (cx & W1 & W2 & W3 & W4 & W5).
      destruct S1 as (T1 & T2 & T3 & T4). rewrite (aget_nth (asg b1) _ 0%Z) by lia. cbn [obind]. rewrite (aget_nth (up b1) _ 0%Z) by lia. cbn [obind].
      rewrite W2, zget_nth by lia. cbn [obind]. rewrite Nat.add_1_r.
      destruct (Z.leb_spec (nth x (up b1) 0%Z) (nth cx s 0%Z)) as [Le|Gt].
      + eexists. split; [reflexivity|]. cbv beta iota. split; [repeat split; assumption|]. split; [assumption|]. intro Dt. destruct (D1 Dt) as [A1 N1].
        split; [assumption|]. intros x' L. destruct (Nat.eq_dec x' x) as [->|]; [|apply N1; lia]. exists cx. rewrite <- A1. split; [assumption|].
        split; [assumption|]. intros c Hc. destruct (Nat.eq_dec c cx) as [->|Ne]; [lia|]. apply prune.
        specialize (HS cx c W1 Hc Ne). destruct Cur as [Ld Cd]. rewrite Cd in HS by assumption. fold (D cs x cx).
        pose proof (sqdist_nonneg M (coord M cs cx) (coord M cs c)). set (e := sqdist M (coord M cs cx) (coord M cs c)) in *.
        pose proof (Z.mul_div_le e 4 ltac:(lia)). pose proof (Z.mul_div_le (e / 4) 4 ltac:(lia)).
        assert (0 <= e / 4)%Z by (apply Z.div_pos; lia). assert (0 <= e / 4 / 4)%Z by (apply Z.div_pos; lia). lia.
      + destruct (iter_inv (fun j (st : bounds * Z * bool) => let '(b, ux, dn) := st in
          sizes b /\ (forall x', x' < N -> valid cs b x') /\ ux = nth x (up b) 0%Z /\
          (nth x (stale b) true = true -> nth x (asg b) 0%Z = Z.of_nat cx) /\
          (dn = true -> done = true /\ asg b = asg b1 /\ forall c, c < K -> c < j -> (D cs x cx <= D cs x c)%Z))
          (compare_center M K N cs d data x (Z.of_nat cx)) K (b1, nth x (up b1) 0%Z, done)) as ([[b2 ux] dn] & -> & S2 & V2 & _ & _ & D2).
        * cbv beta iota. split; [repeat split; assumption|]. repeat split; auto. lia.
        * intros c [[b2 ux] dn] Hc H. exact (compare_ok cs d x cx done (asg b1) LD LC Cur Hx W1 W2 b2 ux dn c Hc H).
        * cbn [obind]. eexists. split; [reflexivity|]. cbv beta iota. split; [assumption|]. split; [assumption|]. intro Dt. destruct (D2 Dt) as (E1 & E2 & E3).
          destruct (D1 E1) as [A1 N1]. split; [congruence|]. intros x' L. destruct (Nat.eq_dec x' x) as [->|]; [|apply N1; lia].
          exists cx. rewrite <- A1. split; [assumption|]. split; [assumption|]. intros c Hc. now apply E3.
    - exists b', done. split; [reflexivity|exact I].
  Qed.

  Lemma valid_labels cs b : (forall x, x < N -> valid cs b x) -> labels K N (asg b).
  Proof. intros V x Hx. destruct (V x Hx) as (cx & A & B & _). exists cx. auto. Qed.
  Lemma are_means_ext asgn cs cs' : (forall c i, c < K -> i < M -> coord M cs' c i = coord M cs c i) -> are_means M K N data asgn cs -> are_means M K N data asgn cs'.
  Proof. intros E A c i Hc Hi. rewrite E by assumption. now apply A. Qed.
  Lemma pass_ok cs d b : K <= N -> N * M <= length data -> bytes data -> length cs = M * K -> length d = K * K -> sizes b -> (forall x, x < N -> valid cs b x) ->
    exists cs' d' b' done, elkan_pass M K N data cs d b = Some (cs', d', b', done) /\ length cs' = M * K /\ bytes cs' /\ current M K cs' d' /\
      sizes b' /\ (forall x, x < N -> valid cs' b' x) /\
      (done = true -> are_means M K N data (asg b') cs' /\ forall x, x < N -> nearest_at cs' (asg b') x).
  Proof.
    intros KN LD B LC Ld S V. unfold elkan_pass.
    destruct (means_ok M K N data (asg b) KN LD (proj1 S) (valid_labels cs b V) B) as (m & -> & Lm & Am & Bm). cbn [obind].
    destruct (move_all m cs b Lm LC S V) as (cs1 & b1 & -> & L1 & S1 & A1 & C1 & V1). cbn [obind].
    destruct (update_inter_ok M K cs1 d L1 Ld) as (d1 & -> & Cur). cbn [obind].
    destruct (closest_ok d1 (proj1 Cur)) as (s & -> & Ls & HS). cbn [obind].
    destruct (assign_ok cs1 d1 s (asg b) b1 LD L1 Cur Ls HS S1 V1 A1) as (b2 & done & -> & S2 & V2 & D2). cbn [obind].
    exists cs1, d1, b2, done. split; [reflexivity|]. split; [assumption|]. split.
    { apply (bytes_nth M K); [assumption|]. intros c i Hc Hi. rewrite C1 by assumption. apply byte_nth, Bm. }
    split; [assumption|]. split; [assumption|]. split; [assumption|]. intro Dt. destruct (D2 Dt) as [E Nr]. rewrite E. split; [|assumption].
    now apply (are_means_ext _ m).
  Qed.
  Lemma loop_ok nit : K <= N -> N * M <= length data -> bytes data -> forall fuel pass cs d b, pass + fuel = nit + 1 -> 0 < fuel ->
    length cs = M * K -> length d = K * K -> sizes b -> (forall x, x < N -> valid cs b x) ->
    exists cs' d' b' done p, elkan_loop fuel M K N nit data pass cs d b = Some (cs', d', b', done, p) /\ p <= nit /\ (done = true \/ p = nit) /\
      length cs' = M * K /\ bytes cs' /\ current M K cs' d' /\ length (asg b') = N /\ labels K N (asg b') /\
      (done = true -> are_means M K N data (asg b') cs' /\ forall x, x < N -> nearest_at cs' (asg b') x).
  Proof.
    intros KN LD B. induction fuel as [|fuel IH]; intros pass cs d b F P LC Ld S V; [lia|]. cbn [elkan_loop].
    destruct (pass_ok cs d b KN LD B LC Ld S V) as (cs1 & d1 & b1 & done & -> & L1 & B1 & Cur & S1 & V1 & D1). cbn [obind].
    destruct (done || (pass =? nit)) eqn:E.
    - exists cs1, d1, b1, done, pass. split; [reflexivity|]. split; [lia|]. split.
      { apply orb_prop in E. destruct E as [E|E]; [now left|right]. now apply Nat.eqb_eq. }
      repeat split; try assumption; try apply Cur; try apply S1; try (now apply D1). now apply (valid_labels cs1).
    - apply orb_false_elim in E. destruct E as [_ E]. apply Nat.eqb_neq in E. apply (IH (pass + 1) cs1 d1 b1); try assumption; try lia. apply Cur.
  Qed.
End Elkan.

Lemma elkan_train_ok M K N nit data cs d asgn : K <= N -> (0 < N -> 0 < K) -> N * M <= length data -> bytes data -> length cs = M * K -> length d = K * K -> length asgn = N ->
  exists cs' d' b done p, elkan_train M K N nit data cs d asgn = Some (cs', d', b, done, p) /\ p <= nit /\ (done = true \/ p = nit) /\
    length cs' = M * K /\ bytes cs' /\ current M K cs' d' /\ length (asg b) = N /\ labels K N (asg b) /\
    (done = true -> are_means M K N data (asg b) cs' /\ forall x, x < N -> nearest_at M K data cs' (asg b) x).
Proof.
  intros KN HK LD B LC Ld LA. unfold elkan_train. destruct (update_inter_ok M K cs d LC Ld) as (d1 & -> & Cur). cbn [obind].
  destruct (first_all M K N data cs d1 asgn LD LC Cur LA HK) as (b & -> & S & V). cbn [obind].
  apply (loop_ok M K N data nit KN LD B (nit + 1) 0 cs d1 b); try assumption; try lia. apply Cur.
Qed.
