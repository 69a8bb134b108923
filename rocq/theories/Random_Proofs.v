From Coq Require Import List NArith ZArith QArith Arith Lia Bool.
From Verif Require Import Base Random_Model Random_Spec.
Import ListNotations.
Local Open Scope N_scope.

(** ** Bit bounds *)
Lemma lt_pow2_bits a n : a < 2 ^ n <-> (forall k, n <= k -> N.testbit a k = false).
Proof.
  split.
  - intros H k Hk. destruct (N.eq_dec a 0) as [->|Ha]; [apply N.bits_0|].
    apply N.bits_above_log2. apply N.log2_lt_pow2 in H; lia.
  - intro H. destruct (N.eq_dec a 0) as [->|Ha]; [apply N.neq_0_lt_0, N.pow_nonzero; lia|].
    apply N.log2_lt_pow2; [lia|].
    destruct (N.lt_ge_cases (N.log2 a) n) as [L|L]; auto.
    specialize (H _ L). rewrite N.bit_log2 in H by auto. discriminate.
Qed.

Lemma lxor_lt n a b : a < 2 ^ n -> b < 2 ^ n -> N.lxor a b < 2 ^ n.
Proof.
  rewrite !lt_pow2_bits. intros Ha Hb k Hk. rewrite N.lxor_spec, Ha, Hb; auto.
Qed.
Lemma lor_lt n a b : a < 2 ^ n -> b < 2 ^ n -> N.lor a b < 2 ^ n.
Proof.
  rewrite !lt_pow2_bits. intros Ha Hb k Hk. rewrite N.lor_spec, Ha, Hb; auto.
Qed.
Lemma land_lt_r n a b : b < 2 ^ n -> N.land a b < 2 ^ n.
Proof.
  rewrite !lt_pow2_bits. intros Hb k Hk. rewrite N.land_spec, Hb, andb_false_r; auto.
Qed.
Lemma shiftr_lt n a k : a < 2 ^ n -> N.shiftr a k < 2 ^ n.
Proof.
  rewrite !lt_pow2_bits. intros Ha j Hj. rewrite N.shiftr_spec', Ha; auto. lia.
Qed.
Lemma w32_lt x : w32 x < 2 ^ 32.
Proof. unfold w32. apply N.mod_lt. discriminate. Qed.

Lemma temper_lt y : y < 2 ^ 32 -> temper y < 2 ^ 32.
Proof.
  intro H. unfold temper.
  repeat (first [ assumption | apply lxor_lt | apply shiftr_lt | apply land_lt_r ]);
  reflexivity.
Qed.

(** ** Seeding *)
Lemma seed_loop_spec s : forall n mt i,
  (1 <= i)%nat -> (i + n = length mt)%nat ->
  (forall j, (j < i)%nat -> nth_error mt j = Some (mt_seed_word s j)) ->
  seed_loop n mt i = Some (map (mt_seed_word s) (seq 0 (length mt)), (i + n)%nat).
Proof.
  induction n as [|n IH]; intros mt i Hi Hn H; cbn [seed_loop].
  - replace (i + 0)%nat with i by lia. do 2 f_equal.
    apply nth_error_ext'. intro j. destruct (Nat.lt_ge_cases j i).
    + rewrite H by auto. symmetry. rewrite nth_error_map.
      rewrite (nth_error_nth' _ 0%nat) by (rewrite seq_length; lia).
      rewrite seq_nth by lia. reflexivity.
    + rewrite (proj2 (nth_error_None _ _)) by lia.
      symmetry. apply nth_error_None. rewrite map_length, seq_length; lia.
  - unfold aget. rewrite (H (i - 1)%nat) by lia. cbn [obind].
    rewrite aset_lt by lia. cbn [obind].
    rewrite (IH _ (i + 1)%nat); rewrite ?upd_length; try lia.
    + do 2 f_equal. lia.
    + intros j Hj. destruct (Nat.eq_dec j i) as [->|Hne].
      * rewrite nth_error_upd_eq by lia. f_equal.
        destruct i as [|i]; [lia|]. cbn [mt_seed_word]. unfold w32.
        replace (S i - 1)%nat with i by lia. rewrite N.shiftr_div_pow2. reflexivity.
      * rewrite nth_error_upd_neq by auto. apply H. lia.
Qed.

Definition seeded (s : N) : vlrand := mk_rand (map (mt_seed_word s) (seq 0 mtN)) mtN.

Lemma rand_seed_eq g s : length (r_mt g) = mtN -> rand_seed g s = Some (seeded s).
Proof.
  intro HL. unfold rand_seed. unfold mtN in HL. rewrite aset_lt by lia. cbn [obind].
  rewrite (seed_loop_spec s); rewrite ?upd_length, ?HL; unfold mtN; try lia.
  - reflexivity.
  - intros j Hj. assert (j = 0%nat) as -> by lia. apply nth_error_upd_eq; lia.
Qed.

Lemma mt_seed_word_lt s i : mt_seed_word s i < 2 ^ 32.
Proof. destruct i; cbn [mt_seed_word]; apply N.mod_lt; discriminate. Qed.

(** ** Well-formed generators *)
Definition words_ok (mt : list N) : Prop := length mt = mtN /\ Forall (fun w => w < 2 ^ 32) mt.
Definition rand_wf (g : vlrand) : Prop :=
  words_ok (r_mt g) /\ ((r_mti g <= mtN)%nat \/ r_mti g = (mtN + 1)%nat).

Lemma words_ok_upd mt i v : words_ok mt -> v < 2 ^ 32 -> words_ok (upd mt i v).
Proof.
  intros [HL HF] Hv. split; [rewrite upd_length; auto|].
  rewrite Forall_forall in *. intros x Hx.
  apply In_nth_error in Hx as [j Hj]. rewrite nth_error_upd in Hj.
  destruct ((j =? i)%nat && (i <? length mt)%nat).
  - inversion Hj; subst; auto.
  - apply HF. eapply nth_error_In; eauto.
Qed.

Lemma words_ok_get mt i : words_ok mt -> (i < mtN)%nat ->
  exists w, aget mt i = Some w /\ w < 2 ^ 32.
Proof.
  intros [HL HF] Hi. destruct (aget_lt mt i) as [w Hw]; [lia|].
  exists w; split; auto. rewrite Forall_forall in HF. apply HF.
  eapply nth_error_In; eauto.
Qed.

Lemma seeded_wf s : rand_wf (seeded s).
Proof.
  split; [split|]; cbn [r_mt r_mti seeded].
  - rewrite map_length, seq_length. reflexivity.
  - apply Forall_forall. intros x Hx. apply in_map_iff in Hx as (i & <- & _).
    apply mt_seed_word_lt.
  - left; lia.
Qed.

Lemma wrap_step_ok mt i (v : N) : words_ok mt -> (1 <= i < mtN)%nat -> v < 2 ^ 32 ->
  exists mt2 i2,
    (do mt1 <- aset mt i v;
     (if (mtN <=? i + 1)%nat
      then do e <- aget mt1 (mtN - 1); do m <- aset mt1 0 e; Some (m, 1%nat)
      else Some (mt1, (i + 1)%nat))) = Some (mt2, i2)
    /\ words_ok mt2 /\ (1 <= i2 < mtN)%nat.
Proof.
  intros HW Hi Hv. pose proof (proj1 HW) as HL.
  rewrite aset_lt by lia. cbn [obind].
  pose proof (words_ok_upd mt i v HW Hv) as HW1.
  destruct (Nat.leb_spec mtN (i + 1)).
  - destruct (words_ok_get _ (mtN - 1) HW1) as (e & -> & He); [unfold mtN; lia|].
    cbn [obind]. rewrite aset_lt by (rewrite upd_length, HL; unfold mtN; lia). cbn [obind].
    eexists _, _. split; [reflexivity|]. split; [apply words_ok_upd; auto|unfold mtN; lia].
  - eexists _, _. split; [reflexivity|]. split; [auto|lia].
Qed.

Lemma key_loop1_ok : forall k mt key i j,
  words_ok mt -> (1 <= i < mtN)%nat -> (j < length key)%nat ->
  exists mt' i', key_loop1 k mt key i j = Some (mt', i') /\ words_ok mt' /\ (1 <= i' < mtN)%nat.
Proof.
  induction k as [|k IH]; intros mt key i j HW Hi Hj; cbn [key_loop1].
  - eauto.
  - destruct (words_ok_get mt i HW) as (a & -> & Ha); [lia|]. cbn [obind].
    destruct (words_ok_get mt (i-1) HW) as (p & -> & Hp); [lia|]. cbn [obind].
    destruct (aget_lt key j Hj) as (kj & ->). cbn [obind].
    match goal with |- context [aset mt i ?v] =>
      destruct (wrap_step_ok mt i v HW Hi (w32_lt _)) as (mt2 & i2 & E & HW2 & Hi2) end.
    destruct (aset mt i _) as [mt1|]; [|discriminate]. cbn [obind] in *.
    rewrite E. cbn [obind]. apply IH; auto.
    destruct (Nat.leb_spec (length key) (j + 1)); lia.
Qed.

Lemma key_loop2_ok : forall k mt i,
  words_ok mt -> (1 <= i < mtN)%nat ->
  exists mt', key_loop2 k mt i = Some mt' /\ words_ok mt'.
Proof.
  induction k as [|k IH]; intros mt i HW Hi; cbn [key_loop2].
  - eauto.
  - destruct (words_ok_get mt i HW) as (a & -> & Ha); [lia|]. cbn [obind].
    destruct (words_ok_get mt (i-1) HW) as (p & -> & Hp); [lia|]. cbn [obind].
    match goal with |- context [aset mt i ?v] =>
      destruct (wrap_step_ok mt i v HW Hi (w32_lt _)) as (mt2 & i2 & E & HW2 & Hi2) end.
    destruct (aset mt i _) as [mt1|]; [|discriminate]. cbn [obind] in *.
    rewrite E. cbn [obind]. apply IH; auto.
Qed.

Lemma seed_by_array_ok g key : length (r_mt g) = mtN -> key <> [] ->
  exists g', rand_seed_by_array g key = Some g' /\ rand_wf g'.
Proof.
  intros HL HK. unfold rand_seed_by_array. rewrite rand_seed_eq by auto. cbn [obind].
  pose proof (seeded_wf 19650218) as [HW _].
  destruct (key_loop1_ok (Nat.max mtN (length key)) (r_mt (seeded 19650218)) key 1 0 HW)
    as (mt1 & i & -> & HW1 & Hi); [unfold mtN; lia|destruct key; [congruence|cbn; lia]|].
  cbn [obind].
  destruct (key_loop2_ok (mtN - 1) mt1 i HW1 Hi) as (mt2 & -> & HW2). cbn [obind].
  rewrite aset_lt by (rewrite (proj1 HW2); unfold mtN; lia). cbn [obind].
  eexists; split; [reflexivity|]. split; cbn [r_mt r_mti].
  - apply words_ok_upd; auto. reflexivity.
  - left. cbn. lia.
Qed.

(** the result does not depend on the previous state *)
Lemma seed_by_array_indep g1 g2 key :
  length (r_mt g1) = mtN -> length (r_mt g2) = mtN ->
  rand_seed_by_array g1 key = rand_seed_by_array g2 key.
Proof. intros H1 H2. unfold rand_seed_by_array. rewrite !rand_seed_eq by auto. reflexivity. Qed.

(** ** The refill computes the recurrence *)
Lemma twist_eq a b : a < 2 ^ 32 -> forall c,
  let y := N.lor (N.land a UPPER_MASK) (N.land b LOWER_MASK) in
  N.lxor (N.lxor c (N.shiftr y 1)) (mag01 (N.land y 1)) = N.lxor c (mt_twist a b).
Proof.
  intros Ha c y.
  assert (E1 : N.land a UPPER_MASK = 2 ^ 31 * (a / 2 ^ 31)).
  { change UPPER_MASK with (N.shiftl 1 31). apply N.bits_inj. intro k.
    rewrite N.land_spec, N.mul_comm, <- N.shiftl_mul_pow2, <- N.shiftr_div_pow2.
    destruct (N.lt_ge_cases k 31).
    - rewrite !N.shiftl_spec_low by auto. apply andb_false_r.
    - rewrite !N.shiftl_spec_high' by auto. rewrite N.shiftr_spec'.
      replace (k - 31 + 31) with k by lia.
      destruct (N.eq_dec k 31) as [->|]; [apply andb_true_r|].
      assert (E0 : N.testbit a k = false) by (apply (proj1 (lt_pow2_bits a 32) Ha); lia).
      rewrite E0. reflexivity. }
  assert (E2 : N.land b LOWER_MASK = b mod 2 ^ 31).
  { change LOWER_MASK with (N.ones 31). apply N.land_ones. }
  assert (E3 : y = 2 ^ 31 * (a / 2 ^ 31) + b mod 2 ^ 31).
  { unfold y. rewrite E1, E2. rewrite <- N.lxor_lor.
    - rewrite <- N.add_nocarry_lxor; [reflexivity|].
      apply N.bits_inj. intro k. rewrite N.land_spec, N.bits_0.
      rewrite N.mul_comm, <- N.shiftl_mul_pow2.
      destruct (N.lt_ge_cases k 31).
      + rewrite N.shiftl_spec_low by auto. reflexivity.
      + rewrite N.mod_pow2_bits_high by auto. apply andb_false_r.
    - apply N.bits_inj. intro k. rewrite N.land_spec, N.bits_0.
      rewrite N.mul_comm, <- N.shiftl_mul_pow2.
      destruct (N.lt_ge_cases k 31).
      + rewrite N.shiftl_spec_low by auto. reflexivity.
      + rewrite N.mod_pow2_bits_high by auto. apply andb_false_r. }
  unfold mt_twist. rewrite <- E3. clearbody y.
  rewrite N.lxor_assoc. f_equal. rewrite <- N.div2_spec. rewrite N.div2_div. f_equal.
  change 1 with (N.ones 1). rewrite N.land_ones. change (2 ^ 1) with 2.
  rewrite <- N.bit0_mod, N.bit0_odd.
  unfold mag01. destruct (N.odd y); reflexivity.
Qed.

(** contents during the refill: the first [kk] words are new *)
Definition half_new (x : nat -> N) (base kk : nat) (mt : list N) : Prop :=
  words_ok mt /\
  forall j, (j < mtN)%nat ->
    nth_error mt j = Some (x (base + j + (if (j <? kk)%nat then mtN else 0))%nat).

Definition mt_recurrence (x : nat -> N) : Prop :=
  forall n, x (n + 624)%nat = N.lxor (x (n + 397)%nat) (mt_twist (x n) (x (n + 1)%nat)).

Lemma mag01_lt b : mag01 b < 2 ^ 32.
Proof. unfold mag01. destruct (b =? 0); reflexivity. Qed.

Lemma refill_word_spec x base kk next far mt :
  mt_recurrence x -> half_new x base kk mt -> (kk < mtN)%nat -> (next < mtN)%nat -> (far < mtN)%nat ->
  (base + next + (if (next <? kk)%nat then mtN else 0) = base + kk + 1)%nat ->
  (base + far + (if (far <? kk)%nat then mtN else 0) = base + kk + 397)%nat ->
  exists mt', refill_word mt kk next far = Some mt' /\ half_new x base (kk + 1) mt'.
Proof.
  intros HR [HW HN] Hkk Hnext Hfar E1 E2. unfold refill_word, aget.
  destruct (words_ok_get mt kk HW Hkk) as (a & Ha & La).
  destruct (words_ok_get mt next HW Hnext) as (b & Hb & Lb).
  destruct (words_ok_get mt far HW Hfar) as (c & Hc & Lc). unfold aget in *.
  rewrite Ha, Hb, Hc. cbn [obind].
  rewrite aset_lt by (rewrite (proj1 HW); auto).
  eexists; split; [reflexivity|].
  assert (VL : N.lxor (N.lxor c (N.shiftr (N.lor (N.land a UPPER_MASK) (N.land b LOWER_MASK)) 1))
     (mag01 (N.land (N.lor (N.land a UPPER_MASK) (N.land b LOWER_MASK)) 1)) < 2 ^ 32).
  { apply lxor_lt; [apply lxor_lt; auto|apply mag01_lt].
    apply shiftr_lt, lor_lt; apply land_lt_r; reflexivity. }
  split; [apply words_ok_upd; auto|].
  intros j Hj. destruct (Nat.eq_dec j kk) as [->|Hne].
  - rewrite nth_error_upd_eq by (rewrite (proj1 HW); auto). f_equal.
    rewrite (twist_eq a b La c).
    rewrite HN in Ha, Hb, Hc by auto.
    rewrite Nat.ltb_irrefl, Nat.add_0_r in Ha.
    rewrite E1 in Hb. rewrite E2 in Hc.
    inversion Ha; inversion Hb; inversion Hc; subst.
    destruct (Nat.ltb_spec kk (kk + 1)); [|lia]. unfold mtN. rewrite HR. reflexivity.
  - rewrite nth_error_upd_neq by auto. rewrite HN by auto.
    destruct (Nat.ltb_spec j kk), (Nat.ltb_spec j (kk+1)); try lia; reflexivity.
Qed.

Lemma refill1_spec x base : mt_recurrence x -> forall n kk mt,
  (kk + n = mtN - mtM)%nat -> half_new x base kk mt ->
  exists mt', refill1 n mt kk = Some mt' /\ half_new x base (kk + n) mt'.
Proof.
  intro HR. induction n as [|n IH]; intros kk mt Hk HH; cbn [refill1].
  - exists mt. rewrite Nat.add_0_r. auto.
  - unfold mtN, mtM in *.
    destruct (refill_word_spec x base kk (kk+1) (kk+397) mt HR HH) as (mt1 & -> & HH1);
      unfold mtN, mtM; try lia.
    { destruct (Nat.ltb_spec (kk+1) kk); lia. }
    { destruct (Nat.ltb_spec (kk+397) kk); lia. }
    cbn [obind]. destruct (IH (kk+1)%nat mt1) as (mt2 & E & HH2); auto; [lia|].
    exists mt2. split; auto. replace (kk + S n)%nat with (kk + 1 + n)%nat by lia. auto.
Qed.

Lemma refill2_spec x base : mt_recurrence x -> forall n kk mt,
  (mtN - mtM <= kk)%nat -> (kk + n = mtN - 1)%nat -> half_new x base kk mt ->
  exists mt', refill2 n mt kk = Some mt' /\ half_new x base (kk + n) mt'.
Proof.
  intro HR. induction n as [|n IH]; intros kk mt Hk0 Hk HH; cbn [refill2].
  - exists mt. rewrite Nat.add_0_r. auto.
  - unfold mtN, mtM in *.
    destruct (refill_word_spec x base kk (kk+1) (kk-(624-397)) mt HR HH) as (mt1 & -> & HH1);
      unfold mtN, mtM; try lia.
    { destruct (Nat.ltb_spec (kk+1) kk); lia. }
    { destruct (Nat.ltb_spec (kk-(624-397)) kk); lia. }
    cbn [obind]. destruct (IH (kk+1)%nat mt1) as (mt2 & E & HH2); auto; [lia|lia|].
    exists mt2. split; auto. replace (kk + S n)%nat with (kk + 1 + n)%nat by lia. auto.
Qed.

Lemma refill_spec x base mt : mt_recurrence x -> half_new x base 0 mt ->
  exists mt', refill mt = Some mt' /\ half_new x (base + mtN) 0 mt'.
Proof.
  intros HR HH. unfold refill.
  destruct (refill1_spec x base HR (mtN - mtM) 0 mt) as (mt1 & -> & H1); auto.
  cbn [obind]. change (0 + (mtN - mtM))%nat with (mtN - mtM)%nat in H1.
  destruct (refill2_spec x base HR (mtM - 1) (mtN - mtM) mt1) as (mt2 & -> & H2); auto.
  cbn [obind]. change (mtN - mtM + (mtM - 1))%nat with 623%nat in H2.
  destruct (refill_word_spec x base (mtN - 1) 0 (mtM - 1) mt2 HR) as (mt3 & -> & H3).
  - exact H2.
  - unfold mtN; lia.
  - unfold mtN; lia.
  - unfold mtN, mtM; lia.
  - unfold mtN. destruct (Nat.ltb_spec 0 (624-1)); lia.
  - unfold mtN, mtM. destruct (Nat.ltb_spec (397-1) (624-1)); lia.
  - exists mt3. split; auto. destruct H3 as [HW H3]. split; auto.
    intros j Hj. rewrite H3 by auto.
    destruct (Nat.ltb_spec j (mtN - 1 + 1)); [|unfold mtN in *; lia].
    destruct (Nat.ltb_spec j 0); [lia|]. do 2 f_equal. lia.
Qed.

(** ** Every start state has a sequence *)
Definition refill_total (mt : list N) : list N :=
  match refill mt with Some m => m | None => mt end.

Fixpoint blocks (mt : list N) (k : nat) : list N :=
  match k with O => mt | S k' => refill_total (blocks mt k') end.

(** Extending a list of words by the recurrence; only used to show existence. *)
Fixpoint extend (n : nat) (rev_l : list N) : list N :=
  match n with
  | O => rev_l
  | S n' =>
      let v := N.lxor (nth (624 - 1 - 397) rev_l 0)
                      (mt_twist (nth 623 rev_l 0) (nth 622 rev_l 0)) in
      extend n' (v :: rev_l)
  end.

Lemma nth_rev_extend n : forall l, (624 <= length l)%nat ->
  exists p, extend n l = p ++ l /\ length p = n /\
   forall k, (k < n)%nat ->
     let e := extend n l in
     nth (n - 1 - k) e 0 =
       N.lxor (nth (n - 1 - k + (624 - 397)) e 0)
              (mt_twist (nth (n - 1 - k + 624) e 0) (nth (n - 1 - k + 623) e 0)).
Proof.
  induction n as [|n IH]; intros l Hl; cbn [extend].
  - exists []. repeat split; auto. intros; lia.
  - match goal with |- context [extend n (?v :: l)] => set (w := v) end.
    destruct (IH (w :: l)) as (p & E & Lp & H); [cbn; lia|].
    exists (p ++ [w]). split; [rewrite E, <- app_assoc; reflexivity|].
    split; [rewrite app_length; cbn; lia|].
    intros k Hk. destruct (Nat.eq_dec k 0) as [->|Hk0].
    + rewrite E. replace (S n - 1 - 0)%nat with (length p) by lia.
      rewrite !app_nth2 by lia.
      replace (length p - length p)%nat with 0%nat by lia.
      replace (length p + (624 - 397) - length p)%nat with (S (624 - 1 - 397))%nat by lia.
      replace (length p + 624 - length p)%nat with (S 623)%nat by lia.
      replace (length p + 623 - length p)%nat with (S 622)%nat by lia.
      cbn [nth]. reflexivity.
    + specialize (H (k - 1)%nat ltac:(lia)). cbn zeta in H.
      replace (n - 1 - (k - 1))%nat with (S n - 1 - k)%nat in H by lia. exact H.
Qed.

Lemma extend_prefix n m l : (624 <= length l)%nat ->
  exists p, extend (n + m) l = p ++ extend n l /\ length p = m.
Proof.
  revert l; induction n as [|n IH]; intros l Hl.
  - cbn [Nat.add]. destruct (nth_rev_extend m l Hl) as (p & E & Lp & _). exists p. auto.
  - cbn [Nat.add extend]. apply IH. cbn; lia.
Qed.

Definition seq_of (s : list N) (n : nat) : N := nth 0 (extend n (rev s)) 0.
(** x(n) is the head after 623 fewer extensions; index shift below. *)
Definition mt_seq (s : list N) (n : nat) : N :=
  if (n <? 624)%nat then nth n s 0 else nth 0 (extend (n - 623) (rev s)) 0.

Lemma mt_seq_nth s n m : length s = 624%nat -> (n <= m + 623)%nat ->
  mt_seq s n = nth (m + 623 - n) (extend m (rev s)) 0.
Proof.
  intros HL Hn. unfold mt_seq. destruct (Nat.ltb_spec n 624) as [L|L].
  - destruct (nth_rev_extend m (rev s)) as (p & E & Lp & _); [rewrite rev_length; lia|].
    rewrite E, app_nth2 by lia. rewrite rev_nth by lia. f_equal. lia.
  - replace m with ((n - 623) + (m - (n - 623)))%nat by lia.
    destruct (extend_prefix (n - 623) (m - (n - 623)) (rev s)) as (p & E & Lp); [rewrite rev_length; lia|].
    rewrite E, app_nth2 by lia. f_equal. lia.
Qed.

Lemma mt_seq_recurrence s : length s = 624%nat -> mt_recurrence (mt_seq s).
Proof.
  intros HL n.
  rewrite (mt_seq_nth s (n + 624) (n + 1)%nat), (mt_seq_nth s (n + 397) (n + 1)%nat),
          (mt_seq_nth s n (n + 1)%nat), (mt_seq_nth s (n + 1) (n + 1)%nat) by lia.
  destruct (nth_rev_extend (n + 1) (rev s)) as (p & E & Lp & H); [rewrite rev_length; lia|].
  specialize (H n ltac:(lia)). cbn zeta in H.
  replace (n + 1 - 1 - n)%nat with 0%nat in H by lia.
  replace (n + 1 + 623 - (n + 624))%nat with 0%nat by lia.
  replace (n + 1 + 623 - (n + 397))%nat with (0 + (624 - 397))%nat by lia.
  replace (n + 1 + 623 - n)%nat with (0 + 624)%nat by lia.
  replace (n + 1 + 623 - (n + 1))%nat with (0 + 623)%nat by lia.
  exact H.
Qed.

Lemma mt_seq_is s : length s = 624%nat -> is_mt_sequence s (mt_seq s).
Proof.
  intro HL. split.
  - intros i Hi. unfold mt_seq. destruct (Nat.ltb_spec i 624); [|lia].
    apply nth_error_nth'. lia.
  - apply mt_seq_recurrence; auto.
Qed.

(** ** Drawing *)
(** A generator positioned at word [base + mti] of the sequence [x]. *)
Definition at_pos (x : nat -> N) (g : vlrand) (pos : nat) : Prop :=
  (r_mti g <= mtN)%nat /\ exists base, half_new x base 0 (r_mt g) /\ pos = (base + r_mti g)%nat.

Lemma half_new_0 x base mt j : half_new x base 0 mt -> (j < mtN)%nat ->
  nth_error mt j = Some (x (base + j)%nat).
Proof. intros [_ H] Hj. rewrite H by auto. cbn. rewrite Nat.add_0_r. reflexivity. Qed.

Lemma uint32_at x g pos : mt_recurrence x -> at_pos x g pos ->
  exists g', rand_uint32 g = Some (g', temper (x pos)) /\ at_pos x g' (S pos) /\ rand_wf g'.
Proof.
  intros HR (Hm & base & HH & Hp). unfold rand_uint32.
  destruct (Nat.leb_spec mtN (r_mti g)).
  - assert (E : r_mti g = mtN) by lia. rewrite E.
    destruct (Nat.eqb_spec mtN (mtN + 1)); [lia|]. cbn [obind].
    destruct (refill_spec x base (r_mt g) HR HH) as (mt' & -> & HH'). cbn [obind r_mt r_mti].
    unfold aget. rewrite (half_new_0 x (base + mtN) mt' 0 HH') by (unfold mtN; lia). cbn [obind].
    eexists. split; [rewrite Hp, E, Nat.add_0_r; reflexivity|]. split.
    + split; [cbn; unfold mtN; lia|]. exists (base + mtN)%nat. split; auto. cbn [r_mti]. lia.
    + split; [exact (proj1 HH')|left; cbn; unfold mtN; lia].
  - cbn [obind]. unfold aget. rewrite (half_new_0 x base _ (r_mti g) HH) by auto. cbn [obind].
    eexists. split; [rewrite Hp; reflexivity|]. split.
    + split; [cbn [r_mti]; lia|]. exists base. split; auto. cbn [r_mti]. lia.
    + split; [exact (proj1 HH)|left; cbn [r_mti]; lia].
Qed.

Lemma half_new_seq mt : words_ok mt -> half_new (mt_seq mt) 0 0 mt.
Proof.
  intros HW. split; auto. intros j Hj.
  destruct (mt_seq_is mt (proj1 HW)) as [H _]. rewrite H by (unfold mtN in *; lia).
  do 2 f_equal. destruct (Nat.ltb_spec j 0); lia.
Qed.

Lemma wf_at_pos g : rand_wf g -> (r_mti g <= mtN)%nat ->
  at_pos (mt_seq (r_mt g)) g (r_mti g).
Proof.
  intros [HW _] Hm. split; auto. exists 0%nat. split; auto. apply half_new_seq; auto.
Qed.

Lemma half_new_pos_lt x base kk mt j :
  half_new x base kk mt -> (j < mtN)%nat -> (kk <= j)%nat -> x (base + j)%nat < 2 ^ 32.
Proof.
  intros [HW H] Hj Hk. destruct (words_ok_get mt j HW Hj) as (w & Hw & Lw). unfold aget in Hw.
  rewrite H in Hw by auto. destruct (Nat.ltb_spec j kk); [lia|].
  rewrite Nat.add_0_r in Hw. inversion Hw; subst; auto.
Qed.

Lemma uint32_wf g : rand_wf g ->
  exists g' y, rand_uint32 g = Some (g', y) /\ y < 2 ^ 32 /\ rand_wf g'.
Proof.
  intros HG.
  assert (K : forall g, rand_wf g -> (r_mti g <= mtN)%nat ->
     exists g' y, rand_uint32 g = Some (g', y) /\ y < 2 ^ 32 /\ rand_wf g').
  { clear g HG. intros g HG Hm.
    pose proof (wf_at_pos g HG Hm) as HA.
    pose proof (mt_seq_recurrence (r_mt g) (proj1 (proj1 HG))) as HR.
    destruct (uint32_at _ g _ HR HA) as (g' & E & HA' & HW').
    exists g', (temper (mt_seq (r_mt g) (r_mti g))). split; auto. split; auto.
    apply temper_lt.
    destruct HA' as (Hm' & base & HH & Hp).
    (* the word just read is still in the array *)
    assert (Hlt : (1 <= r_mti g')%nat).
    { clear -E. unfold rand_uint32 in E.
      match type of E with (obind ?m _ = _) => destruct m as [g1|]; [|discriminate] end.
      cbn [obind] in E. destruct (aget _ _); [|discriminate]. cbn [obind] in E.
      inversion E; subst. cbn [r_mti]. lia. }
    replace (r_mti g) with (base + (r_mti g' - 1))%nat by lia.
    eapply half_new_pos_lt; [exact HH|lia|lia]. }
  destruct HG as [HW [Hm|Hm]]; [apply K; auto; split; auto|].
  unfold rand_uint32. rewrite Hm.
  destruct (Nat.leb_spec mtN (mtN + 1)); [|lia].
  rewrite Nat.eqb_refl. rewrite rand_seed_eq by (apply HW). cbn [obind].
  destruct (K (seeded 5489) (seeded_wf _)) as (g' & y & E & Hy & HW'); [cbn; lia|].
  unfold rand_uint32 in E. cbn [seeded r_mti] in E.
  rewrite Nat.leb_refl in E. destruct (Nat.eqb_spec mtN (mtN + 1)); [lia|]. cbn [obind] in E.
  exists g', y. split; auto.
Qed.

(** a generator that was only initialised behaves as seeded with 5489 *)
Lemma uint32_default mt : length mt = mtN ->
  rand_uint32 (mk_rand mt (mtN + 1)) = rand_uint32 (seeded 5489).
Proof.
  intro HL. unfold rand_uint32. cbn [r_mti r_mt seeded].
  destruct (Nat.leb_spec mtN (mtN + 1)); [|lia].
  rewrite Nat.eqb_refl, Nat.leb_refl. rewrite rand_seed_eq by auto.
  destruct (Nat.eqb_spec mtN (mtN + 1)); [lia|]. reflexivity.
Qed.

(** ** Stream of draws *)
Lemma draws_at x : mt_recurrence x -> forall n g pos, at_pos x g pos ->
  exists g', draws n g = Some (g', map (fun k => temper (x (pos + k)%nat)) (seq 0 n)) /\ at_pos x g' (pos + n).
Proof.
  intro HR. induction n as [|n IH]; intros g pos HA; cbn [draws].
  - exists g. rewrite Nat.add_0_r. auto.
  - destruct (uint32_at x g pos HR HA) as (g1 & -> & HA1 & _). cbn [obind].
    destruct (IH g1 (S pos) HA1) as (g2 & -> & HA2). cbn [obind].
    exists g2. split; [|replace (pos + S n)%nat with (S pos + n)%nat by lia; auto].
    do 2 f_equal. cbn [seq map]. rewrite Nat.add_0_r. f_equal.
    rewrite <- seq_shift, map_map. apply map_ext. intro k. do 2 f_equal. lia.
Qed.

Lemma temper_eq y : y < 2 ^ 32 -> temper y = mt_temper y.
Proof.
  intro Hy. unfold temper, mt_temper.
  assert (K : forall v s m, m < 2 ^ 32 -> N.land (w32 (N.shiftl v s)) m = N.land (v * 2 ^ s) m).
  { intros v s m Hm. unfold w32. rewrite <- N.land_ones, N.shiftl_mul_pow2, <- N.land_assoc.
    f_equal. rewrite N.land_comm, N.land_ones. apply N.mod_small. auto. }
  rewrite !K by reflexivity. rewrite !N.shiftr_div_pow2. reflexivity.
Qed.

Lemma mt_seq_unique s x : length s = 624%nat -> is_mt_sequence s x -> forall n, x n = mt_seq s n.
Proof.
  intros HL [H0 HR] n. induction n as [n IH] using lt_wf_ind.
  destruct (mt_seq_is s HL) as [G0 GR].
  destruct (Nat.lt_ge_cases n 624) as [L|L].
  - specialize (H0 n L). specialize (G0 n L). congruence.
  - replace n with ((n - 624) + 624)%nat by lia. rewrite HR, GR.
    rewrite !IH by lia. reflexivity.
Qed.

(** ** Ranges of the derived generators *)
Lemma uint64_wf g : rand_wf g ->
  exists g' y, rand_uint64 g = Some (g', y) /\ y < 2 ^ 64 /\ rand_wf g'.
Proof.
  intro HG. unfold rand_uint64.
  destruct (uint32_wf g HG) as (g1 & a & -> & Ha & H1). cbn [obind].
  destruct (uint32_wf g1 H1) as (g2 & b & -> & Hb & H2). cbn [obind].
  exists g2, (N.lor (N.shiftl a 32) b). split; auto. split; auto.
  apply lor_lt.
  - rewrite N.shiftl_mul_pow2. change (2 ^ 64) with (2 ^ 32 * 2 ^ 32). nia.
  - eapply N.lt_trans; [exact Hb|reflexivity].
Qed.

Lemma shiftr1_lt a n : a < 2 ^ (N.succ n) -> N.shiftr a 1 < 2 ^ n.
Proof.
  intro H. rewrite N.shiftr_div_pow2. change (2 ^ 1) with 2.
  apply N.div_lt_upper_bound; [lia|]. rewrite N.pow_succ_r' in H. lia.
Qed.

Lemma step_ok g o : rand_wf g -> op_ok o ->
  exists g' r, rand_step g o = Some (g', r) /\ rand_wf g' /\ out_ok o r.
Proof.
  intros HG HO. destruct o; cbn [rand_step op_ok out_ok] in *.
  - eexists _, _. split; [reflexivity|]. split; [|exact I].
    split; [split|]; cbn [r_mt r_mti].
    + apply repeat_length.
    + apply Forall_forall. intros w Hw. apply repeat_spec in Hw. subst; reflexivity.
    + right; reflexivity.
  - rewrite rand_seed_eq by (apply HG). cbn [obind].
    eexists _, _. split; [reflexivity|]. split; [apply seeded_wf|exact I].
  - destruct (seed_by_array_ok g key) as (g' & -> & HW); [apply HG|auto|]. cbn [obind].
    eexists _, _. split; [reflexivity|]. split; [auto|exact I].
  - destruct (uint32_wf g HG) as (g1 & a & -> & Ha & H1). cbn [obind]. eauto.
  - destruct (uint64_wf g HG) as (g1 & a & -> & Ha & H1). cbn [obind]. eauto.
  - unfold rand_int63. destruct (uint64_wf g HG) as (g1 & a & -> & Ha & H1). cbn [obind].
    eexists _, _. split; [reflexivity|]. split; auto. cbn [out_ok]. apply shiftr1_lt. exact Ha.
  - unfold rand_int31. destruct (uint32_wf g HG) as (g1 & a & -> & Ha & H1). cbn [obind].
    eexists _, _. split; [reflexivity|]. split; auto. cbn [out_ok]. apply shiftr1_lt. exact Ha.
  - unfold rand_uindex. destruct (N.eqb_spec range 0); [congruence|].
    destruct (range <=? 0xffffffff).
    + destruct (uint32_wf g HG) as (g1 & a & -> & Ha & H1). cbn [obind].
      eexists _, _. split; [reflexivity|]. split; auto. cbn [out_ok]. apply N.mod_lt; auto.
    + destruct (uint64_wf g HG) as (g1 & a & -> & Ha & H1). cbn [obind].
      eexists _, _. split; [reflexivity|]. split; auto. cbn [out_ok]. apply N.mod_lt; auto.
  - unfold rand_real1. destruct (uint32_wf g HG) as (g1 & a & -> & Ha & H1). cbn [obind].
    eexists _, _. split; [reflexivity|]. split; auto.
    cbn [out_ok]. change (2^32) with 4294967296 in Ha. unfold Qle; cbn [Qnum Qden]. lia.
  - unfold rand_real2. destruct (uint32_wf g HG) as (g1 & a & -> & Ha & H1). cbn [obind].
    eexists _, _. split; [reflexivity|]. split; auto.
    cbn [out_ok]. change (2^32) with 4294967296 in Ha. unfold Qle, Qlt; cbn [Qnum Qden]. lia.
  - unfold rand_real3. destruct (uint32_wf g HG) as (g1 & a & -> & Ha & H1). cbn [obind].
    eexists _, _. split; [reflexivity|]. split; auto.
    cbn [out_ok]. change (2^32) with 4294967296 in Ha.
    unfold Qle, Qlt, Qmult, Qplus, inject_Z; cbn [Qnum Qden]. lia.
  - unfold rand_res53. destruct (uint32_wf g HG) as (g1 & a & -> & Ha & H1). cbn [obind].
    destruct (uint32_wf g1 H1) as (g2 & b & -> & Hb & H2). cbn [obind].
    eexists _, _. split; [reflexivity|]. split; auto.
    cbn [out_ok]. rewrite !N.shiftr_div_pow2.
    assert (a / 2 ^ 5 < 134217728) by (apply N.div_lt_upper_bound; [discriminate|exact Ha]).
    assert (b / 2 ^ 6 < 67108864) by (apply N.div_lt_upper_bound; [discriminate|exact Hb]).
    set (p := a / 2 ^ 5) in *. set (q := b / 2 ^ 6) in *. clearbody p q.
    unfold Qle, Qlt; cbn [Qnum Qden]. lia.
Qed.

Lemma run_ok : forall ops g, rand_wf g -> Forall op_ok ops ->
  exists g' outs, rand_run g ops = Some (g', outs) /\ rand_wf g' /\ Forall2 out_ok ops outs.
Proof.
  induction ops as [|o ops IH]; intros g HG HO; cbn [rand_run].
  - eauto.
  - inversion HO; subst. destruct (step_ok g o) as (g1 & r & -> & H1' & Hr); auto. cbn [obind].
    destruct (IH g1) as (g2 & rs & -> & HW & HF); auto. cbn [obind]. eauto 6.
Qed.

(** ** Tempering is invertible *)
Definition linear (f : N -> N) : Prop :=
  f 0 = 0 /\ forall a b, f (N.lxor a b) = N.lxor (f a) (f b).

Lemma linear_id f : linear f -> forall n,
  (forall i, (i < n)%nat -> f (2 ^ N.of_nat i) = 2 ^ N.of_nat i) ->
  forall a, a < 2 ^ N.of_nat n -> f a = a.
Proof.
  intros [F0 FX]. induction n as [|n IH]; intros HB a Ha.
  - change (2 ^ N.of_nat 0) with 1 in Ha. assert (a = 0) by lia. subst; auto.
  - set (m := N.of_nat n) in *.
    assert (E : a = N.lxor (a mod 2 ^ m) (if N.testbit a m then 2 ^ m else 0)).
    { apply N.bits_inj. intro k. rewrite N.lxor_spec.
      destruct (N.lt_ge_cases k m).
      - rewrite N.mod_pow2_bits_low by auto.
        destruct (N.testbit a m).
        + rewrite N.pow2_bits_false by lia. rewrite xorb_false_r. auto.
        + rewrite N.bits_0, xorb_false_r. auto.
      - rewrite N.mod_pow2_bits_high by auto. rewrite xorb_false_l.
        destruct (N.eq_dec k m) as [->|].
        + destruct (N.testbit a m) eqn:B; [rewrite N.pow2_bits_true; auto|rewrite N.bits_0; auto].
        + assert (N.testbit a k = false).
          { apply (proj1 (lt_pow2_bits a _) Ha). rewrite Nat2N.inj_succ. fold m. lia. }
          destruct (N.testbit a m); [rewrite N.pow2_bits_false by lia|rewrite N.bits_0]; auto. }
    rewrite E at 1. rewrite FX. rewrite (IH (fun i Hi => HB i (Nat.lt_lt_succ_r _ _ Hi))).
    + destruct (N.testbit a m) eqn:B.
      * rewrite (HB n (Nat.lt_succ_diag_r n) : f (2 ^ m) = 2 ^ m). symmetry. exact E.
      * rewrite F0. symmetry. exact E.
    + apply N.mod_lt. apply N.pow_nonzero. discriminate.
Qed.

Lemma linear_comp f g : linear f -> linear g -> linear (fun x => f (g x)).
Proof. intros [F0 FX] [G0 GX]. split; [rewrite G0; auto|intros; rewrite GX, FX; auto]. Qed.

Lemma linear_lxor f g : linear f -> linear g -> linear (fun x => N.lxor (f x) (g x)).
Proof.
  intros [F0 FX] [G0 GX]. split; [rewrite F0, G0; auto|].
  intros a b. rewrite FX, GX. rewrite !N.lxor_assoc. f_equal.
  rewrite <- !N.lxor_assoc. f_equal. apply N.lxor_comm.
Qed.

Lemma linear_idf : linear (fun x => x).
Proof. split; auto. Qed.

Lemma linear_shr k : linear (fun x => N.shiftr x k).
Proof.
  split; [apply N.shiftr_0_l|]. intros a b. apply N.shiftr_lxor.
Qed.

Lemma linear_shl_mask k m : linear (fun x => N.land (w32 (N.shiftl x k)) m).
Proof.
  split; [unfold w32; rewrite N.shiftl_0_l; apply N.land_0_l|].
  intros a b. unfold w32. rewrite N.shiftl_lxor. apply N.bits_inj. intro j.
  rewrite N.land_spec, N.lxor_spec, !N.land_spec.
  destruct (N.lt_ge_cases j 32).
  - rewrite !N.mod_pow2_bits_low by auto. rewrite N.lxor_spec.
    destruct (N.testbit _ _), (N.testbit _ _), (N.testbit m j); reflexivity.
  - rewrite !N.mod_pow2_bits_high by auto. reflexivity.
Qed.

Definition T1 (y : N) := N.lxor y (N.shiftr y 11).
Definition T2 (y : N) := N.lxor y (N.land (w32 (N.shiftl y 7)) 0x9d2c5680).
Definition T3 (y : N) := N.lxor y (N.land (w32 (N.shiftl y 15)) 0xefc60000).
Definition T4 (y : N) := N.lxor y (N.shiftr y 18).

Lemma temper_T y : temper y = T4 (T3 (T2 (T1 y))).
Proof. reflexivity. Qed.

Definition untemper (y : N) : N := T1 (T1 (T1 (T2 (T2 (T2 (T2 (T2 (T2 (T2 (T3 (T3 (T3 (T4 y))))))))))))).

Lemma T1_lin : linear T1. Proof. apply (linear_lxor (fun x => x)); [apply linear_idf|apply linear_shr]. Qed.
Lemma T2_lin : linear T2. Proof. apply (linear_lxor (fun x => x)); [apply linear_idf|apply linear_shl_mask]. Qed.
Lemma T3_lin : linear T3. Proof. apply (linear_lxor (fun x => x)); [apply linear_idf|apply linear_shl_mask]. Qed.
Lemma T4_lin : linear T4. Proof. apply (linear_lxor (fun x => x)); [apply linear_idf|apply linear_shr]. Qed.

Lemma untemper_lin : linear untemper.
Proof. unfold untemper. repeat (first [apply T1_lin|apply linear_idf|apply T4_lin|apply T2_lin|apply T3_lin|
  match goal with |- linear (fun x => ?f (@?g x)) => apply (linear_comp f g) end]). Qed.

Lemma temper_lin : linear temper.
Proof. change (linear (fun y => T4 (T3 (T2 (T1 y))))). repeat (first [apply T1_lin|apply linear_idf|apply T4_lin|apply T2_lin|apply T3_lin|
  match goal with |- linear (fun x => ?f (@?g x)) => apply (linear_comp f g) end]). Qed.

Lemma below_forall (P : nat -> bool) n : forallb P (seq 0 n) = true ->
  forall i, (i < n)%nat -> P i = true.
Proof. intros H i Hi. rewrite forallb_forall in H. apply H. apply in_seq. lia. Qed.

Lemma untemper_temper y : y < 2 ^ 32 -> untemper (temper y) = y.
Proof.
  apply (linear_id (fun y => untemper (temper y))
           (linear_comp untemper temper untemper_lin temper_lin) 32).
  intros i Hi. apply N.eqb_eq. revert i Hi.
  apply (below_forall (fun i => untemper (temper (2 ^ N.of_nat i)) =? 2 ^ N.of_nat i)).
  vm_compute. reflexivity.
Qed.

Lemma temper_untemper y : y < 2 ^ 32 -> temper (untemper y) = y.
Proof.
  apply (linear_id (fun y => temper (untemper y))
           (linear_comp temper untemper temper_lin untemper_lin) 32).
  intros i Hi. apply N.eqb_eq. revert i Hi.
  apply (below_forall (fun i => temper (untemper (2 ^ N.of_nat i)) =? 2 ^ N.of_nat i)).
  vm_compute. reflexivity.
Qed.

Lemma untemper_lt y : y < 2 ^ 32 -> untemper y < 2 ^ 32.
Proof.
  intro H. unfold untemper, T1, T2, T3, T4.
  repeat (first [ assumption | apply lxor_lt | apply shiftr_lt | apply land_lt_r ]);
  reflexivity.
Qed.

Lemma mt_twist_lt a b : a < 2 ^ 32 -> mt_twist a b < 2 ^ 32.
Proof.
  intro Ha. unfold mt_twist. apply lxor_lt; [|destruct (N.odd _); reflexivity].
  assert (a / 2 ^ 31 < 2) by (apply N.div_lt_upper_bound; [discriminate|exact Ha]).
  assert (b mod 2 ^ 31 < 2 ^ 31) by (apply N.mod_lt; discriminate).
  apply N.div_lt_upper_bound; [discriminate|]. change (2 ^ 32) with (2 * 2 ^ 31). lia.
Qed.

Lemma mt_seq_lt s n : length s = 624%nat -> Forall (fun w => w < 2 ^ 32) s -> mt_seq s n < 2 ^ 32.
Proof.
  intros HL HF. induction n as [n IH] using lt_wf_ind.
  destruct (mt_seq_is s HL) as [G0 GR].
  destruct (Nat.lt_ge_cases n 624) as [L|L].
  - specialize (G0 n L). rewrite Forall_forall in HF. apply HF. eapply nth_error_In; eauto.
  - replace n with ((n - 624) + 624)%nat by lia. rewrite GR.
    apply lxor_lt; [apply IH; lia|]. apply mt_twist_lt. apply IH; lia.
Qed.

Lemma init_wf : rand_wf (mk_rand (repeat 0 mtN) (mtN + 1)).
Proof.
  split; [split|]; cbn [r_mt r_mti].
  + apply repeat_length.
  + apply Forall_forall. intros w Hw. apply repeat_spec in Hw. subst; reflexivity.
  + right; reflexivity.
Qed.

Lemma init_run_wf g0 ops g outs : Forall op_ok ops ->
  rand_run g0 (OpInit :: ops) = Some (g, outs) -> rand_wf g.
Proof.
  intros HO HR.
  change (rand_run g0 (OpInit :: ops)) with
    (do (g2, rs) <- rand_run (mk_rand (repeat 0 mtN) (mtN + 1)) ops;
          Some (g2, RNone :: rs)) in HR.
  destruct (run_ok ops _ init_wf HO) as (g' & outs' & E' & HW' & _).
  rewrite E' in HR. cbn [obind] in HR. inversion HR; subst. auto.
Qed.
