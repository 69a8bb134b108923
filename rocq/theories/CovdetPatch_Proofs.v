(** Lemmas on the patches of the covariant detector. *)
From Coq Require Import List Arith ZArith Lia Bool QArith Qcanon.
Import ListNotations.
From Verif Require Import Base Loop Rat MserSort_Proofs Gauss_Model Gauss_Proofs Homker_Proofs KmeansEnergy_Proofs Quickshift_Spec Quickshift_Model Quickshift_Proofs Covdet_Model Covdet_Spec Covdet_Proofs.
From Verif Require Import CovdetPatch_Model CovdetPatch_Spec.
From Verif Require Sift_Proofs SiftDescr_Proofs.
Local Open Scope nat_scope.

(** *** powers of two *)
Lemma zpow_pos n : (0 <= n)%Z -> (0 < zq (2 ^ n))%Qc.
Proof. intros H. change 0%Qc with (zq 0). apply zq_lt. apply Z.pow_pos_nonneg; lia. Qed.
Lemma two_to_le n q : (two_to n <= q)%Qc <-> (zq (2 ^ Z.max n 0) <= q * zq (2 ^ Z.max (- n) 0))%Qc.
Proof.
  unfold two_to. destruct (Z.leb_spec 0 n) as [L|L].
  - rewrite (Z.max_l n), (Z.max_r (- n)) by lia. change (zq (2 ^ 0)) with 1%Qc. now rewrite Qcmult_1_r.
  - rewrite (Z.max_r n), (Z.max_l (- n)) by lia. change (zq (2 ^ 0)) with 1%Qc. pose proof (zpow_pos (- n) ltac:(lia)) as P. set (z := zq (2 ^ (- n))) in *.
    assert (E : (/ z * z = 1)%Qc) by (apply Qcmult_inv_l; intros C; rewrite C in P; now apply Qclt_not_eq in P). split; intros H.
    + rewrite <- E. apply Qcmult_le_compat_r; [exact H|now apply Qclt_le_weak].
    + apply Qcmult_lt_0_le_reg_r with z; [exact P|]. now rewrite E.
Qed.
Lemma two_to_pos n : (0 < two_to n)%Qc.
Proof. unfold two_to. destruct (Z.leb_spec 0 n); [now apply zpow_pos|]. apply Qcinv_pos, zpow_pos. lia. Qed.
Lemma two_to_add a b : two_to (a + b) = (two_to a * two_to b)%Qc.
Proof.
  assert (P : forall a b, (0 <= a)%Z -> (0 <= b)%Z -> zq (2 ^ (a + b)) = (zq (2 ^ a) * zq (2 ^ b))%Qc) by (intros; rewrite Z.pow_add_r by lia; apply zq_mult).
  assert (N : forall a, (0 <= a)%Z -> zq (2 ^ a) <> 0%Qc) by (intros c Hc; apply qc_pos_neq, zpow_pos, Hc).
  unfold two_to. destruct (Z.leb_spec 0 a) as [A|A], (Z.leb_spec 0 b) as [B|B], (Z.leb_spec 0 (a + b)) as [C|C]; try lia.
  - now apply P.
  - assert (E := P (a + b)%Z (- b)%Z C ltac:(lia)). replace (a + b + - b)%Z with a in E by lia. rewrite E. field. apply N. lia.
  - assert (E := P a (- (a + b))%Z A ltac:(lia)). replace (a + - (a + b))%Z with (- b)%Z in E by lia. rewrite E. field. split; apply N; lia.
  - assert (E := P (a + b)%Z (- a)%Z C ltac:(lia)). replace (a + b + - a)%Z with b in E by lia. rewrite E. field. apply N. lia.
  - assert (E := P b (- (a + b))%Z B ltac:(lia)). replace (b + - (a + b))%Z with (- a)%Z in E by lia. rewrite E. field. split; apply N; lia.
  - replace (- (a + b))%Z with (- a + - b)%Z by lia. rewrite P by lia. field. split; apply N; lia.
Qed.
Lemma two_to_mono a b : (a <= b)%Z -> (two_to a <= two_to b)%Qc.
Proof.
  intros L. replace b with (a + (b - a))%Z by lia. rewrite two_to_add. rewrite <- (Qcmult_1_r (two_to a)) at 1. apply qc_mul_le; [apply Qclt_le_weak, two_to_pos|].
  unfold two_to. rewrite (proj2 (Z.leb_le 0 (b - a))) by lia. change 1%Qc with (zq 1). apply zq_le. pose proof (Z.pow_pos_nonneg 2 (b - a)). lia.
Qed.
Lemma two_to_times n r : two_to (n * Z.of_nat r) = (two_to n ^ r)%Qc.
Proof. induction r as [|r IH]; [rewrite Z.mul_0_r; reflexivity|]. rewrite Nat2Z.inj_succ, Z.mul_succ_r, Z.add_comm, two_to_add, IH. reflexivity. Qed.
Lemma pow_mono a b r : (0 <= a)%Qc -> (a <= b)%Qc -> (a ^ r <= b ^ r)%Qc.
Proof.
  intros A B. induction r as [|r IH]; [apply Qcle_refl|]. cbn [Qcpower]. apply Qcle_trans with (a * b ^ r)%Qc; [apply qc_mul_le; assumption|].
  apply Qcmult_le_compat_r; [assumption|]. assert (0 <= b)%Qc by (apply Qcle_trans with a; assumption). clear - H. induction r; [now apply Qclt_le_weak|cbn [Qcpower]; now apply Qc_mult_nonneg].
Qed.
Lemma pow_strict a b r : 0 < r -> (0 <= a)%Qc -> (a < b)%Qc -> (a ^ r < b ^ r)%Qc.
Proof.
  intros R A B. destruct r as [|r]; [lia|]. cbn [Qcpower]. assert (Pb : (0 < b)%Qc) by (apply Qcle_lt_trans with a; assumption).
  assert (Pr : (0 < b ^ r)%Qc) by (clear - Pb; induction r; [reflexivity|cbn [Qcpower]; now apply Sift_Proofs.Qc_mul_pos]).
  apply Qcle_lt_trans with (a * b ^ r)%Qc; [apply qc_mul_le; [assumption|apply pow_mono; [assumption|now apply Qclt_le_weak]]|]. now apply Qcmult_lt_compat_r.
Qed.

(** *** the level *)
Lemma floor_log2_q q o : (0 < q)%Qc -> (o <= floor_log2 (Qnum (this q)) (Zpos (Qden (this q))))%Z <-> (two_to o <= q)%Qc.
Proof.
  intros Hq. assert (N : (0 < Qnum (this q))%Z) by (unfold Qclt, Qlt in Hq; cbn in Hq; lia).
  rewrite floor_log2_ok by lia. rewrite two_to_le. destruct q as [[n d] C]. cbn [this Qnum Qden] in *. unfold Qcle, zq. cbn [this Qcmult Q2Qc]. rewrite !Qred_correct. unfold Qle, inject_Z. cbn [Qnum Qden Qmult].
  rewrite Pos.mul_1_r. replace (2 ^ Z.max o 0 * Z.pos d)%Z with (Z.pos d * 2 ^ Z.max o 0)%Z by ring. rewrite Z.mul_1_r. tauto.
Qed.
Section Level.
Variables (g : geometry) (q : Qc).
Hypothesis Hq : (0 < q)%Qc.
Hypothesis Hr : 0 < g_res g.
Hypothesis Ho : (g_first g <= g_last g)%Z.
Hypothesis Hs : (-1 <= g_sub0 g)%Z.
Hypothesis Hs' : (g_sub0 g <= g_sub1 g)%Z.
Let fl := floor_log2 (Qnum (this q)) (Zpos (Qden (this q))).
Definition below (o s : Z) : Prop := (two_to (o * Z.of_nat (g_res g) + s) <= q ^ g_res g)%Qc.
Lemma below_iff o s : below o s <-> level_below (g_res g) q o s.
Proof. unfold below, level_below. apply two_to_le. Qed.
Lemma fl_ok o : (o <= fl)%Z <-> (two_to o <= q)%Qc.
Proof. apply floor_log2_q, Hq. Qed.
Lemma too_smooth_iff o s : too_smooth g q o s = false <-> below o s.
Proof. unfold too_smooth, below. apply qlt_false. Qed.
Lemma below_mono o s o' s' : (o' * Z.of_nat (g_res g) + s' <= o * Z.of_nat (g_res g) + s)%Z -> below o s -> below o' s'.
Proof. unfold below. intros L. apply Qcle_trans. now apply two_to_mono. Qed.
Lemma sub_range o : (g_sub0 g <= sub_at g q o <= g_sub1 g)%Z.
Proof. unfold sub_at. lia. Qed.
(** the subdivision tried in an octave is below unless none is *)
Lemma sub_best o s : (g_sub0 g <= s <= g_sub1 g)%Z -> below o s -> below o (sub_at g q o).
Proof.
  intros S B. pose proof (sub_range o) as R. destruct (Z.eq_dec (sub_at g q o) (g_sub0 g)) as [E|E]; [apply below_mono with o s; [lia|exact B]|].
  assert (Pos : (0 <= sub_at g q o)%Z) by lia. assert (L : (o + sub_at g q o <= fl)%Z) by (unfold fl; unfold sub_at in R, E, Pos |- *; lia).
  apply fl_ok in L. unfold below. apply Qcle_trans with (two_to ((o + sub_at g q o) * Z.of_nat (g_res g))); [apply two_to_mono; nia|]. rewrite two_to_times. apply pow_mono; [apply Qclt_le_weak, two_to_pos|exact L].
Qed.
Lemma octave_from_ok n : forall o, let o' := octave_from g q n o in
  (o - 1 <= o' <= o + Z.of_nat n)%Z /\ (forall p, (o <= p -> p <= o' -> p < o + Z.of_nat n -> below p (sub_at g q p))%Z) /\ ((o' < o + Z.of_nat n)%Z -> ~ below (o' + 1) (sub_at g q (o' + 1))).
Proof.
  induction n as [|n IH]; intros o; cbn [octave_from]; [split; [lia|split; [lia|lia]]|].
  destruct (too_smooth g q o (sub_at g q o)) eqn:T.
  - cbv zeta. split; [lia|]. split; [lia|]. intros _. replace (o - 1 + 1)%Z with o by lia. rewrite <- too_smooth_iff. congruence.
  - apply too_smooth_iff in T. destruct (IH (o + 1)%Z) as (A & B & C). cbv zeta. split; [lia|]. split.
    + intros p P1 P2 P3. destruct (Z.eq_dec p o) as [->|]; [exact T|]. apply B; lia.
    + intros L. apply C. lia.
Qed.
Lemma best_level_ok : let '(o, s) := best_level g q in
  (g_first g <= o <= g_last g)%Z /\ (g_sub0 g <= s <= g_sub1 g)%Z /\
  ((exists o' s', (g_first g <= o' <= g_last g)%Z /\ (g_sub0 g <= s' <= g_sub1 g)%Z /\ level_below (g_res g) q o' s') -> level_below (g_res g) q o s) /\
  (forall o' s', (o < o' <= g_last g)%Z -> (g_sub0 g <= s' <= g_sub1 g)%Z -> ~ level_below (g_res g) q o' s').
Proof.
  unfold best_level. destruct (octave_from_ok (Z.to_nat (g_last g - g_first g)) (g_first g + 1)) as (A & B & C). set (p := octave_from g q (Z.to_nat (g_last g - g_first g)) (g_first g + 1)) in *.
  split; [lia|]. split; [apply sub_range|]. split.
  - intros (o' & s' & O & S & L). apply below_iff in L. apply below_iff. destruct (Z.eq_dec (Z.min p (g_last g)) (g_first g)) as [E|E].
    + rewrite E. apply sub_best with (g_sub0 g); [lia|]. apply below_mono with o' s'; [nia|exact L].
    + apply B; lia.
  - intros o' s' O S L. apply below_iff in L. apply C; [lia|]. apply sub_best with (g_sub0 g); [lia|]. apply below_mono with o' s'; [nia|exact L].
Qed.
End Level.

(** *** the padded copy *)
Definition cell (l : list Qc) (i : Z) : Qc := nth (Z.to_nat i) l 0%Qc.
Lemma zget_cell l i : (0 <= i < Z.of_nat (length l))%Z -> zget l i = Some (cell l i).
Proof. intros H. unfold zget, cell. destruct (Z.ltb_spec i 0); [lia|]. apply aget_nth. lia. Qed.
Lemma zset_cell l i v : (0 <= i < Z.of_nat (length l))%Z -> exists l', zset l i v = Some l' /\ length l' = length l /\
  forall k, (0 <= k)%Z -> cell l' k = if (k =? i)%Z then v else cell l k.
Proof.
  intros H. unfold zset. destruct (Z.ltb_spec i 0); [lia|]. rewrite aset_lt by lia. eexists. split; [reflexivity|]. split; [apply upd_length|].
  intros k Hk. unfold cell. rewrite nth_upd by lia. destruct (Z.eqb_spec k i), (Nat.eqb_spec (Z.to_nat k) (Z.to_nat i)); try reflexivity; try lia. 
Qed.
Definition between (a k b : Z) : bool := ((a <=? k) && (k <? b))%Z.
Lemma between_true a k b : between a k b = true <-> (a <= k < b)%Z.
Proof. unfold between. lia. Qed.
Lemma triple (a a' b b' : Z) (c : list Qc) : a = a' -> b = b' -> (a, b, c) = (a', b', c).
Proof. now intros -> ->. Qed.
Lemma put_ok level inc dst src : forall n buf, (0 <= dst)%Z -> (dst + Z.of_nat n <= Z.of_nat (length buf))%Z ->
  (forall i, (0 <= i < Z.of_nat n -> 0 <= src + inc * i < Z.of_nat (length level))%Z) ->
  exists buf', put level n inc (dst, src, buf) = Some (dst + Z.of_nat n, src + inc * Z.of_nat n, buf')%Z /\ length buf' = length buf /\
    forall k, (0 <= k)%Z -> cell buf' k = if between dst k (dst + Z.of_nat n) then cell level (src + inc * (k - dst)) else cell buf k.
Proof.
  intros n buf D L S. unfold put.
  match goal with |- context [iter n ?body _] =>
    destruct (iter_inv (fun i st => exists b, st = (dst + Z.of_nat i, src + inc * Z.of_nat i, b)%Z /\ length b = length buf /\
      forall k, (0 <= k)%Z -> cell b k = if between dst k (dst + Z.of_nat i) then cell level (src + inc * (k - dst)) else cell buf k) body n (dst, src, buf)) as (st & E & b & -> & Lb & C) end.
  - exists buf. split; [apply triple; lia|]. split; [reflexivity|]. intros k Hk. unfold between. destruct (Z.leb_spec dst k), (Z.ltb_spec k (dst + Z.of_nat 0)); cbn; try reflexivity; lia.
  - intros j st Hj (b & -> & Lb & C). rewrite zget_cell by (apply S; lia). cbn [obind]. destruct (zset_cell b (dst + Z.of_nat j) (cell level (src + inc * Z.of_nat j))) as (b' & -> & Lb' & C'); [lia|]. cbn [obind].
    eexists. split; [reflexivity|]. exists b'. split; [apply triple; lia|]. split; [lia|]. intros k Hk. rewrite C' by exact Hk. rewrite C by exact Hk. unfold between.
    destruct (Z.eqb_spec k (dst + Z.of_nat j)) as [->|N].
    + destruct (Z.leb_spec dst (dst + Z.of_nat j)), (Z.ltb_spec (dst + Z.of_nat j) (dst + Z.of_nat (j + 1))); cbn; try lia. f_equal. lia.
    + destruct (Z.leb_spec dst k), (Z.ltb_spec k (dst + Z.of_nat j)), (Z.ltb_spec k (dst + Z.of_nat (j + 1))); cbn; try reflexivity; lia.
  - exists b. auto.
Qed.
Lemma copy_row_ok pw dst src buf : (0 <= pw)%Z -> (0 <= dst)%Z -> (dst + pw <= Z.of_nat (length buf))%Z -> (0 <= src)%Z -> (src + pw <= Z.of_nat (length buf))%Z -> (dst + pw <= src \/ src + pw <= dst)%Z ->
  exists buf', copy_row pw dst src buf = Some buf' /\ length buf' = length buf /\
    forall k, (0 <= k)%Z -> cell buf' k = if between dst k (dst + pw) then cell buf (src + (k - dst)) else cell buf k.
Proof.
  intros P D1 D2 S1 S2 A. unfold copy_row.
  match goal with |- context [iter ?n ?body _] =>
    destruct (iter_inv (fun i b => length b = length buf /\
      forall k, (0 <= k)%Z -> cell b k = if between dst k (dst + Z.of_nat i) then cell buf (src + (k - dst)) else cell buf k) body n buf) as (b & E & Lb & C) end.
  - split; [reflexivity|]. intros k Hk. unfold between. destruct (Z.leb_spec dst k), (Z.ltb_spec k (dst + Z.of_nat 0)); cbn; try reflexivity; lia.
  - intros j b Hj (Lb & C). rewrite zget_cell by lia. cbn [obind]. destruct (zset_cell b (dst + Z.of_nat j) (cell b (src + Z.of_nat j))) as (b' & -> & Lb' & C'); [lia|].
    eexists. split; [reflexivity|]. split; [lia|]. intros k Hk. rewrite C' by exact Hk. rewrite (C k Hk). rewrite (C (src + Z.of_nat j)%Z) by lia. unfold between.
    destruct (Z.eqb_spec k (dst + Z.of_nat j)) as [->|N].
    + destruct (Z.leb_spec dst (src + Z.of_nat j)), (Z.ltb_spec (src + Z.of_nat j) (dst + Z.of_nat j)); cbn; try lia;
      (destruct (Z.leb_spec dst (dst + Z.of_nat j)), (Z.ltb_spec (dst + Z.of_nat j) (dst + Z.of_nat (j + 1))); cbn; try lia; f_equal; lia).
    + destruct (Z.leb_spec dst k), (Z.ltb_spec k (dst + Z.of_nat j)), (Z.ltb_spec k (dst + Z.of_nat (j + 1))); cbn; try reflexivity; lia.
  - exists b. rewrite Z2Nat.id in C by lia. auto.
Qed.

Section Pad.
Variables (level : list Qc) (w h x0 y0 x1 y1 : Z).
Hypothesis Hw : (1 <= w)%Z.
Hypothesis Hh : (1 <= h)%Z.
Hypothesis HL : (w * h <= Z.of_nat (length level))%Z.
Hypothesis Hx : (x0 <= x1)%Z.
Hypothesis Hy : (y0 <= y1)%Z.
Let pw := (x1 - x0 + 1)%Z.
Let ph := (y1 - y0 + 1)%Z.
Let padx0 := Z.max 0 (- x0).
Let padx1 := Z.max 0 (x1 - (w - 1)).
Let pady0 := Z.max 0 (- y0).
Let pady1 := Z.max 0 (y1 - (h - 1)).
(** the column and the row copied to a place of the region *)
Definition col (x : Z) : Z := Z.max (Z.min (Z.max 0 x0) (w - 1)) (Z.min x (Z.min x1 (w - 1) - 1)).
Definition row (y : Z) : Z := Z.max 0 (Z.min y (h - 1)).
Lemma band_row_ok y buf : (-1 <= x1)%Z -> (0 <= y < h)%Z -> (y0 <= y <= y1)%Z -> (pw * ph <= Z.of_nat (length buf))%Z ->
  exists buf', band_row level w x0 y0 x1 pw padx0 padx1 y buf = Some buf' /\ length buf' = length buf /\
    forall k, (0 <= k)%Z -> cell buf' k = if between ((y - y0) * pw) k ((y - y0) * pw + pw) then cell level (y * w + col (x0 + (k - (y - y0) * pw))) else cell buf k.
Proof.
  intros X Y Y' L. unfold band_row.
  assert (P : (0 < pw)%Z) by (unfold pw; lia). set (d := ((y - y0) * pw)%Z). assert (D0 : (0 <= d)%Z) by (unfold d; nia).
  assert (D1 : (d + pw <= Z.of_nat (length buf))%Z) by (unfold d, ph in *; nia). clearbody d.
  set (n1 := Z.to_nat padx0). set (n2 := Z.to_nat (x0 + pw - padx1 - 2 - (x0 + padx0))). set (n3 := Z.to_nat (x0 + pw - (x0 + padx0 + Z.of_nat n2))).
  set (lo := Z.min (Z.max 0 x0) (w - 1)). set (e := (Z.min x1 (w - 1) - 1)%Z).
  assert (N1 : (Z.of_nat n1 = Z.max 0 x0 - x0)%Z) by (unfold n1, padx0; lia).
  assert (N2 : (Z.of_nat n2 = Z.max 0 (e - Z.max 0 x0))%Z) by (unfold n2, padx0, padx1, pw, e; lia).
  assert (He : (e <= w - 2 /\ e < x1)%Z) by (unfold e; lia).
  assert (N : (Z.of_nat n1 + Z.of_nat n2 + Z.of_nat n3 = pw)%Z) by (unfold n3, padx0; fold pw in P; unfold pw in *; lia).
  assert (Hlo : (0 <= lo < w)%Z) by (unfold lo; lia).
  assert (Hlo2 : (lo = Z.max 0 x0 \/ lo = w - 1 /\ w - 1 < Z.max 0 x0)%Z) by (unfold lo; lia).
  assert (Cl : forall x, col x = Z.max lo (Z.min x e)) by reflexivity.
  assert (B : forall c, (0 <= c < w -> 0 <= y * w + c < Z.of_nat (length level))%Z).
  { clear - Y HL Hw. intros c Hc. assert ((y + 1) * w <= h * w)%Z by (apply Z.mul_le_mono_nonneg_r; lia). nia. }
  clearbody n1 n2 n3 lo e. set (X0 := Z.max 0 x0) in *. assert (HX : (x0 <= X0 /\ (x0 < 0 -> X0 = 0) /\ (0 <= x0 -> X0 = x0) /\ 0 <= X0)%Z) by (unfold X0; lia). clearbody X0.
  clearbody padx0 padx1 pady0 pady1. clear Y' Hy Hx X. clear L. clearbody pw ph.
  destruct (put_ok level 0 d (y * w + lo) n1 buf) as (b1 & -> & L1 & C1); [lia|lia|intros; pose proof (B lo Hlo); lia|]. cbn [obind].
  destruct (put_ok level 1 (d + Z.of_nat n1) (y * w + lo + 0 * Z.of_nat n1) n2 b1) as (b2 & -> & L2 & C2); [lia|lia| |].
  { intros i Hi. pose proof (B (lo + i)%Z ltac:(lia)). lia. }
  cbn [obind]. destruct (put_ok level 0 (d + Z.of_nat n1 + Z.of_nat n2) (y * w + lo + 0 * Z.of_nat n1 + 1 * Z.of_nat n2) n3 b2) as (b3 & -> & L3 & C3); [lia|lia| |].
  { intros i Hi. pose proof (B (lo + Z.of_nat n2)%Z ltac:(lia)). lia. }
  cbn [obind snd]. exists b3. split; [reflexivity|]. split; [lia|]. intros k Hk. rewrite C3, C2, C1 by exact Hk.
  destruct (between d k (d + pw)) eqn:T.
  - apply between_true in T. unfold between. destruct (Z.leb_spec (d + Z.of_nat n1 + Z.of_nat n2) k) as [Q3|Q3].
    + destruct (Z.ltb_spec k (d + Z.of_nat n1 + Z.of_nat n2 + Z.of_nat n3)); [cbn [andb]|lia]. f_equal. rewrite !Z.mul_0_l, !Z.add_0_r, Z.mul_1_l. rewrite <- Z.add_assoc. f_equal. rewrite Cl. lia.
    + cbn [andb]. destruct (Z.leb_spec (d + Z.of_nat n1) k) as [Q2|Q2].
      * destruct (Z.ltb_spec k (d + Z.of_nat n1 + Z.of_nat n2)); [cbn [andb]|lia]. f_equal. rewrite Z.mul_0_l, Z.add_0_r, Z.mul_1_l, <- Z.add_assoc. f_equal. rewrite Cl. lia.
      * cbn [andb]. destruct (Z.leb_spec d k); [|lia]. destruct (Z.ltb_spec k (d + Z.of_nat n1)); [cbn [andb]|lia]. f_equal. rewrite Z.mul_0_l, Z.add_0_r. f_equal. rewrite Cl. lia.
  - unfold between in T |- *. destruct (Z.leb_spec d k), (Z.ltb_spec k (d + pw)); cbn in T; try discriminate;
      repeat (match goal with |- context [(?a <=? ?b)%Z] => destruct (Z.leb_spec a b) | |- context [(?a <? ?b)%Z] => destruct (Z.ltb_spec a b) end; cbn [andb]; try lia); reflexivity.
Qed.
(** the cells of the rows from [a] to [b] hold what they should *)
Definition filled (a b : Z) (buf : list Qc) : Prop :=
  forall y x, (a <= y < b)%Z -> (x0 <= x <= x1)%Z -> cell buf ((y - y0) * pw + (x - x0)) = cell level (row y * w + col x).
Lemma slot y x y' : (y0 <= y <= y1)%Z -> (x0 <= x <= x1)%Z -> (y0 <= y' <= y1)%Z ->
  between ((y' - y0) * pw) ((y - y0) * pw + (x - x0)) ((y' - y0) * pw + pw) = (y =? y')%Z.
Proof.
  intros Y X Y'. assert (P : (x - x0 < pw)%Z) by (unfold pw; lia). clearbody pw. destruct (Z.eqb_spec y y') as [->|N].
  - apply between_true. lia.
  - apply not_true_iff_false. rewrite between_true. intros C. assert (y < y' \/ y' < y)%Z as [L|L] by lia; nia.
Qed.
Lemma slot_range y x : (y0 <= y <= y1)%Z -> (x0 <= x <= x1)%Z -> (0 <= (y - y0) * pw + (x - x0) < pw * ph)%Z.
Proof. intros Y X. assert (P : (x - x0 < pw)%Z) by (unfold pw; lia). assert (Q : (y - y0 < ph)%Z) by (unfold ph; lia). clearbody pw ph. nia. Qed.
Lemma pad_ok junk buf : (-1 <= x1)%Z -> (0 <= y1)%Z -> (y0 < h)%Z ->
  exists buf', pad junk level w h x0 y0 x1 y1 buf = Some buf' /\ (pw * ph <= Z.of_nat (length buf'))%Z /\ filled y0 (y1 + 1) buf'.
Proof.
  intros X Y1 Y0. unfold pad. fold pw ph padx0 padx1 pady0 pady1.
  set (b0 := if length buf <? _ then _ else _). assert (Pw : (0 < pw)%Z) by (unfold pw; lia). assert (Ph : (0 < ph)%Z) by (unfold ph; lia).
  assert (L0 : (pw * ph <= Z.of_nat (length b0))%Z).
  { unfold b0. destruct (Nat.ltb_spec (length buf) (Z.to_nat (pw * ph))); [rewrite app_length, map_length, seq_length|]; nia. }
  clearbody b0. assert (B : (pady0 < ph - pady1)%Z) by (unfold pady0, pady1, ph; lia). rewrite (proj2 (Z.ltb_lt _ _) B).
  assert (E0 : (y0 + pady0 = Z.max 0 y0)%Z) by (unfold pady0; lia). assert (E1 : (y0 + (ph - pady1) = Z.min y1 (h - 1) + 1)%Z) by (unfold pady1, ph; lia).
  assert (Q0 : (0 <= pady0)%Z) by (unfold pady0; lia). assert (Q1 : (0 <= pady1)%Z) by (unfold pady1; lia).
  assert (E2 : (ph = y1 - y0 + 1)%Z) by reflexivity. 
  (* the central band *)
  match goal with |- context [obind (iter ?n ?body b0) _] =>
    destruct (iter_inv (fun i b => length b = length b0 /\ filled (y0 + pady0) (y0 + pady0 + Z.of_nat i) b) body n b0) as (b1 & -> & L1 & F1) end.
  { split; [reflexivity|]. intros y x Hy'. lia. }
  { intros j b Hj [Lb F]. destruct (band_row_ok (y0 + pady0 + Z.of_nat j) b X) as (b' & -> & Lb' & C); [lia|lia|lia|]. eexists. split; [reflexivity|]. split; [lia|].
    intros y x Hyy Hxx. rewrite C by (pose proof (slot_range y x ltac:(lia) Hxx); lia). rewrite slot by lia. destruct (Z.eqb_spec y (y0 + pady0 + Z.of_nat j)) as [->|N].
    - unfold row. rewrite Z.min_l, Z.max_r by lia. f_equal. f_equal. f_equal. lia.
    - apply F; lia. }
  cbn [obind]. rewrite Z2Nat.id in F1 by lia. replace (y0 + pady0 + (ph - pady1 - pady0))%Z with (y0 + (ph - pady1))%Z in F1 by lia.
  (* above *)
  match goal with |- context [obind (iter ?n ?body b1) _] =>
    destruct (iter_inv (fun i b => length b = length b0 /\ filled (y0 + pady0) (y0 + (ph - pady1)) b /\ filled y0 (y0 + Z.of_nat i) b) body n b1) as (b2 & -> & L2 & F2 & G2) end.
  { split; [exact L1|]. split; [exact F1|]. intros y x Hy'. lia. }
  { intros j b Hj (Lb & F & G). destruct (copy_row_ok pw (Z.of_nat j * pw) (pady0 * pw) b) as (b' & -> & Lb' & C); [lia|nia|nia|nia|nia|nia|]. eexists. split; [reflexivity|]. split; [lia|].
    assert (C2 : forall y x, (y0 <= y <= y1)%Z -> (x0 <= x <= x1)%Z -> cell b' ((y - y0) * pw + (x - x0)) = if (y =? y0 + Z.of_nat j)%Z then cell level (row (y0 + pady0) * w + col x) else cell b ((y - y0) * pw + (x - x0))).
    { intros y x Hyy Hxx. rewrite C by (pose proof (slot_range y x Hyy Hxx); lia). rewrite <- (slot y x (y0 + Z.of_nat j)) by lia. replace (y0 + Z.of_nat j - y0)%Z with (Z.of_nat j) by lia.
      destruct (between _ _ _) eqn:T; [|reflexivity]. replace (Z.of_nat j) with (y0 + Z.of_nat j - y0)%Z in T by lia. rewrite slot in T by lia. apply Z.eqb_eq in T. subst y.
      rewrite <- F by lia. f_equal. lia. }
    split; intros y x Hyy Hxx; rewrite C2 by lia; destruct (Z.eqb_spec y (y0 + Z.of_nat j)) as [->|N]; try lia; try (apply F; lia); try (apply G; lia).
    f_equal. f_equal. f_equal. unfold row. lia. }
  cbn [obind]. rewrite Z2Nat.id in G2 by lia.
  (* below *)
  match goal with |- context [iter ?n ?body b2] =>
    destruct (iter_inv (fun i b => length b = length b0 /\ filled y0 (y0 + (ph - pady1) + Z.of_nat i) b) body n b2) as (b3 & -> & L3 & F3) end.
  { split; [exact L2|]. intros y x Hy' Hx'. destruct (Z.lt_ge_cases y (y0 + pady0)); [apply G2; lia|apply F2; lia]. }
  { intros j b Hj (Lb & F). destruct (copy_row_ok pw ((ph - pady1 + Z.of_nat j) * pw) ((ph - pady1 - 1) * pw) b) as (b' & -> & Lb' & C); [lia|nia|nia|nia|nia|nia|]. eexists. split; [reflexivity|]. split; [lia|].
    intros y x Hyy Hxx. rewrite C by (pose proof (slot_range y x ltac:(lia) Hxx); lia). set (z := (y0 + (ph - pady1) + Z.of_nat j)%Z). assert (Ez : (ph - pady1 + Z.of_nat j = z - y0)%Z) by (unfold z; lia). rewrite Ez.
    rewrite slot by (unfold z in *; lia). destruct (Z.eqb_spec y z) as [->|N].
    - replace ((ph - pady1 - 1) * pw + ((z - y0) * pw + (x - x0) - (z - y0) * pw))%Z with ((y0 + (ph - pady1) - 1 - y0) * pw + (x - x0))%Z by ring. rewrite F by lia. f_equal. f_equal. f_equal. unfold row, z. lia.
    - apply F; unfold z in *; lia. }
  exists b3. split; [reflexivity|]. split; [lia|]. rewrite Z2Nat.id in F3 by lia. intros y x Hyy Hxx. apply F3; lia.
Qed.
(** a region above or below the image is zero *)
Lemma pad_zero junk buf : ((y1 < 0) \/ (h <= y0))%Z -> exists n, pad junk level w h x0 y0 x1 y1 buf = Some (repeat 0%Qc n) /\ (pw * ph <= Z.of_nat n)%Z.
Proof.
  intros Y. unfold pad. fold pw ph padx0 padx1 pady0 pady1. set (b0 := if length buf <? _ then _ else _). assert (Pw : (0 < pw)%Z) by (unfold pw; lia). assert (Ph : (0 < ph)%Z) by (unfold ph; lia).
  assert (L0 : (pw * ph <= Z.of_nat (length b0))%Z).
  { unfold b0. destruct (Nat.ltb_spec (length buf) (Z.to_nat (pw * ph))); [rewrite app_length, map_length, seq_length|]; nia. }
  destruct (Z.ltb_spec pady0 (ph - pady1)) as [C|C]; [unfold pady0, pady1, ph in C; lia|]. eauto.
Qed.
End Pad.
