(** Proofs about the homogeneous kernel map. *)
From Coq Require Import List Arith ZArith Lia Bool QArith Qcanon Qcabs Lqa.
From Verif Require Vec_Proofs.
From Verif Require Import Base Loop MserSort_Proofs Rat Gauss_Model Gauss_Proofs Homker_Model Homker_Spec.
Import ListNotations.
Local Open Scope Qc_scope.

(** ** powers of two *)
Lemma pow2_two_to e : pow2 e = two_to e.
Proof. unfold pow2, two_to. destruct e; reflexivity. Qed.
Lemma zq_pow_pos k : (0 <= k)%Z -> 0 < zq (2 ^ k).
Proof. intro H. apply zq_lt with (a := 0%Z). apply Z.pow_pos_nonneg; lia. Qed.
Lemma Qcinv_pos a : 0 < a -> 0 < / a.
Proof. unfold Qclt. intro H. rewrite this_inv. apply Qinv_lt_0_compat. exact H. Qed.
Lemma qc_pos_neq a : 0 < a -> a <> 0.
Proof. intros H E. rewrite E in H. exact (Qclt_not_eq _ _ H eq_refl). Qed.
Lemma two_to_pos e : 0 < two_to e.
Proof.
  destruct e as [|p|p]; cbn [two_to]; [reflexivity|apply zq_pow_pos; lia|].
  apply Qcinv_pos, zq_pow_pos. lia.
Qed.
Lemma two_to_succ e : two_to (e + 1) = zq 2 * two_to e.
Proof.
  rewrite <- !pow2_two_to. unfold pow2.
  destruct (Z.ltb_spec e 0), (Z.ltb_spec (e + 1) 0); try lia.
  - replace (- e)%Z with (1 + - (e + 1))%Z by lia. rewrite Z.pow_add_r, zq_mult by lia. change (2 ^ 1)%Z with 2%Z.
    field. split; [apply qc_pos_neq, zq_pow_pos; lia|discriminate].
  - replace e with (-1)%Z by lia. apply Qc_is_canon; reflexivity.
  - rewrite Z.pow_add_r, zq_mult by lia. change (2 ^ 1)%Z with 2%Z. ring.
Qed.
Lemma two_to_mono a b : (a <= b)%Z -> two_to a <= two_to b.
Proof.
  intro H. replace b with (a + Z.of_nat (Z.to_nat (b - a)))%Z by lia.
  induction (Z.to_nat (b - a)) as [|n IH]; [rewrite Z.add_0_r; apply Qcle_refl|].
  rewrite Nat2Z.inj_succ. replace (a + Z.succ (Z.of_nat n))%Z with (a + Z.of_nat n + 1)%Z by lia.
  rewrite two_to_succ. pose proof (two_to_pos (a + Z.of_nat n)) as P. change (zq 2) with (1 + 1).
  apply Qcle_trans with (1 := IH). qc_lra.
Qed.

Lemma nsub_pos order : (0 < num_subdivisions order)%nat.
Proof. unfold num_subdivisions. lia. Qed.
Lemma nq_pos n : (0 < n)%nat -> 0 < nq n.
Proof. intro H. apply zq_lt with (a := 0%Z). lia. Qed.
Lemma nq_S n : nq (n + 1) = nq n + 1.
Proof. unfold nq. rewrite Nat2Z.inj_add, zq_plus. reflexivity. Qed.
Lemma nq_lt a b : nq a < nq b <-> (a < b)%nat.
Proof. unfold nq. rewrite zq_lt. lia. Qed.
Lemma nq_le a b : nq a <= nq b <-> (a <= b)%nat.
Proof. unfold nq. rewrite zq_le. lia. Qed.

(** ** writing the output *)
Lemma emits_ok dim stride val body dst : (0 < stride)%nat -> ((dim - 1) * stride < length dst)%nat ->
  (forall j s, (j < dim)%nat -> body j s = emit stride (val j) s) ->
  exists dst', iter dim body (0%nat, dst) = Some (dim * stride, dst')%nat /\ written dim stride val dst dst'.
Proof.
  intros Hs Hd Hb.
  destruct (iter_inv (fun j '(p, d) => p = (j * stride)%nat /\ written j stride val dst d) body dim (0%nat, dst)) as ([p d] & E & -> & W).
  - split; [reflexivity|]. split; [reflexivity|]. split; [lia|auto].
  - intros j [p d] Lj [-> (L & W1 & W2)]. rewrite Hb by exact Lj. unfold emit.
    assert (Lp : (j * stride < length d)%nat).
    { rewrite L. assert (j * stride <= (dim - 1) * stride)%nat by (apply Nat.mul_le_mono_r; lia). lia. }
    rewrite aset_lt by exact Lp. cbn [obind]. eexists; split; [reflexivity|]. split; [lia|].
    split; [rewrite upd_length; exact L|]. split.
    + intros k Lk. destruct (Nat.eq_dec k j) as [->|N].
      * now apply nth_error_upd_eq.
      * rewrite nth_error_upd_neq; [apply W1; lia|]. intro X. apply Nat.mul_cancel_r in X; lia.
    + intros q Hq. rewrite nth_error_upd_neq; [apply W2; intros k Lk; apply Hq; lia|]. intro X. symmetry in X. revert X. apply Hq. lia.
  - exists d. split; [exact E|exact W].
Qed.

(** ** the loop on the mantissa *)
Section Find.
Variables (order : nat) (s : Qc) (sub : Qc -> Qc -> Qc).
Notation n := (num_subdivisions order).

Lemma find_row_inv (I : nat -> Qc -> Prop) m0 row :
  (forall k m, I k m -> s <= m -> I (k + 1)%nat (sub m s) /\ (k < n)%nat) -> I 0%nat m0 ->
  exists k m', find_row order s sub m0 row = Some (m', (row + k)%nat) /\ I k m' /\ m' < s /\ (k <= n)%nat.
Proof.
  intros St I0. unfold find_row.
  enough (H : forall fuel k m, (n + 1 - k <= fuel)%nat -> (k <= n)%nat -> I k m ->
    exists k' m', while fuel (fun s0 => negb (qlt (fst s0) s)) (fun '(mantissa, row) => Some (sub mantissa s, (row + 1)%nat)) (m, (row + k)%nat)
      = Some (m', (row + k')%nat) /\ I k' m' /\ m' < s /\ (k' <= n)%nat).
  { destruct (H (n + 1)%nat 0%nat m0 ltac:(lia) ltac:(lia) I0) as (k' & m' & E & R). exists k', m'. rewrite Nat.add_0_r in E. auto. }
  induction fuel as [|fuel IH]; intros k m F Lk Ik; [lia|]. cbn [while fst].
  destruct (qlt m s) eqn:Q; cbn [negb].
  - exists k, m. split; [reflexivity|]. split; [exact Ik|]. split; [now apply qlt_true|exact Lk].
  - apply qlt_false in Q. destruct (St k m Ik Q) as (Ik' & Lk'). cbn [obind].
    rewrite <- Nat.add_assoc. apply IH; [lia|lia|exact Ik'].
Qed.

(** rounded subtraction: the row never moves by more than the number of
    subdivisions *)
Lemma find_row_rounded (err : Qc) m0 row : 0 <= err -> 1 <= nq (n + 1) * (s - err) ->
  (forall m, s <= m -> m < 1 -> sub m s <= m - s + err) -> m0 < 1 ->
  exists m' row', find_row order s sub m0 row = Some (m', row') /\ (row <= row' <= row + n)%nat.
Proof.
  intros He Hn Hs Hm.
  assert (Hp : 0 < s - err).
  { destruct (Qclt_le_dec 0 (s - err)) as [P|P]; [exact P|]. exfalso.
    assert (X : nq (n + 1) * (s - err) <= 0).
    { assert (Y : 0 <= nq (n + 1)) by (apply nq_le with (a := 0%nat); lia).
      setoid_replace (nq (n + 1) * (s - err)) with ((s - err) * nq (n + 1)) by ring.
      rewrite <- (Qcmult_0_l (nq (n + 1))). apply Qcmult_le_compat_r; auto. }
    qc_lra. }
  destruct (find_row_inv (fun k m => m + nq k * (s - err) <= m0) m0 row) as (k & m' & E & _ & _ & L).
  - intros k m Ik Sm.
    assert (Kp : 0 <= nq k * (s - err)).
    { rewrite <- (Qcmult_0_l (s - err)). apply Qcmult_le_compat_r; [apply nq_le with (a := 0%nat); lia|now apply Qclt_le_weak]. }
    assert (M1 : m < 1) by qc_lra. specialize (Hs m Sm M1). rewrite nq_S. split.
    + setoid_replace ((nq k + 1) * (s - err)) with (nq k * (s - err) + (s - err)) by ring. qc_lra.
    + assert (X : (nq k + 1) * (s - err) < nq (n + 1) * (s - err)).
      { setoid_replace ((nq k + 1) * (s - err)) with (nq k * (s - err) + (s - err)) by ring. qc_lra. }
      destruct (Nat.lt_ge_cases k n) as [L|L]; [exact L|]. exfalso.
      assert (Y : nq (n + 1) <= nq k + 1) by (rewrite nq_S; apply nq_le in L; qc_lra).
      apply Qcmult_le_compat_r with (z := s - err) in Y; [|now apply Qclt_le_weak].
      exact (Qclt_not_le _ _ X Y).
  - change (nq 0) with 0. setoid_replace (m0 + 0 * (s - err)) with m0 by ring. apply Qcle_refl.
  - exists m', (row + k)%nat. split; [exact E|lia].
Qed.
End Find.

(** exact subtraction: the row and the remainder *)
Lemma find_row_exact order m0 row : let n := num_subdivisions order in 0 <= m0 -> m0 < 1 ->
  exists k, find_row order (1 / nq n) Qcminus m0 row = Some (m0 - nq k / nq n, (row + k)%nat) /\
    (k < n)%nat /\ nq k <= nq n * m0 /\ nq n * m0 < nq k + 1.
Proof.
  intros n H0 H1. assert (Np : 0 < nq n) by (apply nq_pos, nsub_pos).
  assert (Nz : nq n <> 0) by now apply qc_pos_neq.
  assert (Scale : forall a b, a <= b <-> nq n * a <= nq n * b).
  { intros a b. setoid_replace (nq n * a) with (a * nq n) by ring. setoid_replace (nq n * b) with (b * nq n) by ring.
    split; intro H; [apply Qcmult_le_compat_r; [exact H|now apply Qclt_le_weak]|].
    now apply Qcmult_lt_0_le_reg_r with (z := nq n). }
  destruct (find_row_inv order (1 / nq n) Qcminus (fun k m => m = m0 - nq k / nq n /\ 0 <= m) m0 row) as (k & m' & E & [-> G] & L & _).
  - intros k m [-> G] S. split; [split|].
    + rewrite nq_S. field. exact Nz.
    + qc_lra.
    + assert (X : nq (k + 1) <= nq n * m0).
      { apply (proj1 (Scale _ _)) in S. rewrite nq_S.
        setoid_replace (nq n * (1 / nq n)) with 1 in S by (field; exact Nz).
        setoid_replace (nq n * (m0 - nq k / nq n)) with (nq n * m0 - nq k) in S by (field; exact Nz). qc_lra. }
      destruct (Nat.lt_ge_cases k n) as [Lk|Lk]; [exact Lk|]. exfalso.
      assert (Y : nq (n + 1) <= nq (k + 1)) by (apply nq_le; lia). rewrite nq_S in Y.
      assert (Z : nq n * m0 <= nq n * 1) by (apply (proj1 (Scale _ _)); now apply Qclt_le_weak). rewrite Qcmult_1_r in Z. qc_lra.
  - split; [|exact H0]. change (nq 0) with 0. field. exact Nz.
  - exists k. split; [exact E|].
    assert (B1 : nq k <= nq n * m0).
    { apply (proj1 (Scale _ _)) in G. setoid_replace (nq n * (m0 - nq k / nq n)) with (nq n * m0 - nq k) in G by (field; exact Nz).
      rewrite Qcmult_0_r in G. qc_lra. }
    assert (B2 : nq n * m0 < nq k + 1).
    { destruct (Qclt_le_dec (nq n * m0) (nq k + 1)) as [X|X]; [exact X|]. exfalso.
      apply (Qclt_not_le _ _ L). apply (proj2 (Scale _ _)).
      setoid_replace (nq n * (1 / nq n)) with 1 by (field; exact Nz).
      setoid_replace (nq n * (m0 - nq k / nq n)) with (nq n * m0 - nq k) by (field; exact Nz). qc_lra. }
    split; [|split; [exact B1|exact B2]].
    apply nq_lt. apply Qcle_lt_trans with (1 := B1).
    destruct (Qclt_le_dec (nq n * m0) (nq n)) as [X|X]; [exact X|]. exfalso.
    assert (Y : nq n * 1 <= nq n * m0) by (rewrite Qcmult_1_r; exact X). apply (proj2 (Scale _ _)) in Y. exact (Qclt_not_le _ _ H1 Y).
Qed.

(** ** the constructor *)
Section New.
Variables (sqrt_ log_ cos_ sin_ : Qc -> Qc) (pow_ : Qc -> Qc -> Qc) (spectrum : Qc -> Qc).
Variables (gamma two_pi period : Qc) (order : nat).
Notation K := (kappa_base order).
Notation FB := (freq_base order).
Notation TH := (table_height order).
Notation n := (num_subdivisions order).
Notation L := (big_l two_pi period).
Notation M := (table_height order * table_width order + 2 * (1 + order))%nat.

Definition good_to (i : nat) (fr : nat -> nat) (table : list Qc) : Prop :=
  forall a, (a < i)%nat -> nth (FB + a) table 0 = nq (fr a) /\ nth (K + a) table 0 = spectrum (nq (fr a) * L).

Lemma spectrum_loop_ok (block : list Qc) : length block = M ->
  exists i j table fr,
    while (3 * order + 3) (fun s => fst (fst s) <=? order)%nat (spectrum_step spectrum two_pi period order) (0%nat, 0%nat, block)
      = Some (i, j, table) /\
    length table = M /\ frequencies spectrum L order fr /\ good_to (order + 1) fr table.
Proof.
  intro Hb.
  destruct (Vec_Proofs.while_safe (fun '(i, j, table) => (i <= order + 1)%nat /\ (j <= 3 * i)%nat /\ length table = M /\
      exists fr, good_to i fr table /\ (i = 0%nat -> j = 0%nat) /\
        ((0 < i)%nat -> fr 0%nat = 0%nat) /\
        (forall a, (a + 1 < i)%nat -> (fr a < fr (a + 1)) % nat /\ retained spectrum L (a + 1) (fr (a + 1)%nat) /\
            forall j, (fr a < j)%nat -> (j < fr (a + 1))%nat -> ~ retained spectrum L (a + 1) j) /\
        (forall a, i = (a + 1)%nat -> (fr a < j)%nat /\ forall j', (fr a < j')%nat -> (j' < j)%nat -> ~ retained spectrum L i j'))
     (fun '(i, j, table) => 3 * order + 2 - j)%nat
     (fun s => fst (fst s) <=? order)%nat (spectrum_step spectrum two_pi period order))
    with (fuel := (3 * order + 3)%nat) (s := (0%nat, 0%nat, block)) as ([[i j] table] & E & (B1 & B2 & Lt & fr & G & _ & F0 & F1 & _) & C).
  - intros [[i j] table] (B1 & B2 & Lt & fr & G & J0 & F0 & F1 & F2) C. cbn [fst] in C. apply Nat.leb_le in C.
    unfold spectrum_step.
    assert (P1 : (FB + i < length table)%nat) by (rewrite Lt; unfold freq_base, kappa_base; lia).
    rewrite aset_lt by exact P1. cbn [obind].
    assert (P2 : (K + i < length (upd table (FB + i) (nq j)))%nat) by (rewrite upd_length, Lt; unfold kappa_base; lia).
    rewrite aset_lt by exact P2. cbn [obind].
    assert (P3 : (K + i < length (upd (upd table (FB + i) (nq j)) (K + i) (spectrum (nq j * L))))%nat) by (rewrite upd_length; exact P2).
    rewrite (aget_nth _ _ 0) by exact P3. cbn [obind]. rewrite nth_upd by exact P2. rewrite Nat.eqb_refl.
    set (t' := upd (upd table (FB + i) (nq j)) (K + i) (spectrum (nq j * L))) in *.
    assert (Lt' : length t' = M) by (unfold t'; rewrite !upd_length; exact Lt).
    assert (V : forall a, (a <= order)%nat -> nth (FB + a) t' 0 = (if (a =? i)%nat then nq j else nth (FB + a) table 0) /\
                      nth (K + a) t' 0 = (if (a =? i)%nat then spectrum (nq j * L) else nth (K + a) table 0)).
    { intros a La. unfold t'. rewrite !nth_upd by (try exact P2; exact P1).
      destruct (Nat.eqb_spec a i) as [->|Na].
      - rewrite !Nat.eqb_refl. destruct (Nat.eqb_spec (FB + i) (K + i)); [unfold freq_base in *; lia|]. split; reflexivity.
      - destruct (Nat.eqb_spec (FB + a) (K + i)); [unfold freq_base in *; lia|].
        destruct (Nat.eqb_spec (FB + a) (FB + i)); [lia|].
        destruct (Nat.eqb_spec (K + a) (K + i)); [lia|].
        destruct (Nat.eqb_spec (K + a) (FB + i)); [unfold freq_base in *; lia|]. split; reflexivity. }
    assert (Ret : retained spectrum L i j <-> qlt 0 (spectrum (nq j * L)) || (3 * i <=? j + 1)%nat = true).
    { unfold retained. rewrite orb_true_iff, Nat.leb_le, qlt_true. reflexivity. }
    destruct (qlt 0 (spectrum (nq j * L)) || (3 * i <=? j + 1)%nat) eqn:R.
    + eexists; split; [reflexivity|]. split; [|lia].
      split; [lia|]. split; [lia|]. split; [exact Lt'|].
      exists (fun a => if (a =? i)%nat then j else fr a). split; [|split; [lia|split; [|split]]].
      * intros a La. destruct (V a ltac:(lia)) as [V1 V2]. rewrite V1, V2.
        destruct (Nat.eqb_spec a i); [auto|]. apply G. lia.
      * intros _. destruct (Nat.eqb_spec 0 i) as [Ei|Ei]; [apply J0; lia|apply F0; lia].
      * intros a La. destruct (Nat.eqb_spec a i); [lia|]. destruct (Nat.eqb_spec (a + 1) i) as [Ea|Ea].
        -- destruct (F2 a ltac:(lia)) as [F2a F2b]. split; [exact F2a|]. rewrite Ea. split; [apply Ret; reflexivity|exact F2b].
        -- apply F1. lia.
      * intros a Ea. assert (a = i) by lia. subst a. rewrite Nat.eqb_refl. split; [lia|]. intros; lia.
    + eexists; split; [reflexivity|]. apply orb_false_iff in R as [R1 R2]. apply Nat.leb_gt in R2.
      split; [|lia]. split; [lia|]. split; [lia|]. split; [exact Lt'|].
      exists fr. split; [|split; [lia|split; [exact F0|split; [exact F1|]]]].
      * intros a La. destruct (V a ltac:(lia)) as [V1 V2]. rewrite V1, V2.
        destruct (Nat.eqb_spec a i); [lia|]. apply G. lia.
      * intros a Ea. destruct (F2 a Ea) as [F2a F2b]. split; [lia|]. intros j' B3 B4.
        destruct (Nat.eq_dec j' j) as [->|]; [|apply F2b; lia].
        intro X. apply Ret in X. discriminate.
  - lia.
  - split; [lia|]. split; [lia|]. split; [exact Hb|]. exists (fun _ => 0%nat).
    split; [intros a La; lia|]. split; [auto|]. split; [lia|]. split; [intros; lia|]. intros; lia.
  - cbn [fst] in C. apply Nat.leb_gt in C. assert (i = order + 1)%nat by lia. subst i.
    exists (order + 1)%nat, j, table, fr. split; [exact E|]. split; [exact Lt|]. split; [|exact G].
    split; [apply F0; lia|]. intros a La. apply F1. lia.
Qed.

Variable (fr : nat -> nat).
Notation feat := (feature sqrt_ log_ cos_ sin_ pow_ gamma L (fun a => spectrum (nq (fr a) * L)) (fun a => nq (fr a))).

Lemma fill_row_ok x tp table : length table = M -> good_to (order + 1) fr table -> (tp + TH <= K)%nat ->
  exists table', fill_row sqrt_ log_ cos_ sin_ pow_ gamma two_pi period order x (tp, table) = Some ((tp + TH)%nat, table') /\
    length table' = M /\ forall p, nth p table' 0 = if ((tp <=? p) && (p <? tp + TH))%nat then feat x (p - tp)%nat else nth p table 0.
Proof.
  intros Lt G Htp. unfold fill_row. cbn [snd].
  assert (KM : (K + 2 * (1 + order))%nat = M) by reflexivity.
  rewrite (aget_nth table _ 0) by lia. cbn [obind]. rewrite (proj2 (G 0%nat ltac:(lia))).
  unfold push at 1. rewrite aset_lt by (unfold table_height in Htp; lia). cbn [obind].
  set (t0 := upd table tp _).
  destruct (iter_from_inv (fun j '(q, t) => q = (tp + (2 * j - 1))%nat /\ length t = M /\
      forall p, nth p t 0 = if ((tp <=? p) && (p <? q))%nat then feat x (p - tp)%nat else nth p table 0)
    (fun (j : nat) s =>
      do k <- aget (snd s) (K + j);
      do f <- aget (snd s) (FB + j);
      do s <- push (sqrt_ (zq 2 * (L * pow_ x gamma) * k) * cos_ (f * (L * log_ x))) s;
      push (sqrt_ (zq 2 * (L * pow_ x gamma) * k) * sin_ (f * (L * log_ x))) s)
    (order + 1)%nat order 1%nat ((tp + 1)%nat, t0)) as ([q t] & E & -> & Lt' & V).
  - lia.
  - split; [lia|]. split; [unfold t0; rewrite upd_length; exact Lt|]. intro p. unfold t0. rewrite nth_upd by (unfold table_height in *; lia).
    destruct (Nat.eqb_spec p tp) as [->|N].
    + destruct (Nat.leb_spec tp tp); [|lia]. destruct (Nat.ltb_spec tp (tp + 1)); [|lia]. cbn [andb].
      rewrite Nat.sub_diag. unfold feature. cbn [Nat.eqb]. reflexivity.
    + destruct (Nat.leb_spec tp p), (Nat.ltb_spec p (tp + 1)); cbn [andb]; try reflexivity. lia.
  - intros j [q t] B1 B2 (-> & Lt' & V). cbn [snd].
    assert (Hk : nth (K + j) t 0 = spectrum (nq (fr j) * L) /\ nth (FB + j) t 0 = nq (fr j)).
    { rewrite !V. unfold table_height in Htp. destruct (G j ltac:(lia)) as [G1 G2].
      destruct (Nat.ltb_spec (K + j) (tp + (2 * j - 1))); [lia|].
      destruct (Nat.ltb_spec (FB + j) (tp + (2 * j - 1))); [unfold freq_base in *; lia|].
      rewrite !andb_false_r. auto. }
    rewrite (aget_nth t (K + j) 0) by lia. cbn [obind].
    rewrite (aget_nth t (FB + j) 0) by (unfold freq_base; lia). cbn [obind].
    rewrite (proj1 Hk), (proj2 Hk). unfold push. unfold table_height in Htp.
    rewrite aset_lt by lia. cbn [obind]. rewrite aset_lt by (rewrite upd_length; lia). cbn [obind].
    eexists; split; [reflexivity|]. split; [lia|]. split; [rewrite !upd_length; exact Lt'|].
    intro p. rewrite !nth_upd by (rewrite ?upd_length; lia). rewrite V.
    assert (X1 : ((2 * j - 1 + 1) / 2 = j)%nat) by (replace (2 * j - 1 + 1)%nat with (j * 2)%nat by lia; apply Nat.div_mul; lia).
    assert (X2 : ((2 * j + 1) / 2 = j)%nat).
    { replace (2 * j + 1)%nat with (1 + j * 2)%nat by lia. rewrite Nat.div_add by lia. reflexivity. }
    destruct (Nat.eqb_spec p (tp + (2 * j - 1) + 1)) as [->|N1]; [|destruct (Nat.eqb_spec p (tp + (2 * j - 1))) as [->|N2]].
    + destruct (Nat.leb_spec tp (tp + (2 * j - 1) + 1)); [|lia].
      destruct (Nat.ltb_spec (tp + (2 * j - 1) + 1) (tp + (2 * j - 1) + 1 + 1)); [|lia]. cbn [andb].
      replace (tp + (2 * j - 1) + 1 - tp)%nat with (2 * j)%nat by lia. unfold feature.
      destruct (Nat.eqb_spec (2 * j) 0); [lia|]. rewrite Nat.odd_mul. cbn [Nat.odd Nat.even negb andb].
      rewrite X2. reflexivity.
    + destruct (Nat.leb_spec tp (tp + (2 * j - 1))); [|lia].
      destruct (Nat.ltb_spec (tp + (2 * j - 1)) (tp + (2 * j - 1) + 1 + 1)); [|lia]. cbn [andb].
      replace (tp + (2 * j - 1) - tp)%nat with (2 * j - 1)%nat by lia. unfold feature.
      destruct (Nat.eqb_spec (2 * j - 1) 0); [lia|].
      assert (Od : Nat.odd (2 * j - 1) = true).
      { apply Nat.odd_spec. exists (j - 1)%nat. lia. }
      rewrite Od, X1. reflexivity.
    + destruct (Nat.leb_spec tp p), (Nat.ltb_spec p (tp + (2 * j - 1))), (Nat.ltb_spec p (tp + (2 * j - 1) + 1 + 1)); cbn [andb]; try reflexivity; lia.
  - exists t. rewrite E. replace (tp + (2 * (order + 1) - 1))%nat with (tp + TH)%nat by (unfold table_height; lia).
    split; [reflexivity|]. split; [exact Lt'|]. intro p. rewrite V.
    replace (tp + (2 * (order + 1) - 1))%nat with (tp + TH)%nat by (unfold table_height; lia). reflexivity.
Qed.

(** grid point of row i of exponent number e *)
Definition grid (e i : nat) : Qc := two_to (min_exponent + Z.of_nat e) * (1 + nq i / nq n).

Lemma fill_ok table : length table = M -> good_to (order + 1) fr table ->
  exists tp table',
    iter 29 (fun e s =>
      do (_, s) <- iter n (fun i ms =>
        let '(mantissa, s) := ms in
        do s <- fill_row sqrt_ log_ cos_ sin_ pow_ gamma two_pi period order (ldexp mantissa (min_exponent + Z.of_nat e)) s;
        Some ((mantissa + 1 / nq n)%Qc, s)) (1%Qc, s);
      Some s) (0%nat, table) = Some (tp, table') /\
    length table' = M /\ good_to (order + 1) fr table' /\
    forall e i k, (e < 29)%nat -> (i < n)%nat -> (k < TH)%nat -> nth ((e * n + i) * TH + k) table' 0 = feat (grid e i) k.
Proof.
  intros Lt G.
  assert (KN : K = (TH * (n * 29))%nat) by reflexivity.
  assert (Nz : nq n <> 0) by (apply qc_pos_neq, nq_pos, nsub_pos).
  pose (P := fun R '((tp, t) : nat * list Qc) => tp = (R * TH)%nat /\ length t = M /\ good_to (order + 1) fr t /\
     forall e i k, (i < n)%nat -> (e * n + i < R)%nat -> (k < TH)%nat -> nth ((e * n + i) * TH + k) t 0 = feat (grid e i) k).
  destruct (iter_inv (fun e s => P (e * n)%nat s) (fun e s =>
      do (_, s) <- iter n (fun i ms =>
        let '(mantissa, s) := ms in
        do s <- fill_row sqrt_ log_ cos_ sin_ pow_ gamma two_pi period order (ldexp mantissa (min_exponent + Z.of_nat e)) s;
        Some ((mantissa + 1 / nq n)%Qc, s)) (1%Qc, s);
      Some s) 29 (0%nat, table)) as ([tp t] & E & -> & Lt' & G' & V).
  - unfold P. split; [lia|]. split; [exact Lt|]. split; [exact G|]. intros; lia.
  - intros e s Le Ps. cbv zeta.
    destruct (iter_inv (fun i ms => fst ms = 1 + nq i / nq n /\ P (e * n + i)%nat (snd ms))
      (fun (i : nat) ms => let '(mantissa, s) := ms in
        do s <- fill_row sqrt_ log_ cos_ sin_ pow_ gamma two_pi period order (ldexp mantissa (min_exponent + Z.of_nat e)) s;
        Some ((mantissa + 1 / nq n)%Qc, s)) n (1%Qc, s)) as ([m' s'] & E' & _ & Ps').
    + cbn [fst snd]. rewrite Nat.add_0_r. split; [|exact Ps]. change (nq 0) with 0. field. exact Nz.
    + intros i [m [tp t]] Li [Em (-> & Lt' & G' & V)]. cbn [fst snd] in *. subst m.
      destruct (fill_row_ok (ldexp (1 + nq i / nq n) (min_exponent + Z.of_nat e)) ((e * n + i) * TH) t Lt' G') as (t' & E' & Lt'' & V').
      { rewrite KN. replace ((e * n + i) * TH + TH)%nat with (TH * (e * n + i + 1))%nat by lia. apply Nat.mul_le_mono_l. nia. }
      rewrite E'. cbn [obind]. eexists; split; [reflexivity|]. cbn [fst snd].
      split; [rewrite nq_S; field; exact Nz|]. unfold P. split; [lia|]. split; [exact Lt''|].
      assert (Hi : ((e * n + i) * TH + TH <= K)%nat).
      { rewrite KN. replace ((e * n + i) * TH + TH)%nat with (TH * (e * n + i + 1))%nat by lia. apply Nat.mul_le_mono_l. nia. }
      split.
      * intros a La. rewrite !V'.
        destruct (Nat.ltb_spec (FB + a) ((e * n + i) * TH + TH)); [unfold freq_base in *; lia|].
        destruct (Nat.ltb_spec (K + a) ((e * n + i) * TH + TH)); [lia|]. rewrite !andb_false_r. now apply G'.
      * intros e' i' k Li' Lr Lk. rewrite V'.
        assert (CE : (e' * n + i' = e * n + i \/ e' * n + i' < e * n + i)%nat) by lia.
        destruct CE as [Q|Q].
        -- assert (e' = e) by nia. subst e'. assert (i' = i) by lia. subst i'.
           destruct (Nat.leb_spec ((e * n + i) * TH) ((e * n + i) * TH + k)); [|lia].
           destruct (Nat.ltb_spec ((e * n + i) * TH + k) ((e * n + i) * TH + TH)); [|lia]. cbn [andb].
           replace ((e * n + i) * TH + k - (e * n + i) * TH)%nat with k by lia. 
           f_equal. unfold ldexp, grid. rewrite pow2_two_to. ring.
        -- destruct (Nat.leb_spec ((e * n + i) * TH) ((e' * n + i') * TH + k)) as [X|X].
           ++ assert ((e' * n + i' + 1) * TH <= (e * n + i) * TH)%nat by (apply Nat.mul_le_mono_r; lia). lia.
           ++ cbn [andb]. apply V; auto.
    + rewrite E'. cbn [obind]. exists s'. split; [reflexivity|]. cbn [snd] in Ps'.
      replace ((e + 1) * n)%nat with (e * n + n)%nat by lia. exact Ps'.
  - exists (29 * n * TH)%nat, t. split; [exact E|]. split; [exact Lt'|]. split; [exact G'|].
    intros e i k Le Li Lk. apply V; auto. nia.
Qed.
End New.

Lemma new_table_ok sqrt_ log_ cos_ sin_ pow_ spectrum gamma two_pi period order block :
  let l := two_pi / period in
  let n := num_subdivisions order in
  length block = (table_height order * table_width order + 2 * (1 + order))%nat ->
  exists table fr, new_table sqrt_ log_ cos_ sin_ pow_ spectrum gamma two_pi period order block = Some table /\
    length table = length block /\ frequencies spectrum l order fr /\
    forall e i k, (e < 29)%nat -> (i < n)%nat -> (k < 2 * order + 1)%nat ->
      nth ((e * n + i) * (2 * order + 1) + k) table 0 =
      feature sqrt_ log_ cos_ sin_ pow_ gamma l (fun a => spectrum (nq (fr a) * l)) (fun a => nq (fr a)) (grid order e i) k.
Proof.
  intros l n Hb. unfold new_table. rewrite Hb, Nat.eqb_refl. cbn [negb].
  destruct (spectrum_loop_ok spectrum two_pi period order block Hb) as (i & j & t & fr & E & Lt & F & G).
  rewrite E. cbn [obind].
  destruct (fill_ok sqrt_ log_ cos_ sin_ pow_ spectrum gamma two_pi period order fr t Lt G) as (tp & t' & E' & Lt' & _ & V).
  change (Z.to_nat (max_exponent - min_exponent + 1)) with 29%nat. rewrite E'. cbn [obind].
  exists t', fr. split; [reflexivity|]. split; [exact Lt'|]. split; [exact F|exact V].
Qed.

(** ** the evaluation *)
Section Eval.
Variables (order : nat) (table : list Qc) (x fm : Qc) (fe : Z) (stride : nat) (dst : list Qc).
Notation n := (num_subdivisions order).
Notation dim := (2 * order + 1)%nat.
Hypothesis Hf : is_frexp x fm fe.

Let sign : Qc := if qlt fm 0 then - (1) else 1.
Lemma mantissa_abs : fm * (zq 2 * sign) = zq 2 * [fm].
Proof.
  unfold sign. destruct (qlt fm 0) eqn:Q.
  - apply qlt_true in Q. rewrite Qcabs_neg by now apply Qclt_le_weak. ring.
  - apply qlt_false in Q. rewrite Qcabs_pos by exact Q. ring.
Qed.
Lemma abs_x : [x] = zq 2 * [fm] * two_to (fe - 1).
Proof.
  destruct Hf as (E & _). rewrite E at 1. rewrite Qcabs_Qcmult. rewrite (Qcabs_pos (two_to fe)) by (apply Qclt_le_weak, two_to_pos).
  replace (two_to fe) with (two_to (fe - 1 + 1)) by (f_equal; lia). rewrite two_to_succ. ring.
Qed.
Lemma x_zero : x = 0 <-> zq 2 * [fm] = 0.
Proof.
  destruct Hf as (E & Z & _). split; intro Q.
  - rewrite (Z Q). reflexivity.
  - apply Qcmult_integral in Q as [Q|Q]; [discriminate|].
    assert (fm = 0) as ->; [|rewrite E; ring].
    revert Q. apply (Qcabs_case fm (fun a => a = 0 -> fm = 0)); intros _ Q; [exact Q|].
    replace fm with (- - fm) by ring. rewrite Q. reflexivity.
Qed.
Lemma mantissa_range : x <> 0 -> 1 <= zq 2 * [fm] /\ zq 2 * [fm] < 1 + 1.
Proof. destruct Hf as (_ & _ & B). intro N. destruct (B N) as [B1 B2]. change (zq 2) with (1 + 1). split; qc_lra. Qed.

(** the exponent range in terms of the argument *)
Lemma out_of_range : x = 0 \/ (fe - 1 <= min_exponent)%Z \/ (max_exponent <= fe - 1)%Z <->
  [x] < two_to (-19) \/ two_to 8 <= [x].
Proof.
  destruct (Qc_eq_dec x 0) as [Z|N].
  - split; [|auto]. intros _. left. rewrite Z. reflexivity.
  - destruct (mantissa_range N) as [B1 B2]. rewrite abs_x.
    set (a := zq 2 * [fm]) in *. pose proof (two_to_pos (fe - 1)) as P.
    assert (C1 : two_to (fe - 1) <= a * two_to (fe - 1)).
    { rewrite <- (Qcmult_1_l (two_to (fe - 1))) at 1. apply Qcmult_le_compat_r; [exact B1|now apply Qclt_le_weak]. }
    assert (C2 : a * two_to (fe - 1) < two_to fe).
    { replace (two_to fe) with ((1 + 1) * two_to (fe - 1)).
      - apply Qcmult_lt_compat_r; [exact P|exact B2].
      - change (1 + 1) with (zq 2). rewrite <- two_to_succ. f_equal. lia. }
    unfold min_exponent, max_exponent. split.
    + intros [Z|[Z|Z]]; [contradiction|left|right].
      * apply Qclt_le_trans with (1 := C2). apply two_to_mono. lia.
      * apply Qcle_trans with (2 := C1). now apply two_to_mono.
    + intros [Z|Z].
      * right. left. destruct (Z.le_gt_cases (fe - 1) (-20)) as [L|L]; [exact L|]. exfalso.
        assert (X : two_to (-19) <= two_to (fe - 1)) by (apply two_to_mono; lia).
        apply (Qclt_not_le _ _ Z). now apply Qcle_trans with (1 := X).
      * right. right. destruct (Z.le_gt_cases 8 (fe - 1)) as [L|L]; [exact L|]. exfalso.
        assert (X : two_to fe <= two_to 8) by (apply two_to_mono; lia).
        apply (Qclt_not_le _ _ C2). now apply Qcle_trans with (1 := X).
Qed.

Lemma range_test :
  ((if Qc_eq_dec (fm * (zq 2 * sign)) 0 then true else false) || (fe - 1 <=? min_exponent)%Z || (max_exponent <=? fe - 1)%Z) = true
  <-> [x] < two_to (-19) \/ two_to 8 <= [x].
Proof.
  rewrite <- out_of_range, x_zero, <- mantissa_abs. rewrite !orb_true_iff, !Z.leb_le.
  destruct (Qc_eq_dec (fm * (zq 2 * sign)) 0); intuition discriminate.
Qed.

Hypothesis Hs : (0 < stride)%nat.
Hypothesis Hd : ((dim - 1) * stride < length dst)%nat.
Lemma evaluate_zero s sub : [x] < two_to (-19) \/ two_to 8 <= [x] ->
  exists dst', evaluate order s sub table fm fe stride dst = Some dst' /\ written dim stride (fun _ => 0) dst dst'.
Proof.
  intro R. apply range_test in R. unfold evaluate. fold sign. rewrite R.
  destruct (emits_ok dim stride (fun _ => 0) (fun _ s => emit stride 0 s) dst Hs Hd (fun _ _ _ => eq_refl)) as (d & E & W).
  rewrite E. cbn [obind]. eauto.
Qed.

Hypothesis Ht : (dim * (n * 29) <= length table)%nat.
Lemma evaluate_inside s sub : two_to (-19) <= [x] -> [x] < two_to 8 ->
  let row := (Z.to_nat (fe - 1 - min_exponent) * n)%nat in
  forall m' row', find_row order s sub (zq 2 * [fm] - 1) row = Some (m', row') -> (row <= row' <= row + n)%nat ->
  exists dst', evaluate order s sub table fm fe stride dst = Some dst' /\
    written dim stride (fun j => sign * ((nth ((row' + 1) * dim + j) table 0 - nth (row' * dim + j) table 0) * (nq n * m') + nth (row' * dim + j) table 0)) dst dst'.
Proof.
  intros R1 R2 row m' row' E B. unfold evaluate. fold sign.
  destruct (_ || _ || _) eqn:T.
  { apply range_test in T. exfalso. destruct T as [T|T]; [exact (Qclt_not_le _ _ T R1)|exact (Qclt_not_le _ _ R2 T)]. }
  apply orb_false_iff in T as [T T3]. apply orb_false_iff in T as [_ T2]. apply Z.leb_gt in T2, T3.
  rewrite mantissa_abs. fold row. rewrite E. cbn [obind].
  assert (Lr : (row + 2 * n <= 29 * n)%nat).
  { unfold row, min_exponent, max_exponent in *. pose proof (nsub_pos order). 
    assert (Z.to_nat (fe - 1 - -20) <= 27)%nat by lia. nia. }
  destruct (emits_ok dim stride (fun j => sign * ((nth ((row' + 1) * dim + j) table 0 - nth (row' * dim + j) table 0) * (nq n * m') + nth (row' * dim + j) table 0))
    (fun j s => do f1 <- aget table (row' * dim + j); do f2 <- aget table ((row' + 1) * dim + j);
      emit stride (sign * ((f2 - f1) * (nq n * m') + f1)) s) dst Hs Hd) as (d & E' & W).
  - intros j st Lj. pose proof (nsub_pos order) as NP.
    assert (L2 : ((row' + 1) * dim + j < length table)%nat).
    { assert ((row' + 2) * dim <= 29 * n * dim)%nat; [apply Nat.mul_le_mono_r; unfold num_subdivisions in *; lia|]. nia. }
    assert (L1 : (row' * dim + j < length table)%nat) by nia.
    rewrite (aget_nth table _ 0) by exact L1. cbn [obind]. rewrite (aget_nth table _ 0) by exact L2. reflexivity.
  - rewrite E'. cbn [obind]. eauto.
Qed.
End Eval.
