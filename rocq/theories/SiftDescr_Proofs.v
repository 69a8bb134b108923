(** Proofs for orientations and descriptors. *)
From Coq Require Import List Arith ZArith Lia Bool QArith Qcanon Qcabs Sorted.
Import ListNotations.
From Verif Require Import Base Loop Rat ImOp_Spec Kmeans_Spec MserSort_Proofs Gauss_Proofs Homker_Proofs KmeansEnergy_Proofs Sift_Model Sift_Spec Sift_Proofs SiftDescr_Spec SiftDescr_Model.
From Verif Require Gauss_Model.
Local Open Scope nat_scope.
Local Notation qlt := Gauss_Model.qlt.

(** ** Bins *)
Lemma floor_bounds q : (0 <= q - zq (qfloor q))%Qc /\ (q - zq (qfloor q) < 1)%Qc.
Proof. pose proof (qfloor_le q) as A. pose proof (qfloor_lt q) as B. split; qc_prep; change (this 1%Qc) with 1%Q in *; change (this 0%Qc) with 0%Q in *; Lqa.lra. Qed.
Lemma zq_2 : zq 2 = nq 2. Proof. reflexivity. Qed.
Lemma zq_m1 : zq (-1) = (-(1))%Qc. Proof. reflexivity. Qed.
Lemma qabs_pos (a : Qc) : (0 <= a)%Qc -> Qcabs a = a. Proof. apply Qcabs_pos. Qed.
Lemma qabs_neg (a : Qc) : (a <= 0)%Qc -> Qcabs a = (- a)%Qc. Proof. apply Qcabs_neg. Qed.
Lemma tent_big u : (1 <= u \/ u <= -(1))%Qc -> tent u = 0%Qc.
Proof.
  intros H. unfold tent. destruct (Qclt_le_dec (Qcabs u) 1) as [L|L]; [|reflexivity]. exfalso. destruct H as [H|H].
  - rewrite qabs_pos in L; [|qc_prep; change (this 1%Qc) with 1%Q in *; change (this 0%Qc) with 0%Q in *; Lqa.lra].
    qc_prep; change (this 1%Qc) with 1%Q in *; Lqa.lra.
  - rewrite qabs_neg in L; qc_prep; change (this 1%Qc) with 1%Q in *; change (this 0%Qc) with 0%Q in *; Lqa.lra.
Qed.
(** the weight of an integer distance plus a fraction *)
Lemma tent_int (m : Z) (r : Qc) : (0 <= r)%Qc -> (r < 1)%Qc ->
  tent (zq m + r) = ((if (m =? 0)%Z then 1 - r else 0) + (if (m =? -1)%Z then r else 0))%Qc.
Proof.
  intros R0 R1. destruct (Z.eqb_spec m 0) as [->|N0].
  - change (zq 0) with 0%Qc. change (0 =? -1)%Z with false. replace (0 + r)%Qc with r by ring. unfold tent. rewrite qabs_pos by exact R0.
    destruct (Qclt_le_dec r 1) as [L|L]; [ring|]. destruct (Qclt_not_le _ _ R1 L).
  - destruct (Z.eqb_spec m (-1)) as [->|N1].
    + rewrite zq_m1. unfold tent. rewrite qabs_neg by (qc_prep; change (this 1%Qc) with 1%Q in *; change (this 0%Qc) with 0%Q in *; Lqa.lra).
      destruct (Qclt_le_dec _ 1) as [L|L]; [ring|]. assert (r = 0)%Qc as -> by (apply Qcle_antisym; [|exact R0]; qc_prep; change (this 1%Qc) with 1%Q in *; change (this 0%Qc) with 0%Q in *; Lqa.lra). ring.
    + rewrite tent_big; [ring|]. assert (1 <= m \/ m <= -2)%Z as [H|H] by lia; apply zq_le in H.
      * left. change (zq 1) with 1%Qc in H. qc_prep; change (this 1%Qc) with 1%Q in *; change (this 0%Qc) with 0%Q in *; Lqa.lra.
      * right. change (zq (-2)) with (-(1) - 1)%Qc in H. qc_prep; change (this 1%Qc) with 1%Q in *; change (this 0%Qc) with 0%Q in *; Lqa.lra.
Qed.
Lemma tent_bin (t : Qc) (b : Z) : let f := qfloor t in
  tent (t - zq b) = ((if (f =? b)%Z then 1 - (t - zq f) else 0) + (if (f + 1 =? b)%Z then t - zq f else 0))%Qc.
Proof.
  intros f. destruct (floor_bounds t) as [R0 R1]. fold f in R0, R1. replace (t - zq b)%Qc with (zq (f - b) + (t - zq f))%Qc by (rewrite zq_minus; ring).
  rewrite tent_int by assumption. f_equal.
  - destruct (Z.eqb_spec (f - b) 0), (Z.eqb_spec f b); auto; lia.
  - destruct (Z.eqb_spec (f - b) (-1)), (Z.eqb_spec (f + 1) b); auto; lia.
Qed.
(** the same with bins around a circle *)
Lemma tent_circle (n : nat) (t : Qc) (b : Z) : 2 <= n -> (0 <= b < Z.of_nat n)%Z -> let f := qfloor t in
  tent (wrap n (t - zq b)) = ((if (f mod Z.of_nat n =? b)%Z then 1 - (t - zq f) else 0) + (if ((f + 1) mod Z.of_nat n =? b)%Z then t - zq f else 0))%Qc.
Proof.
  intros Hn Hb f. destruct (floor_bounds t) as [R0 R1]. fold f in R0, R1. set (r := (t - zq f)%Qc) in *.
  unfold wrap. set (q := ((t - zq b) / nq n + 1 / nq 2)%Qc). set (k := qfloor q). destruct (floor_bounds q) as [K0 K1]. fold k in K0, K1.
  assert (Pn : (0 < nq n)%Qc) by (apply nq_pos; lia).
  replace (t - zq b - nq n * zq k)%Qc with (zq (f - b - Z.of_nat n * k) + r)%Qc by (rewrite !zq_minus, zq_mult; fold (nq n); unfold r; ring).
  set (m := (f - b - Z.of_nat n * k)%Z).
  assert (Q : (nq n * (q - zq k) = zq m + r + nq n / nq 2)%Qc).
  { unfold q, m, r. rewrite !zq_minus, zq_mult. fold (nq n). field. split; [discriminate|]. now apply qc_pos_neq. }
  assert (B0 : (0 <= zq m + r + nq n / nq 2)%Qc) by (rewrite <- Q; apply Qc_mult_nonneg; [now apply Qclt_le_weak|exact K0]).
  assert (B1 : (zq m + r + nq n / nq 2 < nq n)%Qc).
  { rewrite <- Q. rewrite (Qcmult_comm (nq n)). replace (nq n) with (1 * nq n)%Qc at 2 by ring. apply Qcmult_lt_compat_r; assumption. }
  assert (E2 : (nq n / nq 2 + nq n / nq 2 = nq n)%Qc) by (change (nq 2) with (1 + 1)%Qc; field; discriminate). set (h := (nq n / nq 2)%Qc) in *.
  assert (M1 : (-1 < Z.of_nat n + 2 * m + 1)%Z).
  { apply zq_lt_inv. rewrite !zq_plus, zq_mult. fold (nq n). rewrite <- E2. change (zq 2) with (1 + 1)%Qc. change (zq 1) with 1%Qc. rewrite zq_m1.
    clear - B0 R1. clearbody h r. qc_prep; change (this 1%Qc) with 1%Q in *; change (this 0%Qc) with 0%Q in *; Lqa.lra. }
  assert (M2 : (2 * m < Z.of_nat n)%Z).
  { apply zq_lt_inv. rewrite zq_mult. fold (nq n). rewrite <- E2 in B1 |- *. change (zq 2) with (1 + 1)%Qc.
    clear - B1 R0. clearbody h r. qc_prep; change (this 1%Qc) with 1%Q in *; change (this 0%Qc) with 0%Q in *; Lqa.lra. }
  rewrite tent_int by assumption. assert (Ef : f = (m + b + Z.of_nat n * k)%Z) by (unfold m; lia). f_equal.
  - replace (f mod Z.of_nat n)%Z with ((m + b) mod Z.of_nat n)%Z by (rewrite Ef, (Z.mul_comm (Z.of_nat n) k), Z_mod_plus_full; reflexivity).
    destruct (Z.eqb_spec m 0) as [->|N]; [rewrite Z.add_0_l, Z.mod_small, Z.eqb_refl by lia; reflexivity|].
    destruct (Z.eqb_spec ((m + b) mod Z.of_nat n) b) as [X|X]; [|reflexivity]. exfalso.
    pose proof (Z.div_mod (m + b) (Z.of_nat n) ltac:(lia)) as D. rewrite X in D. assert ((m + b) / Z.of_nat n = 0 \/ 1 <= (m + b) / Z.of_nat n \/ (m + b) / Z.of_nat n <= -1)%Z as [Y|[Y|Y]] by lia; nia.
  - replace ((f + 1) mod Z.of_nat n)%Z with ((m + 1 + b) mod Z.of_nat n)%Z
      by (rewrite Ef; replace (m + b + Z.of_nat n * k + 1)%Z with (m + 1 + b + k * Z.of_nat n)%Z by lia; rewrite Z_mod_plus_full; reflexivity).
    destruct (Z.eqb_spec m (-1)) as [->|N]; [rewrite Z.mod_small by lia; cbn [Z.add Z.opp]; rewrite Z.eqb_refl; reflexivity|].
    destruct (Z.eqb_spec ((m + 1 + b) mod Z.of_nat n) b) as [X|X]; [|reflexivity]. exfalso.
    pose proof (Z.div_mod (m + 1 + b) (Z.of_nat n) ltac:(lia)) as D. rewrite X in D. assert ((m + 1 + b) / Z.of_nat n = 0 \/ 1 <= (m + 1 + b) / Z.of_nat n \/ (m + 1 + b) / Z.of_nat n <= -1)%Z as [Y|[Y|Y]] by lia; nia.
Qed.
Lemma wrap_period n t k : 0 < n -> wrap n (t + zq k * nq n)%Qc = wrap n t.
Proof.
  intros Hn. unfold wrap. assert (nq n <> 0)%Qc by (apply qc_pos_neq, nq_pos; lia).
  replace ((t + zq k * nq n) / nq n + 1 / nq 2)%Qc with (t / nq n + 1 / nq 2 + zq k)%Qc by (field; split; [discriminate|assumption]).
  replace (qfloor (t / nq n + 1 / nq 2 + zq k))%Qc with (qfloor (t / nq n + 1 / nq 2) + k)%Z.
  - rewrite zq_plus. ring.
  - symmetry. destruct (floor_bounds (t / nq n + 1 / nq 2)) as [A B]. set (v := (t / nq n + 1 / nq 2)%Qc) in *. clearbody v.
    apply qfloor_unique; rewrite zq_plus; qc_prep; change (this 1%Qc) with 1%Q in *; change (this 0%Qc) with 0%Q in *; Lqa.lra.
Qed.

(** ** fast_expn and vl_mod_2pi_f *)
Ltac qn := qc_prep; change (this 1%Qc) with 1%Q in *; change (this 0%Qc) with 0%Q in *; try Lqa.lra.
Lemma fast_expn_ok expo x : (0 <= x)%Qc -> x <> nq 25 -> fast_expn expo x = Some (tabulated expo x).
Proof.
  intros X0 XN. unfold fast_expn, tabulated, expn_max. destruct (qlt (nq 25) x) eqn:E.
  - apply qlt_true in E. destruct (Qclt_le_dec (nq 25) x) as [L|L]; [reflexivity|]. destruct (Qclt_not_le _ _ E L).
  - apply qlt_false in E. destruct (Qclt_le_dec (nq 25) x) as [L|_]; [destruct (Qclt_not_le _ _ L E)|].
    replace (x * (nq 256 / nq 25))%Qc with (x * nq 256 / nq 25)%Qc by (field; discriminate). set (t := (x * nq 256 / nq 25)%Qc).
    assert (T0 : (0 <= t)%Qc). { unfold t. rewrite <- (Qcmult_0_l (/ nq 25)). apply Qcmult_le_compat_r; [|discriminate]. apply Qc_mult_nonneg; [exact X0|discriminate]. }
    assert (T1 : (t < nq 256)%Qc).
    { assert (L : (x < nq 25)%Qc) by (destruct (Qcle_lt_or_eq _ _ E); [assumption|contradiction]).
      unfold t. replace (x * nq 256 / nq 25)%Qc with (x * (nq 256 / nq 25))%Qc by (field; discriminate).
      replace (nq 256) with (nq 25 * (nq 256 / nq 25))%Qc at 2 by (field; discriminate). apply Qcmult_lt_compat_r; [reflexivity|exact L]. }
    clearbody t. set (k := qfloor t).
    assert (K : (0 <= k < 256)%Z).
    { pose proof (qfloor_le t) as A. pose proof (qfloor_lt t) as B. fold k in A, B. split.
      - assert (zq (-1) < zq k)%Qc as H by (change (zq (-1)) with (-(1))%Qc; clear - B T0; clearbody k; qn). apply zq_lt_inv in H. lia.
      - apply zq_lt_inv. apply Qcle_lt_trans with t; assumption. }
    clearbody k. assert (G : forall i, (0 <= i <= 256)%Z -> zget (expn_tab expo) i = Some (expo (- (zq i * nq 25 / nq 256))%Qc)).
    { intros i Hi. unfold expn_tab, expn_max. replace i with (Z.of_nat (Z.to_nat i)) by lia. rewrite zget_nth by (rewrite map_length, seq_length; lia).
      rewrite nth_map_seq by lia. fold (nq (Z.to_nat i)). do 3 f_equal. field. discriminate. }
    rewrite !G by lia. reflexivity.
Qed.
(** at 25 the second entry is after the end of the table *)
Lemma fast_expn_end expo : fast_expn expo (nq 25) = None.
Proof.
  unfold fast_expn, expn_max. rewrite qlt_irrefl. replace (nq 25 * (nq 256 / nq 25))%Qc with (zq 256) by (change (zq 256) with (nq 256); field; discriminate).
  replace (qfloor (zq 256)) with 256%Z by (symmetry; apply qfloor_unique; [apply Qcle_refl|reflexivity]).
  assert (L : length (expn_tab expo) = 257) by (unfold expn_tab; now rewrite map_length, seq_length).
  destruct (zget (expn_tab expo) 256) as [a|]; [|reflexivity]. cbn [obind]. replace (zget (expn_tab expo) (256 + 1)) with (@None Qc); [reflexivity|].
  symmetry. apply zget_None_iff. rewrite L. right. apply Z.le_refl.
Qed.
Lemma while_down (P : Qc) : (0 < P)%Qc -> forall fuel x, (x <= nq fuel * P)%Qc ->
  exists t k, while (S fuel) (fun x => qlt P x) (fun x => Some (x - P)%Qc) x = Some t /\ (t <= P)%Qc /\ t = (x - zq k * P)%Qc /\ ((0 <= x)%Qc -> (0 <= t)%Qc) /\ ((x <= P)%Qc -> t = x).
Proof.
  intros HP. induction fuel as [|fuel IH]; intros x L; cbn [while].
  - change (nq 0) with 0%Qc in L. assert (X : (x <= P)%Qc) by (rewrite Qcmult_0_l in L; apply Qcle_trans with 0%Qc; [exact L|now apply Qclt_le_weak]).
    replace (qlt P x) with false by (symmetry; apply qlt_false; exact X). exists x, 0%Z. split; [reflexivity|]. split; [exact X|]. split; [change (zq 0) with 0%Qc; ring|]. auto.
  - destruct (qlt P x) eqn:E.
    + apply qlt_true in E. cbn [obind]. destruct (IH (x - P)%Qc) as (t & k & W & T & Et & T0 & _).
      { rewrite <- (Nat.add_1_r fuel), nq_S in L. clear - L. qn. }
      exists t, (k + 1)%Z. split; [exact W|]. split; [exact T|]. split; [rewrite Et, zq_plus; change (zq 1) with 1%Qc; ring|]. split.
      * intros _. apply T0. clear - E. qn.
      * intros X. destruct (Qclt_not_le _ _ E X).
    + apply qlt_false in E. exists x, 0%Z. split; [reflexivity|]. split; [exact E|]. split; [change (zq 0) with 0%Qc; ring|]. auto.
Qed.
Lemma while_up (P : Qc) : (0 < P)%Qc -> forall fuel x, (- (nq fuel * P) <= x)%Qc -> (x <= P)%Qc ->
  exists t k, while (S fuel) (fun x => qlt x 0) (fun x => Some (x + P)%Qc) x = Some t /\ (0 <= t)%Qc /\ (t <= P)%Qc /\ t = (x + zq k * P)%Qc.
Proof.
  intros HP. induction fuel as [|fuel IH]; intros x L U; cbn [while].
  - change (nq 0) with 0%Qc in L. assert (X : (0 <= x)%Qc) by (clear - L; qn).
    replace (qlt x 0) with false by (symmetry; apply qlt_false; exact X). exists x, 0%Z. split; [reflexivity|]. split; [exact X|]. split; [exact U|]. change (zq 0) with 0%Qc. ring.
  - destruct (qlt x 0) eqn:E.
    + apply qlt_true in E. cbn [obind]. destruct (IH (x + P)%Qc) as (t & k & W & T & T' & Et).
      { rewrite <- (Nat.add_1_r fuel), nq_S in L. clear - L. qn. } { clear - E. qn. }
      exists t, (k + 1)%Z. split; [exact W|]. split; [exact T|]. split; [exact T'|]. rewrite Et, zq_plus. change (zq 1) with 1%Qc. ring.
    + apply qlt_false in E. exists x, 0%Z. split; [reflexivity|]. split; [exact E|]. split; [exact U|]. change (zq 0) with 0%Qc. ring.
Qed.
Lemma mod_2pi_ok pi x : (0 < pi)%Qc ->
  exists t k, mod_2pi pi x = Some t /\ (0 <= t)%Qc /\ (t <= nq 2 * pi)%Qc /\ t = (x + zq k * (nq 2 * pi))%Qc.
Proof.
  intros Hp. unfold mod_2pi, two_pi. set (P := (nq 2 * pi)%Qc). assert (HP : (0 < P)%Qc) by (apply Qc_mul_pos; [reflexivity|exact Hp]). clearbody P.
  set (q := qfloor (x / P)). destruct (floor_bounds (x / P)) as [F0 F1]. fold q in F0, F1.
  assert (Ex : (x = (x / P) * P)%Qc) by (field; now apply qc_pos_neq). set (u := (x / P)%Qc) in *.
  assert (A : (zq q * P <= x)%Qc) by (rewrite Ex; apply Qcmult_le_compat_r; [clear - F0; clearbody u q; qn|now apply Qclt_le_weak]).
  assert (B : (x <= zq (q + 1) * P)%Qc) by (rewrite Ex; apply Qcmult_le_compat_r; [rewrite zq_plus; change (zq 1) with 1%Qc; clear - F1; clearbody u q; qn|now apply Qclt_le_weak]).
  set (N := Z.to_nat (Z.abs q)). change (2 + N) with (S (S N)).
  assert (S1 : (zq (q + 1) * P <= nq (S N) * P)%Qc) by (apply Qcmult_le_compat_r; [apply zq_le; lia|now apply Qclt_le_weak]).
  assert (S2 : (- (nq (S N) * P) <= zq q * P)%Qc).
  { replace (- (nq (S N) * P))%Qc with (zq (- Z.of_nat (S N)) * P)%Qc by (rewrite zq_opp; fold (nq (S N)); ring). apply Qcmult_le_compat_r; [apply zq_le; lia|now apply Qclt_le_weak]. }
  destruct (while_down P HP (S N) x ltac:(eapply Qcle_trans; eassumption)) as (t & k & W1 & T1 & Et & T0 & TU). rewrite W1. cbn [obind].
  destruct (while_up P HP (S N) t) as (t' & k' & W2 & T2 & T3 & Et').
  - destruct (Qclt_le_dec P x) as [X|X].
    + apply Qcle_trans with 0%Qc; [|apply T0; apply Qclt_le_weak; eapply Qclt_trans; eassumption].
      assert (0 <= nq (S N) * P)%Qc by (apply Qc_mult_nonneg; [apply nq_nonneg|now apply Qclt_le_weak]). clear - H. set (z := (nq (S N) * P)%Qc) in *. clearbody z. qn.
    + rewrite (TU X). eapply Qcle_trans; eassumption.
  - exact T1.
  - exists t', (k' - k)%Z. split; [exact W2|]. split; [exact T2|]. split; [exact T3|]. rewrite Et', Et, zq_minus. ring.
Qed.

(** ** sums over windows *)
Lemma masked_sum (g : nat -> Qc) lo : forall n N, lo + n <= N -> ksum N (fun p => if (lo <=? p) && (p <? lo + n) then g p else 0%Qc) = ksum n (fun j => g (lo + j)).
Proof.
  intros n N L. replace N with (lo + (n + (N - lo - n))) by lia. generalize (N - lo - n). intros m. clear L N.
  assert (A : forall k, k <= lo -> ksum k (fun p => if (lo <=? p) && (p <? lo + n) then g p else 0%Qc) = 0%Qc).
  { induction k as [|k IH]; intros L; [reflexivity|]. cbn [sum]. rewrite IH by lia. destruct (Nat.leb_spec lo k); [lia|]. cbn [andb]. ring. }
  assert (B : forall k, k <= n -> ksum (lo + k) (fun p => if (lo <=? p) && (p <? lo + n) then g p else 0%Qc) = ksum k (fun j => g (lo + j))).
  { induction k as [|k IH]; intros L; [rewrite Nat.add_0_r; now apply A|]. rewrite Nat.add_succ_r. cbn [sum]. rewrite IH by lia. f_equal.
    destruct (Nat.leb_spec lo (lo + k)); [|lia]. destruct (Nat.ltb_spec (lo + k) (lo + n)); [|lia]. reflexivity. }
  rewrite Nat.add_assoc. induction m as [|m IH]; [rewrite Nat.add_0_r; now apply B|]. rewrite Nat.add_succ_r. cbn [sum]. rewrite IH.
  destruct (Nat.ltb_spec (lo + n + m) (lo + n)); [lia|]. rewrite andb_false_r. ring.
Qed.
Definition adds (n : nat) (F : nat -> Qc) (hist hist' : list Qc) : Prop := length hist' = n /\ forall i, i < n -> hist'@i = (hist@i + F i)%Qc.
Lemma zup_sum (n : nat) (G : nat -> Z -> Qc) (body : Z -> list Qc -> option (list Qc)) a b hist : length hist = n ->
  (forall y hist, (a <= y < b)%Z -> length hist = n -> exists hist', body y hist = Some hist' /\ adds n (fun i => G i y) hist hist') ->
  exists hist', zup a b body hist = Some hist' /\ adds n (fun i => ksum (Z.to_nat (b - a)) (fun j => G i (a + Z.of_nat j)%Z)) hist hist'.
Proof.
  intros L B. unfold zup. destruct (iter_inv (fun m h => adds n (fun i => ksum m (fun j => G i (a + Z.of_nat j)%Z)) hist h)
    (fun j => body (a + Z.of_nat j)%Z) (Z.to_nat (b - a)) hist) as (h' & E & H).
  - split; [exact L|]. intros i Hi. cbn [sum]. ring.
  - intros j h Hj [Lh Hh]. destruct (B (a + Z.of_nat j)%Z h ltac:(lia) Lh) as (h2 & E & L2 & H2). exists h2. split; [exact E|]. split; [exact L2|].
    intros i Hi. rewrite H2, Hh by exact Hi. rewrite Nat.add_1_r. cbn [sum]. ring.
  - exists h'. split; assumption.
Qed.
Lemma window_line (W : Z) (border n : nat) (x : Qc) (g : nat -> Qc) (p := pixel_of x) : (p < Z.of_nat n)%Z ->
  ksum (Z.to_nat (Z.min W (Z.of_nat n - p - 1 - Z.of_nat border) + 1 - Z.max (- W) (Z.of_nat border - p)))
    (fun j => g (Z.to_nat (p + (Z.max (- W) (Z.of_nat border - p) + Z.of_nat j)))) =
  ksum n (fun q => if close W border n x q then g q else 0%Qc).
Proof.
  intros Hp. assert (P0 : (0 <= p)%Z) by (unfold p, pixel_of; lia). unfold close. fold p.
  set (a := Z.max (- W) (Z.of_nat border - p)). set (b := (Z.min W (Z.of_nat n - p - 1 - Z.of_nat border) + 1)%Z).
  destruct (Z.le_gt_cases b a) as [E|E].
  - replace (Z.to_nat (b - a)) with 0 by lia. cbn [sum]. symmetry.
    transitivity (ksum n (fun _ => 0%Qc)); [|clear; induction n as [|n IH]; [reflexivity|cbn [sum]; rewrite IH; ring]].
    apply ksum_ext. intros q Hq. destruct (Z.leb_spec (Z.abs (Z.of_nat q - p)) W); [|reflexivity].
    destruct (Nat.leb_spec border q); [|reflexivity]. destruct (Nat.ltb_spec (q + border) n); [exfalso; unfold a, b in E; lia|reflexivity].
  - symmetry. rewrite (ksum_ext n _ (fun q => if (Z.to_nat (p + a) <=? q) && (q <? Z.to_nat (p + a) + Z.to_nat (b - a)) then g q else 0%Qc)).
    + rewrite masked_sum by (unfold a, b in *; lia). apply ksum_ext. intros j Hj. f_equal. unfold a, b in *. lia.
    + intros q Hq. f_equal. unfold a, b in *. clearbody p.
      destruct (Z.leb_spec (Z.abs (Z.of_nat q - p)) W), (Nat.leb_spec border q), (Nat.ltb_spec (q + border) n),
        (Nat.leb_spec (Z.to_nat (p + Z.max (- W) (Z.of_nat border - p))) q),
        (Nat.ltb_spec q (Z.to_nat (p + Z.max (- W) (Z.of_nat border - p)) + Z.to_nat (Z.min W (Z.of_nat n - p - 1 - Z.of_nat border) + 1 - Z.max (- W) (Z.of_nat border - p)))); cbn [andb]; try reflexivity; exfalso; lia.
Qed.
Lemma window_ok (n : nat) (W : Z) (border w h : nat) (x y : Qc) (F : nat -> nat -> nat -> Qc) (pixel : Z -> Z -> list Qc -> option (list Qc)) hist :
  (pixel_of x < Z.of_nat w)%Z -> (pixel_of y < Z.of_nat h)%Z -> length hist = n ->
  (forall px py hist, px < w -> py < h -> close W border w x px = true -> close W border h y py = true -> length hist = n ->
    exists hist', pixel (Z.of_nat px) (Z.of_nat py) hist = Some hist' /\ adds n (fun i => F i px py) hist hist') ->
  exists hist', window W (Z.of_nat border) w h (pixel_of x) (pixel_of y) pixel hist = Some hist' /\
    adds n (fun i => around_sum W border w h x y (F i)) hist hist'.
Proof.
  intros Hx Hy L B. unfold window. assert (X0 : (0 <= pixel_of x)%Z) by (unfold pixel_of; lia). assert (Y0 : (0 <= pixel_of y)%Z) by (unfold pixel_of; lia).
  destruct (zup_sum n (fun i dy => ksum w (fun px => if close W border w x px then F i px (Z.to_nat (pixel_of y + dy)) else 0%Qc))
    (fun dy hist => zup (Z.max (- W) (Z.of_nat border - pixel_of x)) (Z.min W (Z.of_nat w - pixel_of x - 1 - Z.of_nat border) + 1)
       (fun dx hist => pixel (pixel_of x + dx)%Z (pixel_of y + dy)%Z hist) hist)
    (Z.max (- W) (Z.of_nat border - pixel_of y)) (Z.min W (Z.of_nat h - pixel_of y - 1 - Z.of_nat border) + 1) hist L) as (h' & E & H).
  - intros dy h1 Hdy L1.
    destruct (zup_sum n (fun i dx => F i (Z.to_nat (pixel_of x + dx)) (Z.to_nat (pixel_of y + dy)))
      (fun dx hist => pixel (pixel_of x + dx)%Z (pixel_of y + dy)%Z hist)
      (Z.max (- W) (Z.of_nat border - pixel_of x)) (Z.min W (Z.of_nat w - pixel_of x - 1 - Z.of_nat border) + 1) h1 L1) as (h2 & E & H).
    + intros dx h2 Hdx L2. destruct (B (Z.to_nat (pixel_of x + dx)) (Z.to_nat (pixel_of y + dy)) h2) as (h3 & E3 & H3); try lia.
      * unfold close. rewrite !andb_true_iff. rewrite Z.leb_le, Nat.leb_le, Nat.ltb_lt. lia.
      * unfold close. rewrite !andb_true_iff. rewrite Z.leb_le, Nat.leb_le, Nat.ltb_lt. lia.
      * exists h3. rewrite !Z2Nat.id in E3 by lia. split; [exact E3|exact H3].
    + exists h2. split; [exact E|]. destruct H as [LH H]. split; [exact LH|]. intros i Hi. rewrite H by exact Hi. f_equal.
      apply (window_line W border w x (fun px => F i px (Z.to_nat (pixel_of y + dy))) Hx).
  - exists h'. split; [exact E|]. destruct H as [LH H]. split; [exact LH|]. intros i Hi. rewrite H by exact Hi. f_equal. unfold around_sum.
    rewrite (window_line W border h y (fun py => ksum w (fun px => if close W border w x px then F i px py else 0%Qc)) Hy).
    apply ksum_ext. intros py _. destruct (close W border h y py).
    + apply ksum_ext. intros px _. now rewrite andb_true_r.
    + transitivity (ksum w (fun _ => 0%Qc)); [clear; induction w as [|w IH]; [reflexivity|cbn [sum]; rewrite <- IH; ring]|].
      apply ksum_ext. intros px _. now rewrite andb_false_r.
Qed.

(** ** one pixel *)
Lemma hadd_ok n hist (i : Z) v : length hist = n -> (0 <= i < Z.of_nat n)%Z ->
  exists hist', hadd hist i v = Some hist' /\ adds n (fun j => if (Z.of_nat j =? i)%Z then v else 0%Qc) hist hist'.
Proof.
  intros L Hi. unfold hadd. replace i with (Z.of_nat (Z.to_nat i)) by lia. rewrite zget_nth by lia. cbn [obind]. rewrite zset_nth by lia.
  eexists. split; [reflexivity|]. split; [now rewrite upd_length|]. intros j Hj. rewrite nth_upd by lia.
  destruct (Z.eqb_spec (Z.of_nat j) (Z.of_nat (Z.to_nat i))) as [E|E].
  - replace (Z.to_nat i) with j by lia. rewrite Nat.eqb_refl. reflexivity.
  - replace (j =? Z.to_nat i) with false by (symmetry; apply Nat.eqb_neq; lia). ring.
Qed.
Lemma adds_trans n F G a b c : adds n F a b -> adds n G b c -> adds n (fun i => F i + G i)%Qc a c.
Proof. intros [_ A] [L B]. split; [exact L|]. intros i Hi. rewrite B, A by exact Hi. ring. Qed.
Lemma adds_ext n F G a b : (forall i, i < n -> F i = G i) -> adds n F a b -> adds n G a b.
Proof. intros E [L A]. split; [exact L|]. intros i Hi. now rewrite A, E. Qed.
Lemma sq_nonneg (a b : Qc) : (0 <= a * a + b * b)%Qc.
Proof. pose proof (Qc_square_nonneg a). pose proof (Qc_square_nonneg b). set (u := (a * a)%Qc) in *. set (v := (b * b)%Qc) in *. clearbody u v. qn. Qed.
Lemma div_nonneg (a b : Qc) : (0 <= a)%Qc -> (0 <= b)%Qc -> (0 <= a / b)%Qc.
Proof.
  intros A B. destruct (Qcle_lt_or_eq _ _ B) as [P|E]; [|subst b; unfold Qcdiv; change (/ 0)%Qc with 0%Qc; rewrite Qcmult_0_r; apply Qcle_refl].
  apply Qc_mult_nonneg; [exact A|]. apply Qclt_le_weak, Qcinv_pos. exact P.
Qed.
Lemma gradient_get grad base w h px py : base + 2 * (w * h) <= length grad -> px < w -> py < h ->
  zget grad (Z.of_nat base + 2 * Z.of_nat px + 2 * Z.of_nat w * Z.of_nat py) = Some (mag grad base w px py) /\
  zget grad (Z.of_nat base + 2 * Z.of_nat px + 2 * Z.of_nat w * Z.of_nat py + 1) = Some (ang grad base w px py).
Proof.
  intros L Hx Hy. assert (py * w + px < w * h) by nia.
  replace (Z.of_nat base + 2 * Z.of_nat px + 2 * Z.of_nat w * Z.of_nat py)%Z with (Z.of_nat (base + 2 * (py * w + px))) by nia.
  change 1%Z with (Z.of_nat 1). rewrite <- Nat2Z.inj_add. split; rewrite zget_nth by lia; reflexivity.
Qed.
Lemma scaled_angle (a pi : Qc) (n : nat) : (0 < pi)%Qc -> (0 <= a)%Qc -> (a <= nq 2 * pi)%Qc -> (0 <= nq n * a / (nq 2 * pi) /\ nq n * a / (nq 2 * pi) <= nq n)%Qc.
Proof.
  intros P A B. assert (PP : (0 < nq 2 * pi)%Qc) by (apply Qc_mul_pos; [reflexivity|exact P]). set (t := (nq 2 * pi)%Qc) in *. clearbody t. split.
  - apply div_nonneg; [apply Qc_mult_nonneg; [apply nq_nonneg|exact A]|now apply Qclt_le_weak].
  - replace (nq n) with (nq n * t / t)%Qc at 2 by (field; now apply qc_pos_neq). unfold Qcdiv. apply Qcmult_le_compat_r; [|apply Qclt_le_weak; now apply Qcinv_pos].
    rewrite !(Qcmult_comm (nq n)). apply Qcmult_le_compat_r; [exact B|apply nq_nonneg].
Qed.
Lemma floor_range (q : Qc) (a b : Z) : (zq a <= q)%Qc -> (q < zq b)%Qc -> (a <= qfloor q < b)%Z.
Proof.
  intros A B. pose proof (qfloor_le q) as F. pose proof (qfloor_lt q) as G. split.
  - assert (H : (zq a < zq (qfloor q + 1))%Qc) by (rewrite zq_plus; change (zq 1) with 1%Qc; eapply Qcle_lt_trans; eassumption). apply zq_lt_inv in H. lia.
  - apply zq_lt_inv. eapply Qcle_lt_trans; eassumption.
Qed.

Lemma two_weights (c1 c2 : bool) (r m w : Qc) :
  ((if c1 then (1 - r) * m * w else 0) + (if c2 then r * m * w else 0) = w * m * ((if c1 then 1 - r else 0) + (if c2 then r else 0)))%Qc.
Proof. destruct c1, c2; ring. Qed.
Lemma ori_pixel_ok expo pi grad base w h x y sigma W px py hist : (0 < pi)%Qc -> (0 < sigma)%Qc -> base + 2 * (w * h) <= length grad ->
  px < w -> py < h -> length hist = 36 -> (0 <= ang grad base w px py)%Qc -> (ang grad base w px py <= nq 2 * pi)%Qc ->
  ((dist2 x y px py < zq (W * W) + zq 6 / zq 10)%Qc -> ori_argument x y sigma px py <> nq 25) ->
  exists hist', ori_pixel expo pi grad (Z.of_nat base) w x y (nq 3 / nq 2 * sigma)%Qc W (Z.of_nat px) (Z.of_nat py) hist = Some hist' /\
    adds 36 (fun b => if Qclt_le_dec (dist2 x y px py) (zq (W * W) + zq 6 / zq 10)%Qc then
      (tabulated expo (ori_argument x y sigma px py) * mag grad base w px py *
       tent (wrap 36 (nq 36 * ang grad base w px py / (nq 2 * pi) - 1 / nq 2 - nq b)))%Qc else 0%Qc) hist hist'.
Proof.
  intros Hp Hs LG Hx Hy LH A0 A1 NE. unfold ori_pixel. fold (nq px) (nq py).
  change ((nq px - x) * (nq px - x) + (nq py - y) * (nq py - y))%Qc with (dist2 x y px py).
  destruct (Qclt_le_dec (dist2 x y px py) (zq (W * W) + zq 6 / zq 10)%Qc) as [L|L].
  - replace (qlt (dist2 x y px py) (zq (W * W) + zq 6 / zq 10)%Qc) with true by (symmetry; apply qlt_true; exact L). cbn [negb].
    replace (dist2 x y px py / (nq 2 * (nq 3 / nq 2 * sigma) * (nq 3 / nq 2 * sigma)))%Qc with (ori_argument x y sigma px py).
    2:{ unfold ori_argument, ori_scale. f_equal. ring. }
    rewrite fast_expn_ok; [|apply div_nonneg; [apply sq_nonneg|]|now apply NE].
    2:{ apply Qc_mult_nonneg; [discriminate|]. apply Qc_square_nonneg. }
    cbn [obind]. destruct (gradient_get grad base w h px py LG Hx Hy) as [-> ->]. cbn [obind]. unfold two_pi, half.
    destruct (scaled_angle _ pi 36 Hp A0 A1) as [S0 S1].
    set (fb := (nq 36 * ang grad base w px py / (nq 2 * pi))%Qc) in *. set (t := (fb - 1 / nq 2)%Qc). set (f := qfloor t).
    assert (Hf : (-1 <= f < 36)%Z).
    { assert (T0 : (zq (-1) <= t)%Qc) by (apply Qcle_trans with (0 - 1 / nq 2)%Qc; [discriminate|unfold t; apply Qcplus_le_compat; [exact S0|apply Qcle_refl]]).
      apply floor_range; [exact T0|]. apply Qcle_lt_trans with (nq 36 - 1 / nq 2)%Qc; [unfold t; apply Qcplus_le_compat; [exact S1|apply Qcle_refl]|reflexivity]. }
    replace (fb - zq f - 1 / nq 2)%Qc with (t - zq f)%Qc by (unfold t; ring).
    assert (R1 : Z.rem (f + 36) 36 = (f mod 36)%Z) by (rewrite Z.rem_mod_nonneg by lia; rewrite <- (Z_mod_plus_full f 1 36); f_equal; lia).
    assert (R2 : Z.rem (f + 1) 36 = ((f + 1) mod 36)%Z) by (rewrite Z.rem_mod_nonneg by lia; reflexivity). rewrite R1, R2.
    pose proof (Z.mod_pos_bound f 36 ltac:(lia)). pose proof (Z.mod_pos_bound (f + 1) 36 ltac:(lia)).
    match goal with |- context [hadd hist (f mod 36) ?v] => destruct (hadd_ok 36 hist (f mod 36) v LH ltac:(lia)) as (h1 & E1 & X1) end. rewrite E1. cbn [obind].
    match goal with |- context [hadd h1 _ ?v] => destruct (hadd_ok 36 h1 ((f + 1) mod 36) v (proj1 X1) ltac:(lia)) as (h2 & E2 & X2) end.
    exists h2. split; [exact E2|]. eapply adds_ext; [|eapply adds_trans; [exact X1|exact X2]]. intros b Hb. cbv beta.
    fold t. change (nq b) with (zq (Z.of_nat b)). rewrite (tent_circle 36 t (Z.of_nat b)) by lia. fold f. change (Z.of_nat 36) with 36%Z.
    rewrite !(Z.eqb_sym _ (Z.of_nat b)). apply two_weights.
  - replace (qlt (dist2 x y px py) (zq (W * W) + zq 6 / zq 10)%Qc) with false by (symmetry; apply qlt_false; exact L). cbn [negb].
    exists hist. split; [reflexivity|]. split; [exact LH|]. intros; ring.
Qed.

Lemma two_terms (g : Z -> Qc) : ksum (Z.to_nat (2 - 0)) (fun j => g (0 + Z.of_nat j)%Z) = (g 0%Z + g 1%Z)%Qc.
Proof. change (Z.to_nat (2 - 0)) with 2. cbn [sum]. change (0 + Z.of_nat 0)%Z with 0%Z. change (0 + Z.of_nat 1)%Z with 1%Z. ring. Qed.
Lemma bin_place (i : nat) (bx by_ bt : Z) : i < 128 -> (0 <= bt < 8)%Z ->
  ((-2 <=? bx) && (bx <? 2) && (-2 <=? by_) && (by_ <? 2) && (Z.of_nat i =? 2 * 32 + 2 * 8 + bt + by_ * 32 + bx * 8))%Z =
  ((bx =? Z.of_nat (i / 8 mod 4) - 2) && (by_ =? Z.of_nat (i / 32) - 2) && (bt =? Z.of_nat (i mod 8)))%Z.
Proof.
  intros Hi Ht. assert (E : i = 32 * (i / 32) + 8 * (i / 8 mod 4) + i mod 8).
  { pose proof (Nat.div_mod i 8 ltac:(lia)). pose proof (Nat.div_mod (i / 8) 4 ltac:(lia)) as D. rewrite Nat.div_div in D by lia. change (8 * 4) with 32 in D. lia. }
  assert (A : i / 32 < 4) by (apply Nat.div_lt_upper_bound; lia). pose proof (Nat.mod_upper_bound (i / 8) 4 ltac:(lia)) as B. pose proof (Nat.mod_upper_bound i 8 ltac:(lia)) as C.
  set (p := i / 32) in *. set (q := i / 8 mod 4) in *. set (r := i mod 8) in *. clearbody p q r.
  apply eq_true_iff_eq. rewrite !andb_true_iff, !Z.leb_le, !Z.ltb_lt, !Z.eqb_eq. lia.
Qed.
Lemma corner (r : Qc) : (0 <= r)%Qc -> (r < 1)%Qc -> Qcabs (1 - zq 0 - r) = (1 - r)%Qc /\ Qcabs (1 - zq 1 - r) = r.
Proof. rewrite zq_0, zq_1. intros R0 R1. split; [rewrite qabs_pos; [ring|]|rewrite qabs_neg; [ring|]]; qn. Qed.
Lemma eight_terms (ex0 ex1 ey0 ey1 et0 et1 : bool) (wm x0 x1 y0 y1 t0 t1 : Qc) :
  ((if ex0 && ey0 && et0 then wm * x0 * y0 * t0 else 0) + (if ex0 && ey0 && et1 then wm * x0 * y0 * t1 else 0) +
   ((if ex0 && ey1 && et0 then wm * x0 * y1 * t0 else 0) + (if ex0 && ey1 && et1 then wm * x0 * y1 * t1 else 0)) +
   ((if ex1 && ey0 && et0 then wm * x1 * y0 * t0 else 0) + (if ex1 && ey0 && et1 then wm * x1 * y0 * t1 else 0) +
   ((if ex1 && ey1 && et0 then wm * x1 * y1 * t0 else 0) + (if ex1 && ey1 && et1 then wm * x1 * y1 * t1 else 0))))%Qc =
  (wm * ((if ex0 then x0 else 0) + (if ex1 then x1 else 0)) * ((if ey0 then y0 else 0) + (if ey1 then y1 else 0)) * ((if et0 then t0 else 0) + (if et1 then t1 else 0)))%Qc.
Proof. destruct ex0, ex1, ey0, ey1, et0, et1; cbn [andb]; ring. Qed.
Lemma shifted_bin (n : Qc) (b : nat) : (n - (nq b - nq 3 / nq 2) = n - 1 / nq 2 - zq (Z.of_nat b - 2))%Qc.
Proof. rewrite zq_minus. fold (nq b). replace (zq 2) with (1 + 1)%Qc by reflexivity. replace (nq 3) with (1 + 1 + 1)%Qc by reflexivity. replace (nq 2) with (1 + 1)%Qc by reflexivity. field. discriminate. Qed.
Lemma descr_pixel_ok expo sine cosine pi grad base w h x y angle0 size wsigma px py hist : (0 < pi)%Qc -> base + 2 * (w * h) <= length grad ->
  px < w -> py < h -> length hist = 128 -> descr_argument sine cosine x y angle0 size wsigma px py <> nq 25 ->
  exists hist', descr_pixel expo sine cosine pi grad (Z.of_nat base) w x y angle0 size wsigma (Z.of_nat px) (Z.of_nat py) hist = Some hist' /\
    adds 128 (fun i => (tabulated expo (descr_argument sine cosine x y angle0 size wsigma px py) * mag grad base w px py *
     tent (frame_x sine cosine x y angle0 size px py - (nq (i / 8 mod 4) - nq 3 / nq 2)) *
     tent (frame_y sine cosine x y angle0 size px py - (nq (i / 32) - nq 3 / nq 2)) *
     tent (wrap 8 (nq 8 * (ang grad base w px py - angle0) / (nq 2 * pi) - nq (i mod 8))))%Qc) hist hist'.
Proof.
  intros Hp LG Hx Hy LH NE. unfold descr_pixel. fold (nq px) (nq py). destruct (gradient_get grad base w h px py LG Hx Hy) as [-> ->]. cbn [obind].
  destruct (mod_2pi_ok pi (ang grad base w px py - angle0) Hp) as (th & k & -> & T0 & T1 & Et). cbn [obind].
  change ((cosine angle0 * (nq px - x) + sine angle0 * (nq py - y)) / size)%Qc with (frame_x sine cosine x y angle0 size px py).
  replace ((- sine angle0 * (nq px - x) + cosine angle0 * (nq py - y)) / size)%Qc with (frame_y sine cosine x y angle0 size px py) by (unfold frame_y; f_equal; ring).
  replace (nq 2 * wsigma * wsigma)%Qc with (nq 2 * (wsigma * wsigma))%Qc by ring.
  change ((frame_x sine cosine x y angle0 size px py * frame_x sine cosine x y angle0 size px py + frame_y sine cosine x y angle0 size px py * frame_y sine cosine x y angle0 size px py) / (nq 2 * (wsigma * wsigma)))%Qc
    with (descr_argument sine cosine x y angle0 size wsigma px py).
  rewrite fast_expn_ok; [|apply div_nonneg; [apply sq_nonneg|apply Qc_mult_nonneg; [discriminate|apply Qc_square_nonneg]]|exact NE]. cbn [obind].
  set (nx := frame_x sine cosine x y angle0 size px py). set (ny := frame_y sine cosine x y angle0 size px py).
  set (win := tabulated expo _). set (m := mag grad base w px py). unfold half, two_pi.
  destruct (scaled_angle th pi 8 Hp T0 T1) as [N0 N1].
  assert (Nt : (nq 8 * th / (nq 2 * pi) = nq 8 * (ang grad base w px py - angle0) / (nq 2 * pi) + zq k * nq 8)%Qc).
  { rewrite Et. field. split; first [now apply qc_pos_neq|discriminate]. }
  set (nt := (nq 8 * th / (nq 2 * pi))%Qc) in *. set (nt0 := (nq 8 * (ang grad base w px py - angle0) / (nq 2 * pi))%Qc) in *. clearbody nx ny win m nt nt0. clear NE Et T0 T1 LG.
  set (fx := qfloor (nx - 1 / nq 2)). set (fy := qfloor (ny - 1 / nq 2)). set (ft := qfloor nt).
  assert (Hft : (0 <= ft < 9)%Z) by (apply floor_range; [exact N0|apply Qcle_lt_trans with (nq 8); [exact N1|reflexivity]]).
  destruct (floor_bounds (nx - 1 / nq 2)) as [X0 X1]. destruct (floor_bounds (ny - 1 / nq 2)) as [Y0 Y1]. destruct (floor_bounds nt) as [Z0 Z1]. fold fx in X0, X1. fold fy in Y0, Y1. fold ft in Z0, Z1.
  replace (nx - (zq fx + 1 / nq 2))%Qc with (nx - 1 / nq 2 - zq fx)%Qc by ring. replace (ny - (zq fy + 1 / nq 2))%Qc with (ny - 1 / nq 2 - zq fy)%Qc by ring.
  set (rx := (nx - 1 / nq 2 - zq fx)%Qc) in *. set (ry := (ny - 1 / nq 2 - zq fy)%Qc) in *. set (rt := (nt - zq ft)%Qc) in *.
  set (wt := fun dx dy dt : Z => (win * m * Qcabs (1 - zq dx - rx) * Qcabs (1 - zq dy - ry) * Qcabs (1 - zq dt - rt))%Qc).
  set (G := fun (i : nat) (dx dy dt : Z) => if (((fx + dx =? Z.of_nat (i / 8 mod 4) - 2) && (fy + dy =? Z.of_nat (i / 32) - 2) && ((ft + dt) mod 8 =? Z.of_nat (i mod 8)))%Z) then wt dx dy dt else 0%Qc).
  match goal with |- exists zz, zup 0 2 ?body hist = Some zz /\ _ =>
    destruct (zup_sum 128 (fun i dx => (G i dx 0%Z 0%Z + G i dx 0%Z 1%Z) + (G i dx 1%Z 0%Z + G i dx 1%Z 1%Z))%Qc body 0 2 hist LH) as (h' & E & H) end.
  - intros dx h1 Hdx L1. match goal with |- exists zz, zup 0 2 ?body h1 = Some zz /\ _ =>
      destruct (zup_sum 128 (fun i dy => G i dx dy 0%Z + G i dx dy 1%Z)%Qc body 0 2 h1 L1) as (h' & E & H) end.
    + intros dy h2 Hdy L2. match goal with |- exists zz, zup 0 2 ?body h2 = Some zz /\ _ =>
        destruct (zup_sum 128 (fun i dt => G i dx dy dt) body 0 2 h2 L2) as (h' & E & H) end.
      * intros dt h3 Hdt L3. cbv beta. pose proof (Z.mod_pos_bound (ft + dt) 8 ltac:(lia)) as Hm.
        rewrite (Z.rem_mod_nonneg (ft + dt) 8) by lia. fold (wt dx dy dt). unfold G.
        destruct ((-2 <=? fx + dx)%Z && (fx + dx <? 2)%Z && (-2 <=? fy + dy)%Z && (fy + dy <? 2)%Z) eqn:IN.
        -- destruct (hadd_ok 128 h3 (2 * 32 + 2 * 8 + (ft + dt) mod 8 + (fy + dy) * 32 + (fx + dx) * 8) (wt dx dy dt) L3) as (h4 & E4 & H4).
           { rewrite !andb_true_iff, !Z.leb_le, !Z.ltb_lt in IN. lia. }
           exists h4. split; [exact E4|]. eapply adds_ext; [|exact H4]. intros i Hi. cbv beta. rewrite <- (bin_place i _ _ _ Hi Hm), IN. reflexivity.
        -- exists h3. split; [reflexivity|]. split; [exact L3|]. intros i Hi. rewrite <- (bin_place i _ _ _ Hi Hm), IN. cbn [andb]. ring.
      * exists h'. split; [exact E|]. eapply adds_ext; [|exact H]. intros i _. cbv beta. apply (two_terms (fun dt => G i dx dy dt)).
    + exists h'. split; [exact E|]. eapply adds_ext; [|exact H]. intros i _. cbv beta. apply (two_terms (fun dy => G i dx dy 0%Z + G i dx dy 1%Z)%Qc).
  - exists h'. split; [exact E|]. eapply adds_ext; [|exact H]. intros i Hi. cbv beta. rewrite (two_terms (fun dx => (G i dx 0%Z 0%Z + G i dx 0%Z 1%Z) + (G i dx 1%Z 0%Z + G i dx 1%Z 1%Z))%Qc).
    rewrite !shifted_bin.
    rewrite !tent_bin. fold fx fy rx ry.
    replace (wrap 8 (nt0 - nq (i mod 8))) with (wrap 8 (nt - zq (Z.of_nat (i mod 8)))).
    2:{ rewrite Nt. fold (nq (i mod 8)). rewrite <- (wrap_period 8 (nt0 - nq (i mod 8)) k) by lia. f_equal. ring. }
    pose proof (Nat.mod_upper_bound i 8 ltac:(lia)) as Bi. rewrite tent_circle by lia. fold ft rt. change (Z.of_nat 8) with 8%Z.
    unfold G, wt. destruct (corner rx X0 X1) as [-> ->]. destruct (corner ry Y0 Y1) as [-> ->]. destruct (corner rt Z0 Z1) as [-> ->]. rewrite !Z.add_0_r.
    apply (eight_terms (fx =? _)%Z (fx + 1 =? _)%Z (fy =? _)%Z (fy + 1 =? _)%Z (ft mod 8 =? _)%Z ((ft + 1) mod 8 =? _)%Z).
Qed.

(** ** the pixel of a position *)
Lemma trunc_pos q : (0 <= q)%Qc -> trunc q = qfloor q.
Proof.
  intros H. unfold trunc, qfloor, Qround.Qfloor. unfold Qcle, Qle in H. change (this 0%Qc) with 0%Q in H. destruct (this q) as [n d]. cbn [Qnum Qden] in *.
  apply Z.quot_div_nonneg; lia.
Qed.
Lemma trunc_opp q : trunc (- q)%Qc = (- trunc q)%Z.
Proof.
  unfold trunc. assert (E : this (- q)%Qc = Qopp (this q)).
  { cbn [this Qcopp Q2Qc]. pose proof (canon q) as C. rewrite <- C at 2. destruct (this q) as [n d]. clear C. apply Qred_opp. }
  rewrite E. cbn [Qopp Qnum Qden]. now rewrite Z.quot_opp_l.
Qed.
Lemma qfloor_iff q z : (z <= qfloor q)%Z <-> (zq z <= q)%Qc.
Proof.
  split; intros H.
  - apply Qcle_trans with (zq (qfloor q)); [now apply zq_le|apply qfloor_le].
  - pose proof (qfloor_lt q) as G. assert (L : (zq z < zq (qfloor q + 1))%Qc) by (rewrite zq_plus; eapply Qcle_lt_trans; eassumption). apply zq_lt_inv in L. lia.
Qed.
Lemma qfloor_lt_iff q z : (qfloor q < z)%Z <-> (q < zq z)%Qc.
Proof.
  split; intros H.
  - apply Qcnot_le_lt. rewrite <- qfloor_iff. lia.
  - apply Qclt_not_le in H. rewrite <- qfloor_iff in H. lia.
Qed.
Lemma nearest_in n x : (0 <= nearest x < Z.of_nat n)%Z -> on_image n x /\ nearest x = pixel_of x.
Proof.
  intros H. unfold nearest, pixel_of, on_image in *. change (half 1) with (1 / nq 2)%Qc in *. set (q := (x + 1 / nq 2)%Qc) in *.
  assert (E : x = (q - 1 / nq 2)%Qc) by (unfold q; ring). assert (H2 : (- (nq 3 / nq 2) = -(1) - 1 / nq 2)%Qc) by reflexivity. rewrite H2, E. clearbody q. clear E H2 x.
  set (h := (1 / nq 2)%Qc). clearbody h. destruct (Qclt_le_dec q 0) as [N|P].
  - replace q with (- - q)%Qc in H by ring. rewrite trunc_opp in H. assert (P : (0 <= - q)%Qc) by (clear - N; qn). rewrite trunc_pos in H by exact P.
    assert (F : qfloor (- q) = 0%Z) by (assert (0 <= qfloor (- q))%Z by (apply qfloor_iff; exact P); lia).
    assert (A : (qfloor (- q) < 1)%Z) by lia. apply qfloor_lt_iff in A. rewrite zq_1 in A.
    assert (B : (nq 1 <= nq n)%Qc) by (apply zq_le; lia). change (nq 1) with 1%Qc in B.
    split; [split; [lia|split; clear - A B N; qn]|].
    replace q with (- - q)%Qc at 1 by ring. rewrite trunc_opp, trunc_pos, F by exact P. assert (qfloor q < 0)%Z by (apply qfloor_lt_iff; exact N). lia.
  - rewrite trunc_pos in H by exact P. rewrite trunc_pos by exact P. split; [|lia]. assert (0 < n) by lia. destruct H as [_ H]. apply qfloor_lt_iff in H. fold (nq n) in H.
    split; [assumption|]. clear - P H. split; qn.
Qed.
Lemma nearest_out n x : on_image n x -> (0 <= nearest x < Z.of_nat n)%Z.
Proof.
  intros (N0 & A & B). unfold nearest. change (half 1) with (1 / nq 2)%Qc in *. assert (H2 : (- (nq 3 / nq 2) = -(1) - 1 / nq 2)%Qc) by reflexivity. rewrite H2 in A. clear H2.
  set (h := (1 / nq 2)%Qc) in *. set (q := (x + h)%Qc). assert (A' : (-(1) < q)%Qc) by (unfold q; clear - A; clearbody h; qn). assert (B' : (q < nq n)%Qc) by (unfold q; clear - B; clearbody h; qn).
  clearbody q. clear A B. assert (Hn : (-1 < Z.of_nat n)%Z) by lia. destruct (Qclt_le_dec q 0) as [N|P].
  - assert (P : (0 <= - q)%Qc) by (clear - N; qn). replace q with (- - q)%Qc by ring. rewrite trunc_opp, trunc_pos by exact P.
    assert (0 <= qfloor (- q) < 1)%Z.
    { split; [apply qfloor_iff; exact P|apply qfloor_lt_iff]. rewrite zq_1. clear - A'. qn. }
    lia.
  - rewrite trunc_pos by exact P. split; [apply qfloor_iff; exact P|apply qfloor_lt_iff; exact B'].
Qed.
Lemma nearest_bool n x : ((nearest x <? 0) || (Z.of_nat n - 1 <? nearest x))%Z = false -> on_image n x /\ nearest x = pixel_of x /\ (pixel_of x < Z.of_nat n)%Z.
Proof.
  intros H. apply orb_false_iff in H. rewrite !Z.ltb_ge in H. assert (R : (0 <= nearest x < Z.of_nat n)%Z) by lia.
  destruct (nearest_in n x R) as [O E]. split; [exact O|]. split; [exact E|]. lia.
Qed.

(** ** smoothing and peaks *)
Lemma smooth_once_ok hist : length hist = 36 -> exists hist', smooth_once hist = Some hist' /\ length hist' = 36 /\ forall b, b < 36 -> hist'@b = averaged (fun b => hist@b) b.
Proof.
  intros L. unfold smooth_once. rewrite !(aget_nth hist _ 0%Qc) by lia. cbn [obind].
  match goal with |- context [iter 35 ?bb ?ss] => destruct (iter_inv (fun i (st : Qc * list Qc) => fst st = hist@((i + 35) mod 36) /\ length (snd st) = 36 /\
    forall j, j < 36 -> (snd st)@j = if j <? i then averaged (fun b => hist@b) j else hist@j) bb 35 ss) as ([prev h1] & E & H) end.
  - cbn [fst snd]. split; [reflexivity|]. split; [exact L|]. reflexivity.
  - intros i [prev h1] Hi (P & L1 & H). cbn [fst snd] in P, L1, H. rewrite !(aget_nth h1 _ 0%Qc) by (try (rewrite Nat.mod_small by lia); lia). cbn [obind].
    rewrite aset_lt by lia. cbn [obind]. eexists. split; [reflexivity|]. cbn [fst snd]. split; [|split; [now rewrite upd_length|]].
    + rewrite H by lia. replace (i <? i) with false by (symmetry; apply Nat.ltb_irrefl). f_equal. symmetry. replace (i + 1 + 35) with (i + 1 * 36) by lia. rewrite Nat.mod_add by lia. apply Nat.mod_small. lia.
    + intros j Hj. rewrite nth_upd by lia. destruct (Nat.eqb_spec j i) as [->|N].
      * replace (i <? i + 1) with true by (symmetry; apply Nat.ltb_lt; lia). unfold averaged. rewrite !H by (try (rewrite Nat.mod_small by lia); lia). rewrite P.
        replace (i <? i) with false by (symmetry; apply Nat.ltb_irrefl). replace ((i + 1) mod 36 <? i) with false by (symmetry; rewrite Nat.mod_small by lia; apply Nat.ltb_ge; lia). reflexivity.
      * rewrite H by exact Hj. destruct (Nat.ltb_spec j i), (Nat.ltb_spec j (i + 1)); auto; lia.
  - rewrite E. cbn [obind fst snd] in H |- *. destruct H as (P & L1 & H). rewrite (aget_nth h1 35 0%Qc) by lia. cbn [obind]. rewrite aset_lt by lia.
    eexists. split; [reflexivity|]. split; [now rewrite upd_length|]. intros j Hj. rewrite nth_upd by lia. destruct (Nat.eqb_spec j 35) as [->|N].
    + rewrite H, P by lia. replace (35 <? 35) with false by reflexivity. unfold averaged. f_equal.
    + rewrite H by exact Hj. destruct (Nat.ltb_spec j 35); [reflexivity|lia].
Qed.
Lemma averaged_ext f g : (forall b, b < 36 -> f b = g b) -> forall b, b < 36 -> averaged f b = averaged g b.
Proof. intros E b Hb. unfold averaged. rewrite !E; auto; apply Nat.mod_upper_bound; lia. Qed.
Lemma smooth_times k hist F : length hist = 36 -> (forall b, b < 36 -> hist@b = F b) ->
  exists hist', iter k (fun _ hist => smooth_once hist) hist = Some hist' /\ length hist' = 36 /\ forall b, b < 36 -> hist'@b = averaged_times k F b.
Proof.
  intros L EF. apply (iter_inv (fun k h => length h = 36 /\ forall b, b < 36 -> h@b = averaged_times k F b)); [split; [exact L|exact EF]|].
  intros j h Hj [Lh Hh]. destruct (smooth_once_ok h Lh) as (h' & E & L' & H'). exists h'. split; [exact E|]. split; [exact L'|].
  intros b Hb. rewrite H' by exact Hb. rewrite Nat.add_1_r. cbn [averaged_times]. now apply averaged_ext.
Qed.
Lemma max_fold l : forall m, let r := fold_left (fun m v => if qlt v m then m else v) l m in (m <= r)%Qc /\ (forall v, In v l -> (v <= r)%Qc) /\ (r = m \/ In r l).
Proof.
  induction l as [|a l IH]; intros m r; cbn [fold_left] in r; [split; [apply Qcle_refl|]; split; [intros v []|now left]|].
  destruct (IH (if qlt a m then m else a)) as (A & B & C). subst r. set (r := fold_left _ _ _) in *. destruct (qlt a m) eqn:E.
  - apply qlt_true in E. split; [exact A|]. split; [|destruct C; [now left|right; now right]]. intros v [<-|I]; [|auto]. apply Qcle_trans with m; [now apply Qclt_le_weak|exact A].
  - apply qlt_false in E. split; [now apply Qcle_trans with a|]. split; [|destruct C as [C|C]; [right; now left|right; now right]]. intros v [<-|I]; auto.
Qed.
Lemma peak_bool hist i : length hist = 36 -> i < 36 ->
  (qlt (zq 8 / zq 10 * max_hist hist)%Qc (hist@i) && qlt (hist@((i + 35) mod 36)) (hist@i) && qlt (hist@((i + 1 + 36) mod 36)) (hist@i) = true <-> peak (fun b => hist@b) i).
Proof.
  intros L Hi. replace ((i + 1 + 36) mod 36) with ((i + 1) mod 36) by (replace (i + 1 + 36) with (i + 1 + 1 * 36) by lia; now rewrite Nat.mod_add by lia).
  rewrite !andb_true_iff, !qlt_true. destruct (max_fold hist 0%Qc) as (A & B & C). change (fold_left _ hist 0%Qc) with (max_hist hist) in A, B, C. set (m := max_hist hist) in *. clearbody m. unfold peak.
  assert (PK : (0 <= zq 8 / zq 10)%Qc) by discriminate. split.
  - intros ((X & Y) & Z). split; [exact Hi|]. split; [|split; [|split; assumption]].
    + apply Qcle_lt_trans with (zq 8 / zq 10 * m)%Qc; [now apply Qc_mult_nonneg|exact X].
    + intros b Hb. apply Qcle_lt_trans with (zq 8 / zq 10 * m)%Qc; [|exact X]. rewrite !(Qcmult_comm (zq 8 / zq 10)). apply Qcmult_le_compat_r; [|exact PK]. apply B, nth_In. lia.
  - intros (_ & P & X & Y & Z). split; [split; [|exact Y]|exact Z]. destruct C as [->|C]; [now rewrite Qcmult_0_r|].
    destruct (In_nth hist m 0%Qc C) as (b & Hb & <-). apply X. lia.
Qed.
Lemma half_of (d z : Qc) : d <> 0%Qc -> z <> 0%Qc -> (d * / (z * d) = 1 / z)%Qc.
Proof. intros A B. field. auto. Qed.
Lemma vertex_bounds h b : peak h b -> (- (1 / nq 2) < vertex h b)%Qc /\ (vertex h b < 1 / nq 2)%Qc /\
  (nq 2 * h b - h ((b + 35) mod 36)%nat - h ((b + 1) mod 36)%nat <> 0)%Qc.
Proof.
  intros (_ & _ & _ & A & B). unfold vertex. set (hm := h ((b + 35) mod 36)) in *. set (hp := h ((b + 1) mod 36)) in *. set (h0 := h b) in *. clearbody hm hp h0.
  set (d := (nq 2 * h0 - hm - hp)%Qc). assert (D : d = ((h0 - hm) + (h0 - hp))%Qc) by (unfold d; change (nq 2) with (1 + 1)%Qc; ring).
  assert (P : (0 < d)%Qc) by (rewrite D; clear - A B; qn). assert (N : d <> 0%Qc) by now apply qc_pos_neq.
  assert (PI : (0 < / (nq 2 * d))%Qc) by (apply Qcinv_pos, Qc_mul_pos; [reflexivity|exact P]).
  split; [|split; [|exact N]].
  - rewrite <- (half_of d (nq 2) N) by discriminate. replace (- (d * / (nq 2 * d)))%Qc with (- d * / (nq 2 * d))%Qc by ring. unfold Qcdiv. apply Qcmult_lt_compat_r; [exact PI|]. rewrite D. clear - A B. qn.
  - rewrite <- (half_of d (nq 2) N) by discriminate. unfold Qcdiv. apply Qcmult_lt_compat_r; [exact PI|]. rewrite D. clear - A B. qn.
Qed.
Definition peakb (hist : list Qc) (i : nat) : bool :=
  qlt (zq 8 / zq 10 * max_hist hist)%Qc (hist@i) && qlt (hist@((i + 35) mod 36)) (hist@i) && qlt (hist@((i + 1 + 36) mod 36)) (hist@i).
Lemma firstn_app_full {T} n (l : list T) m : n <= length l -> firstn n (l ++ m) = firstn n l.
Proof. intros L. rewrite firstn_app. replace (n - length l) with 0 by lia. cbn [firstn]. apply app_nil_r. Qed.
Lemma upd_app {T} (a : list T) v (l : list T) : length a < length a + length l -> upd (a ++ l) (length a) v = a ++ v :: skipn 1 l.
Proof. intros H. destruct l as [|x l]; [cbn in H; lia|]. clear H. induction a as [|y a IH]; [reflexivity|]. cbn [app length upd]. now rewrite IH. Qed.
Lemma skipn_more {T} n : forall (l : list T), skipn 1 (skipn n l) = skipn (n + 1) l.
Proof. induction n as [|n IH]; intros l; [reflexivity|]. destruct l as [|x l]; [reflexivity|]. cbn [skipn plus]. apply IH. Qed.
Lemma find_peaks_ok pi hist angles : length hist = 36 -> 4 <= length angles ->
  let bins := firstn 4 (filter (peakb hist) (seq 0 36)) in
  find_peaks pi hist angles = Some (length bins, map (bin_angle pi (fun b => hist@b)) bins ++ skipn (length bins) angles).
Proof.
  intros L LA bins. unfold find_peaks.
  match goal with |- iter 36 ?bb ?ss = _ => destruct (iter_inv (fun i (st : nat * list Qc) => let bins := firstn 4 (filter (peakb hist) (seq 0 i)) in
    st = (length bins, map (bin_angle pi (fun b => hist@b)) bins ++ skipn (length bins) angles)) bb 36 ss) as (st & E & H) end.
  - reflexivity.
  - intros i st Hi ->. assert (SQ : seq 0 (i + 1) = seq 0 i ++ [i]) by (rewrite Nat.add_1_r, seq_S; reflexivity). rewrite SQ, filter_app. clear SQ. cbn [filter]. set (ps := filter (peakb hist) (seq 0 i)).
    assert (LF : length (firstn 4 ps) <= 4) by apply firstn_le_length.
    destruct (Nat.eqb_spec (length (firstn 4 ps)) 4) as [E4|N4].
    { exists (length (firstn 4 ps), map (bin_angle pi (fun b => hist@b)) (firstn 4 ps) ++ skipn (length (firstn 4 ps)) angles). split; [reflexivity|].
      rewrite firstn_app_full; [reflexivity|]. rewrite firstn_length in E4. lia. }
    assert (L4 : length ps < 4) by (rewrite firstn_length in N4; lia). rewrite (firstn_all2 ps) in * by lia.
    assert (M1 : (i + 35) mod 36 < 36) by (apply Nat.mod_upper_bound; lia). assert (M2 : (i + 1 + 36) mod 36 < 36) by (apply Nat.mod_upper_bound; lia).
    rewrite !(aget_nth hist _ 0%Qc) by lia. cbn [obind]. fold (peakb hist i). destruct (peakb hist i) eqn:PK.
    + rewrite aset_lt by (rewrite app_length, map_length, skipn_length; lia). cbn [obind]. eexists. split; [reflexivity|].
      rewrite firstn_all2 by (rewrite app_length; cbn [length]; lia). rewrite app_length. cbn [length]. f_equal. rewrite map_app. cbn [map]. rewrite <- app_assoc. cbn [app].
      rewrite <- skipn_more. rewrite <- (map_length (bin_angle pi (fun b => hist@b)) ps) at 2. rewrite upd_app by (rewrite skipn_length, map_length; lia). do 2 f_equal.
      assert (PI : peak (fun b => hist@b) i) by (apply peak_bool; assumption). destruct (vertex_bounds _ _ PI) as (_ & _ & N). unfold bin_angle, vertex, two_pi, half.
      replace ((i + 1 + 36) mod 36) with ((i + 1) mod 36) by (replace (i + 1 + 36) with (i + 1 + 1 * 36) by lia; now rewrite Nat.mod_add by lia).
      set (hm := hist@((i + 35) mod 36)) in *. set (hp := hist@((i + 1) mod 36)) in *. set (h0 := hist@i) in *. clearbody hm hp h0. clear - N.
      assert (N' : (hp + hm - nq 2 * h0 <> 0)%Qc) by (intros Z; apply N; replace (nq 2 * h0 - hm - hp)%Qc with (- (hp + hm - nq 2 * h0))%Qc by ring; rewrite Z; reflexivity).
      field. repeat split; first [exact N|exact N'|discriminate].
    + eexists. split; [reflexivity|]. rewrite app_nil_r. rewrite (firstn_all2 ps) by lia. reflexivity.
  - rewrite E. f_equal. exact H.
Qed.

(** ** normalisation *)
Lemma fold_squares l : forall a, fold_left (fun n v => n + v * v)%Qc l a = (a + ksum (length l) (fun i => l@i * l@i))%Qc.
Proof.
  induction l as [|v l IH]; intros a; cbn [fold_left length]; [cbn [sum]; ring|]. rewrite IH.
  assert (S1 : forall m (g : nat -> Qc), ksum (S m) g = (g 0%nat + ksum m (fun i => g (S i)))%Qc).
  { clear. induction m as [|m IH]; intros g; [cbn [sum]; ring|]. cbn [sum] in *. rewrite IH. ring. }
  rewrite S1. cbn [nth]. ring.
Qed.
Lemma normalize_ok fsqrt eps hist n F : length hist = n -> (forall i, i < n -> hist@i = F i) ->
  fst (normalize fsqrt eps hist) = norm_of fsqrt eps n F /\ length (snd (normalize fsqrt eps hist)) = n /\
  forall i, i < n -> (snd (normalize fsqrt eps hist))@i = normal fsqrt eps n F i.
Proof.
  intros L E. unfold normalize. cbn [fst snd]. rewrite fold_squares, L.
  assert (N : (fsqrt (0 + ksum n (fun i => hist@i * hist@i)) + eps = norm_of fsqrt eps n F)%Qc).
  { unfold norm_of. do 2 f_equal. rewrite Qcplus_0_l. apply ksum_ext. intros i Hi. now rewrite E. }
  rewrite N. split; [reflexivity|]. split; [now rewrite map_length|]. intros i Hi.
  rewrite nth_indep with (d' := ((fun v => v / norm_of fsqrt eps n F) 0)%Qc) by (rewrite map_length; lia).
  rewrite (map_nth (fun v => (v / norm_of fsqrt eps n F)%Qc)). unfold normal. now rewrite E.
Qed.
Lemma normal_ext fsqrt eps n F G : (forall i, i < n -> F i = G i) -> forall i, i < n -> normal fsqrt eps n F i = normal fsqrt eps n G i.
Proof. intros E i Hi. unfold normal, norm_of. rewrite E by exact Hi. do 3 f_equal. apply ksum_ext. intros j Hj. now rewrite E. Qed.
Lemma finish_ok fsqrt eps thresh samples hist n F : length hist = n -> (forall i, i < n -> hist@i = F i) ->
  length (finish fsqrt eps thresh samples hist) = n /\
  (below fsqrt eps n thresh samples F -> forall i, i < n -> (finish fsqrt eps thresh samples hist)@i = 0%Qc) /\
  (~ below fsqrt eps n thresh samples F -> forall i, i < n -> (finish fsqrt eps thresh samples hist)@i = final fsqrt eps n F i).
Proof.
  intros L E. unfold finish. destruct (normalize_ok fsqrt eps hist n F L E) as (N & L1 & H1). destruct (normalize fsqrt eps hist) as [nm h1]. cbn [fst snd] in *. subst nm.
  assert (B : negb (Qc_eq_bool thresh 0) && qlt (norm_of fsqrt eps n F) (thresh * samples)%Qc = true <-> below fsqrt eps n thresh samples F).
  { unfold below. rewrite andb_true_iff, negb_true_iff, qlt_true. destruct (Qc_eq_bool thresh 0) eqn:Q.
    - apply Qc_eq_bool_correct in Q. split; [intros [X _]; discriminate|intros [X _]; contradiction].
    - split; [intros [_ X]; split; [|exact X]; intros ->; discriminate|intros [_ X]; auto]. }
  destruct (negb (Qc_eq_bool thresh 0) && qlt (norm_of fsqrt eps n F) (thresh * samples)%Qc).
  - split; [now rewrite map_length|]. split; [|intros X; destruct X; now apply B]. intros _ i Hi.
    exact (map_nth (fun _ : Qc => 0%Qc) h1 0%Qc i).
  - set (h2 := map _ h1). assert (L2 : length h2 = n) by (unfold h2; now rewrite map_length).
    assert (H2 : forall i, i < n -> h2@i = cut (normal fsqrt eps n F i)).
    { intros i Hi. unfold h2. rewrite nth_indep with (d' := ((fun v => if qlt (zq 2 / zq 10) v then (zq 2 / zq 10)%Qc else v) 0%Qc)) by (rewrite map_length; lia).
      rewrite (map_nth (fun v => if qlt (zq 2 / zq 10) v then (zq 2 / zq 10)%Qc else v)). rewrite H1 by exact Hi. unfold cut.
      destruct (Qclt_le_dec (zq 2 / zq 10) (normal fsqrt eps n F i)) as [X|X]; [apply qlt_true in X|apply qlt_false in X]; now rewrite X. }
    destruct (normalize_ok fsqrt eps h2 n _ L2 H2) as (_ & L3 & H3). split; [exact L3|]. split; [intros X; apply B in X; discriminate|]. intros _ i Hi. rewrite H3 by exact Hi. reflexivity.
Qed.

(** ** the gradients of a filter *)
Section Grads.
Variables (pow : Qc -> Qc -> Qc) (root expo : Qc -> Qc) (magn angl : Qc -> Qc -> Qc).
Definition pairs (grad : list Qc) (n : nat) : Prop := forall i, i < n -> exists a b, grad@(2 * i) = magn a b /\ grad@(2 * i + 1) = angl a b.
Lemma gradient_pairs o w h i : 0 < w * h -> exists a b, gradient_value magn angl o w h (2 * i) = magn a b /\ gradient_value magn angl o w h (2 * i + 1) = angl a b.
Proof.
  intros P. unfold gradient_value. set (n := w * h) in *.
  assert (D1 : 2 * i / (2 * n) = i / n) by (rewrite Nat.div_mul_cancel_l by lia; reflexivity).
  assert (M1 : (2 * i) mod (2 * n) = 2 * (i mod n)) by (rewrite Nat.mul_mod_distr_l by lia; reflexivity).
  pose proof (Nat.div_mod i n ltac:(lia)) as DM. pose proof (Nat.mod_upper_bound i n ltac:(lia)).
  assert (D2 : (2 * i + 1) / (2 * n) = i / n) by (symmetry; apply Nat.div_unique with (r := 2 * (i mod n) + 1); nia).
  assert (M2 : (2 * i + 1) mod (2 * n) = 2 * (i mod n) + 1) by (symmetry; apply Nat.mod_unique with (q := i / n); nia).
  rewrite D1, M1, D2, M2. replace (2 * (i mod n) / 2) with (i mod n) by (apply Nat.div_unique with (r := 0); lia).
  replace ((2 * (i mod n) + 1) / 2) with (i mod n) by (apply Nat.div_unique with (r := 1); lia).
  replace (Nat.even (2 * i)) with true by (symmetry; apply Nat.even_spec; now exists i).
  replace (Nat.even (2 * i + 1)) with false by (rewrite Nat.add_1_r, Nat.even_succ, <- Nat.negb_even; symmetry; apply negb_false_iff, Nat.even_spec; now exists i).
  unfold gradient_at. cbn [fst snd]. eexists _, _. split; reflexivity.
Qed.
End Grads.
