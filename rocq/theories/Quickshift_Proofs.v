(** Quick shift: windows, densities and links. *)
From Coq Require Import List Arith ZArith Bool Lia QArith Qcanon Qcabs Lqa Qround.
From Verif Require Import Base Loop MserSort_Proofs ImOp_Spec ImOp_Proofs Rat Gauss_Model Gauss_Proofs.
From Verif Require Homker_Proofs.
From Verif Require Import Kmeans_Spec Kmeans_Proofs KmeansUpdate_Proofs KmeansEnergy_Proofs SlicTiles_Spec SlicTiles_Proofs.
From Verif Require Import Quickshift_Model Quickshift_Spec.
Import ListNotations.
Local Open Scope nat_scope.

Lemma qceil_ok q : is_ceil q (qceil q).
Proof.
  unfold is_ceil, qceil. pose proof (qfloor_le (- q)) as A. pose proof (qfloor_lt (- q)) as B. rewrite zq_opp.
  split; qc_lra.
Qed.
Lemma ceil_unique q a b : is_ceil q a -> is_ceil q b -> a = b.
Proof.
  intros [A A'] [B B']. assert (zq a < zq (b + 1))%Qc by (rewrite zq_plus, zq_1; qc_lra).
  assert (zq b < zq (a + 1))%Qc by (rewrite zq_plus, zq_1; qc_lra). rewrite zq_lt in *. lia.
Qed.
Lemma zup_empty {S} (body : Z -> S -> option S) a b s : (b <= a)%Z -> zup a b body s = Some s.
Proof. intros L. unfold zup. replace (Z.to_nat (b - a)) with 0 by lia. reflexivity. Qed.

Lemma nonneg_sum m f : (forall i, i < m -> (0 <= f i)%Qc) -> (0 <= ksum m f)%Qc.
Proof.
  intros A. induction m as [|m IH]; [apply Qcle_refl|]. cbn [sum]. assert (0 <= ksum m f)%Qc by (apply IH; intros; apply A; lia).
  pose proof (A m ltac:(lia)). qc_lra.
Qed.

Lemma gap_apart a b tau : (0 <= tau)%Qc -> (gap false (nq a) (nq b) <= tau * tau)%Qc -> (apart a b <= qceil tau)%Z.
Proof.
  intros T G. unfold apart. destruct (Z.le_gt_cases (Z.abs (Z.of_nat a - Z.of_nat b)) (qceil tau)) as [L|L]; [exact L|]. exfalso.
  destruct (qceil_ok tau) as [C _]. apply zq_lt in L. set (z := Z.abs (Z.of_nat a - Z.of_nat b)) in *.
  assert (E : gap false (nq a) (nq b) = (zq z * zq z)%Qc).
  { unfold gap, nq. rewrite <- zq_minus, <- !zq_mult. f_equal. unfold z. lia. }
  rewrite E in G. assert (LT : (tau < zq z)%Qc) by qc_lra. clear E L C. clearbody z. qc_prep. nra.
Qed.

Section Windows.
Variables N1 N2 : nat.
Local Notation n := (N1 * N2).
Lemma xy i1 i2 : i1 < N1 -> (i1 + N1 * i2) mod N1 = i1 /\ (i1 + N1 * i2) / N1 = i2.
Proof. intros L. rewrite (Nat.mul_comm N1 i2), Nat.mod_add, Nat.div_add, Nat.mod_small, Nat.div_small by lia. lia. Qed.
Lemma below i1 i2 : i1 < N1 -> i2 < N2 -> i1 + N1 * i2 < n.
Proof. nia. Qed.
Lemma parts p : p < n -> p mod N1 < N1 /\ p / N1 < N2 /\ p = p mod N1 + N1 * (p / N1).
Proof.
  intros L. assert (N1 <> 0) by nia. pose proof (Nat.div_mod p N1 ltac:(auto)). pose proof (Nat.mod_upper_bound p N1 ltac:(auto)).
  pose proof (Nat.div_lt_upper_bound p N1 N2 ltac:(auto) L). lia.
Qed.
Lemma within_xy R i1 i2 j1 j2 : i1 < N1 -> j1 < N1 ->
  within N1 R (i1 + N1 * i2) (j1 + N1 * j2) = ((apart i1 j1 <=? R) && (apart i2 j2 <=? R))%Z.
Proof.
  intros L1 L2. unfold within. destruct (xy i1 i2 L1) as [-> ->]. destruct (xy j1 j2 L2) as [-> ->]. reflexivity.
Qed.

Lemma window_inv {S} (P : (nat -> bool) -> S -> Prop) R i1 i2 (body : nat -> nat -> S -> option S) s :
  (forall D D' s, (forall q, q < n -> D q = D' q) -> P D s -> P D' s) -> i1 < N1 -> i2 < N2 ->
  P (fun _ => false) s ->
  (forall D s j1 j2, j1 < N1 -> j2 < N2 -> within N1 R (i1 + N1 * i2) (j1 + N1 * j2) = true ->
    (forall q, q < n -> D q = true -> q < j1 + N1 * j2) -> P D s ->
    exists s', body j1 j2 s = Some s' /\ P (fun q => D q || (q =? j1 + N1 * j2)) s') ->
  exists s', window N1 N2 R i1 i2 body s = Some s' /\ P (within N1 R (i1 + N1 * i2)) s'.
Proof.
  intros PE L1 L2 P0 B. unfold window. set (p := i1 + N1 * i2) in *. destruct (xy i1 i2 L1) as [M1 D1]. fold p in M1, D1.
  destruct (Z.lt_ge_cases R 0) as [RN|RP].
  { rewrite zup_empty by lia. exists s. split; [reflexivity|]. apply (PE (fun _ => false)); [|exact P0]. intros q Hq.
    unfold within, apart. symmetry. apply andb_false_iff. left. apply Z.leb_gt. lia. }
  destruct (zup_inv (fun y s => P (fun q => within N1 R p q && (Z.of_nat (q / N1) <? y)%Z) s)
    (fun j2 s => zup (Z.max (Z.of_nat i1 - R) 0) (Z.min (Z.of_nat i1 + R) (Z.of_nat N1 - 1) + 1) (fun j1 s => body (Z.to_nat j1) (Z.to_nat j2) s) s)
    (Z.max (Z.of_nat i2 - R) 0) (Z.min (Z.of_nat i2 + R) (Z.of_nat N2 - 1) + 1) s) as (s' & E & H).
  - lia.
  - apply (PE (fun _ => false)); [|exact P0]. intros q Hq. unfold within, apart. rewrite D1. symmetry.
    destruct (Z.ltb_spec (Z.of_nat (q / N1)) (Z.max (Z.of_nat i2 - R) 0)); [|apply andb_false_r]. rewrite andb_true_r.
    apply andb_false_iff. right. apply Z.leb_gt. lia.
  - intros y s1 Hy P1.
    destruct (zup_inv (fun x s => P (fun q => within N1 R p q && ((Z.of_nat (q / N1) <? y)%Z || ((Z.of_nat (q / N1) =? y)%Z && (Z.of_nat (q mod N1) <? x)%Z))) s)
      (fun j1 s => body (Z.to_nat j1) (Z.to_nat y) s) (Z.max (Z.of_nat i1 - R) 0) (Z.min (Z.of_nat i1 + R) (Z.of_nat N1 - 1) + 1) s1) as (s' & E & H).
    + lia.
    + eapply PE; [|exact P1]. intros q Hq. cbv beta. unfold within, apart. rewrite M1.
      destruct (Z.ltb_spec (Z.of_nat (q mod N1)) (Z.max (Z.of_nat i1 - R) 0)).
      * destruct (Z.leb_spec (Z.abs (Z.of_nat i1 - Z.of_nat (q mod N1))) R); [lia|]. reflexivity.
      * rewrite andb_false_r, orb_false_r. reflexivity.
    + intros x s2 Hx P2. match type of P2 with P ?D0 _ => destruct (B D0 s2 (Z.to_nat x) (Z.to_nat y) ltac:(lia) ltac:(lia)) as (s3 & E3 & P3) end.
      * fold p. unfold p. rewrite within_xy by lia. unfold apart. apply andb_true_iff. split; apply Z.leb_le; lia.
      * intros q Hq Dq. apply andb_true_iff in Dq as [_ Dq]. destruct (parts q Hq) as (Q1 & Q2 & Q3).
        apply orb_true_iff in Dq as [Dq|Dq].
        -- apply Z.ltb_lt in Dq. nia.
        -- apply andb_true_iff in Dq as [Da Db]. apply Z.eqb_eq in Da. apply Z.ltb_lt in Db. nia.
      * exact P2.
      * exists s3. split; [exact E3|]. eapply PE; [|exact P3]. intros q Hq. cbv beta.
        destruct (parts q Hq) as (Q1 & Q2 & Q3). destruct (Nat.eqb_spec q (Z.to_nat x + N1 * Z.to_nat y)) as [EQ|NE].
        -- destruct (xy (Z.to_nat x) (Z.to_nat y) ltac:(lia)) as [XM XD]. rewrite orb_true_r. symmetry.
           rewrite EQ. rewrite XM, XD. unfold p. rewrite within_xy by lia. unfold apart.
           rewrite !andb_true_iff, orb_true_iff, andb_true_iff, Z.eqb_eq, !Z.ltb_lt, !Z.leb_le. lia.
        -- rewrite orb_false_r. f_equal. f_equal. destruct (Z.eqb_spec (Z.of_nat (q / N1)) y) as [Ey|]; [|reflexivity].
           cbn [andb]. apply eq_true_iff_eq. rewrite !Z.ltb_lt. split; intros G; [lia|].
           destruct (Z.eq_dec (Z.of_nat (q mod N1)) x); [|lia]. exfalso. apply NE. rewrite Q3 at 1. f_equal; [lia|]. f_equal. lia.
    + exists s'. split; [exact E|]. eapply PE; [|exact H]. intros q Hq. cbv beta.
      unfold within, apart. rewrite M1. destruct (parts q Hq) as (Q1 & Q2 & Q3).
      apply eq_true_iff_eq. rewrite !andb_true_iff, orb_true_iff, andb_true_iff, Z.eqb_eq, !Z.ltb_lt, !Z.leb_le. lia.
  - exists s'. split; [exact E|]. eapply PE; [|exact H]. intros q Hq. cbv beta. unfold within, apart. rewrite D1.
    destruct (parts q Hq) as (Q1 & Q2 & Q3).
    apply eq_true_iff_eq. rewrite !andb_true_iff, !Z.ltb_lt, !Z.leb_le. lia.
Qed.
Lemma pixels_inv {S} (P : nat -> S -> Prop) (f : nat -> nat -> S -> option S) s : P 0 s ->
  (forall i1 i2 s, i1 < N1 -> i2 < N2 -> P (i1 + N1 * i2) s -> exists s', f i1 i2 s = Some s' /\ P (i1 + N1 * i2 + 1) s') ->
  exists s', pixels N1 N2 f s = Some s' /\ P n s'.
Proof.
  intros P0 B. unfold pixels. apply (grid_inv P (fun i2 i1 s => f i1 i2 s)); [exact P0|].
  intros x y s1 Hx Hy. rewrite (Nat.mul_comm y N1). apply B; assumption.
Qed.
(** adding one more pixel to a sum *)
Lemma sum_more D j (f : nat -> Qc) : j < n -> (forall q, q < n -> D q = true -> q < j) ->
  ksum n (fun q => if D q || (q =? j) then f q else 0%Qc) = (ksum n (fun q => if D q : bool then f q else 0%Qc) + f j)%Qc.
Proof.
  intros Hj HD. rewrite <- (qsum_single 0 0 (le_n 0) j (f j) n Hj).
  rewrite <- (sum_add _ _ _ _ _ _ Qcrt). apply sum_ext. intros q Hq. destruct (Nat.eqb_spec q j) as [->|NE].
  - rewrite orb_true_r. destruct (D j) eqn:Dj; [specialize (HD j Hj Dj); lia|]. ring.
  - rewrite orb_false_r. destruct (D q); ring.
Qed.
End Windows.

Section Process.
Variables (N1 N2 K : nat) (image : list Qc) (expo root : Qc -> Qc).
Hypothesis LI : length image = N1 * N2 * K.
Local Notation n := (N1 * N2).
Local Notation ft := (feature N1 N2 image).
Local Notation sqd := (sqdist N1 N2 K image).
Local Notation dt := (dot N1 N2 K image).

Lemma ft_0 i1 i2 : i1 < N1 -> ft (i1 + N1 * i2) 0 = nq i1.
Proof. intros L. unfold feature. destruct (xy N1 i1 i2 L) as [-> _]. reflexivity. Qed.
Lemma ft_1 i1 i2 : i1 < N1 -> ft (i1 + N1 * i2) 1 = nq i2.
Proof. intros L. unfold feature. destruct (xy N1 i1 i2 L) as [_ ->]. reflexivity. Qed.
Lemma at_ok i1 i2 k : i1 < N1 -> i2 < N2 -> k < K -> at_image N1 N2 image i1 i2 k = Some (ft (i1 + N1 * i2) (2 + k)).
Proof.
  intros L1 L2 L3. unfold at_image. pose proof (below N1 N2 i1 i2 L1 L2). rewrite (aget_nth image _ 0%Qc) by nia.
  cbn [Nat.add feature]. do 2 f_equal. lia.
Qed.
Lemma distance_ok i1 i2 j1 j2 : i1 < N1 -> i2 < N2 -> j1 < N1 -> j2 < N2 ->
  qs_distance N1 N2 K image i1 i2 j1 j2 = Some (sqd (i1 + N1 * i2) (j1 + N1 * j2)).
Proof.
  intros L1 L2 L3 L4. unfold qs_distance.
  match goal with |- iter K ?b ?v = _ => destruct (iter_inv (fun k d => d = (v + ksum k (fun k => gap false (ft (i1 + N1 * i2) (2 + k)) (ft (j1 + N1 * j2) (2 + k))))%Qc) b K v) as (d & -> & ->) end.
  - cbn [sum]. ring.
  - intros k s0 Hk ->. rewrite !at_ok by assumption. cbn [obind]. eexists. split; [reflexivity|].
    replace (k + 1) with (S k) by lia. cbn [sum]. unfold gap. ring.
  - f_equal. unfold sqdist. rewrite ksum_two. rewrite !ft_0, !ft_1 by assumption. cbn [Nat.add]. unfold gap. ring.
Qed.
Lemma inner_ok i1 i2 j1 j2 : i1 < N1 -> i2 < N2 -> j1 < N1 -> j2 < N2 ->
  qs_inner N1 N2 K image i1 i2 j1 j2 = Some (dt (i1 + N1 * i2) (j1 + N1 * j2)).
Proof.
  intros L1 L2 L3 L4. unfold qs_inner.
  match goal with |- iter K ?b ?v = _ => destruct (iter_inv (fun k d => d = (v + ksum k (fun k => ft (i1 + N1 * i2)%nat (2 + k)%nat * ft (j1 + N1 * j2)%nat (2 + k)%nat))%Qc) b K v) as (d & -> & ->) end.
  - cbn [sum]. ring.
  - intros k s0 Hk ->. rewrite !at_ok by assumption. cbn [obind]. eexists. split; [reflexivity|].
    replace (k + 1) with (S k) by lia. cbn [sum]. ring.
  - f_equal. unfold dot. rewrite ksum_two. rewrite !ft_0, !ft_1 by assumption. cbn [Nat.add]. ring.
Qed.
Lemma norms_ok : exists l, norms N1 N2 K image = Some l /\ length l = n /\ forall p, p < n -> nth p l 0%Qc = dt p p.
Proof.
  unfold norms. match goal with |- context [pixels N1 N2 ?b ?v] => destruct (pixels_inv N1 N2 (fun c l => length l = n /\ forall p, p < c -> p < n -> nth p l 0%Qc = dt p p) b v) as (l & E & H1 & H2) end.
  - split; [apply repeat_length|]. intros p Hp. lia.
  - intros i1 i2 l L1 L2 [LL H]. rewrite inner_ok by assumption. cbn [obind]. pose proof (below N1 N2 i1 i2 L1 L2).
    rewrite aset_lt by lia. eexists. split; [reflexivity|]. split; [rewrite upd_length; exact LL|].
    intros p Hp Hn. rewrite nth_upd by lia. destruct (Nat.eqb_spec p (i1 + N1 * i2)) as [->|]; [reflexivity|]. apply H; lia.
  - exists l. split; [exact E|]. split; [exact H1|]. intros p Hp. apply H2; exact Hp.
Qed.
Lemma add_to_ok l i v : i < length l -> add_to l i v = Some (upd l i (nth i l 0 + v)%Qc).
Proof. intros L. unfold add_to. rewrite (aget_nth l i 0%Qc) by exact L. cbn [obind]. rewrite aset_lt by exact L. reflexivity. Qed.

Section Densities.
Variables (medoid : bool) (sigma : Qc).
Local Notation R := (qceil (nq 3 * sigma)).
Definition phi (p q : nat) : Qc := expo (- sqd p q / (nq 2 * sigma * sigma))%Qc.
Definition sums (D : nat -> bool) (f : nat -> Qc) : Qc := ksum n (fun q => if D q then f q else 0%Qc).

Lemma slot a i b j : a < n -> b < n -> a + n * i = b + n * j -> a = b /\ i = j.
Proof. intros A B E. assert (n * i + a = n * j + b) by lia. destruct (cell_eq n i a j b A B H). auto. Qed.
Lemma slot_lt a i : a < n -> i < 2 + K -> a + n * i < n * (2 + K).
Proof. nia. Qed.

Lemma density_step_ok i1 i2 j1 j2 E M : i1 < N1 -> i2 < N2 -> j1 < N1 -> j2 < N2 -> length E = n -> (medoid = true -> length M = n * (2 + K)) ->
  exists E' M', density_step N1 N2 K image expo medoid sigma i1 i2 j1 j2 (E, M) = Some (E', M') /\ length E' = n /\ (medoid = true -> length M' = n * (2 + K)) /\
    (forall q, q < n -> nth q E' 0%Qc = (nth q E 0 + if q =? i1 + N1 * i2 then phi q (j1 + N1 * j2)%nat else 0)%Qc) /\
    (medoid = true -> forall q i, q < n -> i < 2 + K ->
      nth (q + n * i) M' 0%Qc = (nth (q + n * i) M 0 - if q =? i1 + N1 * i2 then phi q (j1 + N1 * j2)%nat * ft (j1 + N1 * j2)%nat i else 0)%Qc).
Proof.
  intros L1 L2 L3 L4 LE LM. unfold density_step. rewrite distance_ok by assumption. cbn [obind].
  set (p := i1 + N1 * i2). set (j := j1 + N1 * j2). assert (Hp : p < n) by (apply below; assumption).
  change (expo (- sqd p j / (nq 2 * sigma * sigma))%Qc) with (phi p j).
  rewrite add_to_ok by lia. cbn [obind].
  assert (HE : forall q, q < n -> nth q (upd E p (nth p E 0 + - - phi p j)%Qc) 0%Qc = (nth q E 0 + if q =? p then phi q j else 0)%Qc).
  { intros q Hq. rewrite nth_upd by lia. destruct (Nat.eqb_spec q p) as [->|]; ring. }
  destruct medoid.
  2:{ eexists _, _. split; [reflexivity|]. split; [rewrite upd_length; exact LE|]. split; [discriminate|]. split; [exact HE|]. discriminate. }
  specialize (LM eq_refl). pose proof (slot_lt p 0 Hp ltac:(lia)) as S0. pose proof (slot_lt p 1 Hp ltac:(lia)) as S1.
  rewrite add_to_ok by lia. cbn [obind]. rewrite add_to_ok by (rewrite upd_length; lia). cbn [obind].
  set (M2 := upd _ (p + n) _).
  assert (LM2 : length M2 = n * (2 + K)) by (unfold M2; rewrite !upd_length; exact LM).
  assert (H2 : forall q i, q < n -> i < 2 + K -> nth (q + n * i) M2 0%Qc = (nth (q + n * i) M 0 - if (q =? p) && (i <? 2) then phi q j * ft j i else 0)%Qc).
  { intros q i Hq Hi. unfold M2. rewrite nth_upd by (rewrite upd_length; lia). rewrite !nth_upd by lia.
    destruct (Nat.eqb_spec (q + n * i) (p + n)) as [E1|E1].
    - destruct (slot q i p 1 Hq Hp ltac:(lia)) as [-> ->]. rewrite Nat.eqb_refl. cbn [andb Nat.ltb Nat.leb].
      replace (p + n =? p) with false by (symmetry; apply Nat.eqb_neq; lia). rewrite E1. unfold j. rewrite ft_1 by assumption. ring.
    - destruct (Nat.eqb_spec (q + n * i) p) as [E2|E2].
      + destruct (slot q i p 0 Hq Hp ltac:(lia)) as [-> ->]. rewrite Nat.eqb_refl. cbn [andb Nat.ltb Nat.leb]. rewrite E2.
        unfold j. rewrite ft_0 by assumption. ring.
      + destruct (Nat.eqb_spec q p) as [->|]; [|cbn [andb]; ring]. destruct (Nat.ltb_spec i 2); [|cbn [andb]; ring].
        destruct i as [|[|i]]; [lia|lia|lia]. }
  match goal with |- context [iter K ?b M2] => destruct (iter_inv (fun k M' => length M' = n * (2 + K) /\ forall q i, q < n -> i < 2 + K ->
    nth (q + n * i) M' 0%Qc = (nth (q + n * i) M 0 - if (q =? p) && (i <? 2 + k) then phi q j * ft j i else 0)%Qc) b K M2) as (M' & -> & LM' & HM') end.
  - split; [exact LM2|exact H2].
  - intros k M' Hk [LM' HM']. rewrite at_ok by assumption. cbn [obind]. pose proof (slot_lt p (k + 2) Hp ltac:(lia)).
    rewrite add_to_ok by lia. eexists. split; [reflexivity|]. split; [rewrite upd_length; exact LM'|].
    intros q i Hq Hi. rewrite nth_upd by lia. rewrite !HM' by lia. destruct (Nat.eqb_spec (q + n * i) (p + n * (k + 2))) as [E1|E1].
    + destruct (slot q i p (k + 2) Hq Hp E1) as [-> ->]. rewrite Nat.eqb_refl. cbn [andb].
      destruct (Nat.ltb_spec (k + 2) (2 + k)); [lia|]. destruct (Nat.ltb_spec (k + 2) (2 + (k + 1))); [|lia]. fold j. replace (2 + k) with (k + 2) by lia. ring.
    + destruct (Nat.eqb_spec q p) as [->|]; [|reflexivity]. cbn [andb]. assert (i <> k + 2) by (intros ->; lia).
      destruct (Nat.ltb_spec i (2 + k)); destruct (Nat.ltb_spec i (2 + (k + 1))); try lia; reflexivity.
  - eexists _, _. split; [reflexivity|]. split; [rewrite upd_length; exact LE|]. split; [intros _; exact LM'|]. split; [exact HE|].
    intros _ q i Hq Hi. rewrite HM' by assumption. replace (i <? 2 + K) with true by (symmetry; apply Nat.ltb_lt; lia). rewrite andb_true_r. reflexivity.
Qed.
Lemma density_window i1 i2 E M : i1 < N1 -> i2 < N2 -> length E = n -> (medoid = true -> length M = n * (2 + K)) ->
  exists st, window N1 N2 R i1 i2 (fun j1 j2 st => density_step N1 N2 K image expo medoid sigma i1 i2 j1 j2 st) (E, M) = Some st /\
    length (fst st) = n /\ (medoid = true -> length (snd st) = n * (2 + K)) /\
    (forall q, q < n -> nth q (fst st) 0%Qc = (nth q E 0 + if q =? i1 + N1 * i2 then wsum N1 N2 R q (phi q) else 0)%Qc) /\
    (medoid = true -> forall q i, q < n -> i < 2 + K ->
      nth (q + n * i) (snd st) 0%Qc = (nth (q + n * i) M 0 - if q =? i1 + N1 * i2 then wsum N1 N2 R q (fun r => phi q r * ft r i)%Qc else 0)%Qc).
Proof.
  intros L1 L2 LE LM. set (p := i1 + N1 * i2).
  match goal with |- context [window N1 N2 R i1 i2 ?b ?v] => destruct (window_inv N1 N2 (fun D st => length (fst st) = n /\ (medoid = true -> length (snd st) = n * (2 + K)) /\
    (forall q, q < n -> nth q (fst st) 0%Qc = (nth q E 0 + if q =? p then sums D (phi q) else 0)%Qc) /\
    (medoid = true -> forall q i, q < n -> i < 2 + K -> nth (q + n * i) (snd st) 0%Qc = (nth (q + n * i) M 0 - if q =? p then sums D (fun r => phi q r * ft r i)%Qc else 0)%Qc)) R i1 i2 b v) as (st & E1 & H) end; try assumption.
  - intros D D' st ED (A & B & C & F). assert (EX : forall f, sums D f = sums D' f). { intros f. apply sum_ext. intros q Hq. rewrite (ED q Hq). reflexivity. }
    split; [exact A|]. split; [exact B|]. split.
    + intros q Hq. rewrite <- EX. apply C; exact Hq.
    + intros Y q i Hq Hi. rewrite <- EX. apply F; assumption.
  - cbn [fst snd]. assert (Z0 : forall f, sums (fun _ => false) f = 0%Qc) by (intros f; apply (sum_zero _ _ _ _ _ _ Qcrt)).
    split; [exact LE|]. split; [exact LM|]. split.
    + intros q Hq. rewrite Z0. destruct (q =? p); ring.
    + intros _ q i Hq Hi. rewrite Z0. destruct (q =? p); ring.
  - intros D [E0 M0] j1 j2 Hj1 Hj2 W HD (A & B & C & F). cbn [fst snd] in *.
    destruct (density_step_ok i1 i2 j1 j2 E0 M0 L1 L2 Hj1 Hj2 A B) as (E' & M' & -> & LE' & LM' & HE' & HM').
    exists (E', M'). split; [reflexivity|]. cbn [fst snd]. split; [exact LE'|]. split; [exact LM'|].
    pose proof (below N1 N2 j1 j2 Hj1 Hj2) as Hj. fold p in HE', HM'. unfold sums. split.
    + intros q Hq. rewrite HE', C by exact Hq. destruct (Nat.eqb_spec q p) as [->|]; [|ring]. unfold sums. rewrite (sum_more N1 N2 D _ (phi p) Hj HD). ring.
    + intros Y q i Hq Hi. rewrite (HM' Y), (F Y) by assumption. destruct (Nat.eqb_spec q p) as [->|]; [|ring]. unfold sums.
      rewrite (sum_more N1 N2 D _ (fun r => phi p r * ft r i)%Qc Hj HD). ring.
  - exists st. split; [exact E1|]. destruct H as (A & B & C & F). split; [exact A|]. split; [exact B|]. unfold wsum. split.
    + intros q Hq. rewrite C by exact Hq. destruct (Nat.eqb_spec q p) as [->|]; reflexivity.
    + intros Y q i Hq Hi. rewrite F by assumption. destruct (Nat.eqb_spec q p) as [->|]; reflexivity.
Qed.
Lemma densities_ok E M : length E = n -> (medoid = true -> length M = n * (2 + K)) ->
  exists E' M', densities N1 N2 K image expo medoid sigma E M = Some (E', M') /\ length E' = n /\ (medoid = true -> length M' = n * (2 + K)) /\
    (forall p, p < n -> nth p E' 0%Qc = (nth p E 0 + wsum N1 N2 R p (phi p))%Qc) /\
    (medoid = true -> forall p i, p < n -> i < 2 + K -> nth (p + n * i) M' 0%Qc = (nth (p + n * i) M 0 - wsum N1 N2 R p (fun r => phi p r * ft r i)%Qc)%Qc).
Proof.
  intros LE LM. unfold densities.
  match goal with |- context [pixels N1 N2 ?b ?v] => destruct (pixels_inv N1 N2 (fun c st => length (fst st) = n /\ (medoid = true -> length (snd st) = n * (2 + K)) /\
    (forall q, q < n -> nth q (fst st) 0%Qc = (nth q E 0 + if q <? c then wsum N1 N2 R q (phi q) else 0)%Qc) /\
    (medoid = true -> forall q i, q < n -> i < 2 + K -> nth (q + n * i) (snd st) 0%Qc = (nth (q + n * i) M 0 - if q <? c then wsum N1 N2 R q (fun r => phi q r * ft r i)%Qc else 0)%Qc)) b v) as ((E' & M') & E1 & H) end.
  - cbn [fst snd]. split; [exact LE|]. split; [exact LM|]. split; intros; cbn [Nat.ltb Nat.leb]; ring.
  - intros i1 i2 [E0 M0] L1 L2 (A & B & C & F). cbn [fst snd] in *.
    destruct (density_window i1 i2 E0 M0 L1 L2 A B) as (st & E1 & A' & B' & C' & F'). exists st. split; [exact E1|].
    split; [exact A'|]. split; [exact B'|]. split.
    + intros q Hq. rewrite C', C by exact Hq. destruct (Nat.eqb_spec q (i1 + N1 * i2)) as [EQ|NE]; [rewrite <- EQ in *|].
      * rewrite Nat.ltb_irrefl. destruct (Nat.ltb_spec q (q + 1)); [|lia]. ring.
      * destruct (Nat.ltb_spec q (i1 + N1 * i2)); destruct (Nat.ltb_spec q (i1 + N1 * i2 + 1)); try lia; ring.
    + intros Y q i Hq Hi. rewrite (F' Y), (F Y) by assumption. destruct (Nat.eqb_spec q (i1 + N1 * i2)) as [EQ|NE]; [rewrite <- EQ in *|].
      * rewrite Nat.ltb_irrefl. destruct (Nat.ltb_spec q (q + 1)); [|lia]. ring.
      * destruct (Nat.ltb_spec q (i1 + N1 * i2)); destruct (Nat.ltb_spec q (i1 + N1 * i2 + 1)); try lia; ring.
  - exists E', M'. split; [exact E1|]. cbn [fst snd] in H. destruct H as (A & B & C & F). split; [exact A|]. split; [exact B|]. split.
    + intros q Hq. rewrite C by exact Hq. destruct (Nat.ltb_spec q n); [reflexivity|lia].
    + intros Y q i Hq Hi. rewrite F by assumption. destruct (Nat.ltb_spec q n); [reflexivity|lia].
Qed.
End Densities.

(** *** Links *)
Lemma dist_nonneg p q : (0 <= sqd p q)%Qc.
Proof.
  apply nonneg_sum. intros i _. unfold gap. apply Qc_square_nonneg.
Qed.
Lemma dist_coords p q : (gap false (nq (p mod N1)) (nq (q mod N1)) <= sqd p q)%Qc /\ (gap false (nq (p / N1)) (nq (q / N1)) <= sqd p q)%Qc.
Proof.
  unfold sqdist. rewrite ksum_two. cbn [feature].
  assert (A : (0 <= ksum K (fun k => gap false (ft p (S (S k))) (ft q (S (S k)))))%Qc).
  { apply nonneg_sum. intros i _. unfold gap. apply Qc_square_nonneg. }
  cbn [feature] in A. pose proof (Qc_square_nonneg (nq (p mod N1) - nq (q mod N1))). pose proof (Qc_square_nonneg (nq (p / N1) - nq (q / N1))).
  unfold gap in *. cbv zeta in *. set (T := ksum K _) in *. split; qc_lra.
Qed.
Lemma better_within E tau p q : (0 <= tau)%Qc -> better N1 N2 K image E tau p q -> within N1 (qceil tau) p q = true.
Proof.
  intros T (_ & _ & D). destruct (dist_coords p q) as [A B]. unfold within. apply andb_true_iff.
  split; apply Z.leb_le; apply gap_apart; try exact T; qc_lra.
Qed.
Lemma shift_pixel_ok tau E i1 i2 : (0 <= tau)%Qc -> length E = n -> i1 < N1 -> i2 < N2 ->
  exists v b1 b2, shift_pixel N1 N2 K image tau E i1 i2 = Some (v, b1, b2) /\ b1 < N1 /\ b2 < N2 /\
    linked N1 N2 K image E tau (i1 + N1 * i2) (b1 + N1 * b2) v.
Proof.
  intros T LE L1 L2. unfold shift_pixel. set (p := i1 + N1 * i2). assert (Hp : p < n) by (apply below; assumption).
  rewrite (aget_nth E p 0%Qc) by lia. cbn [obind].
  match goal with |- context [window N1 N2 _ i1 i2 ?bd ?v0] => destruct (window_inv N1 N2 (fun D st => let '(v, b1, b2) := st in b1 < N1 /\ b2 < N2 /\
    match v with
    | None => b1 + N1 * b2 = p /\ forall q, q < n -> D q = true -> ~ better N1 N2 K image E tau p q
    | Some d => better N1 N2 K image E tau p (b1 + N1 * b2) /\ D (b1 + N1 * b2) = true /\ d = sqd p (b1 + N1 * b2) /\
       forall q, q < n -> D q = true -> better N1 N2 K image E tau p q -> (d < sqd p q)%Qc \/ d = sqd p q /\ b1 + N1 * b2 <= q
    end) (qceil tau) i1 i2 bd v0) as (((v & b1) & b2) & EW & B1 & B2 & H) end; try assumption.
  - intros D D' [[v b1] b2] ED (B1 & B2 & H). split; [exact B1|]. split; [exact B2|]. destruct v as [d|].
    + destruct H as (X1 & X2 & X3 & X4). split; [exact X1|]. split; [rewrite <- ED by (apply below; assumption); exact X2|]. split; [exact X3|].
      intros q Hq Dq. apply X4; [exact Hq|]. rewrite ED; assumption.
    + destruct H as [X1 X2]. split; [exact X1|]. intros q Hq Dq. apply X2; [exact Hq|]. rewrite ED; assumption.
  - split; [exact L1|]. split; [exact L2|]. split; [reflexivity|]. intros q _ X. discriminate.
  - intros D [[v b1] b2] j1 j2 Hj1 Hj2 _ HD (B1 & B2 & H). set (j := j1 + N1 * j2) in *. assert (Hj : j < n) by (apply below; assumption).
    rewrite (aget_nth E j 0%Qc) by lia. cbn [obind].
    assert (KEEP : ~ better N1 N2 K image E tau p j \/ (exists d, v = Some d /\ (d <= sqd p j)%Qc) ->
      exists s', Some (v, b1, b2) = Some s' /\ (let '(v, b1, b2) := s' in b1 < N1 /\ b2 < N2 /\
        match v with
        | None => b1 + N1 * b2 = p /\ forall q, q < n -> D q || (q =? j) = true -> ~ better N1 N2 K image E tau p q
        | Some d => better N1 N2 K image E tau p (b1 + N1 * b2) /\ D (b1 + N1 * b2) || (b1 + N1 * b2 =? j) = true /\ d = sqd p (b1 + N1 * b2) /\
           forall q, q < n -> D q || (q =? j) = true -> better N1 N2 K image E tau p q -> (d < sqd p q)%Qc \/ d = sqd p q /\ b1 + N1 * b2 <= q
        end)).
    { intros W. eexists. split; [reflexivity|]. split; [exact B1|]. split; [exact B2|]. destruct v as [d|].
      - destruct H as (X1 & X2 & X3 & X4). split; [exact X1|]. split; [rewrite X2; reflexivity|]. split; [exact X3|].
        intros q Hq Dq Bq. destruct (D q) eqn:Dq'; [apply X4; assumption|]. cbn [orb] in Dq. apply Nat.eqb_eq in Dq. subst q.
        destruct W as [W|(d' & [= <-] & W)]; [contradiction|]. destruct (Qcle_lt_or_eq _ _ W) as [LT|EQ]; [left; exact LT|]. right. split; [exact EQ|].
        apply Nat.lt_le_incl. apply HD; [apply below; assumption|exact X2].
      - destruct H as [X1 X2]. split; [exact X1|]. intros q Hq Dq. destruct (D q) eqn:Dq'; [apply X2; assumption|]. cbn [orb] in Dq. apply Nat.eqb_eq in Dq. subst q.
        destruct W as [W|(d' & X & _)]; [exact W|discriminate]. }
    destruct (qlt (nth p E 0%Qc) (nth j E 0%Qc)) eqn:Q1.
    2:{ apply KEEP. left. intros (_ & X & _). apply qlt_true in X. congruence. }
    apply qlt_true in Q1. rewrite distance_ok by assumption. cbn [obind]. fold p j.
    destruct (qlt (tau * tau) (sqd p j)) eqn:Q2; cbn [negb andb].
    { apply KEEP. left. intros (_ & _ & X). apply qlt_true in Q2. exact (Qclt_not_le _ _ Q2 X). }
    apply qlt_false in Q2. assert (BJ : better N1 N2 K image E tau p j) by (split; [exact Hj|split; assumption]).
    assert (NEW : (forall d, v = Some d -> (sqd p j < d)%Qc) ->
      exists s', Some (Some (sqd p j), j1, j2) = Some s' /\ (let '(v, b1, b2) := s' in b1 < N1 /\ b2 < N2 /\
        match v with
        | None => b1 + N1 * b2 = p /\ forall q, q < n -> D q || (q =? j) = true -> ~ better N1 N2 K image E tau p q
        | Some d => better N1 N2 K image E tau p (b1 + N1 * b2) /\ D (b1 + N1 * b2) || (b1 + N1 * b2 =? j) = true /\ d = sqd p (b1 + N1 * b2) /\
           forall q, q < n -> D q || (q =? j) = true -> better N1 N2 K image E tau p q -> (d < sqd p q)%Qc \/ d = sqd p q /\ b1 + N1 * b2 <= q
        end)).
    { intros W. eexists. split; [reflexivity|]. split; [exact Hj1|]. split; [exact Hj2|]. fold j. split; [exact BJ|].
      split; [rewrite Nat.eqb_refl; apply orb_true_r|]. split; [reflexivity|]. intros q Hq Dq Bq.
      destruct (D q) eqn:Dq'.
      - left. destruct v as [d|].
        + specialize (W d eq_refl). destruct H as (_ & _ & _ & X). destruct (X q Hq Dq' Bq) as [Y|[Y _]]; [eapply Qclt_trans; eassumption|rewrite <- Y; exact W].
        + destruct H as [_ X]. exfalso. exact (X q Hq Dq' Bq).
      - cbn [orb] in Dq. apply Nat.eqb_eq in Dq. subst q. right. split; [reflexivity|]. apply Nat.le_refl. }
    destruct v as [d|].
    + destruct (qlt (sqd p j) d) eqn:Q3.
      * apply NEW. intros d' [= <-]. apply qlt_true. exact Q3.
      * apply KEEP. right. exists d. split; [reflexivity|]. apply qlt_false. exact Q3.
    + apply NEW. intros d [=].
  - exists v, b1, b2. split; [exact EW|]. split; [exact B1|]. split; [exact B2|]. unfold linked. fold p in H. destruct v as [d|].
    + destruct H as (X1 & _ & X3 & X4). split; [exact X1|]. split; [exact X3|]. intros q Bq. apply X4; [apply Bq|eapply better_within; eassumption|exact Bq].
    + destruct H as [X1 X2]. split; [exact X1|]. intros q Bq. apply (X2 q); [apply Bq|eapply better_within; eassumption|exact Bq].
Qed.

(** *** Medoids *)
Lemma wsum_ext R p f g : (forall q, q < n -> f q = g q) -> wsum N1 N2 R p f = wsum N1 N2 R p g.
Proof. intros E. apply sum_ext. intros q Hq. rewrite (E q Hq). reflexivity. Qed.
Lemma wsum_add R p f g : wsum N1 N2 R p (fun q => f q + g q)%Qc = (wsum N1 N2 R p f + wsum N1 N2 R p g)%Qc.
Proof. unfold wsum. rewrite <- (sum_add _ _ _ _ _ _ Qcrt). apply sum_ext. intros q _. destruct (within N1 R p q); ring. Qed.
Lemma wsum_scale R p c f : wsum N1 N2 R p (fun q => c * f q)%Qc = (c * wsum N1 N2 R p f)%Qc.
Proof. unfold wsum. rewrite <- (sum_scale _ _ _ _ _ _ Qcrt). apply sum_ext. intros q _. destruct (within N1 R p q); ring. Qed.
Lemma wsum_ksum R p m (f : nat -> nat -> Qc) : wsum N1 N2 R p (fun q => ksum m (fun i => f i q)) = ksum m (fun i => wsum N1 N2 R p (f i)).
Proof.
  unfold wsum. rewrite <- (sum_swap _ _ _ _ _ _ Qcrt). apply sum_ext. intros q _. destruct (within N1 R p q); [reflexivity|].
  symmetry. apply (sum_zero _ _ _ _ _ _ Qcrt).
Qed.
Lemma score_coords sigma R e p j : score N1 N2 K image expo sigma R e p j =
  (- dt j j * e - ksum (2 + K) (fun i => nq 2 * ft j i * - wsum N1 N2 R p (fun r => phi sigma p r * ft r i)))%Qc.
Proof.
  unfold score, around.
  rewrite (wsum_ext R p _ (fun r => ksum (2 + K) (fun i => ft j i * (phi sigma p r * ft r i)))%Qc).
  2:{ intros r _. unfold dot, phi. rewrite <- (sum_scale _ _ _ _ _ _ Qcrt). apply sum_ext. intros i _. ring. }
  rewrite (wsum_ksum R p (2 + K) (fun i r => ft j i * (phi sigma p r * ft r i))%Qc).
  rewrite <- (sum_scale _ _ _ _ _ _ Qcrt (2 + K) (nq 2)).
  assert (X : ksum (2 + K) (fun i => nq 2 * ft j i * - wsum N1 N2 R p (fun r => phi sigma p r * ft r i))%Qc =
    (- ksum (2 + K) (fun i => nq 2 * wsum N1 N2 R p (fun r => ft j i * (phi sigma p r * ft r i))))%Qc).
  { replace (- ksum (2 + K) (fun i => nq 2 * wsum N1 N2 R p (fun r => ft j i * (phi sigma p r * ft r i))))%Qc
      with ((- (1)) * ksum (2 + K) (fun i => nq 2 * wsum N1 N2 R p (fun r => ft j i * (phi sigma p r * ft r i))))%Qc by ring.
    rewrite <- (sum_scale _ _ _ _ _ _ Qcrt). apply sum_ext. intros i _. rewrite wsum_scale. ring. }
  rewrite X. ring.
Qed.
Lemma medoid_pixel_ok sigma nl E M i1 i2 : length nl = n -> length E = n -> length M = n * (2 + K) -> i1 < N1 -> i2 < N2 ->
  (forall p, p < n -> nth p nl 0%Qc = dt p p) ->
  (forall p i, p < n -> i < 2 + K -> nth (p + n * i) M 0%Qc = (- wsum N1 N2 (qceil (nq 3 * sigma)) p (fun r => phi sigma p r * ft r i))%Qc) ->
  exists v b1 b2, medoid_pixel N1 N2 K image sigma nl E M i1 i2 = Some (v, b1, b2) /\ b1 < N1 /\ b2 < N2 /\
    chosen N1 N2 K image expo sigma (qceil (nq 3 * sigma)) (nth (i1 + N1 * i2) E 0%Qc) (i1 + N1 * i2) (b1 + N1 * b2) v.
Proof.
  intros LN LE LM L1 L2 HN HM. unfold medoid_pixel. set (p := i1 + N1 * i2). set (R := qceil (nq 3 * sigma)) in *.
  set (e := nth p E 0%Qc). assert (Hp : p < n) by (apply below; assumption).
  match goal with |- context [window N1 N2 R i1 i2 ?bd ?v0] => destruct (window_inv N1 N2 (fun D st => let '(v, b1, b2) := st in b1 < N1 /\ b2 < N2 /\
    ((b1 + N1 * b2 = p /\ v = 0%Qc /\ forall q, q < n -> D q = true -> (score N1 N2 K image expo sigma R e p q <= 0)%Qc) \/
     (D (b1 + N1 * b2) = true /\ within N1 R p (b1 + N1 * b2) = true /\ v = score N1 N2 K image expo sigma R e p (b1 + N1 * b2) /\ (0 < v)%Qc /\
      forall q, q < n -> D q = true -> (score N1 N2 K image expo sigma R e p q < v)%Qc \/ score N1 N2 K image expo sigma R e p q = v /\ b1 + N1 * b2 <= q)))
    R i1 i2 bd v0) as (((v & b1) & b2) & EW & B1 & B2 & H) end; try assumption.
  - intros D D' [[v b1] b2] ED (B1 & B2 & H). split; [exact B1|]. split; [exact B2|]. destruct H as [(X1 & X2 & X3)|(X1 & X2 & X3 & X4 & X5)].
    + left. split; [exact X1|]. split; [exact X2|]. intros q Hq Dq. apply X3; [exact Hq|rewrite ED; assumption].
    + right. split; [rewrite <- ED by (apply below; assumption); exact X1|]. split; [exact X2|]. split; [exact X3|]. split; [exact X4|].
      intros q Hq Dq. apply X5; [exact Hq|rewrite ED; assumption].
  - split; [exact L1|]. split; [exact L2|]. left. split; [reflexivity|]. split; [reflexivity|]. intros q _ [=].
  - intros D [[v b1] b2] j1 j2 Hj1 Hj2 W HD (B1 & B2 & H). fold p in W. replace (j1 + j2 * N1) with (j1 + N1 * j2) by lia. replace (i1 + i2 * N1) with p by (unfold p; lia).
    set (j := j1 + N1 * j2) in *. assert (Hj : j < n) by (apply below; assumption).
    pose proof (slot_lt p 0 Hp ltac:(lia)) as S0. pose proof (slot_lt p 1 Hp ltac:(lia)) as S1.
    rewrite (aget_nth nl j 0%Qc) by lia. rewrite (aget_nth E p 0%Qc) by lia. rewrite (aget_nth M p 0%Qc) by lia. rewrite (aget_nth M (p + n) 0%Qc) by lia.
    cbn [obind]. rewrite HN by exact Hj. fold e.
    pose proof (HM p 0 Hp ltac:(lia)) as M0. pose proof (HM p 1 Hp ltac:(lia)) as M1. replace (p + n * 0) with p in M0 by lia. replace (p + n * 1) with (p + n) in M1 by lia.
    rewrite M0, M1.
    assert (IQ : forall bd v0, (forall k Q, k < K -> bd k Q = Some (Q - nq 2 * ft j (2 + k)%nat * - wsum N1 N2 R p (fun r => phi sigma p r * ft r (2 + k)%nat))%Qc) ->
      iter K bd v0 = Some (v0 - ksum K (fun k => nq 2 * ft j (2 + k)%nat * - wsum N1 N2 R p (fun r => phi sigma p r * ft r (2 + k)%nat)))%Qc).
    { intros bd v0 HB. destruct (iter_inv (fun k Q => Q = (v0 - ksum k (fun k => nq 2 * ft j (2 + k)%nat * - wsum N1 N2 R p (fun r => phi sigma p r * ft r (2 + k)%nat)))%Qc) bd K v0) as (Q & EQ & HQ).
      - cbn [sum]. ring.
      - intros k Q Hk HQ. rewrite HB by exact Hk. eexists. split; [reflexivity|]. replace (k + 1) with (S k) by lia. cbn [sum]. rewrite HQ. ring.
      - rewrite EQ, HQ. reflexivity. }
    rewrite IQ.
    2:{ intros k Q Hk. rewrite at_ok by assumption. cbn [obind]. fold j. pose proof (slot_lt p (k + 2) Hp ltac:(lia)). rewrite (aget_nth M _ 0%Qc) by lia. cbn [obind].
        rewrite HM by lia. replace (k + 2) with (2 + k) by lia. reflexivity. }
    cbn [obind]. match goal with |- context [qlt v ?q0] => replace q0 with (score N1 N2 K image expo sigma R e p j) end.
    2:{ rewrite score_coords, ksum_two. cbn [Nat.add]. pose proof (ft_0 j1 j2 Hj1) as F0. pose proof (ft_1 j1 j2 Hj1) as F1. fold j in F0, F1. rewrite F0, F1. ring. }
    set (sc := score N1 N2 K image expo sigma R e p) in *.
    destruct (qlt v (sc j)) eqn:QL.
    + apply qlt_true in QL. eexists. split; [reflexivity|]. split; [exact Hj1|]. split; [exact Hj2|]. right. fold j.
      split; [rewrite Nat.eqb_refl; apply orb_true_r|]. split; [exact W|]. split; [reflexivity|].
      assert (VP : (0 <= v)%Qc). { destruct H as [(_ & -> & _)|(_ & _ & _ & X & _)]; [apply Qcle_refl|apply Qclt_le_weak; exact X]. }
      split; [eapply Qcle_lt_trans; eassumption|]. intros q Hq Dq. destruct (D q) eqn:Dq'.
      * left. destruct H as [(_ & -> & X)|(_ & _ & _ & _ & X)].
        -- eapply Qcle_lt_trans; [apply X; assumption|exact QL].
        -- destruct (X q Hq Dq') as [Y|[Y _]]; [eapply Qclt_trans; eassumption|rewrite Y; exact QL].
      * cbn [orb] in Dq. apply Nat.eqb_eq in Dq. subst q. right. split; [reflexivity|apply Nat.le_refl].
    + apply qlt_false in QL. eexists. split; [reflexivity|]. split; [exact B1|]. split; [exact B2|].
      destruct H as [(X1 & X2 & X3)|(X1 & X2 & X3 & X4 & X5)].
      * left. split; [exact X1|]. split; [exact X2|]. intros q Hq Dq. destruct (D q) eqn:Dq'; [apply X3; assumption|].
        cbn [orb] in Dq. apply Nat.eqb_eq in Dq. subst q. rewrite <- X2. exact QL.
      * right. split; [rewrite X1; reflexivity|]. split; [exact X2|]. split; [exact X3|]. split; [exact X4|]. intros q Hq Dq.
        destruct (D q) eqn:Dq'; [apply X5; assumption|]. cbn [orb] in Dq. apply Nat.eqb_eq in Dq. subst q.
        destruct (Qcle_lt_or_eq _ _ QL) as [Y|Y]; [left; exact Y|]. right. split; [exact Y|]. apply Nat.lt_le_incl. apply HD; [apply below; assumption|exact X1].
  - exists v, b1, b2. split; [exact EW|]. split; [exact B1|]. split; [exact B2|]. destruct H as [H|(X1 & X2 & X3 & X4 & X5)]; [left; exact H|]. right.
    split; [apply below; assumption|]. split; [exact X2|]. split; [exact X3|]. split; [exact X4|]. exact X5.
Qed.

(** *** Everything *)
Definition fits (q : qs) : Prop := length (q_parents q) = n /\ length (q_dists q) = n /\ length (q_density q) = n.
Lemma process_ok q : fits q -> (q_medoid q = false -> (0 <= q_tau q)%Qc) ->
  exists q', process N1 N2 K image expo root q = Some q' /\ fits q' /\
    q_tau q' = q_tau q /\ q_sigma q' = q_sigma q /\ q_medoid q' = q_medoid q /\
    (forall p, p < n -> nth p (q_density q') 0%Qc = (nth p (q_density q) 0 + parzen N1 N2 K image expo (q_sigma q) (qceil (nq 3 * q_sigma q)) p)%Qc) /\
    (forall p, p < n -> nth p (q_parents q') 0 < n) /\
    (q_medoid q = false -> forall p, p < n -> exists d, nth p (q_dists q') None = option_map root d /\
      linked N1 N2 K image (q_density q') (q_tau q) p (nth p (q_parents q') 0) d) /\
    (q_medoid q = true -> forall p, p < n -> exists d, nth p (q_dists q') None = Some d /\
      chosen N1 N2 K image expo (q_sigma q) (qceil (nq 3 * q_sigma q)) (nth p (q_density q') 0%Qc) p (nth p (q_parents q') 0) d).
Proof.
  intros (LP & LD & LE) T. unfold process.
  assert (NS : exists nl, (if q_medoid q then norms N1 N2 K image else Some []) = Some nl /\ (q_medoid q = true -> length nl = n /\ forall p, p < n -> nth p nl 0%Qc = dt p p)).
  { destruct (q_medoid q).
    - destruct norms_ok as (l & A & B & C). exists l. split; [exact A|]. intros _. split; assumption.
    - eexists. split; [reflexivity|]. discriminate. }
  destruct NS as (nl & -> & HN). cbn [obind].
  match goal with |- context [densities _ _ _ _ _ _ _ _ ?M0] => set (M := M0) end.
  destruct (densities_ok (q_medoid q) (q_sigma q) (q_density q) M LE) as (E' & M' & -> & LE' & LM' & HE & HM).
  { unfold M. intros ->. apply repeat_length. }
  cbn [obind].
  match goal with |- context [pixels N1 N2 ?bd ?v0] => destruct (pixels_inv N1 N2 (fun c st => length (fst st) = n /\ length (snd st) = n /\ forall p, p < c -> p < n ->
    nth p (fst st) 0 < n /\
    (q_medoid q = false -> exists d, nth p (snd st) None = option_map root d /\ linked N1 N2 K image E' (q_tau q) p (nth p (fst st) 0) d) /\
    (q_medoid q = true -> exists d, nth p (snd st) None = Some d /\
      chosen N1 N2 K image expo (q_sigma q) (qceil (nq 3 * q_sigma q)) (nth p E' 0%Qc) p (nth p (fst st) 0) d)) bd v0) as ((ps & ds) & EP & H1 & H2 & H3) end.
  - cbn [fst snd]. split; [exact LP|]. split; [exact LD|]. intros p Hp. lia.
  - intros i1 i2 [ps ds] L1 L2 (H1 & H2 & H3). cbn [fst snd] in *. set (p := i1 + N1 * i2) in *. assert (Hp : p < n) by (apply below; assumption).
    assert (PIX : exists v b1 b2, (if q_medoid q then do (v, b1, b2) <- medoid_pixel N1 N2 K image (q_sigma q) nl E' M' i1 i2; Some (Some v, b1, b2)
                       else do (v, b1, b2) <- shift_pixel N1 N2 K image (q_tau q) E' i1 i2; Some (option_map root v, b1, b2)) = Some (v, b1, b2) /\
      b1 + N1 * b2 < n /\
      (q_medoid q = false -> exists d, v = option_map root d /\ linked N1 N2 K image E' (q_tau q) p (b1 + N1 * b2) d) /\
      (q_medoid q = true -> exists d, v = Some d /\ chosen N1 N2 K image expo (q_sigma q) (qceil (nq 3 * q_sigma q)) (nth p E' 0%Qc) p (b1 + N1 * b2) d)).
    { destruct (q_medoid q).
      - destruct (HN eq_refl) as [LN HN']. destruct (medoid_pixel_ok (q_sigma q) nl E' M' i1 i2 LN LE' (LM' eq_refl) L1 L2 HN') as (v & b1 & b2 & -> & B1 & B2 & C).
        { intros p0 i Hp0 Hi. rewrite (HM eq_refl p0 i Hp0 Hi). unfold M. rewrite nth_repeat. ring. }
        cbn [obind]. eexists _, _, _. split; [reflexivity|]. split; [apply below; assumption|]. split; [discriminate|]. intros _. exists v. split; [reflexivity|exact C].
      - destruct (shift_pixel_ok (q_tau q) E' i1 i2 (T eq_refl) LE' L1 L2) as (v & b1 & b2 & -> & B1 & B2 & C).
        cbn [obind]. eexists _, _, _. split; [reflexivity|]. split; [apply below; assumption|]. split; [|discriminate]. intros _. exists v. split; [reflexivity|exact C]. }
    destruct PIX as (v & b1 & b2 & -> & LB & C1 & C2). cbn [obind]. rewrite !aset_lt by lia. cbn [obind]. eexists. split; [reflexivity|]. cbn [fst snd].
    split; [rewrite upd_length; exact H1|]. split; [rewrite upd_length; exact H2|]. intros p0 Hp0 Hn. rewrite !nth_upd by lia.
    destruct (Nat.eqb_spec p0 p) as [->|NE].
    + split; [exact LB|]. split; [exact C1|exact C2].
    + apply H3; lia.
  - rewrite EP. cbn [obind fst snd] in *. eexists. split; [reflexivity|]. cbn [q_tau q_sigma q_medoid q_parents q_dists q_density].
    split; [split; [exact H1|split; [exact H2|exact LE']]|]. split; [reflexivity|]. split; [reflexivity|]. split; [reflexivity|]. split; [exact HE|].
    split; [intros p Hp; apply H3; exact Hp|]. split.
    + intros Y p Hp. destruct (H3 p Hp Hp) as (_ & X & _). apply X. exact Y.
    + intros Y p Hp. destruct (H3 p Hp Hp) as (_ & _ & X). apply X. exact Y.
Qed.
End Process.
