(** The LIOP descriptor of a patch: proofs. *)
From Coq Require Import List Arith ZArith Bool Lia Lqa QArith Qcanon Qcabs Permutation.
Import ListNotations.
From Verif Require Import Base Loop Rat Gauss_Model Gauss_Proofs Order_Spec Qsort_Model Qsort_Spec Qsort_Proofs Liop_Model Liop_Spec Liop_Proofs ImWarp_Proofs LiopFull_Model LiopFull_Spec.
Local Open Scope nat_scope.

Lemma omap_some {A B} (f : A -> option B) (g : A -> B) l : (forall a, In a l -> f a = Some (g a)) -> omap f l = Some (map g l).
Proof.
  induction l as [|a l IH]; intro H; cbn [omap map]; [reflexivity|].
  rewrite (H a) by now left. cbn [obind]. rewrite IH; [reflexivity|]. intros b Hb. apply H. now right.
Qed.
Lemma omap_ex {A B} (f : A -> option B) (P : A -> B -> Prop) l : (forall a, In a l -> exists b, f a = Some b /\ P a b) ->
  exists r, omap f l = Some r /\ length r = length l /\ forall i a b, nth_error l i = Some a -> nth_error r i = Some b -> P a b.
Proof.
  induction l as [|a l IH]; intro H; cbn [omap].
  - exists []. split; [reflexivity|]. split; [reflexivity|]. intros [|i] ? ?; discriminate.
  - destruct (H a) as (b & E & Hb); [now left|]. rewrite E. cbn [obind].
    destruct IH as (r & Er & L & X); [intros c Hc; apply H; now right|]. rewrite Er. cbn [obind].
    exists (b :: r). split; [reflexivity|]. split; [cbn; now rewrite L|].
    intros [|i] a' b'; cbn [nth_error]; [intros [= <-] [= <-]; exact Hb|apply X].
Qed.
Lemma omap_ext {A B} (f g : A -> option B) l : (forall a, In a l -> f a = g a) -> omap f l = omap g l.
Proof.
  induction l as [|a l IH]; intro H; cbn [omap]; [reflexivity|].
  rewrite (H a) by now left. rewrite IH; [reflexivity|]. intros b Hb. apply H. now right.
Qed.

Lemma le_floor z q : (z <= qfloor q)%Z <-> (zq z <= q)%Qc.
Proof.
  pose proof (qfloor_le q). pose proof (qfloor_lt q). split; intro X.
  - apply zq_le in X. eapply Qcle_trans; eassumption.
  - assert (Y : (zq z < zq (qfloor q + 1))%Qc) by (rewrite zq_plus, zq_1; eapply Qcle_lt_trans; eassumption). apply zq_lt_inv in Y. clear - Y. lia.
Qed.
Lemma floor_lt z q : (q < zq z)%Qc <-> (qfloor q < z)%Z.
Proof.
  split; intro X.
  - destruct (Z.le_gt_cases z (qfloor q)) as [Y|Y]; [|lia]. apply le_floor in Y. destruct (Qclt_not_le _ _ X Y).
  - destruct (Qclt_le_dec q (zq z)) as [Y|Y]; [exact Y|]. apply le_floor in Y. lia.
Qed.

(** ** the region *)
Lemma pixels_iff side radius p : In p (patch_pixels side radius) <-> region side radius p.
Proof.
  unfold patch_pixels, region. rewrite in_flat_map. split.
  - intros (y & Hy & H). unfold pixels_row in H. rewrite in_flat_map in H. destruct H as (x & Hx & H).
    apply in_seq in Hx, Hy. exists x, y.
    destruct ((x =? 0) && (y =? 0)) eqn:Z0; [destruct H|].
    destruct (Z.leb_spec ((Z.of_nat x - Z.of_nat (center side)) * (Z.of_nat x - Z.of_nat (center side)) + (Z.of_nat y - Z.of_nat (center side)) * (Z.of_nat y - Z.of_nat (center side))) (t2 side radius)) as [T|T]; [|destruct H].
    destruct H as [<-|[]]. split; [lia|]. split; [lia|]. split; [reflexivity|]. split.
    { intros [-> ->]. discriminate. }
    cbv zeta. unfold t2 in T. apply le_floor in T. rewrite zq_plus, !zq_mult, !zq_minus in T. exact T.
  - intros (x & y & Lx & Ly & -> & Z0 & T). exists y. split; [apply in_seq; lia|].
    unfold pixels_row. apply in_flat_map. exists x. split; [apply in_seq; lia|].
    destruct ((x =? 0) && (y =? 0)) eqn:E0.
    { apply andb_true_iff in E0. rewrite !Nat.eqb_eq in E0. tauto. }
    destruct (Z.leb_spec ((Z.of_nat x - Z.of_nat (center side)) * (Z.of_nat x - Z.of_nat (center side)) + (Z.of_nat y - Z.of_nat (center side)) * (Z.of_nat y - Z.of_nat (center side))) (t2 side radius)) as [S|S]; [now left|].
    exfalso. cbv zeta in T. rewrite <- !zq_minus in T || idtac.
    assert (Y : (zq ((Z.of_nat x - Z.of_nat (center side)) * (Z.of_nat x - Z.of_nat (center side)) + (Z.of_nat y - Z.of_nat (center side)) * (Z.of_nat y - Z.of_nat (center side))) <= (nq (center side) - radius + Q2Qc (6 # 10)) * (nq (center side) - radius + Q2Qc (6 # 10)))%Qc).
    { rewrite zq_plus, !zq_mult, !zq_minus. unfold nq in T. rewrite ?zq_minus in T. exact T. }
    apply le_floor in Y. unfold t2 in S. lia.
Qed.
Lemma nodup_flat {A B} (f : A -> list B) l : NoDup l -> (forall a, In a l -> NoDup (f a)) ->
  (forall a b x, In a l -> In b l -> In x (f a) -> In x (f b) -> a = b) -> NoDup (flat_map f l).
Proof.
  induction l as [|a l IH]; intros D F X; cbn [flat_map]; [constructor|]. inversion D; subst.
  assert (G : forall l1 l2 : list B, NoDup l1 -> NoDup l2 -> (forall x, In x l1 -> ~ In x l2) -> NoDup (l1 ++ l2)).
  { clear. induction l1 as [|u l1 IH]; intros l2 D1 D2 X; [exact D2|]. inversion D1; subst. cbn [app]. constructor.
    - rewrite in_app_iff. intros [?|?]; [contradiction|]. apply (X u); [now left|assumption].
    - apply IH; auto. intros x Hx. apply X. now right. }
  apply G.
  - apply F. now left.
  - apply IH; auto. + intros b Hb. apply F. now right. + intros b c x Hb Hc. apply X; now right.
  - intros x Hx Hy. apply in_flat_map in Hy. destruct Hy as (b & Hb & Hy).
    assert (a = b) by (apply (X a b x); auto; [now left|now right]). subst b. contradiction.
Qed.
Lemma pixels_row_in side radius y p : In p (pixels_row side radius y) -> exists x, x < side /\ p = x + y * side.
Proof.
  unfold pixels_row. rewrite in_flat_map. intros (x & Hx & H). apply in_seq in Hx. exists x. split; [lia|].
  destruct ((x =? 0) && (y =? 0)); [destruct H|]. destruct (_ <=? _)%Z; [|destruct H]. destruct H as [<-|[]]. reflexivity.
Qed.
Lemma pixels_nodup side radius : NoDup (patch_pixels side radius).
Proof.
  apply nodup_flat; [apply seq_NoDup| |].
  - intros y _. apply nodup_flat; [apply seq_NoDup| |].
    + intros x _. cbv zeta. destruct ((x =? 0) && (y =? 0)); [constructor|]. destruct (_ <=? _)%Z; [|constructor]. constructor; [intros []|constructor].
    + intros a b p _ _ Ha Hb. cbv zeta in Ha, Hb.
      destruct ((a =? 0) && (y =? 0)); [destruct Ha|]. destruct (_ <=? _)%Z; [|destruct Ha]. destruct Ha as [<-|[]].
      destruct ((b =? 0) && (y =? 0)); [destruct Hb|]. destruct (_ <=? _)%Z; [|destruct Hb]. destruct Hb as [Hb|[]]. lia.
  - intros a b p _ _ Ha Hb. apply pixels_row_in in Ha, Hb. destruct Ha as (x & Lx & ->), Hb as (x' & Lx' & E). nia.
Qed.

Lemma flat_nth {A B} (f : A -> list B) n : forall l p a t, (forall a, length (f a) = n) -> nth_error l p = Some a -> t < n ->
  nth_error (flat_map f l) (n * p + t) = nth_error (f a) t.
Proof.
  induction l as [|b l IH]; intros p a t L E T; [destruct p; discriminate|]. cbn [flat_map].
  destruct p as [|p]; cbn [nth_error] in E.
  - injection E as ->. rewrite nth_error_app1 by (rewrite L; lia). f_equal. lia.
  - rewrite nth_error_app2 by (rewrite L; lia). rewrite <- (IH p a t L E T). f_equal. rewrite L. lia.
Qed.

Lemma nth_error_nth0 {A} (l : list A) i d x : nth_error l i = Some x -> nth i l d = x.
Proof. intro E. now apply nth_error_nth. Qed.

(** ** interpolation *)
Section Fix.
Variables (side : nat) (radius : Qc) (nn : nat) (dir : Z -> Z -> nat -> Qc * Qc).
Hypothesis Hr : (0 <= radius)%Qc.
Hypothesis Hs : (radius <= nq (side / 2))%Qc.
Hypothesis Hd : forall x y t, (- (1) <= fst (dir x y t) /\ fst (dir x y t) <= 1 /\ - (1) <= snd (dir x y t) /\ snd (dir x y t) <= 1)%Qc.

Lemma sq_bound (a b t : Qc) : (a * a + b * b <= t * t -> 0 <= t -> - t <= a /\ a <= t)%Qc.
Proof.
  intros H T.
  assert (B : (0 <= b * b)%Qc).
  { unfold Qcle. rewrite this_mult. change (this 0%Qc) with 0%Q. nra. }
  assert (A : (a * a <= t * t)%Qc) by qc_lra. unfold Qcle in *. rewrite ?this_opp, ?this_mult in *. change (this 0%Qc) with 0%Q in *. split; nra.
Qed.

Lemma small (t : Qc) : (t < 0 -> - Q2Qc (6 # 10) <= t -> t * t < 1)%Qc.
Proof.
  intros A B. unfold Qcle, Qclt in *. rewrite this_mult. rewrite this_opp, this_Q in B. change (this 0%Qc) with 0%Q in *. change (this 1%Qc) with 1%Q.
  set (u := this t) in *. clearbody u. nra.
Qed.
Lemma coordinate (x : nat) (c : Qc) : x < side ->
  (let k := ((side - 1) / 2)%nat in let t := (nq k - radius + Q2Qc (6 # 10))%Qc in
   exists b, ((nq x - nq k) * (nq x - nq k) + b * b <= t * t) /\ (exists m, b = zq m) )%Qc ->
  (- (1) <= c /\ c <= 1)%Qc -> (- (1) <= nq x + radius * c /\ nq x + radius * c < nq side)%Qc.
Proof.
  cbv zeta. intros Lx (b & H & (m & Eb)) [C1 C2].
  assert (R1 : (- radius <= radius * c /\ radius * c <= radius)%Qc).
  { unfold Qcle in *. rewrite ?this_opp, ?this_mult in *. change (this 0%Qc) with 0%Q in Hr. change (this 1%Qc) with 1%Q in *. split; nra. }
  set (k := (side - 1) / 2) in *.
  assert (Hk : side / 2 <= k + 1 /\ 2 * k + 1 <= side /\ k + side / 2 + 1 <= side).
  { unfold k. pose proof (Nat.div_mod (side - 1) 2 ltac:(lia)). pose proof (Nat.mod_upper_bound (side - 1) 2 ltac:(lia)).
    pose proof (Nat.div_mod side 2 ltac:(lia)). pose proof (Nat.mod_upper_bound side 2 ltac:(lia)). lia. }
  destruct Hk as (K1 & K2 & K3).
  assert (Q4 : (nq k + nq (side / 2) + 1 <= nq side)%Qc).
  { rewrite <- zq_1. unfold nq. rewrite <- !zq_plus. apply zq_le. lia. }
  assert (Q1 : (nq (side / 2) <= nq k + 1)%Qc).
  { rewrite <- zq_1. unfold nq. rewrite <- zq_plus. apply zq_le. lia. }
  assert (Q2 : (nq k + nq k + 1 <= nq side)%Qc).
  { rewrite <- zq_1. unfold nq. rewrite <- !zq_plus. apply zq_le. lia. }
  assert (Q3 : (0 <= nq k)%Qc). { rewrite <- zq_0. unfold nq. apply zq_le. lia. }
  assert (S6 : (this (Q2Qc (6 # 10)) == 6 # 10)%Q) by apply this_Q.
  destruct (Qclt_le_dec (nq k - radius + Q2Qc (6 # 10))%Qc 0) as [N|N].
  - (* only the centre *)
    assert (T : ((nq k - radius + Q2Qc (6 # 10)) * (nq k - radius + Q2Qc (6 # 10)) < 1)%Qc).
    { apply small; [exact N|]. clear N H. unfold Qcle in *. rewrite ?this_opp, ?this_plus, ?this_minus in *. rewrite ?S6 in *. change (this 1%Qc) with 1%Q in *. lra. }
    assert (Z : (zq ((Z.of_nat x - Z.of_nat k) * (Z.of_nat x - Z.of_nat k) + m * m) < zq 1)%Qc).
    { rewrite zq_plus, !zq_mult, !zq_minus, <- Eb. eapply Qcle_lt_trans; [exact H|exact T]. }
    apply zq_lt_inv in Z. assert (E : x = k) by (clear - Z; nia). rewrite E. unfold Qcle, Qclt in *. rewrite ?this_opp, ?this_plus, ?this_minus in *. rewrite ?S6 in *. change (this 0%Qc) with 0%Q in *. change (this 1%Qc) with 1%Q in *. split; lra.
  - destruct (sq_bound _ _ _ H N) as [A B].
    unfold Qcle, Qclt in *. rewrite ?this_opp, ?this_plus, ?this_minus in *. rewrite ?S6 in *. change (this 0%Qc) with 0%Q in *. change (this 1%Qc) with 1%Q in *. split; lra.
Qed.

Lemma point_bounds p t : region side radius p ->
  let '(x, y) := point side radius dir p t in (- (1) <= x /\ x < nq side /\ - (1) <= y /\ y < nq side)%Qc.
Proof.
  intros (x & y & Lx & Ly & -> & _ & H). cbv zeta in H. unfold point.
  rewrite Nat.mod_add by lia. rewrite Nat.mod_small by lia. rewrite Nat.div_add by lia. rewrite (Nat.div_small x side) by lia. cbn [Nat.add].
  destruct (Hd (Z.of_nat x - Z.of_nat ((side - 1) / 2)) (Z.of_nat y - Z.of_nat ((side - 1) / 2)) t) as (A & B & C & D).
  destruct (coordinate x (fst (dir (Z.of_nat x - Z.of_nat ((side - 1) / 2)) (Z.of_nat y - Z.of_nat ((side - 1) / 2)) t)) Lx) as [X1 X2].
  - cbv zeta. exists (nq y - nq ((side - 1) / 2))%Qc. split; [exact H|]. exists (Z.of_nat y - Z.of_nat ((side - 1) / 2))%Z. now rewrite zq_minus.
  - auto.
  - destruct (coordinate y (snd (dir (Z.of_nat x - Z.of_nat ((side - 1) / 2)) (Z.of_nat y - Z.of_nat ((side - 1) / 2)) t)) Ly) as [Y1 Y2].
    + cbv zeta. exists (nq x - nq ((side - 1) / 2))%Qc. split; [rewrite Qcplus_comm; exact H|]. exists (Z.of_nat x - Z.of_nat ((side - 1) / 2))%Z. now rewrite zq_minus.
    + auto.
    + auto.
Qed.

Lemma interpolate_ok patch x y : length patch = side * side ->
  (- (1) <= x -> x < nq side -> - (1) <= y -> y < nq side -> interpolate side patch x y = Some (bil side patch (x, y)))%Qc.
Proof.
  intros HL X1 X2 Y1 Y2. unfold interpolate, bil.
  set (ix := qfloor x). set (iy := qfloor y).
  assert (A1 : (-1 <= ix)%Z) by (apply le_floor; exact X1).
  assert (A2 : (ix < Z.of_nat side)%Z) by (apply floor_lt; exact X2).
  assert (B1 : (-1 <= iy)%Z) by (apply le_floor; exact Y1).
  assert (B2 : (iy < Z.of_nat side)%Z) by (apply floor_lt; exact Y2).
  assert (G : forall i j, (0 <= i < Z.of_nat side)%Z -> (0 <= j < Z.of_nat side)%Z -> zget patch (i + j * Z.of_nat side) = Some (img side patch i j)).
  { intros i j Hi Hj. rewrite (zget_at patch _ (Z.to_nat (i + j * Z.of_nat side))) by nia. unfold img.
    replace ((0 <=? i)%Z && (i <? Z.of_nat side)%Z && (0 <=? j)%Z && (j <? Z.of_nat side)%Z) with true by (symmetry; rewrite !andb_true_iff, !Z.leb_le, !Z.ltb_lt; lia).
    apply nth_error_nth'. rewrite HL. nia. }
  assert (N : forall i j, ~ ((0 <= i < Z.of_nat side)%Z /\ (0 <= j < Z.of_nat side)%Z) -> img side patch i j = 0%Qc).
  { intros i j H. unfold img. destruct ((0 <=? i)%Z && (i <? Z.of_nat side)%Z && (0 <=? j)%Z && (j <? Z.of_nat side)%Z) eqn:E; [|reflexivity].
    rewrite !andb_true_iff, !Z.leb_le, !Z.ltb_lt in E. lia. }
  assert (Ea : (if (0 <=? ix)%Z && (0 <=? iy)%Z then zget patch (ix + iy * Z.of_nat side) else Some 0%Qc) = Some (img side patch ix iy)).
  { destruct (Z.leb_spec 0 ix), (Z.leb_spec 0 iy); cbn [andb]; [apply G; lia|rewrite N by lia; reflexivity..]. }
  assert (Eb : (if (ix <? Z.of_nat side - 1)%Z && (0 <=? iy)%Z then zget patch (ix + 1 + iy * Z.of_nat side) else Some 0%Qc) = Some (img side patch (ix + 1) iy)).
  { destruct (Z.ltb_spec ix (Z.of_nat side - 1)), (Z.leb_spec 0 iy); cbn [andb]; [apply G; lia|rewrite N by lia; reflexivity..]. }
  assert (Ec : (if (0 <=? ix)%Z && (iy <? Z.of_nat side - 1)%Z then zget patch (ix + (iy + 1) * Z.of_nat side) else Some 0%Qc) = Some (img side patch ix (iy + 1))).
  { destruct (Z.leb_spec 0 ix), (Z.ltb_spec iy (Z.of_nat side - 1)); cbn [andb]; [apply G; lia|rewrite N by lia; reflexivity..]. }
  assert (Ed : (if (ix <? Z.of_nat side - 1)%Z && (iy <? Z.of_nat side - 1)%Z then zget patch (ix + 1 + (iy + 1) * Z.of_nat side) else Some 0%Qc) = Some (img side patch (ix + 1) (iy + 1))).
  { destruct (Z.ltb_spec ix (Z.of_nat side - 1)), (Z.ltb_spec iy (Z.of_nat side - 1)); cbn [andb]; [apply G; lia|rewrite N by lia; reflexivity..]. }
  cbv zeta. rewrite Ea, Eb, Ec, Ed. cbn [obind]. f_equal. ring.
Qed.

Lemma region_lt p : region side radius p -> p < side * side.
Proof. intros (x & y & Lx & Ly & -> & _). nia. Qed.
Lemma neigh_sample_point p t : neigh_sample side radius dir p t = point side radius dir p t.
Proof.
  unfold neigh_sample, point. fold (center side).
  destruct (dir (Z.of_nat (p mod side) - Z.of_nat (center side)) (Z.of_nat (p / side) - Z.of_nat (center side)) t) as [c s]. cbn [fst snd].
  rewrite !zq_minus. unfold nq. f_equal; ring.
Qed.
Lemma neigh_intensities_ok patch p pixel : length patch = side * side -> nth_error (patch_pixels side radius) p = Some pixel ->
  neigh_intensities side radius nn dir patch p = Some (around side radius dir nn patch pixel).
Proof.
  intros HL E. unfold neigh_intensities, around. apply omap_some. intros t Ht. apply in_seq in Ht.
  unfold aget, neigh_samples.
  rewrite (flat_nth _ nn (patch_pixels side radius) p pixel t) by (auto; try lia; intro; now rewrite map_length, seq_length).
  rewrite nth_error_map. rewrite (nth_error_nth' (seq 0 nn) 0) by (rewrite seq_length; lia). rewrite seq_nth by lia. cbn [option_map Nat.add].
  rewrite neigh_sample_point.
  pose proof (point_bounds pixel t (proj1 (pixels_iff side radius pixel) (nth_error_In _ _ E))) as B.
  destruct (point side radius dir pixel t) as [x y]. cbn [obind]. apply interpolate_ok; tauto.
Qed.
End Fix.

(** ** sorting *)
Lemma cmp_sign V i j : (intensity_cmp V i j <= 0)%Z <-> (nth i V 0 <= nth j V 0)%Qc.
Proof.
  unfold intensity_cmp. destruct (qlt (nth i V 0%Qc) (nth j V 0%Qc)) eqn:A; [apply qlt_true in A|apply qlt_false in A].
  - split; [intros _; now apply Qclt_le_weak|lia].
  - destruct (qlt (nth j V 0%Qc) (nth i V 0%Qc)) eqn:B; [apply qlt_true in B|apply qlt_false in B].
    + split; [lia|]. intro X. destruct (Qclt_not_le _ _ B X).
    + split; [auto|lia].
Qed.
Lemma cmp_preorder V : total_preorder (intensity_cmp V).
Proof.
  split.
  - intros x y. unfold intensity_cmp. destruct (qlt (nth x V 0%Qc) (nth y V 0%Qc)) eqn:A, (qlt (nth y V 0%Qc) (nth x V 0%Qc)) eqn:B; try lia.
    apply qlt_true in A, B. destruct (Qclt_not_le _ _ A (Qclt_le_weak _ _ B)).
  - intros x y z. rewrite !cmp_sign. apply Qcle_trans.
Qed.
Lemma sort_ok V n : 1 <= n -> exists l, qs_sort (intensity_cmp V) (seq 0 n) n = Some l /\ orders n V l.
Proof.
  intro N. destruct (qs_sort_spec _ (cmp_preorder V) (seq 0 n) n N) as (l & E & S & P & O); [rewrite seq_length; lia|].
  assert (L : firstn n l = l).
  { assert (skipn n l = []) by (rewrite S; apply skipn_all2; rewrite seq_length; lia).
    rewrite <- (firstn_skipn n l) at 2. rewrite H. now rewrite app_nil_r. }
  rewrite L in *. exists l. split; [exact E|]. split.
  - unfold is_perm. rewrite firstn_all2 in P by (rewrite seq_length; lia). exact P.
  - intros a b x y H A B. apply cmp_sign. eapply O; eassumption.
Qed.

(** ** weights *)
Lemma skipn_cons_nth {A} (l : list A) : forall n a, nth_error l n = Some a -> skipn n l = a :: skipn (n + 1) l.
Proof. induction l as [|b l IH]; intros [|n] a E; try discriminate; cbn in *; [now injection E as ->|]. now apply IH. Qed.
Lemma differs_iff th a b : (0 <= th)%Qc -> (qlt (b + th) a || qlt (a + th) b)%Qc = differs th a b.
Proof.
  intro T. unfold differs. destruct (Qclt_le_dec th (Qcabs (a - b))) as [L|L].
  - apply orb_true_iff. rewrite !qlt_true. destruct (Qclt_le_dec (a - b) 0) as [N|N].
    + rewrite Qcabs_neg in L by now apply Qclt_le_weak. right. qc_lra.
    + rewrite Qcabs_pos in L by exact N. left. qc_lra.
  - apply orb_false_iff. rewrite !qlt_false. apply Qcabs_Qcle_condition in L. destruct L as [L1 L2]. split; qc_lra.
Qed.
Lemma weight_ok V nn th : length V = nn -> (0 <= th)%Qc -> weight_of nn V th = Some (pairs th V).
Proof.
  intros L T. unfold weight_of.
  destruct (iter_inv (fun k w => w + pairs th (skipn k V) = pairs th V)%Z
    (fun k w => iter_from (nn - (k + 1)) (k + 1) (fun t w => do a <- aget V k; do b <- aget V t; Some (w + if qlt (b + th)%Qc a || qlt (a + th)%Qc b then 1 else 0)%Z) w) nn 0%Z) as (w & E & H).
  - reflexivity.
  - intros k w Hk I.
    assert (Ek : nth_error V k = Some (nth k V 0%Qc)) by (apply nth_error_nth'; lia). set (a := nth k V 0%Qc) in *.
    destruct (iter_from_inv (fun t w' => (w' + Z.of_nat (length (filter (differs th a) (skipn t V))) = w + Z.of_nat (length (filter (differs th a) (skipn (k + 1) V))))%Z)
      (fun t w => do a <- aget V k; do b <- aget V t; Some (w + if qlt (b + th)%Qc a || qlt (a + th)%Qc b then 1 else 0)%Z) nn (nn - (k + 1)) (k + 1) w) as (w' & E' & H').
    + lia.
    + reflexivity.
    + intros t w' L1 L2 H. unfold aget. rewrite Ek. cbn [obind].
      assert (Et : nth_error V t = Some (nth t V 0%Qc)) by (apply nth_error_nth'; lia). rewrite Et. cbn [obind].
      eexists. split; [reflexivity|]. rewrite (skipn_cons_nth _ _ _ Et) in H. cbn [filter] in H. rewrite differs_iff by exact T.
      destruct (differs th a (nth t V 0%Qc)); cbn [length] in H; lia.
    + exists w'. split; [exact E'|]. rewrite (skipn_cons_nth _ _ _ Ek) in I. cbn [pairs] in I.
      rewrite (skipn_all2 V (n := nn)) in H' by lia. cbn [filter length] in H'. lia.
  - rewrite E. rewrite skipn_all2 in H by lia. cbn [pairs] in H. f_equal. lia.
Qed.

(** ** the normalisation *)
Lemma sum_squares h : fold_left (fun n v => n + zq v * zq v)%Qc h 0%Qc = squares (map zq h).
Proof.
  assert (G : forall h a, fold_left (fun n v => n + zq v * zq v)%Qc h a = (a + squares (map zq h))%Qc).
  { clear. induction h as [|v h IH]; intro a; cbn [fold_left map squares fold_right]; [ring|]. rewrite IH. fold (squares (map zq h)). ring. }
  rewrite G. ring.
Qed.
Lemma weighted_count_ext m sel w w' : (forall i, i < m -> w i = w' i) -> weighted_count m sel w = weighted_count m sel w'.
Proof. induction m as [|m IH]; intro H; cbn [weighted_count]; [reflexivity|]. rewrite IH by (intros; apply H; lia). now rewrite H by lia. Qed.

(** ** the descriptor *)
Definition norm_of (rt : Qc -> Qc) (h : list Z) : Qc :=
  let n := rt (squares (map zq h)) in if Qclt_le_dec n (Q2Qc (1 # 1000000000000)) then Q2Qc (1 # 1000000000000) else n.
Lemma normalise_norm rt h : normalise rt h = map (fun v => zq v / norm_of rt h)%Qc h.
Proof.
  unfold normalise, norm_of. rewrite sum_squares. cbv zeta.
  destruct (Qclt_le_dec (rt (squares (map zq h))) (Q2Qc (1 # 1000000000000))) as [A|A].
  - apply qlt_true in A. now rewrite A.
  - apply qlt_false in A. now rewrite A.
Qed.

Lemma centre_region side radius : 3 <= side -> region side radius ((side - 1) / 2 + (side - 1) / 2 * side).
Proof.
  intro L. assert (C : 1 <= (side - 1) / 2 < side).
  { pose proof (Nat.div_mod (side - 1) 2 ltac:(lia)). pose proof (Nat.mod_upper_bound (side - 1) 2 ltac:(lia)). lia. }
  exists ((side - 1) / 2), ((side - 1) / 2). split; [lia|]. split; [lia|]. split; [reflexivity|]. split; [lia|]. cbv zeta.
  set (t := (nq ((side - 1) / 2) - radius + Q2Qc (6 # 10))%Qc). set (k := nq ((side - 1) / 2)).
  replace ((k - k) * (k - k) + (k - k) * (k - k))%Qc with 0%Qc by ring.
  unfold Qcle. rewrite this_mult. change (this 0%Qc) with 0%Q. nra.
Qed.
Lemma is_perm_lt n l i : is_perm n l -> In i l -> i < n.
Proof. intros P H. apply (Permutation_in i P) in H. apply in_seq in H. lia. Qed.

Section Main.
Variables (side : nat) (radius : Qc) (nn bins : nat) (dir : Z -> Z -> nat -> Qc * Qc) (rt : Qc -> Qc).
Hypothesis Hside : 3 <= side.
Hypothesis Hr : (0 <= radius)%Qc.
Hypothesis Hs : (radius <= nq (side / 2))%Qc.
Hypothesis Hd : forall x y t, (- (1) <= fst (dir x y t) /\ fst (dir x y t) <= 1 /\ - (1) <= snd (dir x y t) /\ snd (dir x y t) <= 1)%Qc.
Hypothesis Hn : 1 <= nn.
Hypothesis Hb : 1 <= bins.
Let px := patch_pixels side radius.

Lemma intensities_ok patch : length patch = side * side -> omap (aget patch) px = Some (map (fun p => nth p patch 0%Qc) px).
Proof.
  intro HL. apply omap_some. intros p Hp. apply nth_error_nth'. rewrite HL. apply (region_lt side radius). now apply pixels_iff.
Qed.
Lemma px_pos : 1 <= length px.
Proof.
  pose proof (proj2 (pixels_iff side radius _) (centre_region side radius Hside)) as C. fold px in C. destruct px; [destruct C|cbn; lia].
Qed.

Lemma tune_ok patch V order given : V = map (fun p => nth p patch 0%Qc) px -> orders (length px) V order ->
  exists th, tune side radius given V order = Some th /\ (0 <= th)%Qc /\ threshold_of side radius patch given th.
Proof.
  intros EV (OP & OS). unfold tune. pose proof px_pos as NP. fold px. set (n := length px) in *.
  destruct (qlt given 0%Qc) eqn:G; [apply qlt_true in G|apply qlt_false in G].
  2:{ exists given. split; [reflexivity|]. split; [exact G|]. left. auto. }
  assert (LO : length order = n) by (rewrite (Permutation_length OP); apply seq_length).
  assert (E0 : nth_error order 0 = Some (nth 0 order 0)) by (apply nth_error_nth'; lia).
  assert (E1 : nth_error order (n - 1) = Some (nth (n - 1) order 0)) by (apply nth_error_nth'; lia).
  set (i0 := nth 0 order 0) in *. set (i1 := nth (n - 1) order 0) in *.
  assert (L0 : i0 < n) by (eapply is_perm_lt; [exact OP|eapply nth_error_In; exact E0]).
  assert (L1 : i1 < n) by (eapply is_perm_lt; [exact OP|eapply nth_error_In; exact E1]).
  assert (VN : forall i, i < n -> nth_error V i = Some (nth i V 0%Qc)).
  { intros i Li. apply nth_error_nth'. rewrite EV, map_length. exact Li. }
  assert (VP : forall i, i < n -> nth i V 0%Qc = nth (nth i px 0) patch 0%Qc).
  { intros i Li. rewrite EV. rewrite (nth_indep _ 0%Qc (nth 0 patch 0%Qc)) by (rewrite map_length; exact Li).
    now rewrite (map_nth (fun p => nth p patch 0%Qc)). }
  assert (B : forall i, i < n -> (nth i0 V 0 <= nth i V 0 /\ nth i V 0 <= nth i1 V 0)%Qc).
  { intros i Li. assert (Hi : In i order) by (apply (Permutation_in i (Permutation_sym OP)); apply in_seq; lia).
    apply In_nth_error in Hi. destruct Hi as (j & Ej).
    assert (Lj : j < n) by (rewrite <- LO; apply nth_error_Some; congruence). split.
    - destruct (Nat.eq_dec j 0) as [->|]; [|apply (OS 0 j); auto; lia]. rewrite E0 in Ej. injection Ej as ->. apply Qcle_refl.
    - destruct (Nat.eq_dec j (n - 1)) as [->|]; [|apply (OS j (n - 1)); auto; lia]. rewrite E1 in Ej. injection Ej as ->. apply Qcle_refl. }
  exists (- given * (nth i1 V 0 - nth i0 V 0))%Qc. unfold aget. rewrite E0, E1. cbn [obind]. rewrite (VN i1 L1), (VN i0 L0). cbn [obind].
  split; [reflexivity|]. split.
  - destruct (B i1 L1) as [X _]. unfold Qcle, Qclt in *. rewrite this_mult, this_opp, this_minus. change (this 0%Qc) with 0%Q in *. nra.
  - right. split; [exact G|]. exists (nth i1 px 0), (nth i0 px 0).
    split; [apply pixels_iff; apply nth_In; exact L1|]. split; [apply pixels_iff; apply nth_In; exact L0|]. split.
    + intros r Hr'. apply pixels_iff in Hr'. apply In_nth with (d := 0) in Hr'. fold px in Hr'. destruct Hr' as (i & Li & <-).
      rewrite <- !VP by assumption. apply B. exact Li.
    + rewrite <- !VP by assumption. reflexivity.
Qed.

Lemma pattern_ok patch th p : length patch = side * side -> (0 <= th)%Qc -> p < length px ->
  exists b, pixel_pattern side radius nn dir patch th p = Some b /\
    orders nn (around side radius dir nn patch (nth p px 0)) (fst b) /\ snd b = pairs th (around side radius dir nn patch (nth p px 0)).
Proof.
  intros HL T Lp. unfold pixel_pattern.
  rewrite (neigh_intensities_ok side radius nn dir Hr Hs Hd patch p (nth p px 0) HL) by (apply nth_error_nth'; exact Lp). cbn [obind].
  destruct (sort_ok (around side radius dir nn patch (nth p px 0)) nn Hn) as (l & E & O). rewrite E. cbn [obind].
  rewrite weight_ok; [|unfold around; now rewrite map_length, seq_length|exact T]. cbn [obind].
  eexists. split; [reflexivity|]. auto.
Qed.

Lemma liop_ok given patch : length patch = side * side ->
  exists desc q perm th h,
    liop side radius nn bins dir rt given patch = Some desc /\
    NoDup q /\ (forall p, In p q <-> region side radius p) /\
    (forall i j x y, i < j -> nth_error q i = Some x -> nth_error q j = Some y -> (nth x patch 0 <= nth y patch 0)%Qc) /\
    threshold_of side radius patch given th /\
    (forall i p, nth_error q i = Some p -> orders nn (around side radius dir nn patch p) (perm i)) /\
    length h = fact nn * bins /\
    (forall b p r, b < bins -> is_perm nn p -> permutation_index p nn = Some r ->
      nth_error h (b * fact nn + r) = Some (weighted_count (length q)
        (fun i => (spatial_bin bins (length q / bins) i =? b) && if list_eq_dec Nat.eq_dec (perm i) p then true else false)
        (fun i => pairs th (around side radius dir nn patch (nth i q 0))))) /\
    desc = map (fun v => zq v / norm_of rt h)%Qc h.
Proof.
  intro HL. pose proof px_pos as NP. unfold liop, liop_histogram. fold px. rewrite (intensities_ok patch HL). cbn [obind].
  set (V := map (fun p => nth p patch 0%Qc) px).
  destruct (sort_ok V (length px) NP) as (order & EO & O). rewrite EO. cbn [obind].
  destruct (tune_ok patch V order given eq_refl O) as (th & ET & T & TO). rewrite ET. cbn [obind].
  assert (OP : is_perm (length px) order) by apply O. assert (OS := proj2 O).
  assert (LO : length order = length px) by (rewrite (Permutation_length OP); apply seq_length).
  destruct (omap_ex (pixel_pattern side radius nn dir patch th)
    (fun p b => orders nn (around side radius dir nn patch (nth p px 0)) (fst b) /\ snd b = pairs th (around side radius dir nn patch (nth p px 0))) order) as (pats & EP & LP & PP).
  { intros p Hp. apply pattern_ok; auto. eapply is_perm_lt; eassumption. }
  rewrite EP. cbn [obind].
  set (perm := fun i => fst (nth i pats ([], 0%Z))). set (wt := fun i => snd (nth i pats ([], 0%Z))).
  set (q := map (fun i => nth i px 0) order).
  assert (Q : Permutation q px).
  { unfold q. eapply Permutation_trans; [apply Permutation_map; exact OP|].
    assert (G : forall l k, map (fun i => nth (i - k) l 0) (seq k (length l)) = l).
    { clear. induction l as [|a l IH]; intro k; cbn [length seq map]; [reflexivity|]. rewrite Nat.sub_diag. cbn [nth]. f_equal.
      rewrite <- (IH (S k)) at 2. apply map_ext_in. intros i Hi. apply in_seq in Hi. replace (i - k) with (S (i - S k)) by lia. reflexivity. }
    assert (E : map (fun i => nth i px 0) (seq 0 (length px)) = px).
    { etransitivity; [|apply (G px 0)]. apply map_ext. intro i. now rewrite Nat.sub_0_r. }
    rewrite E. apply Permutation_refl. }
  assert (LQ : length q = length px) by (apply Permutation_length; exact Q).
  assert (QN : forall i, i < length px -> nth_error q i = Some (nth (nth i order 0) px 0)).
  { intros i Li. unfold q. rewrite nth_error_map. rewrite (nth_error_nth' order 0) by lia. reflexivity. }
  assert (PB : forall i, i < length px -> orders nn (around side radius dir nn patch (nth (nth i order 0) px 0)) (perm i) /\ wt i = pairs th (around side radius dir nn patch (nth (nth i order 0) px 0))).
  { intros i Li. apply (PP i); [apply nth_error_nth'; lia|]. unfold perm, wt. apply nth_error_nth'. lia. }
  destruct (liop_process_ok nn bins (length px) perm wt Hb) as (h & EH & LH & HV).
  { intros i Li. apply (PB i Li). }
  rewrite EH. cbn [obind]. exists (normalise rt h), q, perm, th, h.
  split; [reflexivity|].
  split; [eapply Permutation_NoDup; [apply Permutation_sym; exact Q|apply pixels_nodup]|].
  split. { intro p. rewrite <- pixels_iff. fold px. split; intro X; eapply Permutation_in; try eassumption. now apply Permutation_sym. }
  split.
  { intros i j x y Lij X Y.
    assert (Lj : j < length px) by (rewrite <- LQ; apply nth_error_Some; congruence).
    rewrite QN in X, Y by lia. injection X as <-. injection Y as <-.
    assert (VP : forall i, i < length px -> nth i V 0%Qc = nth (nth i px 0) patch 0%Qc).
    { intros k Lk. unfold V. rewrite (nth_indep _ 0%Qc (nth 0 patch 0%Qc)) by (rewrite map_length; exact Lk).
      now rewrite (map_nth (fun p => nth p patch 0%Qc)). }
    rewrite <- !VP by (eapply is_perm_lt; [exact OP|]; apply nth_In; lia).
    apply (OS i j); [exact Lij|apply nth_error_nth'; lia|apply nth_error_nth'; lia]. }
  split; [exact TO|]. split.
  { intros i p X. assert (Li : i < length px) by (rewrite <- LQ; apply nth_error_Some; congruence).
    rewrite QN in X by exact Li. injection X as <-. apply (PB i Li). }
  split; [exact LH|]. split; [|apply normalise_norm].
  intros b p r Lb P Er. rewrite permutation_index_rank in Er by (apply is_perm_iff in P; tauto). injection Er as <-.
  rewrite LQ. rewrite <- (weighted_count_ext _ _ wt).
  - rewrite <- HV by auto. apply nth_error_nth'. rewrite LH. pose proof (rank_bound nn p P). nia.
  - intros i Li. rewrite (nth_error_nth0 q i 0 _ (QN i Li)). apply (PB i Li).
Qed.
End Main.
