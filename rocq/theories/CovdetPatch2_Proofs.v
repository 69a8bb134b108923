(** Lemmas on the resampling of patches. *)
From Coq Require Import List Arith ZArith Lia Bool QArith Qcanon.
Import ListNotations.
From Verif Require Import Base Loop Rat MserSort_Proofs Gauss_Model Gauss_Proofs Homker_Proofs KmeansEnergy_Proofs Quickshift_Spec Quickshift_Model Quickshift_Proofs Covdet_Model Covdet_Spec Covdet_Proofs.
From Verif Require Import CovdetPatch_Model CovdetPatch_Spec CovdetPatch_Proofs.
From Verif Require Import SiftDescr_Proofs.
Local Open Scope nat_scope.

(** *** interpolation *)
Definition plain (level : list Qc) (w : Z) (x y : Z) : Qc := cell level (y * w + x).
Lemma interpolate_ok level w h x y : (0 <= qfloor x)%Z -> (qfloor x + 1 < w)%Z -> (0 <= qfloor y)%Z -> (qfloor y + 1 < h)%Z -> (w * h <= Z.of_nat (length level))%Z ->
  interpolate level w h x y = Some (bilinear (plain level w) x y).
Proof.
  intros X1 X2 Y1 Y2 L. unfold interpolate. set (a := qfloor x) in *. set (b := qfloor y) in *.
  rewrite (zget_cell level (b * w + a)) by nia. cbn [obind]. rewrite (zget_cell level (b * w + a + 1)) by nia. cbn [obind]. rewrite (zget_cell level ((b + 1) * w + a)) by nia. cbn [obind].
  rewrite (zget_cell level ((b + 1) * w + a + 1)) by nia. cbn [obind].
  replace ((0 <=? a) && (a <=? w - 1) && (0 <=? b) && (b <=? h - 1))%Z with true by lia. f_equal. unfold bilinear, at_pixel, plain. fold a b. rewrite !Z.add_assoc. ring.
Qed.
Lemma bilinear_ext I J x y :
  (forall X Y, (X = qfloor x \/ X = (qfloor x + 1)%Z /\ x <> zq (qfloor x)) -> (Y = qfloor y \/ Y = (qfloor y + 1)%Z /\ y <> zq (qfloor y)) -> I X Y = J X Y) -> bilinear I x y = bilinear J x y.
Proof.
  intros H. unfold bilinear, at_pixel. set (a := qfloor x) in *. set (b := qfloor y) in *.
  clearbody a b. rewrite (H a b) by auto.
  destruct (Qc_eq_dec x (zq a)) as [->|Nx], (Qc_eq_dec y (zq b)) as [->|Ny].
  - ring.
  - rewrite (H a (b + 1)%Z) by auto. ring.
  - rewrite (H (a + 1)%Z b) by auto. ring.
  - rewrite (H a (b + 1)%Z), (H (a + 1)%Z b), (H (a + 1)%Z (b + 1)%Z) by auto. reflexivity.
Qed.
Lemma bilinear_shift I a b x y : bilinear (fun X Y => I (X + a)%Z (Y + b)%Z) (x - zq a)%Qc (y - zq b)%Qc = bilinear I x y.
Proof.
  assert (F : forall c z, qfloor (z - zq c)%Qc = (qfloor z - c)%Z).
  { intros c z. apply qfloor_unique; rewrite zq_minus; pose proof (qfloor_le z); pose proof (qfloor_lt z); qc_lra. }
  unfold bilinear, at_pixel. rewrite !F. replace (qfloor x - a + a)%Z with (qfloor x) by lia. replace (qfloor y - b + b)%Z with (qfloor y) by lia.
  replace (qfloor x - a + 1 + a)%Z with (qfloor x + 1)%Z by lia. replace (qfloor y - b + 1 + b)%Z with (qfloor y + 1)%Z by lia. rewrite !zq_minus. ring.
Qed.

(** *** resampling *)
Lemma row_collect {T S} (n : nat) (g : nat -> S) (v : nat -> T) (body : nat -> S * list T -> option (S * list T)) pt :
  (forall i l, i < n -> body i (g i, l) = Some (g (i + 1), l ++ v i :: nil)) -> iter n body (g 0, pt) = Some (g n, pt ++ map v (seq 0 n)).
Proof.
  intros H. destruct (iter_inv (fun i st => st = (g i, pt ++ map v (seq 0 i))) body n (g 0, pt)) as (st & E & ->).
  - now rewrite app_nil_r.
  - intros j st Hj ->. rewrite H by exact Hj. eexists. split; [reflexivity|]. rewrite seq_app, map_app, <- app_assoc. reflexivity.
  - exact E.
Qed.
Lemma row_collects {T S} (n : nat) (g : nat -> S) (v : nat -> list T) (body : nat -> S * list T -> option (S * list T)) pt :
  (forall i l, i < n -> body i (g i, l) = Some (g (i + 1), l ++ v i)) -> iter n body (g 0, pt) = Some (g n, pt ++ flat_map v (seq 0 n)).
Proof.
  intros H. destruct (iter_inv (fun i st => st = (g i, pt ++ flat_map v (seq 0 i))) body n (g 0, pt)) as (st & E & ->).
  - now rewrite app_nil_r.
  - intros j st Hj ->. rewrite H by exact Hj. eexists. split; [reflexivity|]. rewrite seq_app, flat_map_app, <- app_assoc. cbn [seq flat_map]. now rewrite app_nil_r.
  - exact E.
Qed.
Lemma grid_0 e r : grid e r 0 = (- e)%Qc.
Proof. unfold grid, nq, zq. change (Q2Qc (inject_Z (Z.of_nat 0))) with 0%Qc. ring. Qed.
Lemma grid_S e r i : grid e r (i + 1) = (grid e r i + e / nq r)%Qc.
Proof. unfold grid. unfold nq at 1. rewrite Nat2Z.inj_add, zq_plus. change (zq (Z.of_nat 1)) with 1%Qc. fold (nq i). ring. Qed.
Lemma resample_ok level w h f e r (V : nat -> nat -> Qc) :
  (forall i j, i < 2 * r + 1 -> j < 2 * r + 1 ->
     interpolate level w h (f_a11 f * grid e r i + (f_a12 f * grid e r j + f_x f))%Qc (f_a21 f * grid e r i + (f_a22 f * grid e r j + f_y f))%Qc = Some (V i j)) ->
  resample level w h f e r = Some (flat_map (fun j => map (fun i => V i j) (seq 0 (2 * r + 1))) (seq 0 (2 * r + 1))).
Proof.
  intros H. unfold resample. rewrite <- (grid_0 e r) at 1.
  rewrite (row_collects (2 * r + 1) (grid e r) (fun j => map (fun i => V i j) (seq 0 (2 * r + 1)))); [reflexivity|].
  intros j l Hj. rewrite <- (grid_0 e r) at 1. rewrite (row_collect (2 * r + 1) (grid e r) (fun i => V i j)).
  - cbn [obind snd]. now rewrite grid_S.
  - intros i l' Hi. rewrite H by assumption. cbn [obind]. now rewrite grid_S.
Qed.
Lemma grid_in e r i : 0 < r \/ i = 0 -> (0 <= e)%Qc -> i < 2 * r + 1 -> (- e <= grid e r i)%Qc /\ (grid e r i <= e)%Qc.
Proof.
  intros R E L. destruct (Nat.eq_dec i 0) as [->|N]; [rewrite grid_0; split; [apply Qcle_refl|qc_lra]|]. destruct R as [R|R]; [|lia].
  assert (P : (0 < nq r)%Qc) by (change 0%Qc with (zq 0); apply zq_lt; lia). unfold grid.
  assert (D : (0 <= e / nq r)%Qc) by (unfold Qcdiv; apply Qc_mult_nonneg; [exact E|apply Qclt_le_weak, Qcinv_pos, P]).
  assert (A : (0 <= nq i * (e / nq r))%Qc) by (apply Qc_mult_nonneg; [apply nq_nonneg|exact D]).
  assert (B : (nq i * (e / nq r) <= e + e)%Qc).
  { apply Qcle_trans with (nq (2 * r) * (e / nq r))%Qc; [apply Qcmult_le_compat_r; [apply zq_le; lia|exact D]|].
    unfold nq at 1. rewrite Nat2Z.inj_mul, zq_mult. fold (nq r). apply Qcle_trans with (e + e)%Qc; [|apply Qcle_refl].
    replace (zq (Z.of_nat 2) * nq r * (e / nq r))%Qc with (zq 2 * e)%Qc by (change (Z.of_nat 2) with 2%Z; field; now apply qc_pos_neq).
    change (zq 2) with (1 + 1)%Qc. apply Qcle_trans with (e + e)%Qc; [|apply Qcle_refl]. replace ((1 + 1) * e)%Qc with (e + e)%Qc by ring. apply Qcle_refl. }
  split; qc_lra.
Qed.

(** *** the box of the frame *)
Lemma bounds_ok a l : let '(lo, hi) := bounds (a :: l) in (forall x, In x (a :: l) -> lo <= x /\ x <= hi)%Qc /\ In lo (a :: l) /\ In hi (a :: l).
Proof.
  cbn [bounds].
  assert (A : forall l a, In (fold_left qmin l a) (a :: l)).
  { clear. induction l as [|b l IH]; intros a; cbn [fold_left]; [now left|]. destruct (IH (qmin a b)) as [E|E]; [|now right; right]. rewrite <- E. unfold qmin. destruct (qlt a b); [now left|now right; left]. }
  assert (B : forall l a, In (fold_left qmax l a) (a :: l)).
  { clear. induction l as [|b l IH]; intros a; cbn [fold_left]; [now left|]. destruct (IH (qmax a b)) as [E|E]; [|now right; right]. rewrite <- E. unfold qmax. destruct (qlt b a); [now left|now right; left]. }
  split; [|split; [apply A|apply B]].
  assert (C := proj1 (fold_min l a (fold_left qmin l a))). assert (D := proj1 (fold_max l a (fold_left qmax l a))). rewrite qlt_le_neg in C. rewrite qlt_le_neg in D.
  specialize (C (Qcle_refl _)). specialize (D (Qcle_refl _)). destruct C as [C1 C2], D as [D1 D2]. rewrite Forall_forall in C2, D2.
  intros x [<-|Hx]; [split; assumption|]. split; [now apply C2|now apply D2].
Qed.
Lemma corner_cases a b c e lo hi : (0 <= e)%Qc -> bounds [a * e + b * - e + c; a * e + b * e + c; a * - e + b * e + c; a * - e + b * - e + c]%Qc = (lo, hi) ->
  (forall u v, in_patch e u v -> lo <= a * u + b * v + c /\ a * u + b * v + c <= hi)%Qc /\
  (exists u v, in_patch e u v /\ a * u + b * v + c = lo)%Qc /\ (exists u v, in_patch e u v /\ a * u + b * v + c = hi)%Qc.
Proof.
  intros E Eb. pose proof (bounds_ok (a * e + b * - e + c)%Qc [a * e + b * e + c; a * - e + b * e + c; a * - e + b * - e + c]%Qc) as H. rewrite Eb in H. destruct H as (A & B & C).
  assert (M : (- e <= e)%Qc) by qc_lra. assert (R : forall z : Qc, (z <= z)%Qc) by apply Qcle_refl. split; [|split].
  - intros u v (U1 & U2 & V1 & V2). apply (on_square a b c e u v lo hi); auto. intros su sv [->| ->] [->| ->]; apply A; cbn [In]; auto.
  - destruct B as [B|[B|[B|[B|[]]]]]; rewrite <- B; do 2 eexists; (split; [|reflexivity]); repeat split; auto.
  - destruct C as [C|[C|[C|[C|[]]]]]; rewrite <- C; do 2 eexists; (split; [|reflexivity]); repeat split; auto.
Qed.

(** *** the patch *)
Lemma frame_at_x step f u v : (f_a11 (in_pixels step f) * u + f_a12 (in_pixels step f) * v + f_x (in_pixels step f))%Qc = at_x f step u v.
Proof. unfold in_pixels, at_x, Qcdiv. cbn [f_a11 f_a12 f_x]. ring. Qed.
Lemma frame_at_y step f u v : (f_a21 (in_pixels step f) * u + f_a22 (in_pixels step f) * v + f_y (in_pixels step f))%Qc = at_y f step u v.
Proof. unfold in_pixels, at_y, Qcdiv. cbn [f_a21 f_a22 f_y]. ring. Qed.
Lemma floor_ge z q : (zq z <= q)%Qc -> (z <= qfloor q)%Z.
Proof. apply qfloor_iff. Qed.
Lemma floor_mono p q : (p <= q)%Qc -> (qfloor p <= qfloor q)%Z.
Proof. intros H. apply floor_ge. apply Qcle_trans with p; [apply qfloor_le|exact H]. Qed.
Lemma floor_ceil q : (qfloor q <= qceil q <= qfloor q + 1)%Z /\ (q <> zq (qfloor q) -> qceil q = qfloor q + 1)%Z.
Proof.
  destruct (qceil_ok q) as [A B]. pose proof (qfloor_le q) as C. pose proof (qfloor_lt q) as D.
  assert (zq (qfloor q) < zq (qceil q) + zq 1)%Qc by (rewrite zq_1; qc_lra). assert (zq (qceil q) < zq (qfloor q + 1) + zq 1)%Qc by (rewrite zq_plus, zq_1; qc_lra).
  rewrite <- zq_plus in H, H0. apply zq_lt_inv in H, H0. split; [lia|]. intros N. assert (qceil q <> qfloor q); [|lia]. intros E. rewrite E in A. apply N. now apply Qcle_antisym.
Qed.
Lemma ceil_mono p q : (p <= q)%Qc -> (qceil p <= qceil q)%Z.
Proof. intros H. unfold qceil. assert (qfloor (- q) <= qfloor (- p))%Z by (apply floor_mono; qc_lra). lia. Qed.
Lemma ceil_le q z : (q <= zq z)%Qc -> (qceil q <= z)%Z.
Proof. intros H. unfold qceil. assert (- z <= qfloor (- q))%Z; [|lia]. apply floor_ge. rewrite zq_opp. qc_lra. Qed.
Lemma ceil_gt q z : (zq z < q)%Qc -> (z < qceil q)%Z.
Proof. intros H. apply zq_lt_inv. destruct (qceil_ok q) as [A _]. apply Qclt_le_trans with q; assumption. Qed.

Section Warp.
Variables (junk : nat -> Qc) (level : list Qc) (w h : nat) (step : Qc) (f : frame) (e : Qc) (r : nat) (buf : list Qc) (padded : bool).
Hypothesis Hw : 1 <= w.
Hypothesis Hh : 1 <= h.
Hypothesis HL : w * h <= length level.
Hypothesis He : (0 <= e)%Qc.
Definition samples_in (x0 x1 : Qc) (at_ : Qc -> Qc -> Qc) : Prop := forall i j, i < 2 * r + 1 -> j < 2 * r + 1 -> (x0 <= at_ (grid e r i) (grid e r j) /\ at_ (grid e r i) (grid e r j) <= x1)%Qc.
Definition box (x0 x1 : Qc) (at_ : Qc -> Qc -> Qc) : Prop :=
  (forall u v, in_patch e u v -> x0 <= at_ u v /\ at_ u v <= x1)%Qc /\ (exists u v, in_patch e u v /\ at_ u v = x0) /\ (exists u v, in_patch e u v /\ at_ u v = x1).
Lemma box_samples x0 x1 at_ : box x0 x1 at_ -> samples_in x0 x1 at_.
Proof.
  intros (H & _) i j Hi Hj. apply H. assert (G : forall k, k < 2 * r + 1 -> (- e <= grid e r k)%Qc /\ (grid e r k <= e)%Qc) by (intros k Hk; apply grid_in; [lia|exact He|exact Hk]).
  destruct (G i Hi), (G j Hj). repeat split; assumption.
Qed.
(** with the box in pixels: the copy, or the level itself, holds the image [J] around each sample *)
Lemma warp_gen : (padded = false -> forall u v, in_patch e u v -> in_image w h (at_x f step u v, at_y f step u v)) ->
  exists x0 x1 y0 y1, box x0 x1 (at_x f step) /\ box y0 y1 (at_y f step) /\
    let x0i := (qfloor x0 - 1)%Z in let y0i := (qfloor y0 - 1)%Z in let x1i := (qceil x1 + 1)%Z in let y1i := (qceil y1 + 1)%Z in
    (forall J, (exists b', pad junk level (Z.of_nat w) (Z.of_nat h) x0i y0i x1i y1i buf = Some b' /\ ((x1i - x0i + 1) * (y1i - y0i + 1) <= Z.of_nat (length b'))%Z /\
                  forall y x, (y0i <= y <= y1i)%Z -> (x0i < x)%Z -> (x <= qceil x1)%Z -> cell b' ((y - y0i) * (x1i - x0i + 1) + (x - x0i)) = J x y) ->
       ((0 <= x0i)%Z -> (x1i <= Z.of_nat w - 1)%Z -> (0 <= y0i)%Z -> (y1i <= Z.of_nat h - 1)%Z -> forall y x, (y0i <= y <= y1i)%Z -> (x0i < x)%Z -> (x <= qceil x1)%Z -> plain level (Z.of_nat w) x y = J x y) ->
       exists b', warp junk padded level w h step f e r buf = Some (Some (patch_of J f step e r), b')).
Proof.
  intros Hin. set (fp := in_pixels step f).
  destruct (bounds (map fst (corners fp e))) as [x0 x1] eqn:Ex. destruct (bounds (map snd (corners fp e))) as [y0 y1] eqn:Ey.
  assert (Bx : box x0 x1 (at_x f step)).
  { pose proof (corner_cases (f_a11 fp) (f_a12 fp) (f_x fp) e x0 x1 He Ex) as (A & (u1 & v1 & B1 & B2) & (u2 & v2 & C1 & C2)). unfold fp in *. rewrite frame_at_x in B2, C2. split; [|split; [eauto|eauto]]. intros u v P. specialize (A u v P). now rewrite frame_at_x in A. }
  assert (By : box y0 y1 (at_y f step)).
  { pose proof (corner_cases (f_a21 fp) (f_a22 fp) (f_y fp) e y0 y1 He Ey) as (A & (u1 & v1 & B1 & B2) & (u2 & v2 & C1 & C2)). unfold fp in *. rewrite frame_at_y in B2, C2. split; [|split; [eauto|eauto]]. intros u v P. specialize (A u v P). now rewrite frame_at_y in A. }
  exists x0, x1, y0, y1. split; [exact Bx|]. split; [exact By|]. cbv zeta. intros J HP HN.
  unfold warp. fold fp. replace (negb (frame_inside w h e fp) && negb padded) with false.
  2:{ destruct padded; [now rewrite andb_false_r|]. rewrite (proj2 (inside_ok w h e fp He)); [reflexivity|]. intros u v U1 U2 V1 V2. unfold maps. unfold fp. rewrite frame_at_x, frame_at_y. apply Hin; [reflexivity|]. repeat split; assumption. }
  rewrite Ex, Ey. pose proof (box_samples _ _ _ Bx) as Sx. pose proof (box_samples _ _ _ By) as Sy.
  set (x0i := (qfloor x0 - 1)%Z) in *. set (y0i := (qfloor y0 - 1)%Z) in *. set (x1i := (qceil x1 + 1)%Z) in *. set (y1i := (qceil y1 + 1)%Z) in *.
  assert (Fx : forall i j, i < 2 * r + 1 -> j < 2 * r + 1 -> (x0i < qfloor (at_x f step (grid e r i) (grid e r j)) /\ qfloor (at_x f step (grid e r i) (grid e r j)) < x1i)%Z).
  { intros i j Hi Hj. destruct (Sx i j Hi Hj) as [A B]. apply floor_mono in A. apply ceil_mono in B. pose proof (floor_ceil (at_x f step (grid e r i) (grid e r j))). unfold x0i, x1i. lia. }
  assert (Fy : forall i j, i < 2 * r + 1 -> j < 2 * r + 1 -> (y0i < qfloor (at_y f step (grid e r i) (grid e r j)) /\ qfloor (at_y f step (grid e r i) (grid e r j)) < y1i)%Z).
  { intros i j Hi Hj. destruct (Sy i j Hi Hj) as [A B]. apply floor_mono in A. apply ceil_mono in B. pose proof (floor_ceil (at_y f step (grid e r i) (grid e r j))). unfold y0i, y1i. lia. }
  destruct ((x0i <? 0) || (Z.of_nat w - 1 <? x1i) || (y0i <? 0) || (Z.of_nat h - 1 <? y1i))%Z eqn:T.
  - destruct HP as (b' & -> & Lb & C). cbn [obind].
    erewrite (resample_ok b' (x1i - x0i + 1) (y1i - y0i + 1) (moved x0i y0i fp) e r (fun i j => bilinear J (at_x f step (grid e r i) (grid e r j)) (at_y f step (grid e r i) (grid e r j)))); [cbn [obind]; eexists; reflexivity|].
    intros i j Hi Hj. destruct (Fx i j Hi Hj) as [X1 X2]. destruct (Fy i j Hi Hj) as [Y1 Y2]. destruct (Sx i j Hi Hj) as [_ B]. apply ceil_mono in B.
    replace (f_a11 (moved x0i y0i fp) * grid e r i + (f_a12 (moved x0i y0i fp) * grid e r j + f_x (moved x0i y0i fp)))%Qc with (at_x f step (grid e r i) (grid e r j) - zq x0i)%Qc
      by (rewrite <- frame_at_x; unfold moved; cbn [f_a11 f_a12 f_x]; fold fp; ring).
    replace (f_a21 (moved x0i y0i fp) * grid e r i + (f_a22 (moved x0i y0i fp) * grid e r j + f_y (moved x0i y0i fp)))%Qc with (at_y f step (grid e r i) (grid e r j) - zq y0i)%Qc
      by (rewrite <- frame_at_y; unfold moved; cbn [f_a21 f_a22 f_y]; fold fp; ring).
    set (px := at_x f step (grid e r i) (grid e r j)) in *. clearbody px. set (py := at_y f step (grid e r i) (grid e r j)) in *.
    assert (F : forall c z, qfloor (z - zq c)%Qc = (qfloor z - c)%Z).
    { intros c z. apply qfloor_unique; rewrite zq_minus; pose proof (qfloor_le z); pose proof (qfloor_lt z); qc_lra. }
    rewrite interpolate_ok by (rewrite ?F; lia). f_equal. rewrite <- (bilinear_shift J x0i y0i). apply bilinear_ext. rewrite !F. intros X Y HX HY. unfold plain.
    assert (Hc : (X + x0i <= qceil x1)%Z).
    { destruct (floor_ceil px) as [G1 G2]. destruct HX as [->|[-> HX]]; [lia|]. specialize (G2 ltac:(intros E; apply HX; rewrite zq_minus, <- E; reflexivity)). lia. }
    rewrite <- (C (Y + y0i)%Z (X + x0i)%Z) by lia. f_equal. lia.
  - rewrite !orb_false_iff, !Z.ltb_ge in T. destruct T as [[[T1 T2] T3] T4].
    erewrite (resample_ok level (Z.of_nat w) (Z.of_nat h) fp e r (fun i j => bilinear J (at_x f step (grid e r i) (grid e r j)) (at_y f step (grid e r i) (grid e r j)))); [cbn [obind]; eexists; reflexivity|].
    intros i j Hi Hj. destruct (Fx i j Hi Hj) as [X1 X2]. destruct (Fy i j Hi Hj) as [Y1 Y2]. rewrite !Qcplus_assoc. unfold fp. rewrite frame_at_x, frame_at_y. destruct (Sx i j Hi Hj) as [_ B]. apply ceil_mono in B.
    set (px := at_x f step (grid e r i) (grid e r j)) in *. clearbody px. set (py := at_y f step (grid e r i) (grid e r j)) in *.
    rewrite interpolate_ok by lia. f_equal. apply bilinear_ext. intros X Y HX HY. destruct (floor_ceil px) as [G1 G2]. apply HN; try lia. destruct HX as [->|[-> HX]]; [lia|]. specialize (G2 HX). lia.
Qed.

Notation "'image'" := (extended level w h).
Lemma plain_extended x y : (0 <= x < Z.of_nat w)%Z -> (0 <= y < Z.of_nat h)%Z -> plain level (Z.of_nat w) x y = extended level w h x y.
Proof. intros X Y. unfold plain, extended, cell, clamp. rewrite (Z.min_l x), (Z.min_l y), (Z.max_r 0 x), (Z.max_r 0 y) by lia. reflexivity. Qed.
Lemma row_col x0 x1 x y : (col (Z.of_nat w) x0 x1 x = clamp w x)%Z -> cell level (row (Z.of_nat h) y * Z.of_nat w + col (Z.of_nat w) x0 x1 x) = extended level w h x y.
Proof. intros E. rewrite E. unfold extended, cell, row, clamp. reflexivity. Qed.

(** the image extended by continuity, away from the last column *)
Lemma warp_extended : (padded = false -> forall u v, in_patch e u v -> in_image w h (at_x f step u v, at_y f step u v)) ->
  (forall u v, in_patch e u v -> at_x f step u v <= zq (Z.of_nat w - 2))%Qc ->
  (exists u v, in_patch e u v /\ zq (-3) < at_x f step u v)%Qc -> (exists u v, in_patch e u v /\ zq (-2) < at_y f step u v)%Qc -> (exists u v, in_patch e u v /\ at_y f step u v < zq (Z.of_nat h + 1))%Qc ->
  exists b', warp junk padded level w h step f e r buf = Some (Some (patch_of (extended level w h) f step e r), b').
Proof.
  intros Hin Xm Xl Yl Yh. destruct (warp_gen Hin) as (x0 & x1 & y0 & y1 & Bx & By & G). apply G; clear G.
  - assert (A1 : (qceil x1 <= Z.of_nat w - 2)%Z) by (apply ceil_le; destruct Bx as (_ & _ & u & v & P & <-); now apply Xm).
    assert (A2 : (-3 < qceil x1)%Z) by (apply ceil_gt; destruct Xl as (u & v & P & Q), Bx as (B & _); apply Qclt_le_trans with (1 := Q), B, P).
    assert (A3 : (-2 < qceil y1)%Z) by (apply ceil_gt; destruct Yl as (u & v & P & Q), By as (B & _); apply Qclt_le_trans with (1 := Q), B, P).
    assert (A4 : (qfloor y0 < Z.of_nat h + 1)%Z) by (apply qfloor_lt_iff; destruct Yh as (u & v & P & Q), By as (B & _); refine (Qcle_lt_trans _ _ _ _ Q); apply B, P).
    assert (A5 : (qfloor x0 <= qceil x1)%Z) by (destruct Bx as (B & (u & v & P & <-) & _); destruct (B u v P) as [_ B2]; apply ceil_mono in B2; pose proof (floor_ceil (at_x f step u v)); lia).
    assert (A6 : (qfloor y0 <= qceil y1)%Z) by (destruct By as (B & (u & v & P & <-) & _); destruct (B u v P) as [_ B2]; apply ceil_mono in B2; pose proof (floor_ceil (at_y f step u v)); lia).
    destruct (pad_ok level (Z.of_nat w) (Z.of_nat h) (qfloor x0 - 1) (qfloor y0 - 1) (qceil x1 + 1) (qceil y1 + 1) ltac:(lia) ltac:(lia) ltac:(lia) ltac:(lia) ltac:(lia) junk buf ltac:(lia) ltac:(lia) ltac:(lia)) as (b' & E & Lb & F).
    exists b'. split; [exact E|]. split; [exact Lb|]. intros y x Y X1 X2. rewrite (F y x) by lia. apply row_col. unfold col, clamp. lia.
  - intros T1 T2 T3 T4 y x Y X1 X2. apply plain_extended; lia.
Qed.
(** past the last column but one: that column is extended *)
Lemma warp_right : padded = true -> (exists u v, in_patch e u v /\ zq (Z.of_nat w - 2) < at_x f step u v)%Qc -> (exists u v, in_patch e u v /\ at_x f step u v < zq (Z.of_nat w))%Qc ->
  (exists u v, in_patch e u v /\ zq (-2) < at_y f step u v)%Qc -> (exists u v, in_patch e u v /\ at_y f step u v < zq (Z.of_nat h + 1))%Qc ->
  exists b', warp junk padded level w h step f e r buf = Some (Some (patch_of (fun x y => extended level w h (Z.min x (Z.of_nat w - 2)) y) f step e r), b').
Proof.
  intros Hp Xl Xh Yl Yh. destruct (warp_gen ltac:(congruence)) as (x0 & x1 & y0 & y1 & Bx & By & G).
  assert (A2 : (Z.of_nat w - 2 < qceil x1)%Z) by (apply ceil_gt; destruct Xl as (u & v & P & Q), Bx as (B & _); apply Qclt_le_trans with (1 := Q), B, P). apply G; clear G.
  - assert (A1 : (qfloor x0 < Z.of_nat w)%Z) by (apply qfloor_lt_iff; destruct Xh as (u & v & P & Q), Bx as (B & _); refine (Qcle_lt_trans _ _ _ _ Q); apply B, P).
    assert (A3 : (-2 < qceil y1)%Z) by (apply ceil_gt; destruct Yl as (u & v & P & Q), By as (B & _); apply Qclt_le_trans with (1 := Q), B, P).
    assert (A4 : (qfloor y0 < Z.of_nat h + 1)%Z) by (apply qfloor_lt_iff; destruct Yh as (u & v & P & Q), By as (B & _); refine (Qcle_lt_trans _ _ _ _ Q); apply B, P).
    assert (A5 : (qfloor x0 <= qceil x1)%Z) by (destruct Bx as (B & (u & v & P & <-) & _); destruct (B u v P) as [_ B2]; apply ceil_mono in B2; pose proof (floor_ceil (at_x f step u v)); lia).
    assert (A6 : (qfloor y0 <= qceil y1)%Z) by (destruct By as (B & (u & v & P & <-) & _); destruct (B u v P) as [_ B2]; apply ceil_mono in B2; pose proof (floor_ceil (at_y f step u v)); lia).
    destruct (pad_ok level (Z.of_nat w) (Z.of_nat h) (qfloor x0 - 1) (qfloor y0 - 1) (qceil x1 + 1) (qceil y1 + 1) ltac:(lia) ltac:(lia) ltac:(lia) ltac:(lia) ltac:(lia) junk buf ltac:(lia) ltac:(lia) ltac:(lia)) as (b' & E & Lb & F).
    exists b'. split; [exact E|]. split; [exact Lb|]. intros y x Y X1 X2. rewrite (F y x) by lia. unfold extended, cell, row. f_equal. f_equal. unfold col, clamp. f_equal. lia.
  - intros T1 T2. lia.
Qed.
(** above or below the image: zero *)
Lemma warp_zero : padded = true -> (forall u v, in_patch e u v -> at_y f step u v <= zq (-2))%Qc \/ (forall u v, in_patch e u v -> zq (Z.of_nat h + 1) <= at_y f step u v)%Qc ->
  exists b', warp junk padded level w h step f e r buf = Some (Some (repeat 0%Qc ((2 * r + 1) * (2 * r + 1))), b').
Proof.
  intros Hp Hy. destruct (warp_gen ltac:(congruence)) as (x0 & x1 & y0 & y1 & Bx & By & G).
  assert (Z0 : patch_of (fun _ _ => 0%Qc) f step e r = repeat 0%Qc ((2 * r + 1) * (2 * r + 1))).
  { unfold patch_of. assert (E : forall x y, bilinear (fun _ _ => 0%Qc) x y = 0%Qc) by (intros; unfold bilinear, at_pixel; ring).
    assert (M : forall (v : nat -> Qc) l, (forall i, v i = 0%Qc) -> map v l = repeat 0%Qc (length l)) by (intros v l Hv; induction l; cbn; [reflexivity|now rewrite IHl, Hv]).
    assert (K : forall n m (v : nat -> list Qc) l, length l = n -> (forall j, v j = repeat 0%Qc m) -> flat_map v l = repeat 0%Qc (n * m)).
    { induction n as [|n IH]; intros m v [|a l] Ll Hv; try discriminate; [reflexivity|]. cbn [flat_map Nat.mul]. rewrite repeat_app, Hv. f_equal. apply IH; [now injection Ll|exact Hv]. }
    apply K; [apply seq_length|]. intros j. rewrite M by (intros; apply E). now rewrite seq_length. }
  rewrite <- Z0. apply G; clear G.
  - assert (A5 : (qfloor x0 <= qceil x1)%Z) by (destruct Bx as (B & (u & v & P & <-) & _); destruct (B u v P) as [_ B2]; apply ceil_mono in B2; pose proof (floor_ceil (at_x f step u v)); lia).
    assert (A6 : (qfloor y0 <= qceil y1)%Z) by (destruct By as (B & (u & v & P & <-) & _); destruct (B u v P) as [_ B2]; apply ceil_mono in B2; pose proof (floor_ceil (at_y f step u v)); lia).
    destruct (pad_zero level (Z.of_nat w) (Z.of_nat h) (qfloor x0 - 1) (qfloor y0 - 1) (qceil x1 + 1) (qceil y1 + 1) ltac:(lia) ltac:(lia) ltac:(lia) ltac:(lia) ltac:(lia) junk buf) as (n & E & Lb).
    { destruct Hy as [Hy|Hy]; [left|right].
      - destruct By as (_ & _ & u & v & P & <-). pose proof (ceil_le _ _ (Hy u v P)). lia.
      - destruct By as (_ & (u & v & P & <-) & _). pose proof (floor_ge _ _ (Hy u v P)). lia. }
    exists (repeat 0%Qc n). split; [exact E|]. split; [rewrite repeat_length; exact Lb|]. intros y x Y X1 X2. unfold cell. generalize (Z.to_nat ((y - (qfloor y0 - 1)) * (qceil x1 + 1 - (qfloor x0 - 1) + 1) + (x - (qfloor x0 - 1)))) as k. clear. induction n; intros [|k]; cbn; auto.
  - intros T1 T2 T3 T4. exfalso. destruct Hy as [Hy|Hy].
    + destruct By as (_ & (u & v & P & <-) & _). pose proof (Hy u v P) as Q. apply ceil_le in Q. pose proof (floor_ceil (at_y f step u v)). lia.
    + destruct By as (_ & _ & u & v & P & <-). pose proof (floor_ge _ _ (Hy u v P)). pose proof (floor_ceil (at_y f step u v)). lia.
Qed.
(** frames leaving the image without padding *)
Lemma warp_error : padded = false -> ~ (forall u v, in_patch e u v -> in_image w h (at_x f step u v, at_y f step u v)) -> warp junk padded level w h step f e r buf = Some (None, buf).
Proof.
  intros Hp H. unfold warp. rewrite Hp. destruct (frame_inside w h e (in_pixels step f)) eqn:T; [|reflexivity]. exfalso. apply H. pose proof (proj1 (inside_ok w h e (in_pixels step f) He) T) as I. intros u v (U1 & U2 & V1 & V2).
  specialize (I u v U1 U2 V1 V2). unfold maps in I. now rewrite frame_at_x, frame_at_y in I.
Qed.
End Warp.
