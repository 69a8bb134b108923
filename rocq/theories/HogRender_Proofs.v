(** Rendering of HOG features: proofs. *)
From Coq Require Import List Arith ZArith Lia Bool QArith Qcanon Lqa.
From Verif Require Import Base Loop Rat Table Gauss_Model Gauss_Proofs Hog_Model LiopFull_Proofs HogRender_Model HogRender_Spec.
Import ListNotations.
Local Open Scope nat_scope.

Notation tab := (table 0%Qc).

(** ** the loops over a cell *)
Section Cell.
Variables (G width height : nat) (f : nat -> Qc -> option Qc) (h : nat -> nat -> Qc -> Qc) (x y : nat).
Hypothesis Hx : x < width.
Hypothesis Hy : y < height.
Hypothesis Hf : forall cy cx a, cy < G -> cx < G -> f (cy * G + cx) a = Some (h cy cx a).
Definition inside (r c : nat) : bool := (r / G =? y) && (c / G =? x).

Lemma cell_loop_ok image F : tab (height * G) (width * G) image F ->
  exists image', cell_loop G width f x y image = Some image' /\
    tab (height * G) (width * G) image' (fun r c => if inside r c then h (r mod G) (c mod G) (F r c) else F r c).
Proof.
  intro T. unfold cell_loop.
  destruct (iter_inv (fun cy s => let '(image, p, q) := s in p = (y * G + cy) * (width * G) + x * G /\ q = cy * G /\
      tab (height * G) (width * G) image (fun r c => if (y * G <=? r) && (r <? y * G + cy) && ((x * G <=? c) && (c <? x * G + G)) then h (r - y * G) (c - x * G) (F r c) else F r c))
    (fun cy s =>
      do (image, p, q) <- iter G (fun cx s => let '(image, p, q) := s in
        do a <- aget image p; do a <- f q a; do image <- aset image p a; Some (image, p + 1, q + 1)) s;
      Some (image, p + (width - 1) * G, q)) G (image, G * x + y * width * (G * G), 0)) as ([[im p] q] & E & _ & _ & H).
  - split; [nia|]. split; [reflexivity|]. apply (table_ext _ _ _ _ _ _ T). intros r c _ _.
    rewrite Nat.add_0_r. destruct (Nat.leb_spec (y * G) r), (Nat.ltb_spec r (y * G)); try lia; reflexivity.
  - intros cy [[im p] q] Lcy (-> & -> & Hi).
    destruct (iter_inv (fun cx s => let '(image, p, q) := s in p = (y * G + cy) * (width * G) + (x * G + cx) /\ q = cy * G + cx /\
        tab (height * G) (width * G) image (fun r c =>
          if ((y * G <=? r) && (r <? y * G + cy) && ((x * G <=? c) && (c <? x * G + G))) || ((r =? y * G + cy) && ((x * G <=? c) && (c <? x * G + cx))) then h (r - y * G) (c - x * G) (F r c) else F r c))
      (fun cx s => let '(image, p, q) := s in
        do a <- aget image p; do a <- f q a; do image <- aset image p a; Some (image, p + 1, q + 1)) G (im, (y * G + cy) * (width * G) + x * G, cy * G)) as ([[im' p'] q'] & E & -> & -> & H).
    + split; [lia|]. split; [lia|]. apply (table_ext _ _ _ _ _ _ Hi). intros r c _ _.
      replace ((x * G <=? c) && (c <? x * G + 0)) with false; [now rewrite andb_false_r, orb_false_r|].
      destruct (Nat.leb_spec (x * G) c), (Nat.ltb_spec c (x * G + 0)); try lia; reflexivity.
    + intros cx [[e p'] q'] Lcx (-> & -> & He).
      assert (BR : y * G + cy < height * G) by nia. assert (BC : x * G + cx < width * G) by nia.
      rewrite (table_get _ _ _ _ _ _ _ He BR BC). cbn [obind]. rewrite Hf by assumption. cbn [obind].
      match goal with |- context [h cy cx ?v] => replace v with (F (y * G + cy) (x * G + cx)) end.
      2:{ destruct (Nat.ltb_spec (y * G + cy) (y * G + cy)); [lia|]. destruct (Nat.ltb_spec (x * G + cx) (x * G + cx)); [lia|]. now rewrite !andb_false_r. }
      destruct (table_set _ _ _ _ _ _ _ (h cy cx (F (y * G + cy) (x * G + cx))) He BR BC) as [-> H']. cbn [obind].
      eexists. split; [reflexivity|]. cbn beta iota. split; [lia|]. split; [lia|].
      apply (table_ext _ _ _ _ _ _ H'). intros r c _ _. unfold upd2.
      destruct (Nat.eqb_spec r (y * G + cy)) as [->|Nr].
      * destruct (Nat.ltb_spec (y * G + cy) (y * G + cy)); [lia|]. rewrite !andb_false_r. cbn [andb orb].
        destruct (Nat.eqb_spec c (x * G + cx)) as [->|Nc].
        -- destruct (Nat.leb_spec (x * G) (x * G + cx)); [|lia]. destruct (Nat.ltb_spec (x * G + cx) (x * G + (cx + 1))); [|lia]. cbn [andb].
           f_equal; lia.
        -- destruct (Nat.leb_spec (x * G) c), (Nat.ltb_spec c (x * G + cx)), (Nat.ltb_spec c (x * G + (cx + 1))); cbn [andb]; try reflexivity; lia.
      * cbn [andb]. now rewrite !orb_false_r.
    + rewrite E. cbn [obind]. eexists. split; [reflexivity|]. cbn beta iota. split; [nia|]. split; [lia|].
      apply (table_ext _ _ _ _ _ _ H). intros r c _ _.
      destruct ((x * G <=? c) && (c <? x * G + G)); rewrite ?andb_false_r, ?andb_true_r; [|reflexivity].
      destruct (Nat.leb_spec (y * G) r), (Nat.ltb_spec r (y * G + cy)), (Nat.eqb_spec r (y * G + cy)), (Nat.ltb_spec r (y * G + (cy + 1))); cbn [andb orb]; try reflexivity; lia.
  - rewrite E. cbn [obind]. exists im. split; [reflexivity|].
    apply (table_ext _ _ _ _ _ _ H). intros r c Lr Lc. unfold inside.
    assert (G0 : G <> 0) by (intros ->; lia).
    assert (Q : forall a z, (z * G <=? a) && (a <? z * G + G) = (a / G =? z)).
    { intros a z. pose proof (Nat.div_mod a G G0) as DM. pose proof (Nat.mod_upper_bound a G G0) as MB.
      destruct (Nat.leb_spec (z * G) a), (Nat.ltb_spec a (z * G + G)), (Nat.eqb_spec (a / G) z); cbn [andb]; try reflexivity; exfalso; nia. }
    rewrite !Q. destruct (Nat.eqb_spec (r / G) y) as [Er|]; [|reflexivity]. destruct (Nat.eqb_spec (c / G) x) as [Ec|]; [|reflexivity]. cbn [andb].
    f_equal; [rewrite (Nat.mod_eq r G G0)|rewrite (Nat.mod_eq c G G0)]; subst; f_equal; ring.
Qed.
End Cell.

(** ** a cell *)
Lemma total_ext n f g : (forall k, k < n -> f k = g k) -> total n f = total n g.
Proof. induction n as [|n IH]; intro H; cbn; [reflexivity|]. now rewrite IH, H by auto. Qed.
Lemma qmin_least n f : least (S n) f = qmin (f n) (least n f).
Proof. cbn [least]. unfold qmin. destruct (Qclt_le_dec (f n) (least n f)) as [L|L]; [apply qlt_true in L|apply qlt_false in L]; now rewrite L. Qed.
Lemma qmax_most n f : most (S n) f = qmax (f n) (most n f).
Proof. cbn [most]. unfold qmax. destruct (Qclt_le_dec (most n f) (f n)) as [L|L]; [apply qlt_true in L|apply qlt_false in L]; now rewrite L. Qed.
Lemma least_most n f : (least n f <= 0 /\ 0 <= most n f)%Qc.
Proof.
  induction n as [|n [A B]]; [split; apply Qcle_refl|]. cbn [least most]. split.
  - destruct (Qclt_le_dec (f n) (least n f)); [apply Qclt_le_weak|assumption]. eapply Qclt_le_trans; eassumption.
  - destruct (Qclt_le_dec (most n f) (f n)); [apply Qclt_le_weak|assumption]. eapply Qcle_lt_trans; eassumption.
Qed.
Lemma clamp_code n f x : qmax (least n f) (qmin (most n f) x) = clamp (least n f) (most n f) x.
Proof.
  destruct (least_most n f) as [A B]. set (lo := least n f) in *. set (hi := most n f) in *. assert (LH : (lo <= hi)%Qc) by (eapply Qcle_trans; eassumption).
  unfold qmax, qmin, clamp. destruct (qlt hi x) eqn:E1; [apply qlt_true in E1|apply qlt_false in E1].
  - destruct (Qclt_le_dec x lo) as [L|L]; [exfalso; apply (Qclt_not_le _ _ L); apply Qclt_le_weak; eapply Qcle_lt_trans; eassumption|].
    destruct (Qclt_le_dec hi x) as [M|M]; [|destruct (Qclt_not_le _ _ E1 M)].
    destruct (qlt hi lo) eqn:E2; [apply qlt_true in E2; destruct (Qclt_not_le _ _ E2 LH)|reflexivity].
  - destruct (Qclt_le_dec x lo) as [L|L].
    + apply qlt_true in L. now rewrite L.
    + apply qlt_false in L. rewrite L. destruct (Qclt_le_dec hi x) as [M|M]; [destruct (Qclt_not_le _ _ M E1)|reflexivity].
Qed.

Section Render.
Variables (v : variant) (n G : nat) (glyphs : list Qc) (width height : nat) (descriptor : list Qc).
Variables (D : nat -> nat -> Qc) (Y : nat -> nat -> Qc).
Notation blocks := (HogRender_Spec.blocks v).
Hypothesis HD : exists extra, tab (blocks * n + extra) (width * height) descriptor D.
Hypothesis HG : tab (n * G) G glyphs Y.
Notation weight := (HogRender_Spec.weight v n D).
Lemma weight_ok cell k : cell < width * height -> k < n -> render_weight v n width height descriptor cell k = Some (weight cell k).
Proof.
  destruct HD as (extra & HT). intros Hc Hk. unfold render_weight.
  assert (R : forall b, b < blocks -> aget descriptor (cell + (k + b * n) * (width * height)) = Some (D (k + b * n) cell)).
  { intros b Hb. rewrite Nat.add_comm. apply (table_get _ _ _ _ _ _ _ HT); [|exact Hc]. assert (b * n + n <= blocks * n) by nia. lia. }
  pose proof (R 0) as R0. rewrite Nat.mul_0_l, Nat.add_0_r in R0. rewrite R0 by (unfold HogRender_Spec.blocks; destruct v; lia). cbn [obind].
  pose proof (R 1) as R1. rewrite Nat.mul_1_l in R1. rewrite R1 by (unfold HogRender_Spec.blocks; destruct v; lia). cbn [obind].
  rewrite (R 2) by (unfold HogRender_Spec.blocks; destruct v; lia). cbn [obind]. unfold HogRender_Spec.weight. rewrite <- (Nat.add_0_r (0 * n)) at 1.
  unfold HogRender_Spec.blocks in *. destruct v.
  - cbn [total]. rewrite !Nat.mul_0_l, !Nat.add_0_r, Nat.mul_1_l. f_equal. ring.
  - rewrite (R 3) by lia. cbn [obind total]. rewrite !Nat.mul_0_l, !Nat.add_0_r, Nat.mul_1_l. f_equal. ring.
Qed.
Definition drawn (cell r c : nat) (a : Qc) : Qc :=
  clamp (least n (weight cell)) (most n (weight cell)) (a + total n (fun k => (weight cell k * Y (k * G + r) c)%Qc)).
Lemma cell_ok x y image F : x < width -> y < height -> tab (height * G) (width * G) image F ->
  exists image', render_cell v n G glyphs width height descriptor x y image = Some image' /\
    tab (height * G) (width * G) image' (fun r c => if inside G x y r c then drawn (x + y * width) (r mod G) (c mod G) (F r c) else F r c).
Proof.
  intros Hx Hy T. unfold render_cell. set (cell := x + y * width). assert (Hc : cell < width * height) by (unfold cell; nia).
  destruct (iter_inv (fun k s => let '(image, lo, hi) := s in lo = least k (weight cell) /\ hi = most k (weight cell) /\
      tab (height * G) (width * G) image (fun r c => if inside G x y r c then (F r c + total k (fun k => weight cell k * Y (k * G + r mod G) (c mod G)))%Qc else F r c))
    (fun k s => let '(image, minWeight, maxWeight) := s in
      do weight <- render_weight v n width height descriptor cell k;
      let maxWeight := qmax weight maxWeight in
      let minWeight := qmin weight minWeight in
      do image <- cell_loop G width (fun q a => do g <- aget glyphs (k * (G * G) + q); Some (a + weight * g)%Qc) x y image;
      Some (image, minWeight, maxWeight)) n (image, 0%Qc, 0%Qc)) as ([[im lo] hi] & E & -> & -> & H).
  - split; [reflexivity|]. split; [reflexivity|]. apply (table_ext _ _ _ _ _ _ T). intros r c _ _. cbn [total]. destruct (inside G x y r c); [ring|reflexivity].
  - intros k [[im lo] hi] Hk (-> & -> & Hi). rewrite weight_ok by assumption. cbn [obind]. cbv zeta.
    destruct (cell_loop_ok G width height (fun q a => do g <- aget glyphs (k * (G * G) + q); Some (a + weight cell k * g)%Qc)
      (fun cy cx a => (a + weight cell k * Y (k * G + cy) cx)%Qc) x y Hx Hy) with (2 := Hi) as (im' & -> & H').
    + intros cy cx a Lcy Lcx. replace (k * (G * G) + (cy * G + cx)) with ((k * G + cy) * G + cx) by ring.
      rewrite (table_get _ _ _ _ _ _ _ HG) by nia. reflexivity.
    + cbn [obind]. eexists. split; [reflexivity|]. cbn beta iota. rewrite Nat.add_1_r, qmin_least, qmax_most.
      split; [reflexivity|]. split; [reflexivity|]. apply (table_ext _ _ _ _ _ _ H'). intros r c _ _. destruct (inside G x y r c); [|reflexivity].
      cbn [total]. ring.
  - cbv zeta in E. rewrite E. cbn [obind].
    destruct (cell_loop_ok G width height (fun _ value => Some (qmax (least n (weight cell)) (qmin (most n (weight cell)) value)))
      (fun _ _ a => clamp (least n (weight cell)) (most n (weight cell)) a) x y Hx Hy) with (2 := H) as (im' & -> & H').
    + intros. now rewrite clamp_code.
    + exists im'. split; [reflexivity|]. apply (table_ext _ _ _ _ _ _ H'). intros r c _ _. destruct (inside G x y r c); reflexivity.
Qed.
Lemma render_ok image F : 0 < width -> 0 < height -> tab (height * G) (width * G) image F ->
  exists image', hog_render v n G glyphs width height descriptor image = Some image' /\
    tab (height * G) (width * G) image' (fun r c => drawn (c / G + r / G * width) (r mod G) (c mod G) (F r c)).
Proof.
  intros W H T. unfold hog_render. destruct (Nat.ltb_spec 0 width); [|lia]. destruct (Nat.ltb_spec 0 height); [|lia]. cbn [andb negb].
  set (out := fun r c => drawn (c / G + r / G * width) (r mod G) (c mod G) (F r c)).
  destruct (iter_inv (fun y im => tab (height * G) (width * G) im (fun r c => if r / G <? y then out r c else F r c))
    (fun y image => iter width (fun x image => render_cell v n G glyphs width height descriptor x y image) image) height image) as (im & E & Hi).
  - apply (table_ext _ _ _ _ _ _ T). intros. reflexivity.
  - intros y im Ly Hi.
    destruct (iter_inv (fun x im => tab (height * G) (width * G) im (fun r c => if (r / G <? y) || ((r / G =? y) && (c / G <? x)) then out r c else F r c))
      (fun x image => render_cell v n G glyphs width height descriptor x y image) width im) as (im' & E & H').
    + apply (table_ext _ _ _ _ _ _ Hi). intros r c _ _. destruct (Nat.ltb_spec (c / G) 0); [lia|]. now rewrite andb_false_r, orb_false_r.
    + intros x e Lx He. destruct (cell_ok x y e _ Lx Ly He) as (e' & E & He'). exists e'. split; [exact E|].
      apply (table_ext _ _ _ _ _ _ He'). intros r c _ _. unfold inside.
      destruct (Nat.eqb_spec (r / G) y) as [Er|]; [|now rewrite !andb_false_l, !orb_false_r].
      destruct (Nat.ltb_spec (r / G) y); [lia|]. cbn [andb orb].
      destruct (Nat.eqb_spec (c / G) x) as [Ec|Nc].
      * destruct (Nat.ltb_spec (c / G) x); [lia|]. destruct (Nat.ltb_spec (c / G) (x + 1)); [|lia]. unfold out. now rewrite Ec, Er.
      * destruct (Nat.ltb_spec (c / G) x), (Nat.ltb_spec (c / G) (x + 1)); try reflexivity; lia.
    + exists im'. split; [exact E|]. apply (table_ext _ _ _ _ _ _ H'). intros r c Lr Lc.
      assert (G0 : G <> 0) by (intros ->; lia).
      assert (CX : c / G < width) by (apply Nat.div_lt_upper_bound; lia). destruct (Nat.ltb_spec (c / G) width); [|lia]. rewrite andb_true_r.
      destruct (Nat.ltb_spec (r / G) y), (Nat.eqb_spec (r / G) y), (Nat.ltb_spec (r / G) (y + 1)); try reflexivity; lia.
  - exists im. split; [exact E|]. apply (table_ext _ _ _ _ _ _ Hi). intros r c Lr Lc.
    assert (G0 : G <> 0) by (intros ->; lia).
    assert (RY : r / G < height) by (apply Nat.div_lt_upper_bound; lia). destruct (Nat.ltb_spec (r / G) height); [reflexivity|lia].
Qed.
End Render.

(** ** glyphs *)
Lemma lround_spec q z : (0 <= q)%Qc -> lround q = z <-> (zq z - Q2Qc (1 # 2) <= q /\ q < zq z + Q2Qc (1 # 2))%Qc.
Proof.
  intro P. unfold lround. apply qlt_false in P. rewrite P. split.
  - intros <-. pose proof (qfloor_le (q + Q2Qc (1 # 2))). pose proof (qfloor_lt (q + Q2Qc (1 # 2))). split; qc_lra.
  - intros [A B]. apply qfloor_unique; qc_lra.
Qed.
Section Glyphs.
Variables (G n : nat) (transposed : bool).
Variables (slope : Qc).
Hypothesis S1 : (- (1) <= slope)%Qc.
Hypothesis S2 : (slope <= 1)%Qc.
Let c := ((nq G - 1) / zq 2)%Qc.
Definition line (t : nat) : Qc := (c + slope * (nq t - c))%Qc.
Lemma code_line t : (slope * nq t + (1 - slope) * (nq G - 1) / zq 2)%Qc = line t.
Proof. unfold line, c. field. discriminate. Qed.
Lemma line_bounds t : t < G -> (0 <= line t /\ line t <= nq G - 1)%Qc.
Proof.
  intro H.
  assert (T0 : (0 <= nq t)%Qc) by (unfold nq; rewrite <- zq_0; apply zq_le; lia).
  assert (T1 : (nq t <= nq G - 1)%Qc) by (unfold nq; rewrite <- zq_1; assert (X : (zq (Z.of_nat t) <= zq (Z.of_nat G - 1))%Qc) by (apply zq_le; lia); rewrite zq_minus in X; exact X).
  assert (C2 : (zq 2 * c = nq G - 1)%Qc) by (unfold c; field; discriminate).
  unfold line. revert T0 T1 C2 S1 S2. generalize (nq t) (nq G) c. clear. intros t g c T0 T1 C2 S1 S2.
  assert (Z2 : zq 2 = (1 + 1)%Qc) by (apply Qc_is_canon; reflexivity). rewrite Z2 in C2.
  unfold Qcle in *. rewrite ?this_plus, ?this_minus, ?this_mult, ?this_opp in *. rewrite ?this_minus in *.
  assert (C3 : (this ((1 + 1) * c) == this (g - 1))%Q) by now rewrite C2. rewrite this_mult, this_plus, this_minus in C3. change (this 1) with 1%Q in *. change (this 0) with 0%Q in *.
  assert (P1 : (0 <= (1 + this slope) * this t)%Q) by (apply Qmult_le_0_compat; lra).
  assert (P2 : (0 <= (1 - this slope) * ((1 + 1) * this c - this t))%Q) by (apply Qmult_le_0_compat; lra).
  assert (P3 : (0 <= (1 - this slope) * this t)%Q) by (apply Qmult_le_0_compat; lra).
  assert (P4 : (0 <= (1 + this slope) * ((1 + 1) * this c - this t))%Q) by (apply Qmult_le_0_compat; lra).
  split; lra.
Qed.
Definition cross (t : nat) : nat := Z.to_nat (lround (line t)).
Lemma cross_ok t : t < G -> lround (line t) = Z.of_nat (cross t) /\ cross t < G.
Proof.
  intro H. destruct (line_bounds t H) as [L0 L1]. destruct (proj1 (lround_spec (line t) _ L0) eq_refl) as [A B]. unfold cross.
  assert (P : (0 <= lround (line t))%Z).
  { apply Z.lt_succ_r. apply zq_lt_inv. unfold Z.succ. rewrite zq_plus, zq_0, zq_1. qc_lra. }
  assert (Q : (lround (line t) < Z.of_nat G)%Z).
  { apply zq_lt_inv. change (zq (Z.of_nat G)) with (nq G). qc_lra. }
  split; lia.
Qed.
Lemma on_bar_cross skip t u : on_bar G slope skip t u <-> skip <= t /\ t + skip < G /\ u = cross t.
Proof.
  unfold on_bar. split; intros (A & B & C); (split; [exact A|split; [exact B|]]); destruct (cross_ok t ltac:(lia)) as [E _]; destruct (line_bounds t ltac:(lia)) as [L0 _].
  - apply (lround_spec (line t) (Z.of_nat u) L0) in C. lia.
  - subst u. now apply (lround_spec (line t) _ L0).
Qed.
Definition in_barb (horizontal : bool) (skip m x y : nat) : bool :=
  let '(t, u) := if xorb horizontal transposed then (x, y) else (y, x) in (skip <=? t) && (t <? skip + m) && (u =? cross t).
Lemma draw_ok horizontal skip o glyphs F : o < n -> tab (n * G) G glyphs F ->
  exists glyphs', draw_bar G transposed (horizontal, slope, skip) o glyphs = Some glyphs' /\
    tab (n * G) G glyphs' (fun r x => if (r / G =? o) && in_barb horizontal skip (G - skip - skip) x (r mod G) then 1%Qc else F r x).
Proof.
  intros Ho T. unfold draw_bar. cbv zeta.
  destruct (iter_from_inv (fun t gl => skip <= t /\ tab (n * G) G gl (fun r x => if (r / G =? o) && in_barb horizontal skip (t - skip) x (r mod G) then 1%Qc else F r x))
    (fun t glyphs =>
      let '(i, j) := if horizontal then (Z.of_nat t, lround (slope * nq t + (1 - slope) * (nq G - 1) / zq 2)) else (lround (slope * nq t + (1 - slope) * (nq G - 1) / zq 2), Z.of_nat t) in
      if negb transposed then set_glyph G glyphs i j o else set_glyph G glyphs j i o) (skip + (G - skip - skip)) (G - skip - skip) skip glyphs eq_refl) as (gl & E & _ & H).
  - split; [lia|]. apply (table_ext _ _ _ _ _ _ T). intros r x _ _. unfold in_barb. rewrite Nat.sub_diag, Nat.add_0_r.
    replace (let '(t, u) := if xorb horizontal transposed then (x, r mod G) else (r mod G, x) in (skip <=? t) && (t <? skip) && (u =? cross t)) with false; [now rewrite andb_false_r|].
    destruct (xorb horizontal transposed); [destruct (Nat.leb_spec skip x), (Nat.ltb_spec x skip)|destruct (Nat.leb_spec skip (r mod G)), (Nat.ltb_spec (r mod G) skip)]; try reflexivity; lia.
  - intros t gl L1 L2 [_ Hg]. rewrite code_line. assert (Lt : t < G) by lia. destruct (cross_ok t Lt) as [-> Lu]. set (u := cross t) in *.
    assert (Z : (let '(i, j) := if horizontal then (Z.of_nat t, Z.of_nat u) else (Z.of_nat u, Z.of_nat t) in
        if negb transposed then set_glyph G gl i j o else set_glyph G gl j i o)
      = (let '(x, y) := if xorb horizontal transposed then (t, u) else (u, t) in aset gl ((o * G + y) * G + x) 1%Qc)).
    { unfold set_glyph, zset. destruct horizontal, transposed; cbn [negb xorb];
      (match goal with |- (if ?b then _ else _) = _ => replace b with false by (symmetry; apply Z.ltb_ge; nia) end);
      f_equal; apply Nat2Z.inj; rewrite Z2Nat.id by nia; nia. }
    rewrite Z.
    assert (K : forall x y, x < G -> y < G -> exists gl', aset gl ((o * G + y) * G + x) 1%Qc = Some gl' /\
      tab (n * G) G gl' (upd2 (fun r x => if (r / G =? o) && in_barb horizontal skip (t - skip) x (r mod G) then 1%Qc else F r x) (o * G + y) x 1%Qc)).
    { intros x y Lx Ly. destruct (table_set _ _ _ _ _ (o * G + y) x 1%Qc Hg ltac:(nia) Lx) as [E H]. eauto. }
    assert (DV : forall r, r < n * G -> forall y, y < G -> (r =? o * G + y) = (r / G =? o) && (r mod G =? y)).
    { intros r Lr y Ly. pose proof (Nat.div_mod r G ltac:(lia)) as DM. pose proof (Nat.mod_upper_bound r G ltac:(lia)) as MB.
      destruct (Nat.eqb_spec r (o * G + y)) as [Er|Nr], (Nat.eqb_spec (r / G) o) as [EA|NA], (Nat.eqb_spec (r mod G) y) as [EB|NB]; cbn [andb]; try reflexivity; exfalso.
      - apply NB. subst r. rewrite Nat.add_comm, Nat.mod_add by lia. now apply Nat.mod_small.
      - apply NA. subst r. rewrite Nat.add_comm, Nat.div_add, Nat.div_small by lia. reflexivity.
      - apply NA. subst r. rewrite Nat.add_comm, Nat.div_add, Nat.div_small by lia. reflexivity.
      - nia. }
    unfold in_barb in *. destruct (xorb horizontal transposed).
    + destruct (K t u Lt Lu) as (gl' & E & H). exists gl'. split; [exact E|]. split; [lia|].
      apply (table_ext _ _ _ _ _ _ H). intros r x Lr Lx. unfold upd2. rewrite (DV r Lr u Lu).
      destruct (r / G =? o); [|reflexivity]. cbn [andb].
      destruct (Nat.eqb_spec x t) as [->|Nt].
      * fold u. destruct (Nat.leb_spec skip t); [|lia]. destruct (Nat.ltb_spec t (skip + (t + 1 - skip))); [|lia]. destruct (Nat.ltb_spec t (skip + (t - skip))); [lia|].
        rewrite andb_true_r. cbn [andb]. reflexivity.
      * rewrite andb_false_r. destruct (Nat.leb_spec skip x), (Nat.ltb_spec x (skip + (t - skip))), (Nat.ltb_spec x (skip + (t + 1 - skip))); try reflexivity; lia.
    + destruct (K u t Lu Lt) as (gl' & E & H). exists gl'. split; [exact E|]. split; [lia|].
      apply (table_ext _ _ _ _ _ _ H). intros r x Lr Lx. unfold upd2. rewrite (DV r Lr t Lt).
      destruct (r / G =? o); [|reflexivity]. cbn [andb].
      destruct (Nat.eqb_spec (r mod G) t) as [->|Nt].
      * fold u. destruct (Nat.leb_spec skip t); [|lia]. destruct (Nat.ltb_spec t (skip + (t + 1 - skip))); [|lia]. destruct (Nat.ltb_spec t (skip + (t - skip))); [lia|].
        cbn [andb]. reflexivity.
      * cbn [andb]. destruct (Nat.leb_spec skip (r mod G)), (Nat.ltb_spec (r mod G) (skip + (t - skip))), (Nat.ltb_spec (r mod G) (skip + (t + 1 - skip))); try reflexivity; lia.
  - exists gl. split; [exact E|]. apply (table_ext _ _ _ _ _ _ H). intros r x _ _. now replace (skip + (G - skip - skip) - skip) with (G - skip - skip) by lia.
Qed.
Lemma in_bar_iff horizontal skip x y : x < G -> y < G -> in_barb horizontal skip (G - skip - skip) x y = true <-> in_bar G transposed (horizontal, slope, skip) x y.
Proof.
  intros Lx Ly. unfold in_barb, in_bar. destruct (xorb horizontal transposed); rewrite on_bar_cross, !andb_true_iff, Nat.leb_le, Nat.ltb_lt, Nat.eqb_eq; lia.
Qed.
End Glyphs.

Lemma glyphs_ok G n transposed (bars : nat -> bar) : (forall o, o < n -> (- (1) <= snd (fst (bars o)) /\ snd (fst (bars o)) <= 1)%Qc) ->
  exists glyphs F, draw_glyphs G n transposed bars = Some glyphs /\ tab (n * G) G glyphs F /\
    forall o y x, o < n -> y < G -> x < G -> 
      (in_bar G transposed (bars o) x y -> F (o * G + y) x = 1%Qc) /\ (~ in_bar G transposed (bars o) x y -> F (o * G + y) x = 0%Qc).
Proof.
  intro HS. unfold draw_glyphs.
  set (val := fun m r x => let '(horizontal, slope, skip) := bars (r / G) in
    if (r / G <? m) && in_barb G transposed slope horizontal skip (G - skip - skip) x (r mod G) then 1%Qc else 0%Qc).
  destruct (iter_inv (fun m gl => tab (n * G) G gl (val m)) (fun o glyphs => draw_bar G transposed (bars o) o glyphs) n (repeat 0%Qc (G * G * n))) as (gl & E & H).
  - replace (G * G * n) with (n * G * G) by ring. apply (table_ext _ _ _ _ (fun _ _ => 0%Qc)); [apply table_repeat|].
    intros r x _ _. unfold val. destruct (bars (r / G)) as [[h s] k]. reflexivity.
  - intros o gl Lo Hg. destruct (bars o) as [[h s] k] eqn:EB. destruct (HS o Lo) as [S1 S2]. rewrite EB in S1, S2. cbn [fst snd] in S1, S2.
    destruct (draw_ok G n transposed s S1 S2 h k o gl _ Lo Hg) as (gl' & E & H). exists gl'. split; [exact E|].
    apply (table_ext _ _ _ _ _ _ H). intros r x _ _. unfold val.
    destruct (Nat.eqb_spec (r / G) o) as [Er|Nr].
    + rewrite Er, EB. destruct (Nat.ltb_spec o o); [lia|]. destruct (Nat.ltb_spec o (o + 1)); [|lia]. reflexivity.
    + cbn [andb]. destruct (bars (r / G)) as [[h' s'] k']. destruct (Nat.ltb_spec (r / G) o), (Nat.ltb_spec (r / G) (o + 1)); try reflexivity; lia.
  - exists gl, (val n). split; [exact E|]. split; [exact H|]. intros o y x Lo Ly Lx. unfold val.
    replace ((o * G + y) / G) with o by (rewrite Nat.add_comm, Nat.div_add, Nat.div_small by lia; reflexivity).
    replace ((o * G + y) mod G) with y by (rewrite Nat.add_comm, Nat.mod_add by lia; symmetry; now apply Nat.mod_small).
    destruct (bars o) as [[h s] k] eqn:EB. destruct (HS o Lo) as [S1 S2]. rewrite EB in S1, S2. cbn [fst snd] in S1, S2.
    destruct (Nat.ltb_spec o n); [|lia]. cbn [andb].
    pose proof (in_bar_iff G transposed s S1 S2 h k x y Lx Ly) as IFF.
    destruct (in_barb G transposed s h k (G - k - k) x y); split; intro Q; try reflexivity.
    + destruct Q. now apply IFF.
    + apply IFF in Q. discriminate.
Qed.
