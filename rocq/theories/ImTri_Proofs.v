(** Proofs about vl_imconvcoltri. *)
From Coq Require Import List Arith ZArith Lia Bool Ring Ring_theory.
From Verif Require Import Base Loop MserSort_Proofs ImOp_Model ImOp_Spec ImOp_Proofs.
Import ListNotations.

Section Ringed.
Context {A : Type} (r0 r1 : A) (radd rmul rsub : A -> A -> A) (ropp : A -> A).
Hypothesis Rth : ring_theory r0 r1 radd rmul rsub ropp eq.
Add Ring Rring : Rth.
Local Notation sum := (sum r0 radd).
Local Notation times := (times r0 radd).
Local Notation ofnat := (ofnat r0 r1 radd).

Lemma times_ofnat n v : times n v = rmul (ofnat n) v.
Proof. unfold ImOp_Spec.times. induction n; cbn; [ring|]. rewrite IHn. ring. Qed.
Lemma times_add n m v : times (n + m) v = radd (times n v) (times m v).
Proof. unfold ImOp_Spec.times. now rewrite (sum_app _ _ _ _ _ _ Rth). Qed.

(** f(a) + ... + f(a+n-1) over the integers *)
Definition zsum (a : Z) (n : nat) (f : Z -> A) : A := sum n (fun i => f (a + Z.of_nat i)%Z).

Lemma zsum_ext a n f g : (forall z, (a <= z < a + Z.of_nat n)%Z -> f z = g z) -> zsum a n f = zsum a n g.
Proof. intro H. apply sum_ext. intros i L. apply H. lia. Qed.
Lemma zsum_first a n f : zsum a (S n) f = radd (f a) (zsum (a + 1) n f).
Proof.
  unfold zsum. rewrite (sum_shift _ _ _ _ _ _ Rth). f_equal; [f_equal; lia|].
  apply sum_ext. intros i _. f_equal. lia.
Qed.
Lemma zsum_last a n f : zsum a (S n) f = radd (zsum a n f) (f (a + Z.of_nat n)%Z).
Proof. reflexivity. Qed.
Lemma zsum_app a n m f : zsum a (n + m) f = radd (zsum a n f) (zsum (a + Z.of_nat n) m f).
Proof.
  unfold zsum. rewrite (sum_app _ _ _ _ _ _ Rth). f_equal. apply sum_ext. intros i _. f_equal. lia.
Qed.
Lemma zsum_const a n f c : (forall z, (a <= z < a + Z.of_nat n)%Z -> f z = c) -> zsum a n f = times n c.
Proof. intro H. unfold zsum, ImOp_Spec.times. apply sum_ext. intros i L. apply H. lia. Qed.

(** a square of sums is a triangle *)
Lemma square_triangle (g : nat -> A) F :
  sum F (fun a => sum F (fun b => g (a + b))) =
  sum (2 * F - 1) (fun i => times (Nat.min (i + 1) (2 * F - 1 - i)) (g i)).
Proof.
  induction F as [|F IH]; [reflexivity|].
  replace (2 * S F - 1) with (F + S F) by lia.
  rewrite (sum_app _ _ _ _ _ _ Rth).
  assert (E : sum (S F) (fun a => sum (S F) (fun b => g (a + b))) =
     radd (sum F (fun a => sum F (fun b => g (a + b)))) (radd (radd (sum F (fun b => g (F + b))) (sum F (fun b => g (F + b)))) (g (F + F)))).
  { cbn [ImOp_Spec.sum]. rewrite (sum_add _ _ _ _ _ _ Rth).
    rewrite (sum_ext r0 radd F (fun i => g (i + F)) (fun b => g (F + b))) by (intros; f_equal; lia). ring. }
  rewrite E, IH. clear E IH.
  assert (E : sum (S F) (fun i => times (Nat.min (F + i + 1) (F + S F - (F + i))) (g (F + i))) =
              radd (sum (F - 1) (fun i => times (Nat.min (F + i + 1) (2 * F - 1 - (F + i))) (g (F + i))))
                 (radd (radd (sum F (fun b => g (F + b))) (sum F (fun b => g (F + b)))) (g (F + F)))).
  { cbn [ImOp_Spec.sum]. replace (Nat.min (F + F + 1) (F + S F - (F + F))) with 1 by lia.
    assert (E1 : sum F (fun i => times (Nat.min (F + i + 1) (F + S F - (F + i))) (g (F + i))) =
       radd (sum (F - 1) (fun i => times (Nat.min (F + i + 1) (2 * F - 1 - (F + i))) (g (F + i))))
         (radd (sum F (fun b => g (F + b))) (sum F (fun b => g (F + b))))).
    { transitivity (radd (sum F (fun i => times (Nat.min (F + i + 1) (2 * F - 1 - (F + i))) (g (F + i))))
         (radd (sum F (fun b => g (F + b))) (sum F (fun b => g (F + b))))).
      - rewrite <- !(sum_add _ _ _ _ _ _ Rth). apply sum_ext. intros i Li.
        replace (Nat.min (F + i + 1) (F + S F - (F + i))) with (Nat.min (F + i + 1) (2 * F - 1 - (F + i)) + 2) by lia.
        rewrite times_add. f_equal. unfold ImOp_Spec.times. cbn. ring.
      - f_equal. destruct F as [|F]; [reflexivity|]. cbn [ImOp_Spec.sum]. replace (S F - 1) with F by lia.
        replace (Nat.min (S F + F + 1) (2 * S F - 1 - (S F + F))) with 0 by lia. unfold ImOp_Spec.times. cbn [ImOp_Spec.sum].
        ring. }
    rewrite E1. unfold ImOp_Spec.times at 2. cbn [ImOp_Spec.sum]. ring. }
  rewrite E. clear E.
  replace (2 * F - 1) with (F + (F - 1)) at 1 by lia. rewrite (sum_app _ _ _ _ _ _ Rth).
  rewrite (sum_ext r0 radd F (fun i => times (Nat.min (i + 1) (2 * F - 1 - i)) (g i))
                             (fun i => times (Nat.min (i + 1) (F + S F - i)) (g i))).
  - ring.
  - intros i Li. destruct (Nat.eq_dec i (F - 1)) as [->|X]; f_equal; lia.
Qed.

Section Tri.
Variables (dstride : nat) (image : list A) (width height stride : nat)
          (fsize : nat) (scale : A) (step : nat) (transp zeropad : bool) (dst0 : list A).
Let dh := dheight height step.
Let pos := out_pos transp dstride.
Let val (x k : nat) : A :=
  rmul scale (triangle_at r0 radd zeropad height (pixel r0 image stride x) fsize (k * step)).
Hypothesis Hstep : 0 < step.
Hypothesis Hheight : 0 < height.
Hypothesis Hf : 0 < fsize.
Hypothesis Hs : forall x y, x < width -> y < height -> x + y * stride < length image.
Hypothesis Hd : forall x k, x < width -> k < dh -> pos x k < length dst0.
Hypothesis Hds : (if transp then dh else width) <= dstride.
Local Notation Hz := (Z.of_nat height).
Local Notation F := (Z.of_nat fsize).

(** the cells of the buffer satisfying P hold g *)
Definition agr (P : Z -> Prop) (g : Z -> A) (b : list A) : Prop :=
  length b = height + fsize /\ forall z, (- F <= z < Hz)%Z -> P z -> nth_error b (Z.to_nat (z + F)) = Some (g z).

Lemma bget_ok P g b z : agr P g b -> (- F <= z < Hz)%Z -> P z -> bget fsize b z = Some (g z).
Proof.
  intros [L G] R Pz. unfold bget, zget. destruct (Z.ltb_spec (z + F) 0); [lia|]. now apply G.
Qed.
Lemma bset_ok P g b z v (P' : Z -> Prop) g' : agr P g b -> (- F <= z < Hz)%Z ->
  (forall w, (- F <= w < Hz)%Z -> P' w -> w <> z -> P w /\ g' w = g w) -> g' z = v ->
  exists b', bset fsize b z v = Some b' /\ agr P' g' b'.
Proof.
  intros [L G] R W <-. unfold bset, zset. destruct (Z.ltb_spec (z + F) 0); [lia|].
  rewrite aset_lt by lia. eexists; split; [reflexivity|]. split; [now rewrite upd_length|].
  intros w Rw Pw. destruct (Z.eq_dec w z) as [->|X].
  - apply nth_error_upd_eq. lia.
  - rewrite nth_error_upd_neq by lia. destruct (W w Rw Pw X) as [Pw' E]. rewrite (G w Rw Pw'). now rewrite E.
Qed.
Lemma agr_ext (P P' : Z -> Prop) g g' b : (forall z, (- F <= z < Hz)%Z -> P' z -> P z /\ g' z = g z) -> agr P g b -> agr P' g' b.
Proof. intros E [L G]. split; [auto|]. intros z R Pz. destruct (E z R Pz) as [X ->]. auto. Qed.

Section Column.
Variable x : nat.
Hypothesis Hx : x < width.
Let col := pixel r0 image stride x.
Let pad := padded r0 zeropad height col.
Let B (z : Z) : A := zsum z (Z.to_nat (Hz - z)) pad.
Let R (z : Z) : A := zsum z fsize pad.
Let Sm (z : Z) : A := zsum (- F) (Z.to_nat (z + F + 1)) R.

Lemma pad_in z : (0 <= z < Hz)%Z -> pad z = col (Z.to_nat z).
Proof. intro L. unfold pad, padded. destruct (Z.leb_spec 0 z), (Z.ltb_spec z Hz); try lia. reflexivity. Qed.
Lemma pad_low z : (z < 0)%Z -> pad z = if zeropad then r0 else col 0.
Proof. intro L. unfold pad, padded. destruct (Z.leb_spec 0 z); [lia|]. cbn. destruct (Z.ltb_spec z 0); [auto|lia]. Qed.
Lemma pad_high z : (Hz <= z)%Z -> pad z = if zeropad then r0 else col (height - 1).
Proof.
  intro L. unfold pad, padded. destruct (Z.ltb_spec z Hz); [lia|]. rewrite andb_false_r.
  destruct (Z.ltb_spec z 0); [lia|auto].
Qed.
Lemma B_step z : (z < Hz)%Z -> B z = radd (pad z) (B (z + 1)).
Proof.
  intro L. unfold B. replace (Z.to_nat (Hz - z)) with (S (Z.to_nat (Hz - (z + 1)))) by lia. apply zsum_first.
Qed.
Lemma B_last : B (Hz - 1) = col (height - 1).
Proof.
  unfold B. replace (Z.to_nat (Hz - (Hz - 1))) with 1 by lia. unfold zsum. cbn. rewrite Z.add_0_r.
  rewrite pad_in by lia. replace (Z.to_nat (Hz - 1)) with (height - 1) by lia. ring.
Qed.

Lemma image_read y ip : (0 <= y < Hz)%Z -> ip = (Z.of_nat x + Z.of_nat stride * y)%Z -> zget image ip = Some (col (Z.to_nat y)).
Proof.
  intros L ->. unfold col, pixel. apply zget_nat; [|apply Hs; lia].
  rewrite Nat2Z.inj_add, Nat2Z.inj_mul, Z2Nat.id by lia. lia.
Qed.

Lemma tri_back_ok b : length b = height + fsize ->
  exists b', tri_back radd image height stride fsize zeropad x b = Some b' /\ agr (fun _ => True) B b'.
Proof.
  intro Lb. unfold tri_back.
  rewrite (image_read (Hz - 1)%Z) by lia. cbn [obind].
  destruct (bset_ok (fun _ => False) B b (Hz - 1)%Z (col (Z.to_nat (Hz - 1))) (fun z => (Hz - 1 <= z)%Z) B) as (b1 & E1 & A1).
  { split; [exact Lb|tauto]. } { lia. } { intros w Lw. lia. }
  { rewrite B_last. f_equal. lia. }
  rewrite E1. cbn [obind]. clear E1.
  destruct (zdown_inv (fun y '(ip, b) => ip = (Z.of_nat x + Z.of_nat stride * (y + 1))%Z /\ agr (fun z => (y < z)%Z) B b)
     (fun y '(ip, b) =>
      do w <- bget fsize b (y + 1);
      do v <- zget image (ip - Z.of_nat stride)%Z;
      do b <- bset fsize b y (radd w v);
      Some ((ip - Z.of_nat stride)%Z, b)) (Hz - 2) 0 ((Z.of_nat x + Z.of_nat stride * (Hz - 1))%Z, b1)) as ([ip b2] & E2 & Eip & A2).
  - lia.
  - split; [f_equal; f_equal; lia|]. revert A1. apply agr_ext. intros; split; [lia|auto].
  - intros y [ip b'] Ly (-> & A'). cbv zeta.
    rewrite (bget_ok _ _ _ (y + 1)%Z A') by lia. cbn [obind].
    rewrite (image_read y) by lia. cbn [obind].
    destruct (bset_ok _ _ b' y (radd (B (y + 1)) (col (Z.to_nat y))) (fun z => (y - 1 < z)%Z) B A') as (b3 & E3 & A3).
    + lia.
    + intros w Lw. split; [lia|auto].
    + rewrite (B_step y) by lia. rewrite pad_in by lia. ring.
    + rewrite E3. cbn [obind]. eexists; split; [reflexivity|]. split; [lia|exact A3].
  - rewrite E2. cbn [obind]. clear E2.
    assert (G : exists b', zdown (-1) (- F) (fun y b => do w <- bget fsize b (y + 1);
        if zeropad then bset fsize b y w else do v <- zget image ip; bset fsize b y (radd w v)) b2 = Some b' /\
        agr (fun z => (- F - 1 < z)%Z) B b').
    { apply zdown_inv with (I := fun y b => agr (fun z => (y < z)%Z) B b).
      - lia.
      - exact A2.
      - intros y b' Ly A'. rewrite (bget_ok _ _ _ (y + 1)%Z A') by lia. cbn [obind].
        assert (Q : exists b3, bset fsize b' y (radd (B (y + 1)) (if zeropad then r0 else col 0)) = Some b3 /\
                     agr (fun z => (y - 1 < z)%Z) B b3).
        { apply bset_ok with (1 := A'); [lia| |].
          - intros w Lw. split; [lia|auto].
          - rewrite (B_step y) by lia. rewrite pad_low by lia. ring. }
        destruct Q as (b3 & Q & A3). exists b3. split; [|exact A3]. rewrite <- Q. destruct zeropad.
        + f_equal. ring.
        + rewrite (image_read 0) by lia. cbn [obind]. reflexivity. }
    destruct G as (b' & E' & A'). exists b'. split.
    + rewrite <- E'. destruct zeropad; reflexivity.
    + revert A'. apply agr_ext. intros; split; [lia|auto].
Qed.

Lemma R_low z : (z < Hz - F)%Z -> R z = rsub (B z) (B (z + F)).
Proof.
  intro L. unfold B, R. replace (Z.to_nat (Hz - z)) with (fsize + Z.to_nat (Hz - (z + F))) by lia.
  rewrite zsum_app. ring.
Qed.
Lemma R_high z : (Hz - F <= z < Hz)%Z -> R z = radd (B z) (if zeropad then r0 else rmul (col (height - 1)) (ofnat (Z.to_nat (z - (Hz - F))))).
Proof.
  intro L. unfold B, R. replace fsize with (Z.to_nat (Hz - z) + Z.to_nat (z - (Hz - F))) at 1 by lia.
  rewrite zsum_app. f_equal. rewrite zsum_const with (c := if zeropad then r0 else col (height - 1)).
  - rewrite times_ofnat. destruct zeropad; ring.
  - intros w Lw. apply pad_high. lia.
Qed.
Lemma ofZ_neg n : ofZ r0 r1 radd ropp (- Z.of_nat n) = ropp (ofnat n).
Proof.
  unfold ofZ. destruct (Z.ltb_spec (- Z.of_nat n) 0).
  - f_equal. f_equal. lia.
  - replace n with 0 by lia. cbn. ring.
Qed.

Lemma tri_rect_ok b : agr (fun _ => True) B b ->
  exists b', tri_rect r0 r1 radd rmul rsub ropp height fsize zeropad b = Some b' /\ agr (fun _ => True) R b'.
Proof.
  intro A0. unfold tri_rect.
  destruct (zup_inv (fun y b => agr (fun _ => True) (fun z => if (z <? y)%Z then R z else B z) b)
     (fun y b => do v <- bget fsize b y; do w <- bget fsize b (y + F); bset fsize b y (rsub v w)) (- F) (Hz - F) b) as (b1 & E1 & A1).
  - lia.
  - revert A0. apply agr_ext. intros z Lz _. split; [auto|]. destruct (Z.ltb_spec z (- F)); [lia|auto].
  - intros y b' Ly A'. rewrite (bget_ok _ _ _ y A') by (auto; lia). cbn [obind].
    rewrite (bget_ok _ _ _ (y + F)%Z A') by (auto; lia). cbn [obind].
    destruct (Z.ltb_spec y y); [lia|]. destruct (Z.ltb_spec (y + F) y); [lia|].
    apply bset_ok with (1 := A'); [lia| |].
    + intros w Lw _ Nw. split; [auto|]. destruct (Z.ltb_spec w (y + 1)), (Z.ltb_spec w y); auto; lia.
    + destruct (Z.ltb_spec y (y + 1)); [|lia]. apply R_low. lia.
  - rewrite E1. cbn [obind]. clear E1. case_eq zeropad; intro Zp.
    + exists b1. split; [reflexivity|]. revert A1. apply agr_ext. intros z Lz _. split; [auto|].
      destruct (Z.ltb_spec z (Hz - F)); [auto|]. rewrite R_high by lia. rewrite Zp. ring.
    + destruct (zup_inv (fun y b => agr (fun _ => True) (fun z => if (z <? y)%Z then R z else B z) b)
        (fun y b => do v <- bget fsize b y; do w <- bget fsize b (Hz - 1);
            bset fsize b y (rsub v (rmul w (ofZ r0 r1 radd ropp (Hz - F - y))))) (Hz - F) Hz b1) as (b2 & E2 & A2).
      * lia.
      * exact A1.
      * intros y b' Ly A'. rewrite (bget_ok _ _ _ y A') by (auto; lia). cbn [obind].
        rewrite (bget_ok _ _ _ (Hz - 1)%Z A') by (auto; lia). cbn [obind].
        destruct (Z.ltb_spec y y); [lia|]. destruct (Z.ltb_spec (Hz - 1) y); [lia|].
        apply bset_ok with (1 := A'); [lia| |].
        -- intros w Lw _ Nw. split; [auto|]. destruct (Z.ltb_spec w (y + 1)), (Z.ltb_spec w y); auto; lia.
        -- destruct (Z.ltb_spec y (y + 1)); [|lia]. rewrite R_high by lia. rewrite Zp.
           rewrite B_last. replace (Hz - F - y)%Z with (- Z.of_nat (Z.to_nat (y - (Hz - F))))%Z by lia.
           rewrite ofZ_neg. ring.
      * exists b2. split; [exact E2|]. revert A2. apply agr_ext. intros z Lz _. split; [auto|].
        destruct (Z.ltb_spec z Hz); [auto|lia].
Qed.

Lemma tri_forw_ok b : agr (fun _ => True) R b ->
  exists b', tri_forw radd height fsize b = Some b' /\ agr (fun _ => True) Sm b'.
Proof.
  intro A0. unfold tri_forw.
  destruct (zup_inv (fun y b => agr (fun _ => True) (fun z => if (z <? y)%Z then Sm z else R z) b)
     (fun y b => do v <- bget fsize b y; do w <- bget fsize b (y - 1); bset fsize b y (radd v w)) (- F + 1) Hz b) as (b1 & E1 & A1).
  - lia.
  - revert A0. apply agr_ext. intros z Lz _. split; [auto|]. destruct (Z.ltb_spec z (- F + 1)); [|auto].
    replace z with (- F)%Z by lia. unfold Sm. replace (Z.to_nat (- F + F + 1)) with 1 by lia.
    unfold zsum at 1. cbn. rewrite Z.add_0_r. ring.
  - intros y b' Ly A'. rewrite (bget_ok _ _ _ y A') by (auto; lia). cbn [obind].
    rewrite (bget_ok _ _ _ (y - 1)%Z A') by (auto; lia). cbn [obind].
    destruct (Z.ltb_spec y y); [lia|]. destruct (Z.ltb_spec (y - 1) y); [|lia].
    apply bset_ok with (1 := A'); [lia| |].
    + intros w Lw _ Nw. split; [auto|]. destruct (Z.ltb_spec w (y + 1)), (Z.ltb_spec w y); auto; lia.
    + destruct (Z.ltb_spec y (y + 1)); [|lia]. unfold Sm.
      replace (Z.to_nat (y + F + 1)) with (S (Z.to_nat (y - 1 + F + 1))) by lia. rewrite zsum_last.
      replace (- F + Z.of_nat (Z.to_nat (y - 1 + F + 1)))%Z with y by lia. ring.
  - exists b1. split; [exact E1|]. revert A1. apply agr_ext. intros z Lz _. split; [auto|].
    destruct (Z.ltb_spec z Hz); [auto|lia].
Qed.

Lemma Sm_diff k : k * step < height ->
  rmul scale (rsub (Sm (Z.of_nat (k * step))) (Sm (Z.of_nat (k * step) - F))) = val x k.
Proof.
  intro Lk. unfold val. f_equal. set (y := Z.of_nat (k * step)).
  assert (Y : (0 <= y)%Z) by apply Zle_0_nat. unfold Sm.
  replace (Z.to_nat (y + F + 1)) with (Z.to_nat (y - F + F + 1) + fsize) by lia.
  rewrite zsum_app. replace (- F + Z.of_nat (Z.to_nat (y - F + F + 1)))%Z with (y - F + 1)%Z by lia.
  transitivity (zsum (y - F + 1) fsize R); [ring|].
  transitivity (sum fsize (fun a => sum fsize (fun b => pad (y - F + 1 + Z.of_nat (a + b))%Z))).
  { unfold zsum. apply sum_ext. intros i Li. unfold R, zsum. apply sum_ext. intros j Lj. f_equal. lia. }
  rewrite (square_triangle (fun n => pad (y - F + 1 + Z.of_nat n)%Z)).
  unfold triangle_at. apply sum_ext. intros i Li. cbv zeta. f_equal.
  - lia.
  - unfold pad, col. f_equal. fold y. lia.
Qed.
End Column.

Let Pt (d : nat -> nat -> Prop) := painted pos val width dh dst0 d.
Let start (x : nat) : Z := Z.of_nat (pos x 0).

Lemma tri_count j : j * step < height <-> j < dh.
Proof. apply for_step_count; auto. Qed.

Lemma tri_col_ok x dst b : x < width -> length b = height + fsize -> Pt (before x 0) dst ->
  exists dst' b', tri_col r0 r1 radd rmul rsub ropp dstride image height stride fsize scale step transp zeropad x (start x, dst, b)
    = Some (start (x + 1), dst', b') /\ length b' = height + fsize /\ Pt (before (x + 1) 0) dst'.
Proof.
  intros Lx Lb P. unfold tri_col.
  destruct (tri_back_ok x Lx b Lb) as (b1 & -> & A1). cbn [obind].
  destruct (tri_rect_ok x Lx b1 A1) as (b2 & -> & A2). cbn [obind].
  destruct (tri_forw_ok x Lx b2 A2) as (b3 & -> & A3). cbn [obind].
  unfold tri_out. cbv zeta. fold dh. set (st := if transp then 1%Z else Z.of_nat dstride).
  destruct (iter_inv (fun j '(dp, dst) => dp = (start x + (Z.of_nat dh - Z.of_nat j) * st)%Z /\
      Pt (fun a c => a < x \/ (a = x /\ dh - j <= c)) dst)
    (fun j '(dp, dst) =>
      do v <- bget fsize b3 (Z.of_nat step * (Z.of_nat dh - 1) - Z.of_nat j * Z.of_nat step)%Z;
      do w <- bget fsize b3 (Z.of_nat step * (Z.of_nat dh - 1) - Z.of_nat j * Z.of_nat step - F)%Z;
      do dst <- zset dst (dp - st)%Z (rmul scale (rsub v w));
      Some ((dp - st)%Z, dst)) dh ((start x + Z.of_nat dh * st)%Z, dst)) as ([dp dst'] & E & -> & P').
  - split; [f_equal; f_equal; lia|]. revert P. apply painted_weaken. intros a c La Lc [X|X]; [left; auto|lia].
  - intros j [dp dst1] Lj (-> & P1). cbv zeta.
    set (k := dh - 1 - j).
    replace (Z.of_nat step * (Z.of_nat dh - 1) - Z.of_nat j * Z.of_nat step)%Z with (Z.of_nat (k * step))
      by (unfold k; nia).
    assert (Lk : k < dh) by (unfold k; lia).
    assert (Ly : k * step < height) by (apply tri_count; auto).
    pose proof (Zle_0_nat (k * step)) as Y0.
    rewrite (bget_ok _ _ _ (Z.of_nat (k * step)) A3) by (auto; lia). cbn [obind].
    rewrite (bget_ok _ _ _ (Z.of_nat (k * step) - F)%Z A3) by (auto; lia). cbn [obind].
    rewrite Sm_diff by assumption.
    rewrite (zset_nat _ _ (pos x k)) by (unfold start, pos, out_pos, k, st; destruct transp; nia).
    edestruct (painted_set pos val width dh dst0 (fun a c => a < x \/ (a = x /\ dh - j <= c))
       (fun a c => a < x \/ (a = x /\ dh - (j + 1) <= c)) dst1 x k (val x k)) as [E1 P2];
      [apply inj_out; exact Hds|exact Lx|exact Lk|exact Hd| |reflexivity|exact P1|].
    + intros a c La Lc [X|[-> X]]; [left; left; auto|].
      destruct (Nat.eq_dec c k); [right; auto|left; right; unfold k in *; lia].
    + rewrite E1. cbn [obind]. eexists; split; [reflexivity|]. split; [lia|exact P2].
  - rewrite E. cbn [obind]. exists dst', b3. split; [|split; [apply A3|]].
    + f_equal. f_equal. f_equal. unfold start, pos, out_pos. destruct transp; lia.
    + revert P'. apply painted_weaken. intros a c La Lc [X|[X Y]]; [|lia].
      destruct (Nat.eq_dec a x); [right; split; [auto|lia]|left; lia].
Qed.

Lemma imconvcoltri_ok buffer : length buffer = height + fsize ->
  exists dst, imconvcoltri r0 r1 radd rmul rsub ropp dstride image width height stride fsize scale step transp zeropad buffer dst0
    = Some dst /\ filled pos val width dh dst0 dst.
Proof.
  intro Lb. unfold imconvcoltri. destruct (Nat.eqb_spec height 0); [lia|].
  destruct (iter_inv (fun x '(dp, dst, b) => dp = start x /\ length b = height + fsize /\ Pt (before x 0) dst)
    (tri_col r0 r1 radd rmul rsub ropp dstride image height stride fsize scale step transp zeropad) width (0%Z, dst0, buffer))
    as ([[dp dst] b] & E & _ & _ & P).
  - split; [unfold start, pos, out_pos; destruct transp; reflexivity|]. split; [auto|].
    apply painted_start. intros a c _ _ [X|[_ X]]; lia.
  - intros x [[dp dst] b] Lx (-> & L1 & P1). destruct (tri_col_ok x dst b Lx L1 P1) as (dst' & b' & -> & L2 & P2).
    eexists; split; [reflexivity|]. split; [reflexivity|]. split; [exact L2|exact P2].
  - rewrite E. cbn [obind]. exists dst. split; [reflexivity|]. eapply painted_filled; [|exact P].
    intros a c La Lc. left. exact La.
Qed.
End Tri.

(** the triangle has total weight F^2 *)
Lemma triangle_const h (col : nat -> A) F c y : 0 < h -> (forall p, p < h -> col p = c) ->
  triangle_at r0 radd false h col F y = times (F * F) c.
Proof.
  intros Hh Hc. unfold triangle_at.
  rewrite (sum_ext r0 radd _ _ (fun i => times (Nat.min (i + 1) (2 * F - 1 - i)) c)).
  - rewrite <- (square_triangle (fun _ => c)). change (sum F (fun _ => times F c) = times (F * F) c).
    rewrite (sum_ext r0 radd F _ (fun _ => rmul (ofnat F) c)) by (intros; apply times_ofnat).
    change (times F (rmul (ofnat F) c) = times (F * F) c). rewrite !times_ofnat.
    assert (M : forall n m, ofnat (n * m) = rmul (ofnat n) (ofnat m)).
    { assert (P : forall n m, ofnat (n + m) = radd (ofnat n) (ofnat m)).
      { induction n; intros m; cbn; [ring|]. rewrite IHn. ring. }
      induction n; intros m; cbn; [ring|]. rewrite P, IHn. ring. }
    rewrite M. ring.
  - intros i Li. cbv zeta. f_equal; [lia|]. unfold padded.
    destruct (_ && _) eqn:C.
    + apply andb_prop in C as [C1 C2]. apply Z.leb_le in C1. apply Z.ltb_lt in C2. apply Hc. lia.
    + match goal with |- (if ?b then _ else _) = _ => destruct b end; apply Hc; lia.
Qed.
End Ringed.
