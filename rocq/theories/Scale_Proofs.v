(** Proofs about the resampling routines. *)
From Coq Require Import List Arith ZArith Lia Bool Ring Ring_theory.
From Verif Require Import Base Loop MserSort_Proofs ImOp_Spec ImOp_Proofs Scale_Model Scale_Spec.
Import ListNotations.

Lemma painted_put {A} (pos : nat -> nat -> nat) (val : nat -> nat -> A) n m dst0 (d1 : nat -> nat -> Prop) dst z a b v :
  painted pos val n m dst0 d1 dst ->
  inj2 pos n m -> a < n -> b < m -> (forall a b, a < n -> b < m -> pos a b < length dst0) ->
  z = Z.of_nat (pos a b) -> v = val a b ->
  zset dst z v = Some (upd dst (pos a b) v) /\
  painted pos val n m dst0 (fun a' b' => d1 a' b' \/ (a' = a /\ b' = b)) (upd dst (pos a b) v).
Proof.
  intros P J La Lb Bd Ez Ev. rewrite (zset_nat _ _ (pos a b)) by exact Ez.
  now apply (painted_set pos val n m dst0 d1 _ dst a b v).
Qed.

Lemma interpolate_even {A} (add : A -> A -> A) half n f t : interpolate add half n f (2 * t) = f t.
Proof.
  unfold interpolate. rewrite Nat.even_mul. cbn [Nat.even orb].
  rewrite Nat.mul_comm, Nat.div_mul by lia. reflexivity.
Qed.
Lemma interpolate_odd {A} (add : A -> A -> A) half n f t :
  interpolate add half n f (2 * t + 1) = half (add (f t) (f (Nat.min (t + 1) (n - 1)))).
Proof.
  unfold interpolate. rewrite Nat.even_add, Nat.even_mul. cbn [Nat.even orb Bool.eqb].
  replace ((2 * t + 1) / 2) with t; [reflexivity|].
  apply (Nat.div_unique _ _ _ 1); lia.
Qed.
Lemma interpolate_ext {A} (add : A -> A -> A) half n f g t : t < 2 * n ->
  (forall i, i < n -> f i = g i) -> interpolate add half n f t = interpolate add half n g t.
Proof.
  intros L E. unfold interpolate.
  assert (t / 2 < n) by (apply Nat.div_lt_upper_bound; lia).
  rewrite !E by lia. reflexivity.
Qed.

Lemma nat_half (t : nat) : exists k, t = 2 * k \/ t = 2 * k + 1.
Proof. destruct (Nat.Even_or_Odd t) as [[k E]|[k E]]; exists k; lia. Qed.

Section Ringed.
Context {A : Type} (r0 r1 : A) (radd rmul rsub : A -> A -> A) (ropp : A -> A) (h : A).
Hypothesis Rth : ring_theory r0 r1 radd rmul rsub ropp eq.
Hypothesis Hh : radd h h = r1.
Add Ring Rring : Rth.
Let half (x : A) := rmul h x.
Let quarter (x : A) := rmul (rmul h h) x.
Notation interp := (interpolate radd half).
Notation dbl := (doubled radd half).

Lemma half_twice x : half (radd x x) = x.
Proof. unfold half. transitivity (rmul (radd h h) x); [ring|]. rewrite Hh. ring. Qed.

Ltac put_with pos val inj bound n m dst0 a b P P' :=
  match goal with |- context [zset ?d ?z ?v] =>
    let E := fresh "E" in
    destruct (painted_put pos val n m dst0 _ d z a b v P inj) as [E P'];
      [lia|lia|exact bound|unfold pos; nia| |rewrite E; cbn [obind]; clear E]
  end.

Lemma src_at (src : list A) W H z x y : W * H <= length src -> x < W -> y < H -> z = Z.of_nat (x + y * W) ->
  zget src z = Some (image_of r0 src W x y).
Proof. intros Hs Lx Ly E. unfold image_of. apply zget_nat; [exact E|]. nia. Qed.

(** ** copy_and_upsample *)
Section Up.
Variables (src dst0 : list A) (W H : nat).
Hypothesis Hs : W * H <= length src.
Hypothesis Hd : 4 * (W * H) <= length dst0.
Let f := image_of r0 src W.
Let pos := fun y x => y * (2 * W) + x.
Let val := fun y x => dbl W H f x y.
Let inj : inj2 pos (2 * H) (2 * W) := inj_rows (2 * W) (2 * H) (2 * W) (le_n _).
Let bound : forall a b, a < 2 * H -> b < 2 * W -> pos a b < length dst0.
Proof. intros a b La Lb. unfold pos. nia. Qed.
Let isdone (y x : nat) (a b : nat) := a < 2 * y \/ (a < 2 * y + 2 /\ b < 2 * x).
Let Pt (y x : nat) := painted pos val (2 * H) (2 * W) dst0 (isdone y x).

Ltac put a b P P' := put_with pos val inj bound (2 * H) (2 * W) dst0 a b P P'.

Lemma up_row_ok y dst : y < H -> 0 < W -> Pt y 0 dst ->
  exists dst', up_row radd half quarter src W H y (Z.of_nat (y * W), Z.of_nat (y * (4 * W)), dst) =
    Some (Z.of_nat ((y + 1) * W), Z.of_nat ((y + 1) * (4 * W)), dst') /\ Pt (y + 1) 0 dst'.
Proof.
  intros Ly Lw P0. unfold up_row.
  set (y' := Nat.min (y + 1) (H - 1)).
  set (oy := (if (y + 1 <? H)%nat then Z.of_nat W else 0%Z)).
  assert (Eoy : (Z.of_nat (y * W) + oy = Z.of_nat (y' * W))%Z).
  { unfold oy, y'. destruct (Nat.ltb_spec (y + 1) H).
    - rewrite Nat.min_l by lia. lia.
    - replace (Nat.min (y + 1) (H - 1)) with y by lia. lia. }
  rewrite (src_at src W H _ 0 y) by lia. fold f. cbn [obind].
  rewrite (src_at src W H _ 0 y') by lia. fold f. cbn [obind].
  destruct (iter_inv (fun x '(sp, dp, v10, v11, dst) =>
     sp = Z.of_nat (y * W + x) /\ dp = Z.of_nat (y * (4 * W) + 2 * x) /\
     v10 = f (Nat.min x (W - 1)) y /\ v11 = f (Nat.min x (W - 1)) y' /\ Pt y x dst)
     (up_pixel radd half quarter src W oy) W
     (Z.of_nat (y * W), Z.of_nat (y * (4 * W)), f 0 y, f 0 y', dst))
    as ([[[[sp dp] v10] v11] dst'] & E & -> & -> & _ & _ & P).
  - split; [lia|]. split; [lia|]. rewrite Nat.min_0_l. auto.
  - intros x [[[[sp dp] v10] v11] dst1] Lx (-> & -> & -> & -> & P). cbn [up_pixel].
    rewrite (Nat.min_l x) by lia.
    set (ox := (if (x + 1 <? W)%nat then 1%Z else 0%Z)).
    set (x' := Nat.min (x + 1) (W - 1)).
    assert (Eox : (Z.of_nat x + ox = Z.of_nat x')%Z)
      by (unfold ox, x'; destruct (Nat.ltb_spec (x + 1) W); lia).
    rewrite (src_at src W H _ x' y) by lia. fold f. cbn [obind].
    rewrite (src_at src W H _ x' y') by lia. fold f. cbn [obind].
    put (2 * y) (2 * x) P P1.
    { unfold val, doubled. now rewrite !interpolate_even. }
    put (2 * y) (2 * x + 1) P1 P2.
    { unfold val, doubled. rewrite !interpolate_even, !interpolate_odd. reflexivity. }
    put (2 * y + 1) (2 * x) P2 P3.
    { unfold val, doubled. rewrite !interpolate_odd, !interpolate_even. reflexivity. }
    put (2 * y + 1) (2 * x + 1) P3 P4.
    { unfold val, doubled. rewrite !interpolate_odd. fold x' y'. unfold half, quarter. ring. }
    eexists; split; [reflexivity|].
    split; [lia|]. split; [lia|]. split; [f_equal; unfold x'; lia|]. split; [f_equal; unfold x'; lia|].
    revert P4. apply painted_weaken. intros a b La Lb [X|[X Y]].
    + left. left. left. left. left. exact X.
    + destruct (Nat.lt_ge_cases a (2 * y)); [left; left; left; left; left; lia|].
      destruct (Nat.lt_ge_cases b (2 * x)); [left; left; left; left; right; lia|].
      assert (Ha : a = 2 * y \/ a = 2 * y + 1) by lia.
      assert (Hb : b = 2 * x \/ b = 2 * x + 1) by lia.
      destruct Ha as [Ha|Ha], Hb as [Hb|Hb]; auto 10.
  - rewrite E. cbn [obind]. exists dst'. split; [f_equal; f_equal; f_equal; lia|].
    revert P. apply painted_weaken. intros a b La Lb [X|[X Y]]; [|lia].
    destruct (Nat.lt_ge_cases a (2 * y)); [left; lia|right; lia].
Qed.

Lemma copy_and_upsample_ok : 0 < W ->
  exists dst, copy_and_upsample radd half quarter dst0 src W H = Some dst /\
    filled pos val (2 * H) (2 * W) dst0 dst.
Proof.
  intro Lw. unfold copy_and_upsample.
  destruct (iter_inv (fun y '(sp, dp, dst) => sp = Z.of_nat (y * W) /\ dp = Z.of_nat (y * (4 * W)) /\ Pt y 0 dst)
     (up_row radd half quarter src W H) H (0%Z, 0%Z, dst0)) as ([[sp dp] dst] & E & _ & _ & P).
  - split; [lia|]. split; [lia|]. apply painted_start. intros a b _ _ [X|X]; lia.
  - intros y [[sp dp] dst] Ly (-> & -> & P). destruct (up_row_ok y dst Ly Lw P) as (dst' & E & P').
    rewrite E. eexists; split; [reflexivity|]. split; [reflexivity|]. split; [reflexivity|exact P'].
  - rewrite E. cbn [obind]. exists dst. split; [reflexivity|].
    eapply painted_filled; [|exact P]. intros a b La Lb. left. lia.
Qed.
End Up.

(** ** copy_and_upsample_rows *)
Section Rows.
Variables (src dst0 : list A) (W H : nat).
Hypothesis Hs : W * H <= length src.
Hypothesis Hd : 2 * (W * H) <= length dst0.
Hypothesis Lw : 0 < W.
Let f := image_of r0 src W.
Let pos := fun y x => y + x * H.
Let val := fun y x => interp W (fun i => f i y) x.
Let inj : inj2 pos H (2 * W) := inj_cols H H (2 * W) (le_n _).
Let bound : forall a b, a < H -> b < 2 * W -> pos a b < length dst0.
Proof. intros a b La Lb. unfold pos. nia. Qed.
Let isdone (y x : nat) (a b : nat) := a < y \/ (a = y /\ b < 2 * x).
Let Pt (y x : nat) := painted pos val H (2 * W) dst0 (isdone y x).

Ltac put a b P P' := put_with pos val inj bound H (2 * W) dst0 a b P P'.

Lemma rows_row_ok y j dst : y < H -> Pt y 0 dst ->
  exists dst', rows_row radd half src W H j (Z.of_nat (y * W), Z.of_nat y, dst) =
    Some (Z.of_nat ((y + 1) * W), Z.of_nat (y + 1), dst') /\ Pt (y + 1) 0 dst'.
Proof.
  intros Ly P0. unfold rows_row.
  rewrite (src_at src W H _ 0 y) by lia. fold f. cbn [obind].
  destruct (iter_inv (fun x '(sp, dp, a, b, dst) =>
     sp = Z.of_nat (y * W + x + 1) /\ dp = Z.of_nat (y + 2 * x * H) /\ a = f x y /\ b = f x y /\ Pt y x dst)
     (rows_pixel radd half src H) (W - 1)
     ((Z.of_nat (y * W) + 1)%Z, Z.of_nat y, f 0 y, f 0 y, dst))
    as ([[[[sp dp] a] b] dst'] & E & -> & -> & -> & -> & P).
  - split; [lia|]. split; [lia|]. auto.
  - intros x [[[[sp dp] a] b] dst1] Lx (-> & -> & -> & -> & P). cbn [rows_pixel].
    rewrite (src_at src W H _ (x + 1) y) by lia. fold f. cbn [obind].
    put y (2 * x) P P1.
    { unfold val. now rewrite interpolate_even. }
    put y (2 * x + 1) P1 P2.
    { unfold val. rewrite interpolate_odd. rewrite Nat.min_l by lia. reflexivity. }
    eexists; split; [reflexivity|].
    split; [lia|]. split; [nia|]. split; [reflexivity|]. split; [reflexivity|].
    revert P2. apply painted_weaken. intros a b La Lb [X|[-> Y]].
    + left. left. left. exact X.
    + destruct (Nat.lt_ge_cases b (2 * x)); [left; left; right; lia|].
      assert (Hb : b = 2 * x \/ b = 2 * x + 1) by lia.
      destruct Hb as [Hb|Hb]; auto.
  - rewrite E. cbn [obind].
    put y (2 * (W - 1)) P P1.
    { unfold val. now rewrite interpolate_even. }
    put y (2 * (W - 1) + 1) P1 P2.
    { unfold val. rewrite interpolate_odd. replace (Nat.min (W - 1 + 1) (W - 1)) with (W - 1) by lia.
      now rewrite half_twice. }
    eexists; split; [f_equal; f_equal; f_equal; nia|].
    revert P2. apply painted_weaken. intros a b La Lb [X|[-> Y]]; [|lia].
    destruct (Nat.lt_ge_cases a y); [left; left; left; auto|].
    replace a with y by lia.
    destruct (Nat.lt_ge_cases b (2 * (W - 1))); [left; left; right; lia|].
    assert (Hb : b = 2 * (W - 1) \/ b = 2 * (W - 1) + 1) by lia.
    destruct Hb as [Hb|Hb]; auto.
Qed.

Lemma copy_and_upsample_rows_ok :
  exists dst, copy_and_upsample_rows radd half dst0 src W H = Some dst /\
    filled pos val H (2 * W) dst0 dst.
Proof.
  unfold copy_and_upsample_rows.
  destruct (iter_inv (fun y '(sp, dp, dst) => sp = Z.of_nat (y * W) /\ dp = Z.of_nat y /\ Pt y 0 dst)
     (rows_row radd half src W H) H (0%Z, 0%Z, dst0)) as ([[sp dp] dst] & E & _ & _ & P).
  - split; [lia|]. split; [lia|]. apply painted_start. intros a b _ _ [X|X]; lia.
  - intros y [[sp dp] dst] Ly (-> & -> & P). destruct (rows_row_ok y y dst Ly P) as (dst' & E & P').
    rewrite E. eexists; split; [reflexivity|]. split; [reflexivity|]. split; [reflexivity|exact P'].
  - rewrite E. cbn [obind]. exists dst. split; [reflexivity|].
    eapply painted_filled; [|exact P]. intros a b La Lb. left. lia.
Qed.
End Rows.

(** doubling rows twice *)
Lemma double_rows_twice (temp octave src : list A) W H : 0 < W -> 0 < H ->
  W * H <= length src -> 2 * (W * H) <= length temp -> 4 * (W * H) <= length octave ->
  exists temp' octave', copy_and_upsample_rows radd half temp src W H = Some temp' /\
    copy_and_upsample_rows radd half octave temp' H (2 * W) = Some octave' /\
    length temp' = length temp /\
    filled (fun y x => y * (2 * W) + x) (fun y x => dbl W H (image_of r0 src W) x y) (2 * H) (2 * W) octave octave'.
Proof.
  intros Lw Lh Hs Ht Ho.
  destruct (copy_and_upsample_rows_ok src temp W H Hs Ht Lw) as (t' & E1 & L1 & V1 & _).
  assert (Hs2 : H * (2 * W) <= length t') by nia.
  assert (Hd2 : 2 * (H * (2 * W)) <= length octave) by nia.
  destruct (copy_and_upsample_rows_ok t' octave H (2 * W) Hs2 Hd2 Lh) as (o' & E2 & L2 & V2 & U2).
  exists t', o'. split; [exact E1|]. split; [exact E2|]. split; [exact L1|].
  split; [exact L2|]. split.
  - intros y x Ly Lx. specialize (V2 x y Lx Ly). rewrite Nat.add_comm. rewrite V2. f_equal.
    unfold doubled. apply interpolate_ext; [lia|]. intros j Lj. unfold image_of at 1.
    specialize (V1 j x Lj Lx). now rewrite (nth_error_nth t' _ r0 V1).
  - intros i Hi. apply U2. intros a b La Lb. rewrite Nat.add_comm. apply Hi; lia.
Qed.

Lemma doubled_ext n m f g x y : x < 2 * n -> y < 2 * m -> (forall i j, i < n -> j < m -> f i j = g i j) ->
  dbl n m f x y = dbl n m g x y.
Proof.
  intros Lx Ly E. unfold doubled. apply interpolate_ext; [lia|]. intros j Lj.
  apply interpolate_ext; [lia|]. auto.
Qed.

(** square images: all doublings *)
Lemma sift_upsample_square (temp octave src : list A) W n : 0 < W -> 0 < n ->
  W * W <= length src -> (W * 2 ^ n) * (W * 2 ^ n) <= length temp -> (W * 2 ^ n) * (W * 2 ^ n) <= length octave ->
  exists temp' octave', sift_upsample radd half temp octave src W W n = Some (temp', octave') /\
    filled (fun y x => y * (W * 2 ^ n) + x)
      (fun y x => doubled_times radd half n W W (image_of r0 src W) x y) (W * 2 ^ n) (W * 2 ^ n) octave octave'.
Proof.
  intros Lw Ln Hs Ht Ho.
  assert (Pn : forall k, k <= n -> 0 < 2 ^ k /\ 2 ^ k <= 2 ^ n).
  { intros k L. split; [apply Nat.neq_0_lt_0, Nat.pow_nonzero; lia|apply Nat.pow_le_mono_r; lia]. }
  assert (P2 : 2 <= 2 ^ n) by (apply (Pn 1); lia).
  assert (B0 : (W * 2) * (W * 2) <= (W * 2 ^ n) * (W * 2 ^ n))
    by (apply Nat.mul_le_mono; apply Nat.mul_le_mono_l; exact P2).
  unfold sift_upsample.
  destruct (double_rows_twice temp octave src W W Lw Lw Hs) as (t1 & o1 & E1 & E2 & L1 & F1); [lia|lia|].
  rewrite E1. cbn [obind]. rewrite E2. cbn [obind].
  destruct (iter_from_inv (fun k '(t, o) => length t = length temp /\
      filled (fun y x => y * (W * 2 ^ k) + x)
      (fun y x => doubled_times radd half k W W (image_of r0 src W) x y) (W * 2 ^ k) (W * 2 ^ k) octave o)
      (double_more radd half W W) n (n - 1) 1 (t1, o1)) as ([t o] & E & _ & F); [lia| | |].
  - split; [exact L1|]. cbn [doubled_times]. replace (W * 2 ^ 1) with (2 * W) by (cbn; lia).
    replace (W * 2 ^ 0) with W by (cbn; lia). exact F1.
  - intros k [t o] L0 Lk (Lt & Lo & V & U). cbn [double_more].
    destruct (Pn (k + 1)) as [_ Pk]; [lia|]. destruct (Pn k) as [Pk0 _]; [lia|].
    assert (Ek : 2 ^ (k + 1) = 2 * 2 ^ k) by (rewrite Nat.pow_add_r; cbn; lia).
    set (w := W * 2 ^ k) in *.
    assert (Lw' : 0 < w) by (unfold w; nia).
    assert (Bw : 2 * w <= W * 2 ^ n) by (unfold w; nia).
    assert (Bq : (2 * w) * (2 * w) <= (W * 2 ^ n) * (W * 2 ^ n)) by (apply Nat.mul_le_mono; auto).
    destruct (double_rows_twice t o o w w) as (t' & o' & E3 & E4 & L4 & F4); [lia|lia|lia|lia|lia|].
    rewrite E3. cbn [obind]. rewrite E4. cbn [obind].
    eexists; split; [reflexivity|]. split; [lia|].
    replace (W * 2 ^ (k + 1)) with (2 * w) by (unfold w; lia).
    destruct F4 as (L5 & V5 & U5). split; [lia|]. split.
    + intros y x Ly Lx. rewrite V5 by auto. f_equal. rewrite Nat.add_1_r. cbn [doubled_times]. fold w.
      apply doubled_ext; [auto|auto|]. intros i j Li Lj. unfold image_of at 1.
      rewrite (Nat.add_comm i). now rewrite (nth_error_nth o _ r0 (V j i Lj Li)).
    + intros i Hi. rewrite U5 by exact Hi. apply U. intros a b La Lb X.
      destruct (Nat.lt_ge_cases i (2 * w * (2 * w))) as [Li|Li].
      * apply (Hi (i / (2 * w)) (i mod (2 * w))).
        -- apply Nat.div_lt_upper_bound; lia.
        -- apply Nat.mod_upper_bound; lia.
        -- pose proof (Nat.div_mod i (2 * w) ltac:(lia)). nia.
      * nia.
  - rewrite E. exists t, o. split; [reflexivity|exact F].
Qed.
End Ringed.

(** ** downsampling *)
Lemma down_count W step : 0 < step -> forall j, j * step < W - (step - 1) <-> j < W / step.
Proof.
  intros P j. pose proof (Nat.div_mod W step ltac:(lia)) as E.
  pose proof (Nat.mod_upper_bound W step ltac:(lia)) as U. split; intro L.
  - assert (X : step * (j + 1) <= W) by nia. apply Nat.div_le_mono with (c := step) in X; [|lia].
    rewrite Nat.mul_comm, Nat.div_mul in X by lia. lia.
  - assert (X : step * (j + 1) <= step * (W / step)) by (apply Nat.mul_le_mono_l; lia). lia.
Qed.
Lemma ceil_count H step : 0 < step -> forall j, j * step < H <-> j < ceil_div H step.
Proof.
  intros P j. unfold ceil_div. rewrite <- down_count by exact P. lia.
Qed.

Section Down.
Context {A : Type} (d : A).
Variables (src dst0 : list A) (W H step : nat).
Hypothesis Hs : W * H <= length src.
Hypothesis Ps : 0 < step.
Let w := W / step.
Let hh := ceil_div H step.
Hypothesis Hd : w * hh <= length dst0.
Let pos := fun y x => y * w + x.
Let val := fun y x => image_of d src W (x * step) (y * step).
Let inj : inj2 pos hh w := inj_rows w hh w (le_n _).
Let bound : forall a b, a < hh -> b < w -> pos a b < length dst0.
Proof. intros a b La Lb. unfold pos. nia. Qed.
Let Pt (y x : nat) := painted pos val hh w dst0 (before y x).

Lemma down_row_ok y dst : y < hh -> Pt y 0 dst ->
  exists dst', down_row src W step (y * step) (Z.of_nat (y * w), dst) =
    Some (Z.of_nat ((y + 1) * w), dst') /\ Pt (y + 1) 0 dst'.
Proof.
  intros Ly P0. unfold down_row.
  assert (Lys : y * step < H) by (apply ceil_count; auto).
  destruct (for_step_inv (fun x '(dp, p, dst) => dp = Z.of_nat (y * w + x) /\
     p = Z.of_nat (x * step + y * step * W) /\ Pt y x dst) (down_pixel src step) (W - (step - 1)) step w
     (down_count W step Ps) (S W) 0 (Z.of_nat (y * w), (Z.of_nat (y * step) * Z.of_nat W)%Z, dst))
    as ([[dp p] dst'] & E & -> & _ & P).
  - lia.
  - pose proof (Nat.div_le_upper_bound W step W ltac:(lia) ltac:(nia)). fold w in H0. lia.
  - split; [lia|]. split; [lia|exact P0].
  - intros x [[dp p] dst1] _ Lx (-> & -> & P). cbn [down_pixel].
    assert (Lxs : x * step < W - (step - 1)) by (apply down_count; auto).
    rewrite (zget_nat src _ _ d eq_refl) by nia. cbn [obind].
    edestruct (painted_put pos val hh w dst0 (before y x) dst1 (Z.of_nat (y * w + x)) y x) as [E1 P1];
      [exact P|exact inj|exact Ly|exact Lx|exact bound|reflexivity|reflexivity|].
    unfold val, image_of in E1, P1. rewrite E1. cbn [obind].
    eexists; split; [reflexivity|]. split; [lia|]. split; [nia|].
    revert P1. apply painted_weaken. intros a b La Lb [X|[-> X]]; [left; left; auto|].
    destruct (Nat.eq_dec b x); [right; auto|left; right; lia].
  - cbn [Nat.mul] in E. rewrite E. cbn [obind]. exists dst'. split; [f_equal; f_equal; f_equal; lia|].
    revert P. apply painted_weaken. intros a b La Lb [X|[X Y]]; [|lia].
    destruct (Nat.eq_dec a y); [right; lia|left; lia].
Qed.

Lemma down_rows_ok : exists dst, down_rows dst0 src W H step = Some dst /\ filled pos val hh w dst0 dst.
Proof.
  unfold down_rows.
  destruct (for_step_inv (fun y '(dp, dst) => dp = Z.of_nat (y * w) /\ Pt y 0 dst)
     (down_row src W step) H step hh (ceil_count H step Ps) (S H) 0 (0%Z, dst0)) as ([dp dst] & E & _ & P).
  - lia.
  - unfold hh, ceil_div. assert ((H + (step - 1)) / step <= H); [|lia].
    apply Nat.lt_succ_r. apply Nat.div_lt_upper_bound; [lia|]. nia.
  - split; [reflexivity|]. apply painted_start. intros a b _ _ [X|[_ X]]; lia.
  - intros y [dp dst] _ Ly (-> & P). destruct (down_row_ok y dst Ly P) as (dst' & E & P'). rewrite E.
    eexists; split; [reflexivity|]. split; [reflexivity|exact P'].
  - cbn [Nat.mul] in E. rewrite E. cbn [obind]. exists dst. split; [reflexivity|].
    eapply painted_filled; [|exact P]. intros a b La Lb. left. lia.
Qed.
End Down.

Lemma copy_pixels_ok {A} (d : A) (dst src : list A) n : n <= length src -> n <= length dst ->
  exists dst', copy_pixels dst src n = Some dst' /\ length dst' = length dst /\
    (forall i, i < n -> nth_error dst' i = Some (nth i src d)) /\ (forall i, n <= i -> nth_error dst' i = nth_error dst i).
Proof.
  intros Ls Ld. unfold copy_pixels.
  destruct (iter_inv (fun k o => length o = length dst /\ (forall i, i < k -> nth_error o i = Some (nth i src d)) /\
     (forall i, k <= i -> nth_error o i = nth_error dst i))
    (fun i dst => do v <- aget src i; aset dst i v) n dst) as (o & E & P).
  - split; [reflexivity|]. split; [lia|reflexivity].
  - intros j o Lj (L & V & U). rewrite (aget_nth src j d) by lia. cbn [obind]. rewrite aset_lt by lia.
    eexists; split; [reflexivity|]. split; [now rewrite upd_length|]. split.
    + intros i Li. destruct (Nat.eq_dec i j) as [->|X].
      * apply nth_error_upd_eq. lia.
      * rewrite nth_error_upd_neq by lia. apply V. lia.
    + intros i Li. rewrite nth_error_upd_neq by lia. apply U. lia.
  - eauto.
Qed.
