(** Proofs about the scale space of the SIFT filter. *)
From Coq Require Import List Arith ZArith Lia Bool QArith Qcanon Lqa.
From Verif Require Import Base Loop Rat Gauss_Model Gauss_Proofs ImOp_Model ImOp_Spec ImOp_Props ImConv_Proofs MserSort_Proofs Kmeans_Spec
  Homker_Proofs Quickshift_Model Sift_Model Sift_Spec.
Import ListNotations.
Local Open Scope nat_scope.

Notation "l @ i" := (nth i l 0%Qc) (at level 9, no associativity).

(** *** Overwriting part of an array *)
Lemma skip_skip m : forall n (l : list Qc), skipn m (skipn n l) = skipn (n + m) l.
Proof. intros n. induction n as [|n IH]; intros l; [reflexivity|]. destruct l; cbn [skipn plus]; [now destruct m|apply IH]. Qed.
Definition put (off n : nat) (v : nat -> Qc) (l : list Qc) : list Qc := firstn off l ++ map v (seq 0 n) ++ skipn (off + n) l.
Lemma put_length off n v l : off + n <= length l -> length (put off n v l) = length l.
Proof. intros L. unfold put. rewrite !app_length, firstn_length, map_length, seq_length, skipn_length. lia. Qed.
Lemma nth_skipn_ k : forall (l : list Qc) i, nth i (skipn k l) 0%Qc = l@(k + i).
Proof. induction k as [|k IH]; intros l i; [reflexivity|]. destruct l; cbn [skipn plus nth]; [now destruct i|apply IH]. Qed.
Lemma nth_firstn_ k : forall (l : list Qc) i, i < k -> nth i (firstn k l) 0%Qc = l@i.
Proof. induction k as [|k IH]; intros l i L; [lia|]. destruct l, i; cbn [firstn nth]; auto. apply IH. lia. Qed.
Lemma nth_map_seq n (v : nat -> Qc) i : i < n -> nth i (map v (seq 0 n)) 0%Qc = v i.
Proof. intros L. rewrite nth_indep with (d' := v 0) by now rewrite map_length, seq_length. rewrite map_nth. now rewrite seq_nth. Qed.
Lemma nth_put off n v l i : off + n <= length l ->
  (put off n v l)@i = if (off <=? i) && (i <? off + n) then v (i - off) else l@i.
Proof.
  intros L. unfold put. destruct (off <=? i) eqn:E; [apply Nat.leb_le in E|apply Nat.leb_gt in E]; cbn [andb].
  - rewrite app_nth2, firstn_length, Nat.min_l by (rewrite ?firstn_length; lia).
    destruct (i <? off + n) eqn:E2; [apply Nat.ltb_lt in E2|apply Nat.ltb_ge in E2].
    + rewrite app_nth1 by (rewrite map_length, seq_length; lia). now rewrite nth_map_seq by lia.
    + rewrite app_nth2 by (rewrite map_length, seq_length; lia). rewrite map_length, seq_length, nth_skipn_. f_equal. lia.
  - rewrite app_nth1 by (rewrite firstn_length; lia). now apply nth_firstn_.
Qed.
Lemma put_char off n v l l' : off + n <= length l -> length l' = length l ->
  (forall i, i < length l -> l'@i = if (off <=? i) && (i <? off + n) then v (i - off) else l@i) -> l' = put off n v l.
Proof.
  intros L E C. apply nth_ext with (d := 0%Qc) (d' := 0%Qc); [now rewrite put_length|].
  intros i Li. rewrite nth_put by auto. apply C. lia.
Qed.
Lemma put_ext off n v v' l : (forall i, i < n -> v i = v' i) -> put off n v l = put off n v' l.
Proof. intros E. unfold put. do 2 f_equal. apply map_ext_in. intros i Hi. apply in_seq in Hi. apply E. lia. Qed.
Lemma zget_nth l (i : nat) : i < length l -> zget l (Z.of_nat i) = Some (l@i).
Proof. intros L. unfold zget. destruct (Z.ltb_spec (Z.of_nat i) 0); [lia|]. rewrite Nat2Z.id. now apply aget_nth. Qed.
Lemma zset_nth (l : list Qc) (i : nat) v : i < length l -> zset l (Z.of_nat i) v = Some (upd l i v).
Proof. intros L. unfold zset. destruct (Z.ltb_spec (Z.of_nat i) 0); [lia|]. rewrite Nat2Z.id. now apply aset_lt. Qed.

(** *** Upsampling *)
Definition ups (W H : nat) (A : nat -> Qc) (i : nat) : Qc := between W (fun x => A (x + i mod H * W)) (i / H).
Lemma cell (W H x y : nat) : x < W -> y < H -> x + y * W < W * H.
Proof. nia. Qed.
Lemma pos_mod H y X : y < H -> (y + X * H) mod H = y.
Proof. intros L. rewrite Nat.mod_add by lia. now apply Nat.mod_small. Qed.
Lemma pos_div H y X : y < H -> (y + X * H) / H = X.
Proof. intros L. rewrite Nat.div_add by lia. now rewrite Nat.div_small. Qed.
Lemma pos_eq H i y X : i mod H = y -> i / H = X -> 0 < H -> i = y + X * H.
Proof. intros <- <- L. rewrite (Nat.div_mod i H) at 1 by lia. lia. Qed.

Lemma two_ne : nq 2 <> 0%Qc.
Proof. intros E. apply (f_equal this) in E. vm_compute in E. discriminate. Qed.
Lemma two_sum : nq 2 = (1 + 1)%Qc.
Proof. apply qc_eq. vm_compute. reflexivity. Qed.
Lemma half_double b : ((b + b) / nq 2)%Qc = b.
Proof. pose proof two_ne as N. rewrite two_sum in *. field. exact N. Qed.

Section Up.
Variables (W H : nat) (src dst0 : list Qc).
Hypothesis HW : 0 < W.
Hypothesis HH : 0 < H.
Hypothesis Hsrc : W * H <= length src.
Hypothesis Hdst : 2 * (W * H) <= length dst0.
Let U := ups W H (fun i => src@i).
(** rows before y, and of row y the first X columns, are written *)
Definition up_done (y X i : nat) : bool := (i mod H <? y) || ((i mod H =? y) && (i / H <? X)).
Definition up_inv (y X : nat) (dst : list Qc) : Prop := length dst = length dst0 /\
  forall i, dst@i = if (i <? 2 * (W * H)) && up_done y X i then U i else dst0@i.

Lemma up_step y X dst v : y < H -> X < 2 * W -> up_inv y X dst -> v = U (y + X * H) ->
  zset dst (Z.of_nat y + Z.of_nat X * Z.of_nat H) v = Some (upd dst (y + X * H) v) /\ up_inv y (X + 1) (upd dst (y + X * H) v).
Proof.
  intros Ly LX (L & C) ->. assert (P : y + X * H < 2 * (W * H)) by nia.
  split; [replace (Z.of_nat y + Z.of_nat X * Z.of_nat H)%Z with (Z.of_nat (y + X * H)) by lia; apply zset_nth; lia|].
  split; [now rewrite upd_length|]. intros i. rewrite nth_upd by lia. rewrite C. unfold up_done.
  destruct (Nat.eqb_spec i (y + X * H)) as [->|N].
  - rewrite pos_mod, pos_div by auto. rewrite Nat.eqb_refl.
    replace (y + X * H <? 2 * (W * H)) with true by (symmetry; now apply Nat.ltb_lt).
    replace (X <? X + 1) with true by (symmetry; apply Nat.ltb_lt; lia). now rewrite orb_true_r.
  - destruct (Nat.eqb_spec (i mod H) y) as [E|E]; [|reflexivity].
    replace (i / H <? X + 1) with (i / H <? X); [reflexivity|].
    assert (i / H <> X) by (intros E2; apply N; now apply pos_eq).
    destruct (Nat.ltb_spec (i / H) X), (Nat.ltb_spec (i / H) (X + 1)); try reflexivity; lia.
Qed.
Lemma U_even y j : y < H -> j < W -> U (y + (2 * j) * H) = src@(j + y * W).
Proof.
  intros Ly Lj. unfold U, ups. rewrite pos_mod, pos_div by auto. unfold between.
  replace (Nat.even (2 * j)) with true by (symmetry; now rewrite Nat.even_mul).
  replace (2 * j / 2) with j by (rewrite Nat.mul_comm, Nat.div_mul; lia). reflexivity.
Qed.
Lemma U_odd y j : y < H -> j < W -> U (y + (2 * j + 1) * H) = half (src@(j + y * W) + src@(Nat.min (j + 1) (W - 1) + y * W)).
Proof.
  intros Ly Lj. unfold U, ups. rewrite pos_mod, pos_div by auto. unfold between.
  replace (Nat.even (2 * j + 1)) with false by (rewrite Nat.even_add, Nat.even_mul; reflexivity).
  replace ((2 * j + 1) / 2) with j; [reflexivity|]. apply Nat.div_unique with (r := 1); lia.
Qed.

Lemma up_row_ok y dst : y < H -> up_inv y 0 dst -> exists dst',
  up_row W H src y (Z.of_nat (y * W), Z.of_nat y, dst) = Some (Z.of_nat ((y + 1) * W), Z.of_nat (y + 1), dst') /\ up_inv (y + 1) 0 dst'.
Proof.
  intros Ly I. unfold up_row. rewrite zget_nth by nia. cbn [obind].
  match goal with |- context [iter (W - 1) ?bd ?v0] =>
    destruct (iter_inv (fun j '(sp, dp, a, b, d) => sp = Z.of_nat (y * W + j + 1) /\ dp = (Z.of_nat y + Z.of_nat (2 * j) * Z.of_nat H)%Z /\
      a = src@(j + y * W) /\ b = a /\ up_inv y (2 * j) d) bd (W - 1) v0) as ([[[[sp dp] a] b] d] & E & E1 & E2 & E3 & E4 & J) end.
  - split; [lia|]. split; [lia|]. rewrite Nat.add_0_l. auto.
  - intros j [[[[sp dp] a] b] d] Lj (-> & -> & -> & -> & J). rewrite zget_nth by nia. cbn [obind].
    destruct (up_step y (2 * j) d (src@(j + y * W)) Ly ltac:(lia) J ltac:(symmetry; apply U_even; lia)) as (-> & J1). cbn [obind].
    destruct (up_step y (2 * j + 1) _ (half (src@(j + y * W) + src@(y * W + j + 1))) Ly ltac:(lia) J1) as (E & J2).
    { rewrite U_odd by lia. rewrite Nat.min_l by lia. do 2 f_equal. f_equal. lia. }
    replace (Z.of_nat y + Z.of_nat (2 * j) * Z.of_nat H + Z.of_nat H)%Z with (Z.of_nat y + Z.of_nat (2 * j + 1) * Z.of_nat H)%Z by lia.
    rewrite E. cbn [obind]. eexists; split; [reflexivity|].
    split; [lia|]. split; [lia|]. split; [f_equal; lia|]. split; [reflexivity|].
    replace (2 * (j + 1)) with (2 * j + 1 + 1) by lia. exact J2.
  - rewrite E. cbn [obind]. subst sp dp a b.
    destruct (up_step y (2 * (W - 1)) d (src@(W - 1 + y * W)) Ly ltac:(lia) J ltac:(symmetry; apply U_even; lia)) as (-> & J1). cbn [obind].
    destruct (up_step y (2 * (W - 1) + 1) _ (src@(W - 1 + y * W)) Ly ltac:(lia) J1) as (E1 & J2).
    { rewrite U_odd by lia. rewrite Nat.min_r by lia. unfold half. now rewrite half_double. }
    replace (Z.of_nat y + Z.of_nat (2 * (W - 1)) * Z.of_nat H + Z.of_nat H)%Z with (Z.of_nat y + Z.of_nat (2 * (W - 1) + 1) * Z.of_nat H)%Z by lia.
    rewrite E1. cbn [obind]. eexists; split; [f_equal; f_equal; f_equal; nia|].
    destruct J2 as (L & C). split; [exact L|]. intros i. rewrite C. unfold up_done.
    destruct (i <? 2 * (W * H)) eqn:Li; [apply Nat.ltb_lt in Li|reflexivity]. cbn [andb].
    assert (i / H < 2 * W) by (apply Nat.div_lt_upper_bound; nia).
    replace (i / H <? 2 * (W - 1) + 1 + 1) with true by (symmetry; apply Nat.ltb_lt; lia).
    rewrite andb_true_r.
    destruct (Nat.ltb_spec (i mod H) y), (Nat.eqb_spec (i mod H) y), (Nat.ltb_spec (i mod H) (y + 1)); cbn [orb andb]; try lia; try reflexivity.
    all: destruct (i mod H =? y + 1); reflexivity.
Qed.
Lemma upsample_ok : upsample_rows dst0 src W H = Some (put 0 (2 * (W * H)) U dst0).
Proof.
  unfold upsample_rows.
  match goal with |- context [iter H ?bd ?v0] =>
    destruct (iter_inv (fun y '(sp, dp, d) => sp = Z.of_nat (y * W) /\ dp = Z.of_nat y /\ up_inv y 0 d) bd H v0) as ([[sp dp] d] & E & _ & _ & L & C) end.
  - split; [reflexivity|]. split; [reflexivity|]. split; [reflexivity|]. intros i. unfold up_done.
    replace (i mod H <? 0) with false by reflexivity. replace (i / H <? 0) with false by reflexivity. cbn [orb].
    rewrite andb_false_r. now rewrite andb_false_r.
  - intros y [[sp dp] d] Ly (-> & -> & I). destruct (up_row_ok y d Ly I) as (d' & -> & I').
    eexists; split; [reflexivity|]. cbn beta iota. split; [reflexivity|]. split; [reflexivity|exact I'].
  - rewrite E. cbn [obind]. f_equal. apply put_char; [lia|exact L|]. intros i Li. rewrite C. rewrite Nat.sub_0_r.
    cbn [Nat.leb plus]. destruct (i <? 2 * (W * H)) eqn:E2; [|reflexivity]. unfold up_done.
    replace (i mod H <? H) with true by (symmetry; apply Nat.ltb_lt, Nat.mod_upper_bound; lia). reflexivity.
Qed.
End Up.

Lemma between_ext n f g X : X / 2 < n -> (forall x, x < n -> f x = g x) -> between n f X = between n g X.
Proof. intros L E. unfold between. rewrite !E by lia. reflexivity. Qed.
Lemma half_lt X W : X < 2 * W -> X / 2 < W.
Proof. intros L. apply Nat.div_lt_upper_bound; lia. Qed.
Lemma ups_ext W H A B i : 0 < W -> 0 < H -> i < 2 * (W * H) -> (forall j, j < W * H -> A j = B j) -> ups W H A i = ups W H B i.
Proof.
  intros HW HH Li E. unfold ups. apply between_ext.
  - apply half_lt, Nat.div_lt_upper_bound; nia.
  - intros x Lx. apply E. pose proof (Nat.mod_upper_bound i H). nia.
Qed.
(** two passes double the image *)
Lemma ups_twice W H A i : 0 < W -> 0 < H -> i < 4 * (W * H) ->
  ups H (2 * W) (ups W H A) i = doubled W H (fun x y => A (y * W + x)) (i mod (2 * W)) (i / (2 * W)).
Proof.
  intros HW HH Li. unfold ups at 1. unfold doubled. apply between_ext.
  - apply half_lt, Nat.div_lt_upper_bound; nia.
  - intros y Ly. unfold ups. rewrite pos_mod, pos_div by auto. apply between_ext.
    + apply half_lt, Nat.mod_upper_bound. lia.
    + intros x Lx. f_equal. lia.
Qed.

(** *** Downsampling *)
Lemma put_snoc n v l : n < length l -> upd (put 0 n v l) n (v n) = put 0 (n + 1) v l.
Proof.
  intros L. apply put_char; [lia|now rewrite upd_length, put_length by lia|].
  intros i Li. rewrite nth_upd by (rewrite put_length; lia). rewrite nth_put by lia. rewrite !Nat.sub_0_r. cbn [Nat.leb andb plus].
  destruct (Nat.eqb_spec i n) as [->|N].
  - now replace (n <? n + 1) with true by (symmetry; apply Nat.ltb_lt; lia).
  - destruct (Nat.ltb_spec i n), (Nat.ltb_spec i (n + 1)); try reflexivity; lia.
Qed.
Lemma put_none v l : put 0 0 v l = l.
Proof. reflexivity. Qed.
Lemma downsample_ok dst src base w h d (D := 2 ^ d) (q := w / D) (rows := (h + D - 1) / D) (a := match src with Some a => a | None => dst end) :
  0 < q -> rows * q <= length dst -> base + w * h <= length a -> (src = None -> rows * q <= base) ->
  downsample dst src base w h d = Some (put 0 (rows * q) (fun i => a@(base + i / q * D * w + i mod q * D)) dst).
Proof.
  intros Hq Hd Ha Hb. unfold downsample. fold D. fold q. fold rows.
  assert (HD : 0 < D) by (unfold D; apply Nat.neq_0_lt_0, Nat.pow_nonzero; lia).
  set (v := fun i => a@(base + i / q * D * w + i mod q * D)).
  match goal with |- context [iter rows ?bd ?v0] =>
    destruct (iter_inv (fun y '(dp, dd) => dp = y * q /\ dd = put 0 (y * q) v dst) bd rows v0) as ([dp dd] & E & _ & ->) end.
  - split; [reflexivity|]. now rewrite put_none.
  - intros y [dp dd] Ly (-> & ->).
    match goal with |- context [iter q ?bd ?v0] =>
      destruct (iter_inv (fun x '(dp, dd) => dp = y * q + x /\ dd = put 0 (y * q + x) v dst) bd q v0) as ([dp dd] & E & -> & ->) end.
    + rewrite Nat.add_0_r. auto.
    + intros x [dp dd] Lx (-> & ->).
      assert (Ln : y * q + x < rows * q) by nia.
      assert (Lr : y * D < h).
      { assert (D * rows <= h + D - 1) by (unfold rows; apply Nat.mul_div_le; lia). nia. }
      assert (Lx' : x * D < w). { assert (D * q <= w) by (unfold q; apply Nat.mul_div_le; lia). nia. }
      assert (R : aget (match src with Some a => a | None => put 0 (y * q + x) v dst end) (base + y * D * w + x * D) = Some (v (y * q + x))).
      { assert (P : y * D * w + x * D < w * h) by nia.
        assert (V : v (y * q + x) = a@(base + y * D * w + x * D)).
        { unfold v. replace (y * q + x) with (x + y * q) by lia. now rewrite pos_div, pos_mod by auto. }
        rewrite V. destruct src as [a0|].
        - apply aget_nth. unfold a in *. lia.
        - specialize (Hb eq_refl). erewrite aget_nth by (rewrite put_length; unfold a in *; lia).
          rewrite nth_put by lia. replace (base + y * D * w + x * D <? 0 + (y * q + x)) with false by (symmetry; apply Nat.ltb_ge; lia).
          now rewrite andb_false_r. }
      rewrite R. cbn [obind]. rewrite aset_lt by (rewrite put_length; lia). cbn [obind]. eexists; split; [reflexivity|].
      rewrite Nat.add_assoc. split; [reflexivity|]. apply put_snoc. lia.
    + eexists; split; [exact E|]. cbn beta iota. replace ((y + 1) * q) with (y * q + q) by lia. auto.
  - rewrite E. reflexivity.
Qed.
Lemma copy_ok n : forall (src dst : list Qc), n <= length src -> n <= length dst ->
  iter n (fun i o => do v <- aget src i; aset o i v) dst = Some (put 0 n (fun i => src@i) dst).
Proof.
  intros src dst L L'.
  match goal with |- iter n ?bd ?v0 = _ =>
    destruct (iter_inv (fun y dd => dd = put 0 y (fun i => src@i) dst) bd n v0) as (dd & E & ->) end.
  - reflexivity.
  - intros y dd Ly ->. erewrite aget_nth by lia. cbn [obind]. rewrite aset_lt by (rewrite put_length; lia).
    eexists; split; [reflexivity|]. exact (put_snoc y (fun i => src@i) dst ltac:(lia)).
  - exact E.
Qed.

(** *** Smoothing *)
Lemma filled_put w h val dst dst' : 0 < h -> w * h <= length dst -> filled (out_pos true h) val w h dst dst' ->
  dst' = put 0 (w * h) (fun i => val (i / h) (i mod h)) dst.
Proof.
  intros Hh L (E & F & N). apply put_char; [lia|exact E|]. intros i Li. cbn [Nat.leb andb plus]. rewrite Nat.sub_0_r.
  destruct (Nat.ltb_spec i (w * h)) as [B|B].
  - assert (i / h < w) by (apply Nat.div_lt_upper_bound; nia). assert (i mod h < h) by (apply Nat.mod_upper_bound; lia).
    apply nth_error_nth. rewrite <- F by auto. f_equal. unfold out_pos. rewrite (Nat.div_mod i h) at 1 by lia. lia.
  - assert (X : nth_error dst' i = nth_error dst i). { apply N. intros a b La Lb. unfold out_pos. nia. }
    rewrite <- !nth_default_eq. unfold nth_default. now rewrite X.
Qed.
Lemma padded_ext {A} (r : A) z n f g p : 0 < n -> (forall i, i < n -> f i = g i) -> padded r z n f p = padded r z n g p.
Proof.
  intros L E. unfold padded. destruct ((0 <=? p)%Z && (p <? Z.of_nat n)%Z) eqn:B.
  - apply andb_true_iff in B. destruct B as [B1 B2]. apply Z.leb_le in B1. apply Z.ltb_lt in B2. apply E. lia.
  - destruct z; [reflexivity|]. destruct (p <? 0)%Z; apply E; lia.
Qed.
Lemma ksum_ext n f g : (forall i, i < n -> f i = g i) -> ksum n f = ksum n g.
Proof. induction n as [|n IH]; intros E; [reflexivity|]. cbn [sum]. rewrite IH by (intros; apply E; lia). now rewrite E by lia. Qed.
Lemma blur1_ext expo s n f g x : 0 < n -> (forall i, i < n -> f i = g i) -> blur1 expo s n f x = blur1 expo s n g x.
Proof. intros L E. unfold blur1. apply ksum_ext. intros i _. cbn zeta. now rewrite (padded_ext _ _ n f g) by auto. Qed.
Lemma blur_ext expo s w h I J : 0 < w -> 0 < h -> same_image w h I J -> same_image w h (blur expo s w h I) (blur expo s w h J).
Proof. intros Hw Hh E x y Lx Ly. unfold blur. apply blur1_ext; [auto|]. intros x' Lx'. apply blur1_ext; auto. Qed.
Lemma fold_ksum (v : nat -> Qc) n : forall a, fold_left Qcplus (map v (seq 0 n)) a = (a + ksum n v)%Qc.
Proof.
  induction n as [|n IH]; intros a; [cbn; ring|].
  rewrite seq_S, map_app, fold_left_app, IH. cbn [map fold_left sum]. rewrite Nat.add_0_l. ring.
Qed.

Section Smooth.
Variables (expo : Qc -> Qc).
Lemma width_reach sigma : filter_width sigma = reach sigma.
Proof. unfold filter_width, reach, qceil. apply Nat.max_comm. Qed.
Lemma gauss_length sigma : length (gauss_filter expo sigma) = 2 * filter_width sigma + 1.
Proof. unfold gauss_filter. cbv zeta. now rewrite !map_length, seq_length. Qed.
Lemma gauss_at sigma i : i < 2 * reach sigma + 1 ->
  (gauss_filter expo sigma)@i = (bell expo sigma (Z.of_nat i - Z.of_nat (reach sigma)) / bell_sum expo sigma)%Qc.
Proof.
  intros L. unfold gauss_filter. cbv zeta. rewrite width_reach. rewrite map_map, nth_map_seq by auto.
  rewrite fold_ksum, Qcplus_0_l. unfold half. reflexivity.
Qed.
Lemma conv_blur sigma n col x :
  conv_at 0%Qc Qcplus Qcmult false n col (gauss_filter expo sigma) (- Z.of_nat (filter_width sigma)) (Z.of_nat (filter_width sigma)) x =
  blur1 expo sigma n col x.
Proof.
  unfold conv_at, blur1. rewrite width_reach. replace (Z.to_nat _) with (2 * reach sigma + 1) by lia.
  apply ksum_ext. intros i Li. cbv zeta. rewrite gauss_at by auto. f_equal. f_equal. lia.
Qed.
End Smooth.

(** *** Well-formed filters *)
Definition frame (f f' : sift) : Prop :=
  f_cfg f' = f_cfg f /\ f_ocur f' = f_ocur f /\ f_ow f' = f_ow f /\ f_oh f' = f_oh f /\
  f_dog f' = f_dog f /\ f_grad f' = f_grad f /\ f_grado f' = f_grado f /\ f_keys f' = f_keys f.
Definition blurred (expo : Qc -> Qc) (sigma : Qc) (w h dst src : nat) (o : list Qc) : list Qc :=
  put (dst * (w * h)) (w * h) (fun i => blur expo sigma w h (stored o (src * (w * h)) w) (i mod w) (i / w)) o.
Section Filters.
Variables (expo : Qc -> Qc).
Record wf (f : sift) : Prop := {
  wf_temp : length (f_temp f) = nel (f_cfg f);
  wf_octave : length (f_octave f) = nel (f_cfg f) * (c_S (f_cfg f) + 3);
  wf_dog : length (f_dog f) = nel (f_cfg f) * (c_S (f_cfg f) + 2);
  wf_grad : length (f_grad f) = nel (f_cfg f) * 2 * (c_S (f_cfg f) + 2);
  wf_cache : (f_fsigma f = 0%Qc /\ f_fwidth f = 0) \/ (f_filt f = gauss_filter expo (f_fsigma f) /\ f_fwidth f = filter_width (f_fsigma f)) }.

Lemma from_offset_put off n v (k : list Qc -> option (list Qc)) l : off + n <= length l ->
  k (skipn off l) = Some (put 0 n v (skipn off l)) -> from_offset off k l = Some (put off n v l).
Proof.
  intros L E. unfold from_offset. replace (off <=? length l) with true by (symmetry; apply Nat.leb_le; lia).
  rewrite E. cbn [obind]. unfold put. cbn [firstn app plus]. now rewrite skip_skip.
Qed.
Lemma width_pos sigma : 0 < filter_width sigma.
Proof. unfold filter_width. lia. Qed.
Lemma smooth_ok f dst src sigma (n := f_ow f * f_oh f) : wf f -> 0 < f_ow f -> 0 < f_oh f -> n <= nel (f_cfg f) ->
  dst < c_S (f_cfg f) + 3 -> src < c_S (f_cfg f) + 3 -> sigma <> 0%Qc ->
  exists f', smooth expo f dst src (f_ow f) (f_oh f) sigma = Some f' /\ wf f' /\ frame f f' /\
    f_octave f' = blurred expo sigma (f_ow f) (f_oh f) dst src (f_octave f).
Proof.
  intros WF Hw Hh Hn Hd Hs Hsig. unfold smooth. fold n.
  set (w := f_ow f) in *. set (h := f_oh f) in *.
  set (cache := if Qc_eq_bool (f_fsigma f) sigma then _ else _).
  assert (C : exists fs, cache = (gauss_filter expo sigma, fs, filter_width sigma) /\ fs = sigma).
  { unfold cache. destruct (Qc_eq_bool (f_fsigma f) sigma) eqn:E.
    - apply Qc_eq_bool_correct in E. destruct (wf_cache f WF) as [[E1 _]|[E1 E2]]; [congruence|].
      exists (f_fsigma f). rewrite E1, E2, E. auto.
    - exists sigma. auto. }
  destruct C as (fs & -> & ->). cbv iota beta.
  assert (LO := wf_octave f WF). assert (LT := wf_temp f WF).
  assert (Nd : dst * n + n <= length (f_octave f)) by (rewrite LO; nia).
  assert (Ns : src * n + n <= length (f_octave f)) by (rewrite LO; nia).
  pose proof (width_pos sigma) as PW.
  replace (filter_width sigma =? 0) with false by (symmetry; apply Nat.eqb_neq; lia).
  set (g := gauss_filter expo sigma). set (W := filter_width sigma) in *.
  assert (GL : length g = 2 * W + 1) by apply gauss_length.
  set (so := skipn (src * n) (f_octave f)).
  assert (LS : length so = length (f_octave f) - src * n) by apply skipn_length.
  assert (Rows : forall m, 0 < m -> (m - 1) / 1 + 1 = m) by (intros m Lm; rewrite Nat.div_1_r; lia).
  destruct (C29_column_convolution Qc 0%Qc 1%Qc Qcplus Qcmult Qcminus Qcopp Qcrt (f_temp f) so h w h w g (- Z.of_nat W) (Z.of_nat W) 1 true false)
    as (temp & E1 & F1); [lia|exact Hh|lia|lia| | |rewrite Rows; lia|].
  { intros x y Lx Ly. rewrite LS. unfold n in *. nia. }
  { intros x k Lx Lk. rewrite Rows in Lk by auto. unfold out_pos. unfold n in *. nia. }
  unfold convcol. rewrite E1. cbn [obind].
  rewrite Rows in F1 by auto.
  apply filled_put in F1; [|exact Hh|unfold n in *; lia].
  destruct (C29_column_convolution Qc 0%Qc 1%Qc Qcplus Qcmult Qcminus Qcopp Qcrt (skipn (dst * n) (f_octave f)) temp w h w h g (- Z.of_nat W) (Z.of_nat W) 1 true false)
    as (o & E2 & F2); [lia|exact Hw|lia|lia| | |rewrite Rows; lia|].
  { intros x y Lx Ly. rewrite F1, put_length by (unfold n in *; lia). unfold n in *. nia. }
  { intros x k Lx Lk. rewrite Rows in Lk by auto. unfold out_pos. rewrite skipn_length. unfold n in *. nia. }
  rewrite Rows in F2 by auto.
  apply filled_put in F2; [|exact Hw|rewrite skipn_length; unfold n in *; lia].
  erewrite from_offset_put with (n := h * w); [|unfold n in *; lia|rewrite E2, F2; reflexivity].
  cbn [obind]. eexists. split; [reflexivity|]. split; [|split].
  - constructor; cbn [f_temp f_octave f_dog f_grad f_cfg f_filt f_fsigma f_fwidth].
    + rewrite F1, put_length by (unfold n in *; lia). exact LT.
    + rewrite put_length by (unfold n in *; lia). exact LO.
    + apply (wf_dog f WF).
    + apply (wf_grad f WF).
    + right. auto.
  - unfold frame. cbn. tauto.
  - cbn [f_octave]. unfold blurred. fold n. rewrite (Nat.mul_comm h w). fold n. apply put_ext. intros i Li.
    rewrite Nat.mul_1_r. unfold g, W. rewrite conv_blur. unfold blur.
    assert (i mod w < w) by (apply Nat.mod_upper_bound; lia). assert (i / w < h) by (apply Nat.div_lt_upper_bound; unfold n in *; nia).
    apply blur1_ext; [exact Hw|]. intros x Lx. unfold pixel. rewrite F1, nth_put by (unfold n in *; lia).
    replace (i / w + x * h <? 0 + w * h) with true by (symmetry; apply Nat.ltb_lt; nia). cbn [Nat.leb andb].
    rewrite Nat.sub_0_r, pos_div, pos_mod by auto. rewrite Nat.mul_1_r. unfold g, W. rewrite conv_blur. apply blur1_ext; [exact Hh|].
    intros y Ly. unfold pixel, so, stored. rewrite nth_skipn_. f_equal. lia.
Qed.
End Filters.

(** *** Sizes of octaves *)
Lemma shift_half x o : shift_left x (- (o + 1)) = shift_left x (- o) / 2.
Proof.
  unfold shift_left. rewrite <- (Z2Nat.inj_div _ 2) by (try lia; apply Z.shiftl_nonneg; lia). f_equal.
  destruct (Z.ltb_spec o 0).
  - rewrite !Z.shiftl_mul_pow2 by lia. replace (- o)%Z with (1 + - (o + 1))%Z by lia. rewrite Z.pow_add_r by lia.
    replace (Z.of_nat x * (2 ^ 1 * 2 ^ (- (o + 1))))%Z with (Z.of_nat x * 2 ^ (- (o + 1)) * 2)%Z by (change (2 ^ 1)%Z with 2%Z; ring).
    now rewrite Z.div_mul.
  - rewrite !Z.shiftl_opp_r. rewrite <- Z.shiftr_shiftr by lia. now rewrite (Z.shiftr_div_pow2 _ 1) by lia.
Qed.
Lemma shift_le x k : forall o, shift_left x (- (o + Z.of_nat k)) <= shift_left x (- o).
Proof.
  induction k as [|k IH]; intros o; [now rewrite Z.add_0_r|].
  replace (o + Z.of_nat (S k))%Z with ((o + Z.of_nat k) + 1)%Z by lia. rewrite shift_half.
  eapply Nat.le_trans; [|apply IH]. apply Nat.div_le_upper_bound; lia.
Qed.
Lemma shift_mono x o o' : (o <= o')%Z -> shift_left x (- o') <= shift_left x (- o).
Proof. intros L. replace o' with (o + Z.of_nat (Z.to_nat (o' - o)))%Z by lia. apply shift_le. Qed.
Lemma shift_up x (k : nat) : shift_left x (Z.of_nat k) = x * 2 ^ k.
Proof.
  unfold shift_left. rewrite Z.shiftl_mul_pow2 by lia. rewrite <- (Nat2Z.id (x * 2 ^ k)). f_equal.
  rewrite Nat2Z.inj_mul, Nat2Z.inj_pow. reflexivity.
Qed.
Lemma shift_down x (k : nat) : shift_left x (- Z.of_nat k) = x / 2 ^ k.
Proof.
  unfold shift_left. rewrite Z.shiftl_opp_r, Z.shiftr_div_pow2 by lia. rewrite <- (Nat2Z.id (x / 2 ^ k)). f_equal.
  rewrite Nat2Z.inj_div, Nat2Z.inj_pow. reflexivity.
Qed.

(** *** The levels of an octave *)
Section Levels.
Variables (expo : Qc -> Qc) (sig : nat -> Qc) (w h : nat).
Hypothesis Hw : 0 < w.
Hypothesis Hh : 0 < h.
Fixpoint filled_levels (k : nat) (o : list Qc) : list Qc :=
  match k with 0 => o | S k => blurred expo (sig k) w h (k + 1) k (filled_levels k o) end.
Lemma blurred_length s dst src o : (dst + 1) * (w * h) <= length o -> length (blurred expo s w h dst src o) = length o.
Proof. intros L. unfold blurred. apply put_length. lia. Qed.
Lemma filled_length k o : (k + 1) * (w * h) <= length o -> length (filled_levels k o) = length o.
Proof. induction k as [|k IH]; intros L; cbn [filled_levels]; [reflexivity|]. rewrite blurred_length; rewrite IH; lia. Qed.
Lemma stored_blurred s dst src o : (dst + 1) * (w * h) <= length o ->
  same_image w h (stored (blurred expo s w h dst src o) (dst * (w * h)) w) (blur expo s w h (stored o (src * (w * h)) w)).
Proof.
  intros L x y Lx Ly. unfold stored at 1, blurred. rewrite nth_put by lia.
  assert (y * w + x < w * h) by nia.
  replace ((dst * (w * h) <=? dst * (w * h) + y * w + x) && (dst * (w * h) + y * w + x <? dst * (w * h) + w * h)) with true
    by (symmetry; apply andb_true_iff; split; [apply Nat.leb_le|apply Nat.ltb_lt]; lia).
  replace (dst * (w * h) + y * w + x - dst * (w * h)) with (x + y * w) by lia. now rewrite pos_mod, pos_div by auto.
Qed.
Lemma stored_other s dst src o l x y : (dst + 1) * (w * h) <= length o -> l <> dst -> x < w -> y < h ->
  stored (blurred expo s w h dst src o) (l * (w * h)) w x y = stored o (l * (w * h)) w x y.
Proof.
  intros L N Lx Ly. unfold stored, blurred. rewrite nth_put by lia.
  assert (y * w + x < w * h) by nia.
  replace ((dst * (w * h) <=? l * (w * h) + y * w + x) && (l * (w * h) + y * w + x <? dst * (w * h) + w * h)) with false; [reflexivity|].
  symmetry. apply andb_false_iff. destruct (Nat.lt_trichotomy l dst) as [|[|]]; [|lia|].
  - left. apply Nat.leb_gt. nia.
  - right. apply Nat.ltb_ge. nia.
Qed.
Lemma filled_same k : forall l o, (k + 1) * (w * h) <= length o -> l <= k ->
  same_image w h (stored (filled_levels k o) (l * (w * h)) w) (levels expo sig w h (stored o 0 w) l).
Proof.
  induction k as [|k IH]; intros l o L Ll.
  - replace l with 0 by lia. intros x y _ _. reflexivity.
  - cbn [filled_levels]. intros x y Lx Ly.
    assert (L' : (k + 1 + 1) * (w * h) <= length (filled_levels k o)) by (rewrite filled_length; lia).
    destruct (Nat.eq_dec l (k + 1)) as [->|N].
    + rewrite stored_blurred by auto. rewrite Nat.add_1_r. cbn [levels]. apply blur_ext; auto.
      replace (k * (w * h)) with (k * (w * h)) by reflexivity. apply IH; lia.
    + rewrite stored_other by auto. apply IH; auto; lia.
Qed.
Lemma levels_ext l I J : same_image w h I J -> same_image w h (levels expo sig w h I l) (levels expo sig w h J l).
Proof. intros E. induction l as [|l IH]; [exact E|]. cbn [levels]. now apply blur_ext. Qed.
End Levels.

(** *** The first level of the first octave *)
Lemma pow_pos k : 0 < 2 ^ k.
Proof. apply Nat.neq_0_lt_0, Nat.pow_nonzero. lia. Qed.
Lemma put_put n m v v' l : n <= m -> m <= length l -> put 0 m v (put 0 n v' l) = put 0 m v l.
Proof.
  intros L L'. apply put_char; [lia|rewrite !put_length; rewrite ?put_length; lia|].
  intros i Li. rewrite nth_put by (rewrite put_length; lia). rewrite nth_put by lia. rewrite Nat.sub_0_r. cbn [Nat.leb andb plus].
  destruct (Nat.ltb_spec i m); [reflexivity|]. destruct (Nat.ltb_spec i n); [lia|reflexivity].
Qed.
Lemma doubled_ext W H I J : 0 < W -> 0 < H -> same_image W H I J -> same_image (2 * W) (2 * H) (doubled W H I) (doubled W H J).
Proof.
  intros HW HH E x y Lx Ly. unfold doubled. apply between_ext; [apply half_lt; lia|]. intros y' Ly'.
  apply between_ext; [apply half_lt; lia|]. intros x' Lx'. now apply E.
Qed.
Section Base.
Variables (w h : nat) (im : list Qc).
Hypothesis Hw : 0 < w.
Hypothesis Hh : 0 < h.
Hypothesis Him : length im = w * h.
(** the contents of the first level after doubling k times *)
Fixpoint enlarged (k : nat) : nat -> Qc :=
  match k with
  | 0 => fun i => im@i
  | S k => let W := w * 2 ^ k in let H := h * 2 ^ k in
    if k =? 0 then ups H (2 * W) (ups W H (enlarged k)) else ups W (2 * H) (ups W H (enlarged k))
  end.
Lemma enlarged_ok k temp octave : (w * 2 ^ S k) * (h * 2 ^ S k) <= length octave -> (w * 2 ^ S k) * (h * 2 ^ S k) <= length temp ->
  exists temp', length temp' = length temp /\
  (do temp <- upsample_rows temp im w h;
   do octave <- upsample_rows octave temp h (2 * w);
   iter k (fun k (st : list Qc * list Qc) =>
      let (temp, octave) := st in
      do temp <- upsample_rows temp octave (w * 2 ^ (k + 1)) (h * 2 ^ (k + 1));
      do octave <- upsample_rows octave temp (w * 2 ^ (k + 1)) (2 * (h * 2 ^ (k + 1)));
      Some (temp, octave)) (temp, octave)) =
  Some (temp', put 0 ((w * 2 ^ S k) * (h * 2 ^ S k)) (enlarged (S k)) octave).
Proof.
  intros Lo Lt. pose proof (pow_pos k) as PK. assert (P2 : 2 ^ S k = 2 * 2 ^ k) by (cbn [Nat.pow]; lia).
  assert (Q : 4 * (w * h) <= (w * 2 ^ S k) * (h * 2 ^ S k)).
  { assert (2 * w <= w * 2 ^ S k) by nia. assert (2 * h <= h * 2 ^ S k) by nia. nia. }
  rewrite upsample_ok by lia. cbn [obind].
  set (t1 := put 0 _ _ temp). assert (L1 : length t1 = length temp) by (apply put_length; lia).
  rewrite upsample_ok by lia. cbn [obind].
  match goal with |- context [iter k ?bd ?v0] =>
    destruct (iter_inv (fun j '(t, o) => length t = length temp /\ o = put 0 ((w * 2 ^ S j) * (h * 2 ^ S j)) (enlarged (S j)) octave) bd k v0)
      as ([t o] & E & Et & ->) end.
  - split; [exact L1|]. cbn [enlarged Nat.eqb Nat.pow]. rewrite !Nat.mul_1_r.
    replace (2 * (h * (2 * w))) with (w * 2 * (h * 2)) by lia. apply put_ext. intros i Li. apply ups_ext; try nia.
    intros j Lj. unfold t1. rewrite nth_put by nia. replace (j <? 0 + 2 * (w * h)) with true by (symmetry; apply Nat.ltb_lt; nia).
    cbn [Nat.leb andb]. now rewrite Nat.sub_0_r.
  - intros j [t o] Lj (Et & ->).
    assert (P3 : 2 ^ S j = 2 ^ (j + 1)) by (now rewrite Nat.add_1_r). rewrite P3.
    assert (PJ := pow_pos (j + 1)). assert (M : 2 ^ (j + 1) * 2 <= 2 ^ S k).
    { replace (2 ^ (j + 1) * 2) with (2 ^ (j + 2)) by (replace (j + 2) with (S (j + 1)) by lia; cbn [Nat.pow]; lia). apply Nat.pow_le_mono_r; lia. }
    set (p := 2 ^ (j + 1)) in *. set (q := 2 ^ S k) in *.
    assert (B : 4 * (w * p * (h * p)) <= length octave). { assert (w * p * 2 <= w * q) by nia. assert (h * p * 2 <= h * q) by nia. nia. }
    assert (B' : 4 * (w * p * (h * p)) <= length temp). { assert (w * p * 2 <= w * q) by nia. assert (h * p * 2 <= h * q) by nia. nia. }
    rewrite upsample_ok; [|nia|nia|rewrite put_length; lia|lia]. cbn [obind].
    set (t2 := put 0 _ _ t). assert (L2 : length t2 = length temp) by (unfold t2; rewrite put_length; lia).
    rewrite upsample_ok; [|nia|nia|rewrite L2; nia|rewrite put_length; nia]. cbn [obind].
    eexists; split; [reflexivity|]. cbn beta iota. split; [exact L2|].
    rewrite put_put by nia. rewrite Nat.add_1_r.
    replace (w * 2 ^ S (S j) * (h * 2 ^ S (S j))) with (2 * (w * p * (2 * (h * p)))) by (unfold p; rewrite Nat.add_1_r; cbn [Nat.pow]; lia).
    apply put_ext. intros i Li.
    change (enlarged (S (S j)) i) with (ups (w * 2 ^ S j) (2 * (h * 2 ^ S j)) (ups (w * 2 ^ S j) (h * 2 ^ S j) (enlarged (S j))) i). rewrite P3.
    apply ups_ext; try nia. intros a La. unfold t2. rewrite nth_put by lia.
    replace (a <? 0 + 2 * (w * p * (h * p))) with true by (symmetry; apply Nat.ltb_lt; nia). cbn [Nat.leb andb]. rewrite Nat.sub_0_r.
    apply ups_ext; try nia. intros b Lb. rewrite nth_put by lia.
    replace (b <? 0 + w * p * (h * p)) with true by (symmetry; apply Nat.ltb_lt; nia). cbn [Nat.leb andb]. rewrite Nat.sub_0_r. reflexivity.
  - exists t. split; [exact Et|exact E].
Qed.
(** doubling once, or a square image, gives the doubled image *)
Lemma enlarged_doubled k : k <= 1 \/ w = h -> forall i, i < (w * 2 ^ k) * (h * 2 ^ k) ->
  enlarged k i = doubled_times k w h (stored im 0 w) (i mod (w * 2 ^ k)) (i / (w * 2 ^ k)).
Proof.
  induction k as [|k IH]; intros C i Li.
  - cbn [enlarged doubled_times Nat.pow]. unfold stored. rewrite Nat.mul_1_r. f_equal. rewrite (Nat.div_mod i w) at 1 by lia. lia.
  - pose proof (pow_pos k). set (W := w * 2 ^ k). set (H0 := h * 2 ^ k).
    assert (HW : 0 < W) by (unfold W; nia). assert (HH : 0 < H0) by (unfold H0; nia).
    assert (E : enlarged (S k) i = ups H0 (2 * W) (ups W H0 (enlarged k)) i).
    { cbn [enlarged]. fold W. fold H0. destruct (Nat.eqb_spec k 0); [reflexivity|]. destruct C as [|E]; [lia|].
      replace H0 with W by (unfold W, H0; now rewrite E). reflexivity. }
    rewrite E. replace (w * 2 ^ S k) with (2 * W) in * by (unfold W; cbn [Nat.pow]; lia).
    replace (h * 2 ^ S k) with (2 * H0) in * by (unfold H0; cbn [Nat.pow]; lia).
    rewrite ups_twice by nia. cbn [doubled_times]. fold W. fold H0. apply doubled_ext; auto.
    + intros x y Lx Ly. rewrite IH; [|destruct C; [left|right]; lia|fold W; fold H0; nia].
      fold W. rewrite (Nat.add_comm (y * W)). now rewrite pos_mod, pos_div by auto.
    + apply Nat.mod_upper_bound. lia.
    + apply Nat.div_lt_upper_bound; nia.
Qed.
End Base.

(** *** The octaves *)
Section Octaves.
Variables (pow : Qc -> Qc -> Qc) (root expo : Qc -> Qc).
(** at least one level and one octave, and the last octave is not empty *)
Record fits (c : config) : Prop := {
  fits_S : 0 < c_S c; fits_O : 0 < c_O c;
  fits_w : 0 < shift_left (c_w c) (- (c_omin c + Z.of_nat (c_O c) - 1));
  fits_h : 0 < shift_left (c_h c) (- (c_omin c + Z.of_nat (c_O c) - 1)) }.
(** what is needed of pow and sqrt *)
Record sane (n : nat) : Prop := {
  sane_pow : forall a b, (0 < a)%Qc -> (0 < pow a b)%Qc; sane_one : (1 < pow (nq 2) (1 / nq n))%Qc;
  sane_root : forall a, (0 < a)%Qc -> (0 < root a)%Qc }.
Definition wide (c : config) (k : nat) : nat := shift_left (c_w c) (- (c_omin c + Z.of_nat k)).
Definition high (c : config) (k : nat) : nat := shift_left (c_h c) (- (c_omin c + Z.of_nat k)).
Definition sig (c : config) (l : nat) : Qc := level_sigma pow root (c_S c) (l + 1).

Lemma fits_wide c k : fits c -> k < c_O c -> 0 < wide c k /\ 0 < high c k.
Proof.
  intros F L. pose proof (fits_w c F) as A. pose proof (fits_h c F) as B. unfold wide, high.
  pose proof (shift_mono (c_w c) (c_omin c + Z.of_nat k) (c_omin c + Z.of_nat (c_O c) - 1) ltac:(lia)).
  pose proof (shift_mono (c_h c) (c_omin c + Z.of_nat k) (c_omin c + Z.of_nat (c_O c) - 1) ltac:(lia)). lia.
Qed.
Lemma wide_nel c k : wide c k * high c k <= nel c.
Proof.
  unfold wide, high, nel. apply Nat.mul_le_mono; apply shift_mono; lia.
Qed.
Lemma wide_S c k : wide c (S k) = wide c k / 2 /\ high c (S k) = high c k / 2.
Proof.
  unfold wide, high. replace (c_omin c + Z.of_nat (S k))%Z with (c_omin c + Z.of_nat k + 1)%Z by lia. split; apply shift_half.
Qed.
Lemma Qc_pos_ne (x : Qc) : (0 < x)%Qc -> x <> 0%Qc.
Proof. intros L ->. exact (Qlt_irrefl _ L). Qed.
Lemma Qc_mul_pos (a b : Qc) : (0 < a)%Qc -> (0 < b)%Qc -> (0 < a * b)%Qc.
Proof. unfold Qclt. rewrite this_mult. change (this 0%Qc) with 0%Q. intros A B. apply Qmult_lt_0_compat; auto. Qed.
Lemma sigma0_pos n : sane n -> (0 < sigma0 pow n)%Qc.
Proof. intros H. apply Qc_mul_pos; [reflexivity|]. apply (sane_pow n H). reflexivity. Qed.
Lemma sig_pos c l : sane (c_S c) -> (0 < sig c l)%Qc.
Proof.
  intros H. pose proof (sigma0_pos _ H) as P0. pose proof (sane_one _ H) as K1. unfold sig, level_sigma, dsigma0.
  set (k := sigmak pow (c_S c)). change (pow (nq 2) (1 / nq (c_S c)))%Qc with k in K1.
  assert (K0 : (0 < k)%Qc) by (eapply Qclt_trans; [|exact K1]; reflexivity).
  assert (KK : (1 < k * k)%Qc).
  { qc_prep. change (this 1%Qc) with 1%Q in *. change (this 0%Qc) with 0%Q in *. nra. }
  apply Qc_mul_pos; [|now apply (sane_pow _ H)]. apply Qc_mul_pos; [exact P0|]. apply (sane_root _ H).
  assert (N : (k * k)%Qc <> 0%Qc). { apply Qc_pos_ne. eapply Qclt_trans; [|exact KK]. reflexivity. }
  replace (1 - 1 / (k * k))%Qc with ((k * k - 1) * / (k * k))%Qc.
  2:{ field. intros Z. apply N. rewrite Z. ring. }
  apply Qc_mul_pos.
  - qc_prep. change (this 1%Qc) with 1%Q in *. change (this 0%Qc) with 0%Q in *. lra.
  - apply Qcinv_pos. eapply Qclt_trans; [|exact KK]. reflexivity.
Qed.

Lemma fill_ok f : wf expo f -> 0 < f_ow f -> 0 < f_oh f -> f_ow f * f_oh f <= nel (f_cfg f) -> sane (c_S (f_cfg f)) ->
  exists f', fill_levels pow root expo f = Some f' /\ wf expo f' /\ frame f f' /\
    f_octave f' = filled_levels expo (sig (f_cfg f)) (f_ow f) (f_oh f) (c_S (f_cfg f) + 2) (f_octave f).
Proof.
  intros WF Hw Hh Hn SN. unfold fill_levels.
  match goal with |- context [iter ?n ?bd ?v0] =>
    destruct (iter_inv (fun l g => wf expo g /\ frame f g /\ f_octave g = filled_levels expo (sig (f_cfg f)) (f_ow f) (f_oh f) l (f_octave f)) bd n v0)
      as (g & E & R) end.
  - split; [exact WF|]. split; [unfold frame; tauto|reflexivity].
  - intros l g Ll (WG & FR & EO). pose proof FR as (E1 & E2 & E3 & E4 & E5 & E6 & E7 & E8).
    destruct (smooth_ok expo g (l + 1) l (sig (f_cfg f) l)) as (g' & E & WG' & FR' & EO'); try rewrite E3; try rewrite E4; try rewrite E1; auto; try lia.
    { apply Qc_pos_ne. now apply sig_pos. }
    unfold sig in E. rewrite E3, E4 in E. exists g'. split; [exact E|]. split; [exact WG'|]. split.
    + unfold frame in *. intuition congruence.
    + rewrite EO', E3, E4, EO. rewrite (Nat.add_1_r l) at 2. reflexivity.
  - exists g. auto.
Qed.

(** *** The first octave *)
Definition base_length (c : config) : nat :=
  if (0 <? c_omin c)%Z then let D := 2 ^ Z.to_nat (c_omin c) in (c_h c + D - 1) / D * (c_w c / D) else nel c.
Definition base_value (c : config) (im : list Qc) : nat -> Qc :=
  if (c_omin c <? 0)%Z then enlarged (c_w c) (c_h c) im (Z.to_nat (- c_omin c))
  else if (0 <? c_omin c)%Z then
    let D := 2 ^ Z.to_nat (c_omin c) in let q := c_w c / D in fun i => im@(i / q * D * c_w c + i mod q * D)
  else fun i => im@i.
Definition base_image (c : config) (im : list Qc) : img :=
  if (c_omin c <? 0)%Z then doubled_times (Z.to_nat (- c_omin c)) (c_w c) (c_h c) (stored im 0 (c_w c))
  else reduced (Z.to_nat (c_omin c)) (stored im 0 (c_w c)).

Lemma size_pos c : fits c -> 0 < c_w c /\ 0 < c_h c.
Proof.
  intros F. destruct (fits_wide c 0 F (fits_O c F)) as [A B]. unfold wide, high, shift_left in *.
  destruct (c_w c), (c_h c); try rewrite Z.shiftl_0_l in *; cbn in *; lia.
Qed.
Lemma first_base_ok c im temp octave : fits c -> length im = c_w c * c_h c ->
  length temp = nel c -> length octave = nel c * (c_S c + 3) ->
  base_length c <= 2 * nel c /\ nel c <= base_length c /\
  exists temp', length temp' = nel c /\ first_base c im temp octave = Some (temp', put 0 (base_length c) (base_value c im) octave).
Proof.
  intros F LI LT LO. destruct (size_pos c F) as [Hw Hh]. pose proof (fits_S c F) as HS.
  destruct (fits_wide c 0 F (fits_O c F)) as [PW PH].
  unfold first_base, base_length, base_value. destruct (Z.ltb_spec (c_omin c) 0) as [L|L].
  - destruct (Z.ltb_spec 0 (c_omin c)); [lia|].
    destruct (Z.to_nat (- c_omin c)) as [|k] eqn:EK; [lia|]. rewrite Nat.sub_succ, Nat.sub_0_r.
    assert (EN : nel c = c_w c * 2 ^ S k * (c_h c * 2 ^ S k)).
    { unfold nel. replace (- c_omin c)%Z with (Z.of_nat (S k)) by lia. now rewrite !shift_up. }
    destruct (enlarged_ok (c_w c) (c_h c) im Hw Hh LI k temp octave) as (t & Et & E); [nia|lia|].
    split; [lia|]. split; [lia|]. exists t. split; [lia|]. rewrite E. now rewrite EN.
  - destruct (Z.ltb_spec 0 (c_omin c)) as [P|P].
    + set (k := Z.to_nat (c_omin c)). set (D := 2 ^ k). assert (HD : 0 < D) by apply pow_pos.
      assert (Ew : shift_left (c_w c) (- c_omin c) = c_w c / D).
      { replace (c_omin c) with (Z.of_nat k) by lia. apply shift_down. }
      assert (Eh : shift_left (c_h c) (- c_omin c) = c_h c / D).
      { replace (c_omin c) with (Z.of_nat k) by lia. apply shift_down. }
      assert (EN : nel c = c_w c / D * (c_h c / D)) by (unfold nel; now rewrite Ew, Eh).
      unfold wide, high in *. rewrite Z.add_0_r in PW, PH. rewrite Ew in PW. rewrite Eh in PH.
      assert (R1 : (c_h c + D - 1) / D <= c_h c / D + 1).
      { replace (c_h c / D + 1) with ((c_h c + 1 * D) / D) by (rewrite Nat.div_add; lia). apply Nat.div_le_mono; lia. }
      assert (R2 : c_h c / D <= (c_h c + D - 1) / D) by (apply Nat.div_le_mono; lia).
      assert (B1 : (c_h c + D - 1) / D * (c_w c / D) <= 2 * nel c) by (rewrite EN; nia).
      split; [exact B1|]. split; [rewrite EN; nia|]. exists temp. split; [exact LT|].
      rewrite (downsample_ok octave (Some im) 0 (c_w c) (c_h c) k); [reflexivity|exact PW|fold D; nia|lia|discriminate].
    + assert (EN : nel c = c_w c * c_h c). { unfold nel. replace (c_omin c) with 0%Z by lia. cbn [Z.opp]. unfold shift_left. rewrite !Z.shiftl_0_r, !Nat2Z.id. reflexivity. }
      split; [lia|]. split; [lia|]. exists temp. split; [exact LT|].
      rewrite copy_ok by nia. now rewrite EN.
Qed.
Definition first_octave (c : config) (im octave : list Qc) : list Qc :=
  let o := put 0 (base_length c) (base_value c im) octave in
  let o := if qlt (first_sb pow c) (first_sa pow c) then
      blurred expo (root (first_sa pow c * first_sa pow c - first_sb pow c * first_sb pow c)) (wide c 0) (high c 0) 0 0 o else o in
  filled_levels expo (sig c) (wide c 0) (high c 0) (c_S c + 2) o.
Definition kept (f f' : sift) : Prop :=
  f_cfg f' = f_cfg f /\ f_dog f' = f_dog f /\ f_grad f' = f_grad f /\ f_grado f' = f_grado f /\ f_keys f' = [].
Definition sized (f : sift) (k : nat) : Prop :=
  f_ocur f = (c_omin (f_cfg f) + Z.of_nat k)%Z /\ f_ow f = wide (f_cfg f) k /\ f_oh f = high (f_cfg f) k.
Lemma wide0 c : wide c 0 * high c 0 = nel c.
Proof. unfold wide, high, nel. now rewrite Z.add_0_r. Qed.
Lemma set_octave_wf f o temp octave : wf expo f -> length temp = nel (f_cfg f) -> length octave = nel (f_cfg f) * (c_S (f_cfg f) + 3) ->
  wf expo (set_octave f o temp octave).
Proof. intros WF L L'. destruct WF as [A B C D G]. constructor; cbn; assumption. Qed.
Lemma first_pos c : sane (c_S c) -> (0 < first_sb pow c)%Qc.
Proof. intros H. apply Qc_mul_pos; [reflexivity|]. apply (sane_pow _ H). reflexivity. Qed.
Lemma root_pos c a b : sane (c_S c) -> (0 < b)%Qc -> (b < a)%Qc -> (0 < root (a * a - b * b))%Qc.
Proof.
  intros H Pb L. apply (sane_root _ H). qc_prep. change (this 0%Qc) with 0%Q in *. nra.
Qed.
Lemma process_first_ok f im (c := f_cfg f) : wf expo f -> fits c -> sane (c_S c) -> length im = c_w c * c_h c ->
  exists f', process_first pow root expo f im = Some (OK, f') /\ wf expo f' /\ kept f f' /\ sized f' 0 /\ f_octave f' = first_octave c im (f_octave f).
Proof.
  intros WF F SN LI. unfold process_first. fold c. pose proof (fits_O c F). pose proof (fits_S c F).
  replace (c_O c =? 0) with false by (symmetry; apply Nat.eqb_neq; lia).
  destruct (first_base_ok c im (f_temp f) (f_octave f) F LI (wf_temp _ f WF) (wf_octave _ f WF)) as (B1 & B2 & t & Lt & E).
  rewrite E. cbn [obind]. clear E.
  set (o1 := put 0 (base_length c) (base_value c im) (f_octave f)).
  assert (L1 : length o1 = nel c * (c_S c + 3)) by (unfold o1; rewrite put_length; [apply WF|rewrite (wf_octave _ f WF); fold c; nia]).
  set (f1 := set_octave f (c_omin c) t o1).
  assert (W1 : wf expo f1) by now apply set_octave_wf.
  assert (Z1 : sized f1 0) by (unfold sized, wide, high; rewrite Z.add_0_r; split; [reflexivity|split; reflexivity]).
  destruct Z1 as (Zo & Zw & Zh). destruct (fits_wide c 0 F (fits_O c F)) as [PW PH]. pose proof (wide0 c) as WN.
  assert (C1 : f_cfg f1 = c) by reflexivity. rewrite C1 in *.
  assert (R : exists f2, (if qlt (first_sb pow c) (first_sa pow c)
       then smooth expo f1 0 0 (f_ow f1) (f_oh f1) (root (first_sa pow c * first_sa pow c - first_sb pow c * first_sb pow c)) else Some f1) = Some f2 /\
     wf expo f2 /\ frame f1 f2 /\ f_octave f2 = if qlt (first_sb pow c) (first_sa pow c) then
        blurred expo (root (first_sa pow c * first_sa pow c - first_sb pow c * first_sb pow c)) (wide c 0) (high c 0) 0 0 o1 else o1).
  { destruct (qlt (first_sb pow c) (first_sa pow c)) eqn:Q.
    - apply qlt_true in Q.
      destruct (smooth_ok expo f1 0 0 (root (first_sa pow c * first_sa pow c - first_sb pow c * first_sb pow c))) as (f2 & E & W2 & F2 & O2);
        try rewrite Zw; try rewrite Zh; try rewrite C1; auto; try lia.
      { apply Qc_pos_ne, root_pos with (c := c); auto. now apply first_pos. }
      rewrite Zw, Zh in E, O2. exists f2. split; [exact E|]. auto.
    - exists f1. split; [reflexivity|]. split; [exact W1|]. split; [unfold frame; tauto|reflexivity]. }
  destruct R as (f2 & -> & W2 & F2 & O2). cbn [obind].
  pose proof F2 as (A1 & A2 & A3 & A4 & A5 & A6 & A7 & A8).
  destruct (fill_ok f2 W2) as (f3 & -> & W3 & F3 & O3); rewrite ?A1, ?A3, ?A4, ?C1, ?Zw, ?Zh; auto; try lia.
  cbn [obind]. exists f3. pose proof F3 as (B3 & B4 & B5 & B6 & B7 & B8 & B9 & B10).
  split; [reflexivity|]. split; [exact W3|].
  assert (CC : f_cfg f3 = c) by congruence.
  split; [|split].
  - unfold kept. rewrite CC. unfold f1, set_octave in A5, A6, A7, A8. cbn in A5, A6, A7, A8. repeat split; congruence.
  - unfold sized. rewrite CC. repeat split; congruence.
  - rewrite O3, A1, A3, A4, C1, Zw, Zh, O2. reflexivity.
Qed.

(** *** The next octave *)
Definition next_octave (c : config) (k : nat) (octave : list Qc) : list Qc :=
  let w := wide c k in let h := high c k in
  let o := put 0 ((h + 1) / 2 * (w / 2)) (fun i => octave@(c_S c * (w * h) + i / (w / 2) * 2 * w + i mod (w / 2) * 2)) octave in
  filled_levels expo (sig c) (wide c (S k)) (high c (S k)) (c_S c + 2) o.
Lemma qlt_irrefl a : qlt a a = false.
Proof. apply qlt_false. qc_lra. Qed.
Lemma process_next_ok f k (c := f_cfg f) : wf expo f -> 0 < c_S c -> 0 < wide c (S k) -> 0 < high c (S k) -> sane (c_S c) -> sized f k -> k + 1 <> c_O c ->
  exists f', process_next pow root expo f = Some (OK, f') /\ wf expo f' /\ kept f f' /\ sized f' (k + 1) /\ f_octave f' = next_octave c k (f_octave f).
Proof.
  intros WF HS PW' PH' SN (Zo & Zw & Zh) Lk. unfold process_next. fold c. fold c in Zo, Zw, Zh.
  destruct (wide_S c k) as [SW SH].
  assert (PW : 0 < wide c k) by (destruct (wide c k); [cbn in SW; lia|lia]).
  assert (PH : 0 < high c k) by (destruct (high c k); [cbn in SH; lia|lia]). pose proof (wide_nel c k) as N1. pose proof (wide_nel c (S k)) as N2.
  rewrite Zo. replace (c_omin c + Z.of_nat k =? c_omin c + Z.of_nat (c_O c) - 1)%Z with false by (symmetry; apply Z.eqb_neq; lia).
  rewrite Nat.min_l by lia. rewrite Zw, Zh.
  assert (LO := wf_octave _ f WF). fold c in LO.
  assert (RB : (high c k + 1) / 2 * (wide c k / 2) <= wide c k * high c k).
  { assert ((high c k + 1) / 2 <= high c k) by (apply Nat.div_le_upper_bound; lia).
    assert (wide c k / 2 <= wide c k) by (apply Nat.div_le_upper_bound; lia). nia. }
  pose proof (downsample_ok (f_octave f) None (c_S c * (wide c k * high c k)) (wide c k) (high c k) 1) as DS.
  cbn zeta in DS. change (2 ^ 1) with 2 in DS. replace (high c k + 2 - 1) with (high c k + 1) in DS by lia.
  rewrite DS; [|rewrite <- SW; exact PW'|rewrite LO; nia|rewrite LO; nia|intros _; nia]. clear DS. cbn [obind].
  set (o1 := put 0 _ _ (f_octave f)).
  assert (L1 : length o1 = nel c * (c_S c + 3)) by (unfold o1; rewrite put_length; [exact LO|rewrite LO; nia]).
  set (f1 := set_octave f (c_omin c + Z.of_nat k + 1) (f_temp f) o1).
  assert (W1 : wf expo f1) by (apply set_octave_wf; auto; apply WF).
  assert (C1 : f_cfg f1 = c) by reflexivity.
  assert (Z1 : f_ow f1 = wide c (S k)) by (unfold f1, set_octave, wide; cbn [f_ow]; fold c; do 2 f_equal; lia).
  assert (Z2 : f_oh f1 = high c (S k)) by (unfold f1, set_octave, high; cbn [f_oh]; fold c; do 2 f_equal; lia).
  assert (SB : next_sb pow c = first_sa pow c).
  { unfold next_sb, first_sa. rewrite Nat.min_l by lia. do 3 f_equal. lia. }
  rewrite SB, qlt_irrefl. cbn [obind].
  destruct (fill_ok f1 W1) as (f3 & -> & W3 & F3 & O3); rewrite ?C1, ?Z1, ?Z2; auto; try lia.
  cbn [obind]. exists f3. pose proof F3 as (B3 & B4 & B5 & B6 & B7 & B8 & B9 & B10).
  split; [reflexivity|]. split; [exact W3|]. assert (CC : f_cfg f3 = c) by congruence.
  split; [|split].
  - unfold kept. rewrite CC. unfold f1, set_octave in B7, B8, B9, B10. cbn in B7, B8, B9, B10. repeat split; congruence.
  - unfold sized. rewrite CC. rewrite (Nat.add_1_r k). split; [|split; congruence]. rewrite B4. unfold f1. cbn [set_octave f_ocur]. lia.
  - rewrite O3, C1, Z1, Z2. reflexivity.
Qed.
Lemma process_next_end f k (c := f_cfg f) : sized f k -> k + 1 = c_O c -> process_next pow root expo f = Some (EOF, f).
Proof.
  intros (Zo & _) Lk. unfold process_next. fold c. fold c in Zo. rewrite Zo.
  now replace (c_omin c + Z.of_nat k =? c_omin c + Z.of_nat (c_O c) - 1)%Z with true by (symmetry; apply Z.eqb_eq; lia).
Qed.

(** *** The images in the octaves *)
Lemma put_stored n v l w h : w * h <= n -> n <= length l ->
  same_image w h (stored (put 0 n v l) 0 w) (fun x y => v (y * w + x)).
Proof.
  intros L L' x y Lx Ly. unfold stored. rewrite nth_put by lia. assert (y * w + x < w * h) by nia.
  replace (0 + y * w + x <? 0 + n) with true by (symmetry; apply Nat.ltb_lt; lia). cbn [Nat.leb andb]. f_equal. lia.
Qed.
Lemma same_trans w h I J K : same_image w h I J -> same_image w h J K -> same_image w h I K.
Proof. intros A B x y Lx Ly. rewrite A by auto. now apply B. Qed.
Lemma same_sym w h I J : same_image w h I J -> same_image w h J I.
Proof. intros A x y Lx Ly. symmetry. now apply A. Qed.
Lemma base_good c im : fits c -> length im = c_w c * c_h c -> (-1 <= c_omin c)%Z \/ c_w c = c_h c ->
  same_image (wide c 0) (high c 0) (fun x y => base_value c im (y * wide c 0 + x)) (base_image c im).
Proof.
  intros F LI G x y Lx Ly. destruct (size_pos c F) as [Hw Hh]. unfold base_value, base_image, wide, high in *. rewrite Z.add_0_r in *.
  destruct (Z.ltb_spec (c_omin c) 0) as [L|L].
  - set (k := Z.to_nat (- c_omin c)). replace (- c_omin c)%Z with (Z.of_nat k) in * by lia. rewrite !shift_up in *.
    rewrite (enlarged_doubled (c_w c) (c_h c) im Hw Hh LI k); [|destruct G; [left|right]; lia|nia].
    rewrite (Nat.add_comm (y * _)). now rewrite pos_mod, pos_div by auto.
  - set (k := Z.to_nat (c_omin c)). replace (c_omin c) with (Z.of_nat k) in * by lia. rewrite !shift_down in *.
    unfold reduced, stored. destruct (Z.ltb_spec 0 (Z.of_nat k)) as [P|P].
    + rewrite (Nat.add_comm (y * _)). rewrite pos_mod, pos_div by auto. f_equal.
    + assert (E0 : k = 0) by lia. clearbody k. subst k. cbn [Nat.pow]. rewrite Nat.div_1_r. f_equal. lia.
Qed.
(** level 0 of the first octave *)
Definition first_level (c : config) (im : list Qc) (base : img) : img :=
  if qlt (first_sb pow c) (first_sa pow c) then
    blur expo (root (first_sa pow c * first_sa pow c - first_sb pow c * first_sb pow c)) (wide c 0) (high c 0) base else base.
Lemma first_level_ext c im I J : fits c -> same_image (wide c 0) (high c 0) I J -> same_image (wide c 0) (high c 0) (first_level c im I) (first_level c im J).
Proof.
  intros F E. destruct (fits_wide c 0 F (fits_O c F)). unfold first_level. destruct (qlt _ _); [now apply blur_ext|exact E].
Qed.
Lemma first_octave_same c im octave : fits c -> length im = c_w c * c_h c -> length octave = nel c * (c_S c + 3) ->
  forall l, l < c_S c + 3 -> same_image (wide c 0) (high c 0) (stored (first_octave c im octave) (l * (wide c 0 * high c 0)) (wide c 0))
    (levels expo (sig c) (wide c 0) (high c 0) (first_level c im (fun x y => base_value c im (y * wide c 0 + x))) l).
Proof.
  intros F LI LO l Ll. destruct (fits_wide c 0 F (fits_O c F)) as [PW PH]. pose proof (wide0 c) as WN. pose proof (fits_S c F).
  destruct (first_base_ok c im (repeat 0%Qc (nel c)) octave F LI (repeat_length _ _) LO) as (B1 & B2 & _).
  unfold first_octave. set (o1 := put 0 (base_length c) (base_value c im) octave).
  assert (L1 : length o1 = nel c * (c_S c + 3)) by (unfold o1; rewrite put_length; [exact LO|rewrite LO; nia]).
  set (o2 := if qlt (first_sb pow c) (first_sa pow c) then _ else o1).
  assert (L2 : length o2 = nel c * (c_S c + 3)).
  { unfold o2. destruct (qlt _ _); [|exact L1]. rewrite (blurred_length expo (wide c 0) (high c 0) PW PH); [exact L1|]. rewrite WN. nia. }
  eapply same_trans; [apply (filled_same expo (sig c) (wide c 0) (high c 0) PW PH (c_S c + 2) l o2); [rewrite WN, L2; nia|lia]|].
  apply levels_ext; [exact PW|exact PH|].
  assert (S1 : same_image (wide c 0) (high c 0) (stored o1 0 (wide c 0)) (fun x y => base_value c im (y * wide c 0 + x))).
  { apply put_stored; [lia|]. rewrite LO. nia. }
  unfold first_level, o2. destruct (qlt _ _); [|exact S1].
  eapply same_trans; [|apply blur_ext; [exact PW|exact PH|exact S1]].
  change (stored o1 0 (wide c 0)) with (stored o1 (0 * (wide c 0 * high c 0)) (wide c 0)).
  intros x y Lx Ly. exact (stored_blurred expo (wide c 0) (high c 0) PW PH _ 0 0 o1 ltac:(rewrite WN, L1; nia) x y Lx Ly).
Qed.
Lemma index_split w n i : 0 < w -> 0 < n -> exists l x y, i = l * (w * n) + y * w + x /\ x < w /\ y < n.
Proof.
  intros Hw Hn. exists (i / (w * n)), (i mod (w * n) mod w), (i mod (w * n) / w).
  assert (w * n <> 0) by nia. pose proof (Nat.mod_upper_bound i (w * n) ltac:(auto)).
  split; [|split; [apply Nat.mod_upper_bound; lia|apply Nat.div_lt_upper_bound; lia]].
  rewrite (Nat.div_mod i (w * n)) at 1 by auto. rewrite (Nat.div_mod (i mod (w * n)) w) at 1 by lia. lia.
Qed.
Lemma first_octave_length c im octave : fits c -> length im = c_w c * c_h c -> length octave = nel c * (c_S c + 3) ->
  length (first_octave c im octave) = nel c * (c_S c + 3).
Proof.
  intros F LI LO. pose proof (wide0 c) as WN. pose proof (fits_S c F). destruct (fits_wide c 0 F (fits_O c F)) as [PW PH].
  destruct (first_base_ok c im (repeat 0%Qc (nel c)) octave F LI (repeat_length _ _) LO) as (B1 & B2 & _).
  unfold first_octave. set (o1 := put 0 (base_length c) (base_value c im) octave).
  assert (L1 : length o1 = nel c * (c_S c + 3)) by (unfold o1; rewrite put_length; [exact LO|rewrite LO; nia]).
  set (o2 := if qlt (first_sb pow c) (first_sa pow c) then _ else o1).
  assert (L2 : length o2 = nel c * (c_S c + 3)).
  { unfold o2. destruct (qlt _ _); [|exact L1]. rewrite (blurred_length expo (wide c 0) (high c 0) PW PH); [exact L1|]. rewrite WN. nia. }
  rewrite (filled_length expo (sig c) (wide c 0) (high c 0) PW PH); [exact L2|]. rewrite WN, L2. nia.
Qed.
(** the first octave does not depend on what was in the buffers *)
Lemma first_octave_det c im o o' : fits c -> length im = c_w c * c_h c -> length o = nel c * (c_S c + 3) -> length o' = nel c * (c_S c + 3) ->
  first_octave c im o = first_octave c im o'.
Proof.
  intros F LI LO LO'. destruct (fits_wide c 0 F (fits_O c F)) as [PW PH]. pose proof (wide0 c) as WN.
  apply nth_ext with (d := 0%Qc) (d' := 0%Qc); [now rewrite !first_octave_length|].
  intros i Li. rewrite first_octave_length in Li by auto.
  destruct (index_split (wide c 0) (high c 0) i PW PH) as (l & x & y & -> & Lx & Ly).
  assert (l < c_S c + 3) by (rewrite WN in Li; nia).
  pose proof (first_octave_same c im o F LI LO l ltac:(auto) x y Lx Ly) as E.
  pose proof (first_octave_same c im o' F LI LO' l ltac:(auto) x y Lx Ly) as E'. unfold stored in E, E'. now rewrite E, E'.
Qed.
Lemma next_octave_same c k octave base : fits c -> k + 1 < c_O c -> length octave = nel c * (c_S c + 3) ->
  same_image (wide c k) (high c k) (stored octave (c_S c * (wide c k * high c k)) (wide c k)) base ->
  forall l, l < c_S c + 3 -> same_image (wide c (S k)) (high c (S k))
    (stored (next_octave c k octave) (l * (wide c (S k) * high c (S k))) (wide c (S k)))
    (levels expo (sig c) (wide c (S k)) (high c (S k)) (reduced 1 base) l).
Proof.
  intros F Lk LO SB l Ll. pose proof (fits_S c F).
  destruct (fits_wide c k F ltac:(lia)) as [PW PH]. destruct (fits_wide c (S k) F ltac:(lia)) as [PW' PH'].
  destruct (wide_S c k) as [SW SH]. pose proof (wide_nel c k) as N1. pose proof (wide_nel c (S k)) as N2.
  unfold next_octave. set (o1 := put 0 _ _ octave).
  assert (RB : (high c k + 1) / 2 * (wide c k / 2) <= wide c k * high c k).
  { assert ((high c k + 1) / 2 <= high c k) by (apply Nat.div_le_upper_bound; lia).
    assert (wide c k / 2 <= wide c k) by (apply Nat.div_le_upper_bound; lia). nia. }
  assert (L1 : length o1 = nel c * (c_S c + 3)) by (unfold o1; rewrite put_length; [exact LO|rewrite LO; nia]).
  eapply same_trans; [apply (filled_same expo (sig c) (wide c (S k)) (high c (S k)) PW' PH' (c_S c + 2) l o1); [rewrite L1; nia|lia]|].
  apply levels_ext; [exact PW'|exact PH'|].
  eapply same_trans; [apply put_stored; [|rewrite LO; nia]|].
  { rewrite SW, SH. assert (high c k / 2 <= (high c k + 1) / 2) by (apply Nat.div_le_mono; lia). nia. }
  intros x y Lx Ly. cbv beta. rewrite (Nat.add_comm (y * _)). rewrite <- SW. rewrite pos_mod, pos_div by auto.
  unfold reduced. change (2 ^ 1) with 2.
  assert (2 * wide c (S k) <= wide c k) by (rewrite SW; apply Nat.mul_div_le; lia).
  assert (2 * high c (S k) <= high c k) by (rewrite SH; apply Nat.mul_div_le; lia).
  rewrite <- SB by lia. unfold stored. f_equal.
Qed.
End Octaves.

(** *** Gradients *)
Section Gradient.
Variables (magn angl : Qc -> Qc -> Qc).
Definition gradient_at (I : img) (w h x y : nat) : Qc * Qc :=
  let gx := slope w (fun x => I x y) x in let gy := slope h (fun y => I x y) y in (magn gx gy, angl gx gy).
Definition gradient_value (o : list Qc) (w h i : nat) : Qc :=
  let l := i / (2 * (w * h)) in let p := i mod (2 * (w * h)) / 2 in
  let g := gradient_at (stored o ((l + 1) * (w * h)) w) w h (p mod w) (p / w) in
  if Nat.even i then fst g else snd g.
Variables (o grad0 : list Qc) (w h : nat).
Hypothesis Hw : 2 <= w.
Hypothesis Hh : 2 <= h.
Let n := w * h.
Let G := gradient_value o w h.
Lemma G_at l x y : x < w -> y < h -> let g := gradient_at (stored o ((l + 1) * n) w) w h x y in
  G (2 * n * l + 2 * (y * w + x)) = fst g /\ G (2 * n * l + 2 * (y * w + x) + 1) = snd g.
Proof.
  intros Lx Ly g. assert (P : y * w + x < n) by (unfold n; nia). unfold G, gradient_value. fold n.
  replace ((2 * n * l + 2 * (y * w + x)) / (2 * n)) with l by (apply Nat.div_unique with (r := 2 * (y * w + x)); lia).
  replace ((2 * n * l + 2 * (y * w + x)) mod (2 * n)) with (2 * (y * w + x)) by (apply Nat.mod_unique with (q := l); lia).
  replace ((2 * n * l + 2 * (y * w + x) + 1) / (2 * n)) with l by (apply Nat.div_unique with (r := 2 * (y * w + x) + 1); lia).
  replace ((2 * n * l + 2 * (y * w + x) + 1) mod (2 * n)) with (2 * (y * w + x) + 1) by (apply Nat.mod_unique with (q := l); lia).
  replace (2 * (y * w + x) / 2) with (x + y * w) by (apply Nat.div_unique with (r := 0); lia).
  replace ((2 * (y * w + x) + 1) / 2) with (x + y * w) by (apply Nat.div_unique with (r := 1); lia).
  rewrite pos_mod, pos_div by auto.
  replace (2 * n * l + 2 * (y * w + x)) with (2 * (n * l + (y * w + x))) by lia.
  rewrite Nat.even_add, Nat.even_mul. cbn [Nat.even orb Bool.eqb]. split; reflexivity.
Qed.
Lemma save_ok l x y gx gy : x < w -> y < h -> 2 * n * (l + 1) <= length grad0 ->
  gx = slope w (fun x => stored o ((l + 1) * n) w x y) x -> gy = slope h (fun y => stored o ((l + 1) * n) w x y) y ->
  save_back magn angl gx gy ((l + 1) * n + (y * w + x), 2 * n * l + 2 * (y * w + x), put 0 (2 * n * l + 2 * (y * w + x)) G grad0) =
  Some ((l + 1) * n + (y * w + (x + 1)), 2 * n * l + 2 * (y * w + (x + 1)), put 0 (2 * n * l + 2 * (y * w + (x + 1))) G grad0).
Proof.
  intros Lx Ly LG -> ->. assert (P : y * w + x < n) by (unfold n; nia). destruct (G_at l x y Lx Ly) as [E1 E2]. cbn zeta in E1, E2.
  unfold save_back. rewrite aset_lt by (rewrite put_length; lia). cbn [obind].
  change (magn _ _) with (fst (gradient_at (stored o ((l + 1) * n) w) w h x y)). rewrite <- E1, put_snoc by lia.
  rewrite aset_lt by (rewrite put_length; lia). cbn [obind].
  change (angl _ _) with (snd (gradient_at (stored o ((l + 1) * n) w) w h x y)). rewrite <- E2, put_snoc by lia.
  f_equal. f_equal; [f_equal; lia|]. f_equal. lia.
Qed.
Lemma diff_ok src plus minus central : minus <= src -> src + plus < length o ->
  difference o src plus minus central = Some (if central then half (o@(src + plus) - o@(src - minus)) else (o@(src + plus) - o@(src - minus))%Qc).
Proof.
  intros L1 L2. unfold difference. replace (minus <=? src) with true by (symmetry; now apply Nat.leb_le).
  erewrite !aget_nth by lia. reflexivity.
Qed.
Definition grad_state (l y x : nat) : nat * nat * list Qc :=
  ((l + 1) * n + (y * w + x), 2 * n * l + 2 * (y * w + x), put 0 (2 * n * l + 2 * (y * w + x)) G grad0).
Lemma grad_row_ok l y yplus yminus central : y < h -> 2 * n * (l + 1) <= length grad0 -> (l + 2) * n <= length o ->
  (forall x, x < w -> difference o ((l + 1) * n + (y * w + x)) (yplus * w) (yminus * w) central = Some (slope h (fun y => stored o ((l + 1) * n) w x y) y)) ->
  grad_row magn angl o w yplus yminus central (grad_state l y 0) = Some (grad_state l (y + 1) 0).
Proof.
  intros Ly LG LO D. unfold grad_row.
  assert (Step : forall x xp xm xc, x < w -> difference o ((l + 1) * n + (y * w + x)) xp xm xc = Some (slope w (fun x => stored o ((l + 1) * n) w x y) x) ->
    (let src := fst (fst (grad_state l y x)) in do gx <- difference o src xp xm xc; do gy <- difference o src (yplus * w) (yminus * w) central;
     save_back magn angl gx gy (grad_state l y x)) = Some (grad_state l y (x + 1))).
  { intros x xp xm xc Lx Dx. cbn [fst grad_state]. rewrite Dx. cbn [obind]. rewrite (D x Lx). cbn [obind]. unfold grad_state. now apply save_ok. }
  assert (PB : y * w + w <= n) by (unfold n; nia).
  cbv beta zeta. cbv beta zeta in Step. rewrite (Step 0 1 0 false); [|lia|].
  2:{ rewrite diff_ok by nia. unfold slope, stored. cbn [Nat.eqb]. do 2 f_equal; f_equal; lia. }
  cbn [obind].
  match goal with |- context [iter (w - 2) ?bd ?v0] =>
    destruct (iter_inv (fun j s => s = grad_state l y (j + 1)) bd (w - 2) v0) as (s & E & ->) end.
  - reflexivity.
  - intros j s Lj ->. rewrite (Step (j + 1) 1 1 true); [eexists; split; reflexivity|lia|].
    rewrite diff_ok by nia. unfold slope, stored, half.
    replace (j + 1 =? 0) with false by (symmetry; apply Nat.eqb_neq; lia). replace (j + 1 =? w - 1) with false by (symmetry; apply Nat.eqb_neq; lia).
    do 3 f_equal; f_equal; lia.
  - rewrite E. cbn [obind]. replace (w - 2 + 1) with (w - 1) by lia. rewrite (Step (w - 1) 0 1 false); [|lia|].
    + unfold grad_state. f_equal. f_equal; [f_equal; nia|]. f_equal. nia.
    + rewrite diff_ok by nia. unfold slope, stored. replace (w - 1 =? 0) with false by (symmetry; apply Nat.eqb_neq; lia).
      rewrite Nat.eqb_refl. do 2 f_equal; f_equal; lia.
Qed.
Lemma grad_level_ok l : 2 * n * (l + 1) <= length grad0 -> (l + 2) * n <= length o ->
  (do st <- grad_row magn angl o w 1 0 false (grad_state l 0 0);
   do st <- iter (h - 2) (fun _ st => grad_row magn angl o w 1 1 true st) st;
   do (_, _, grad) <- grad_row magn angl o w 0 1 false st; Some grad) = Some (put 0 (2 * n * (l + 1)) G grad0).
Proof.
  intros LG LO. rewrite (grad_row_ok l 0 1 0 false); [|lia|exact LG|exact LO|].
  2:{ intros x Lx. rewrite diff_ok by (unfold n in *; nia). unfold slope, stored. cbn [Nat.eqb]. do 2 f_equal; f_equal; lia. }
  cbn [obind].
  match goal with |- context [iter (h - 2) ?bd ?v0] =>
    destruct (iter_inv (fun j s => s = grad_state l (j + 1) 0) bd (h - 2) v0) as (s & E & ->) end.
  - reflexivity.
  - intros j s Lj ->. rewrite (grad_row_ok l (j + 1) 1 1 true); [eexists; split; reflexivity|lia|exact LG|exact LO|].
    intros x Lx. assert ((j + 1) * w + w + w <= n) by (unfold n; nia). rewrite diff_ok by nia. unfold slope, stored, half.
    replace (j + 1 =? 0) with false by (symmetry; apply Nat.eqb_neq; lia). replace (j + 1 =? h - 1) with false by (symmetry; apply Nat.eqb_neq; lia).
    do 3 f_equal; f_equal; nia.
  - rewrite E. cbn [obind]. replace (h - 2 + 1) with (h - 1) by lia. rewrite (grad_row_ok l (h - 1) 0 1 false); [|lia|exact LG|exact LO|].
    + unfold grad_state. cbn [obind]. f_equal. f_equal. unfold n. replace (h - 1 + 1) with h by lia. lia.
    + intros x Lx. assert ((h - 1) * w + w <= n) by (unfold n; nia). assert (w <= (h - 1) * w) by nia.
      rewrite diff_ok by nia. unfold slope, stored. replace (h - 1 =? 0) with false by (symmetry; apply Nat.eqb_neq; lia).
      rewrite Nat.eqb_refl. do 2 f_equal; f_equal; nia.
Qed.
End Gradient.
Lemma update_ok expo magn angl f (c := f_cfg f) : wf expo f -> 2 <= f_ow f -> 2 <= f_oh f -> f_ow f * f_oh f <= nel c ->
  exists f', update_gradient magn angl f = Some f' /\ wf expo f' /\ f_grado f' = f_ocur f /\
    f_cfg f' = f_cfg f /\ f_ocur f' = f_ocur f /\ f_ow f' = f_ow f /\ f_oh f' = f_oh f /\ f_octave f' = f_octave f /\ f_dog f' = f_dog f /\ f_keys f' = f_keys f /\
    f_grad f' = if (f_grado f =? f_ocur f)%Z then f_grad f
      else put 0 (2 * (f_ow f * f_oh f) * c_S c) (gradient_value magn angl (f_octave f) (f_ow f) (f_oh f)) (f_grad f).
Proof.
  intros WF Hw Hh Hn. unfold update_gradient. destruct (Z.eqb_spec (f_grado f) (f_ocur f)) as [E|_].
  { exists f. intuition. }
  fold c. set (n := f_ow f * f_oh f) in *. pose proof (wf_grad _ f WF) as LG. pose proof (wf_octave _ f WF) as LO. fold c in LG, LO.
  match goal with |- context [iter (c_S c) ?bd ?v0] =>
    destruct (iter_inv (fun l g => g = put 0 (2 * n * l) (gradient_value magn angl (f_octave f) (f_ow f) (f_oh f)) (f_grad f)) bd (c_S c) v0) as (g & E & ->) end.
  - now rewrite Nat.mul_0_r.
  - intros l g Ll ->. eexists. split; [|reflexivity].
    pose proof (grad_level_ok magn angl (f_octave f) (f_grad f) (f_ow f) (f_oh f) Hw Hh l) as X. fold n in X.
    rewrite <- X by nia. unfold grad_state. fold n. cbn [Nat.mul plus]. rewrite !Nat.add_0_r. reflexivity.
  - rewrite E. cbn [obind]. eexists. split; [reflexivity|]. destruct WF as [A B C D K]. split; [|cbn [f_cfg f_ocur f_ow f_oh f_octave f_dog f_keys f_grad f_grado]; tauto].
    constructor; cbn [f_temp f_octave f_dog f_grad f_cfg f_filt f_fsigma f_fwidth]; auto. rewrite put_length; [auto|]. fold c. rewrite LG. nia.
Qed.
