(** Proofs about vl_imconvcol_v, scalar and vectorised. *)
From Coq Require Import List Arith ZArith Lia Bool Ring Ring_theory.
From Verif Require Import Base Loop MserSort_Proofs ImOp_Model ImOp_Spec ImOp_Proofs.
Import ListNotations.

Section Ringed.
Context {A : Type} (r0 r1 : A) (radd rmul rsub : A -> A -> A) (ropp : A -> A).
Hypothesis Rth : ring_theory r0 r1 radd rmul rsub ropp eq.
Add Ring Rring : Rth.
Local Notation sum := (sum r0 radd).

Section Pixel.
Context {V : Type} (vzero : V) (load : Z -> option V) (mac : V -> V -> A -> V) (ok : V -> Prop) (pi : V -> A).
Variables (height : nat) (stride : Z) (filt : list A) (fb fe : Z) (zeropad : bool) (x y : Z) (col : nat -> A).
Hypothesis ok0 : ok vzero.
Hypothesis pi0 : pi vzero = r0.
Hypothesis okm : forall a v c, ok a -> ok v -> ok (mac a v c) /\ pi (mac a v c) = radd (pi a) (rmul (pi v) c).
Hypothesis Hl : forall p, p < height -> exists w, load (x + Z.of_nat p * stride)%Z = Some w /\ ok w /\ pi w = col p.
Hypothesis Hy : (0 <= y < Z.of_nat height)%Z.
Hypothesis Hf : (fb <= 0 <= fe)%Z.
Hypothesis Hn : (fe - fb + 1 <= Z.of_nat (length filt))%Z.

Let pad := padded r0 zeropad height col.
Let term (m : nat) : A := rmul (pad (y - fe + Z.of_nat m)%Z) (nth (Z.to_nat (fe - fb) - m) filt r0).

Lemma filt_read m : (Z.of_nat m <= fe - fb)%Z ->
  zget filt (fe - fb - Z.of_nat m) = Some (nth (Z.to_nat (fe - fb) - m) filt r0).
Proof. intro L. apply zget_nat; lia. Qed.

Lemma chunk_const_ok v n (k : nat) fi sp acc stop : ok v -> Z.of_nat n = stop -> (stop <= fe - fb + 1)%Z ->
  k <= n -> (forall m, k <= m < n -> pi v = pad (y - fe + Z.of_nat m)%Z) ->
  fi = (fe - fb - Z.of_nat k)%Z -> ok acc -> pi acc = sum k term ->
  exists acc', while (S (length filt)) (fun s => (fe - fb - stop <? fst (fst s))%Z) (chunk_const mac filt stride v) (fi, sp, acc)
     = Some (fe - fb - Z.of_nat n, sp + Z.of_nat (n - k) * stride, acc')%Z /\ ok acc' /\ pi acc' = sum n term.
Proof.
  intros Ov En Ln Lk Hv Ef Oa Ea.
  destruct (while_inv (fun j '(fi, sp', acc) => (k <= j <= n) /\ fi = (fe - fb - Z.of_nat j)%Z /\
       sp' = (sp + Z.of_nat (j - k) * stride)%Z /\ ok acc /\ pi acc = sum j term)
     (fun s => (fe - fb - stop <? fst (fst s))%Z) (chunk_const mac filt stride v) n) with (fuel := S (length filt)) (k := k) (s := (fi, sp, acc))
     as ([[fi' sp'] acc'] & E & _ & -> & -> & O' & E').
  - intros j [[f1 s1] a1]. tauto.
  - intros j [[f1 s1] a1] Lj (L1 & -> & -> & O1 & E1). cbn [fst]. split; [apply Z.ltb_lt; lia|].
    cbn [chunk_const]. rewrite filt_read by lia. cbn [obind].
    eexists; split; [reflexivity|]. destruct (okm a1 v (nth (Z.to_nat (fe - fb) - j) filt r0) O1 Ov) as [O2 E2].
    split; [lia|]. split; [lia|]. split; [replace (j + 1 - k) with (S (j - k)) by lia; lia|]. split; [exact O2|].
    rewrite E2, Nat.add_1_r. cbn [ImOp_Spec.sum]. rewrite E1. unfold term at 3. now rewrite (Hv j) by lia.
  - intros [[f1 s1] a1] (_ & -> & _). cbn [fst]. apply Z.ltb_ge. lia.
  - lia.
  - split; [lia|]. split; [lia|]. split; [rewrite Nat.sub_diag; lia|auto].
  - exists acc'. auto.
Qed.

Lemma conv_pixel_ok : exists acc,
  conv_pixel vzero load mac height stride filt fb fe zeropad x y = Some acc /\ ok acc /\
  pi acc = conv_at r0 radd rmul zeropad height col filt fb fe (Z.to_nat y).
Proof.
  unfold conv_pixel.
  set (kA := Z.to_nat (fe - y)).
  assert (SA : exists v acc, (if (0 <? fe - y)%Z then
       do v <- (if zeropad then Some vzero else load x);
       do (fi, sp, acc) <- while (S (length filt)) (fun s => (fe - fb - (fe - y) <? fst (fst s))%Z) (chunk_const mac filt stride v)
            ((fe - fb)%Z, (x - (fe - y) * stride)%Z, vzero);
       Some (fi, sp, v, acc)
     else Some ((fe - fb)%Z, (x - (fe - y) * stride)%Z, vzero, vzero)) =
     Some ((fe - fb - Z.of_nat kA)%Z, (x + (y - fe + Z.of_nat kA) * stride)%Z, v, acc) /\ ok v /\ ok acc /\
     pi acc = sum kA term).
  { destruct (Z.ltb_spec 0 (fe - y)) as [L|L].
    - assert (Sv : exists v, (if zeropad then Some vzero else load x) = Some v /\ ok v /\
                (forall m, 0 <= m < kA -> pi v = pad (y - fe + Z.of_nat m)%Z)).
      { assert (PA : forall m, 0 <= m < kA -> pad (y - fe + Z.of_nat m)%Z = if zeropad then r0 else col 0).
        { intros m Lm. unfold pad, padded. destruct (Z.leb_spec 0 (y - fe + Z.of_nat m)); [lia|]. cbn [andb].
          destruct (Z.ltb_spec (y - fe + Z.of_nat m) 0); [reflexivity|lia]. }
        destruct zeropad eqn:Z0.
        - exists vzero. split; [reflexivity|]. split; [exact ok0|]. intros m Lm. rewrite PA by auto. exact pi0.
        - destruct (Hl 0) as (w & Ew & Ow & Pw); [lia|]. replace (x + Z.of_nat 0 * stride)%Z with x in Ew by lia.
          exists w. split; [exact Ew|]. split; [exact Ow|]. intros m Lm. rewrite PA by auto. exact Pw. }
      destruct Sv as (v & -> & Ov & Hv). cbn [obind].
      destruct (chunk_const_ok v kA 0 (fe - fb)%Z (x - (fe - y) * stride)%Z vzero (fe - y)%Z) as (acc & E & Oa & Ea);
        [exact Ov|unfold kA; lia|lia|lia|exact Hv|lia|exact ok0|exact pi0|].
      rewrite E. cbn [obind]. exists v, acc. split; [|auto].
      rewrite Nat.sub_0_r. match goal with |- Some (?a, ?b, _, _) = Some (?c, ?d, _, _) => replace c with a by lia; replace d with b by (unfold kA; nia); reflexivity end.
    - exists vzero, vzero. replace kA with 0 by (unfold kA; lia). split; [|cbn; auto].
      match goal with |- Some (?a, ?b, _, _) = Some (?c, ?d, _, _) => replace c with a by lia; replace d with b by (lia); reflexivity end. }
  destruct SA as (v & acc & -> & Ov & Oa & Ea). cbn [obind].
  set (stopB := (fe - Z.max fb (y - Z.of_nat height + 1) + 1)%Z).
  set (kB := Z.to_nat stopB).
  assert (LAB : kA < kB) by (unfold kA, kB, stopB; lia).
  destruct (while_inv (fun j '(fi, sp, v, acc) => (kA <= j <= kB) /\ fi = (fe - fb - Z.of_nat j)%Z /\
       sp = (x + (y - fe + Z.of_nat j) * stride)%Z /\ ok v /\ ok acc /\ pi acc = sum j term /\
       (kA < j -> pi v = col (Z.to_nat (y - fe + Z.of_nat j - 1))))
     (fun s => (fe - fb - stopB <? fst (fst (fst s)))%Z) (chunk_image load mac filt stride) kB)
     with (fuel := S (length filt)) (k := kA) (s := ((fe - fb - Z.of_nat kA)%Z, (x + (y - fe + Z.of_nat kA) * stride)%Z, v, acc))
     as ([[[fi' sp'] v'] acc'] & E & _ & -> & -> & Ov' & Oa' & Ea' & Cv').
  - intros j [[[f1 s1] v1] a1]. tauto.
  - intros j [[[f1 s1] v1] a1] Lj (L1 & -> & -> & O1 & O2 & E1 & _). cbn [fst].
    split; [apply Z.ltb_lt; unfold kB in Lj; lia|].
    assert (Lp : (0 <= y - fe + Z.of_nat j < Z.of_nat height)%Z) by (unfold kA in L1; unfold kB, stopB in Lj; lia).
    cbn [chunk_image]. destruct (Hl (Z.to_nat (y - fe + Z.of_nat j))) as (w & Ew & Ow & Pw); [lia|].
    rewrite Z2Nat.id in Ew by lia. rewrite Ew. cbn [obind].
    rewrite filt_read by (unfold kB, stopB in Lj; lia). cbn [obind].
    destruct (okm a1 w (nth (Z.to_nat (fe - fb) - j) filt r0) O2 Ow) as [O3 E3].
    eexists; split; [reflexivity|]. split; [lia|]. split; [lia|]. split; [lia|]. split; [auto|]. split; [auto|]. split.
    + rewrite E3, Nat.add_1_r. cbn [ImOp_Spec.sum]. rewrite E1, Pw. f_equal. unfold term. f_equal.
      unfold pad, padded. destruct (Z.leb_spec 0 (y - fe + Z.of_nat j)); [|lia].
      destruct (Z.ltb_spec (y - fe + Z.of_nat j) (Z.of_nat height)); [|lia]. reflexivity.
    + intros _. rewrite Pw. f_equal. lia.
  - intros [[[f1 s1] v1] a1] (_ & -> & _). cbn [fst]. apply Z.ltb_ge. unfold kB, stopB. lia.
  - unfold kB, stopB. lia.
  - split; [lia|]. split; [reflexivity|]. split; [reflexivity|]. split; [auto|]. split; [auto|]. split; [auto|lia].
  - rewrite E. cbn [obind]. clear E.
    set (N := Z.to_nat (fe - fb + 1)).
    destruct (chunk_const_ok (if zeropad then vzero else v') N kB (fe - fb - Z.of_nat kB)%Z
       (x + (y - fe + Z.of_nat kB) * stride)%Z acc' (fe - fb + 1)%Z) as (acc2 & E2 & O2 & P2);
      [destruct zeropad; auto|unfold N; lia|lia|unfold kB, stopB, N; lia| |lia|auto|auto|].
    + intros m Lm. unfold pad, padded.
      assert (Z.of_nat height <= y - fe + Z.of_nat m)%Z by (unfold kB, stopB, N in Lm; lia).
      destruct (Z.ltb_spec (y - fe + Z.of_nat m) (Z.of_nat height)); [lia|]. rewrite andb_false_r.
      destruct zeropad; [exact pi0|]. destruct (Z.ltb_spec (y - fe + Z.of_nat m) 0); [lia|].
      rewrite Cv' by lia. f_equal. unfold kB, stopB, N in *. lia.
    + rewrite E2. cbn [obind]. exists acc2. split; [reflexivity|]. split; [exact O2|]. rewrite P2.
      unfold conv_at. fold N.
      rewrite (sum_rev _ _ _ _ _ _ Rth N (fun i => rmul (padded r0 zeropad height col (Z.of_nat (Z.to_nat y) - (fb + Z.of_nat i))) (nth i filt r0))).
      apply sum_ext. intros i Li. unfold term, pad. unfold N in *. f_equal; [f_equal; lia|f_equal; lia].
Qed.
End Pixel.

(** *** Columns *)
Section Convcol.
Variables (dstride : nat) (src : list A) (width height : nat) (stride : nat)
          (filt : list A) (fb fe : Z) (step : nat) (transp zeropad : bool) (dst0 : list A).
Let dh := dheight height step.
Let pos := out_pos transp dstride.
Let val (x k : nat) : A :=
  conv_at r0 radd rmul zeropad height (pixel r0 src stride x) filt fb fe (k * step).
Hypothesis Hstep : 0 < step.
Hypothesis Hheight : 0 < height.
Hypothesis Hf : (fb <= 0 <= fe)%Z.
Hypothesis Hn : (fe - fb + 1 <= Z.of_nat (length filt))%Z.
Hypothesis Hs : forall x y, x < width -> y < height -> x + y * stride < length src.
Hypothesis Hd : forall x k, x < width -> k < dh -> pos x k < length dst0.
Hypothesis Hds : (if transp then dh else width) <= dstride.

Let Pt (d : nat -> nat -> Prop) := painted pos val width dh dst0 d.

(** offset of the destination pointer at the start of a column *)
Let start (x : nat) : Z := Z.of_nat (pos x 0).

Lemma count j : j * step < height <-> j < dh.
Proof. apply for_step_count; auto. Qed.

Lemma col_row_ok x k dst : x < width -> k < dh -> Pt (before x k) dst ->
  exists dst', col_row r0 radd rmul dstride src height stride filt fb fe transp zeropad x (k * step) (Z.of_nat (pos x k), dst)
    = Some (Z.of_nat (pos x (k + 1)), dst') /\ Pt (before x (k + 1)) dst'.
Proof.
  intros Lx Lk P. unfold col_row.
  assert (Ly : k * step < height) by (apply count; auto).
  destruct (conv_pixel_ok r0 (zget src) (mac_scalar radd rmul) (fun _ => True) (fun v => v)
    height (Z.of_nat stride) filt fb fe zeropad (Z.of_nat x) (Z.of_nat (k * step)) (pixel r0 src stride x))
    as (acc & E & _ & Ea); auto.
  - intros p Lp. exists (pixel r0 src stride x p). split; [|auto]. unfold pixel.
    apply zget_nat; [lia|]. apply Hs; auto.
  - split; [apply Zle_0_nat|lia].
  - rewrite E. cbn [obind]. rewrite (zset_nat _ _ (pos x k)) by auto.
    edestruct (painted_set pos val width dh dst0 (before x k) (before x (k + 1))) as [E1 P1];
      [apply inj_out; exact Hds|exact Lx|exact Lk|exact Hd| | |exact P|].
    + intros a' b' _ _ [X|[-> X]]; [left; left; auto|]. destruct (Nat.eq_dec b' k); [right; auto|left; right; lia].
    + instantiate (1 := acc). unfold val. rewrite Ea. now rewrite Nat2Z.id.
    + rewrite E1. cbn [obind]. eexists; split; [|exact P1]. f_equal. f_equal. unfold pos, out_pos.
      destruct transp; lia.
Qed.

Lemma col_scalar_ok x dst : x < width -> Pt (before x 0) dst ->
  exists dst', col_scalar r0 radd rmul dstride src height stride filt fb fe step transp zeropad (x, start x, dst)
    = Some (x + 1, start (x + 1), dst') /\ Pt (before (x + 1) 0) dst'.
Proof.
  intros Lx P. unfold col_scalar.
  destruct (for_step_inv (fun k '(dp, dst) => dp = Z.of_nat (pos x k) /\ Pt (before x k) dst)
     (col_row r0 radd rmul dstride src height stride filt fb fe transp zeropad x) height step dh count
     (S height) 0 (start x, dst)) as ([dp dst'] & E & -> & P').
  - lia.
  - assert (Y : (dh - 1) * step < height) by (apply count; unfold dh, dheight; lia). unfold dh in *. nia.
  - split; [reflexivity|exact P].
  - intros j [dp dst1] _ Lj (-> & P1). destruct (col_row_ok x j dst1 Lx Lj P1) as (dst2 & E2 & P2).
    rewrite E2. eexists; split; [reflexivity|]. split; [reflexivity|exact P2].
  - cbn [Nat.mul] in E. rewrite E. cbn [obind]. exists dst'. split.
    + f_equal. f_equal. f_equal. unfold start, pos, out_pos. fold dh. destruct transp; lia.
    + revert P'. apply painted_weaken. intros a b La Lb [X|[X Y]]; [|lia].
      destruct (Nat.eq_dec a x); [right; auto|left; lia].
Qed.

Lemma imconvcol_ok : exists dst,
  imconvcol r0 radd rmul dstride src width height stride filt fb fe step transp zeropad dst0 = Some dst /\
  filled pos val width dh dst0 dst.
Proof.
  unfold imconvcol.
  destruct (while_inv (fun j '(x, dp, dst) => x = j /\ j <= width /\ dp = start x /\ Pt (before x 0) dst)
    (fun s => fst (fst s) <? width) (col_scalar r0 radd rmul dstride src height stride filt fb fe step transp zeropad) width)
    with (fuel := S width) (k := 0) (s := (0, 0%Z, dst0)) as ([[x dp] dst] & E & -> & _ & _ & P).
  - intros j [[x dp] dst]. tauto.
  - intros j [[x dp] dst] Lj (-> & _ & -> & P). cbn [fst]. split; [now apply Nat.ltb_lt|].
    destruct (col_scalar_ok j dst Lj P) as (dst' & -> & P'). eexists; split; [reflexivity|].
    split; [reflexivity|]. split; [lia|]. split; [reflexivity|exact P'].
  - intros [[x dp] dst] (-> & _). cbn [fst]. apply Nat.ltb_irrefl.
  - lia.
  - split; [reflexivity|]. split; [lia|]. split; [unfold start, pos, out_pos; destruct transp; reflexivity|].
    apply painted_start. intros a b _ _ [X|[_ X]]; lia.
  - rewrite E. cbn [obind]. exists dst. split; [reflexivity|]. eapply painted_filled; [|exact P].
    intros a b La Lb. left. exact La.
Qed.

(** *** The vectorised version *)
Section Vector.
Variables (vsize : nat) (valigned : nat -> bool) (use_simd : bool).
Hypothesis Hv : 0 < vsize.

Lemma load_lanes_ok p : p + vsize <= length src ->
  exists w, load_lanes src vsize (Z.of_nat p) = Some w /\ length w = vsize /\
    forall i, i < vsize -> nth i w r0 = nth (p + i) src r0.
Proof.
  intro L. unfold load_lanes.
  destruct (iter_inv (fun j l => length l = j /\ forall i, i < j -> nth i l r0 = nth (p + i) src r0)
    (fun j l => do v <- zget src (Z.of_nat p + Z.of_nat j); Some (l ++ [v])) vsize []) as (w & E & Lw & Nw).
  - split; [reflexivity|lia].
  - intros j l Lj (Ll & Nl). rewrite (zget_nat _ _ (p + j) r0) by lia. cbn [obind].
    eexists; split; [reflexivity|]. rewrite app_length. cbn. split; [lia|]. intros i Li.
    destruct (Nat.eq_dec i j) as [->|X].
    + rewrite app_nth2, Ll, Nat.sub_diag by lia. reflexivity.
    + rewrite app_nth1 by lia. apply Nl. lia.
  - eauto.
Qed.

Lemma mac_lanes_nth a v c i : length a = vsize -> length v = vsize -> i < vsize ->
  nth i (mac_lanes radd rmul a v c) r0 = radd (nth i a r0) (rmul (nth i v r0) c).
Proof.
  intros La Lv Li. unfold mac_lanes.
  set (f := fun av : A * A => radd (fst av) (rmul (snd av) c)).
  rewrite nth_indep with (d' := f (r0, r0)) by (rewrite map_length, combine_length; lia).
  rewrite map_nth. rewrite combine_nth by lia. reflexivity.
Qed.

Lemma vec_pixel_ok x y : x + vsize <= width -> y < height ->
  exists acc, conv_pixel (repeat r0 vsize) (load_lanes src vsize) (mac_lanes radd rmul) height (Z.of_nat stride)
     filt fb fe zeropad (Z.of_nat x) (Z.of_nat y) = Some acc /\ length acc = vsize /\
   forall i, i < vsize -> nth i acc r0 = conv_at r0 radd rmul zeropad height (pixel r0 src stride (x + i)) filt fb fe y.
Proof.
  intros Lx Ly.
  assert (G : forall i, i < vsize -> exists acc, conv_pixel (repeat r0 vsize) (load_lanes src vsize) (mac_lanes radd rmul) height (Z.of_nat stride)
     filt fb fe zeropad (Z.of_nat x) (Z.of_nat y) = Some acc /\ length acc = vsize /\
     nth i acc r0 = conv_at r0 radd rmul zeropad height (pixel r0 src stride (x + i)) filt fb fe (Z.to_nat (Z.of_nat y))).
  { intros i Li. apply (conv_pixel_ok (repeat r0 vsize) (load_lanes src vsize) (mac_lanes radd rmul)
       (fun l => length l = vsize) (fun l => nth i l r0)); auto.
    - apply repeat_length.
    - apply nth_repeat.
    - intros a v c La Lv. split; [|apply mac_lanes_nth; auto]. unfold mac_lanes.
      rewrite map_length, combine_length. lia.
    - intros p Lp. replace (Z.of_nat x + Z.of_nat p * Z.of_nat stride)%Z with (Z.of_nat (x + p * stride)) by lia.
      destruct (load_lanes_ok (x + p * stride)) as (w & Ew & Lw & Nw).
      + pose proof (Hs (x + vsize - 1) p ltac:(lia) Lp). lia.
      + exists w. split; [auto|]. split; [auto|]. rewrite Nw by auto. unfold pixel. f_equal. lia.
    - lia. }
  destruct (G 0 Hv) as (acc & E & L & _). exists acc. split; [auto|]. split; [auto|].
  intros i Li. destruct (G i Li) as (acc' & E' & _ & V'). rewrite E in E'. injection E' as <-.
  now rewrite Nat2Z.id in V'.
Qed.

(** [wide x k] : all cells of the columns before x, and the first k cells of
    the columns x .. x+vsize-1; [lane]: also the first j lanes of row k *)
Let lane (x k j : nat) (a b : nat) : Prop :=
  a < x \/ (a < x + vsize /\ b < k) \/ (a < x + j /\ b = k).

Lemma vec_row_ok x k dst : x + vsize <= width -> k < dh -> Pt (lane x k 0) dst ->
  exists dst', vec_row r0 radd rmul dstride src height stride filt fb fe transp zeropad vsize x (k * step)
     (Z.of_nat (pos x k), dst) = Some (Z.of_nat (pos x (k + 1)), dst') /\ Pt (lane x (k + 1) 0) dst'.
Proof.
  intros Lx Lk P. unfold vec_row.
  destruct (vec_pixel_ok x (k * step) Lx) as (acc & -> & La & Va); [apply count; auto|]. cbn [obind].
  destruct (iter_inv (fun j '(dp, dst) => dp = Z.of_nat (pos (x + j) k) /\ Pt (lane x k j) dst)
     (store_lane dstride transp acc) vsize (Z.of_nat (pos x k), dst)) as ([dp dst'] & E & -> & P').
  - split; [now rewrite Nat.add_0_r|exact P].
  - intros j [dp dst1] Lj (-> & P1). cbn [store_lane].
    rewrite (aget_nth acc j r0) by lia. cbn [obind]. rewrite (zset_nat _ _ (pos (x + j) k)) by auto.
    edestruct (painted_set pos val width dh dst0 (lane x k j) (lane x k (j + 1))) as [E1 P2];
      [apply inj_out; exact Hds| |exact Lk|exact Hd| | |exact P1|].
    4:{ rewrite E1. cbn [obind]. eexists; split; [reflexivity|]. split; [|exact P2].
        unfold pos, out_pos. destruct transp; lia. }
    + lia.
    + intros a' b' _ _ X. unfold lane in *. lia.
    + unfold val. apply Va. auto.
  - rewrite E. cbn [obind]. exists dst'. split.
    + f_equal. f_equal. unfold pos, out_pos. destruct transp; lia.
    + revert P'. apply painted_weaken. intros a b _ _ X. unfold lane in *. lia.
Qed.

Lemma col_vector_ok x dst : x + vsize <= width -> Pt (before x 0) dst ->
  exists dst', col_vector r0 radd rmul dstride src height stride filt fb fe step transp zeropad vsize (x, start x, dst)
    = Some (x + vsize, start (x + vsize), dst') /\ Pt (before (x + vsize) 0) dst'.
Proof.
  intros Lx P. unfold col_vector.
  destruct (for_step_inv (fun k '(dp, dst) => dp = Z.of_nat (pos x k) /\ Pt (lane x k 0) dst)
     (vec_row r0 radd rmul dstride src height stride filt fb fe transp zeropad vsize x) height step dh count
     (S height) 0 (start x, dst)) as ([dp dst'] & E & -> & P').
  - lia.
  - assert (Y : (dh - 1) * step < height) by (apply count; unfold dh, dheight; lia). unfold dh in *. nia.
  - split; [reflexivity|]. revert P. apply painted_weaken. intros a b _ _ X. unfold lane, before in *. lia.
  - intros j [dp dst1] _ Lj (-> & P1). destruct (vec_row_ok x j dst1 Lx Lj P1) as (dst2 & E2 & P2).
    rewrite E2. eexists; split; [reflexivity|]. split; [reflexivity|exact P2].
  - cbn [Nat.mul] in E. rewrite E. cbn [obind]. exists dst'. split.
    + f_equal. f_equal. f_equal. unfold start, pos, out_pos. fold dh. destruct transp; lia.
    + revert P'. apply painted_weaken. intros a b La Lb X. unfold lane, before in *. lia.
Qed.

Lemma imconvcol_sse2_ok : exists dst,
  imconvcol_sse2 r0 radd rmul dstride src width height stride filt fb fe step transp zeropad vsize valigned use_simd dst0 = Some dst /\
  filled pos val width dh dst0 dst.
Proof.
  unfold imconvcol_sse2. set (body := fun s : nat * Z * list A => if (fst (fst s) + vsize <? width) && _ && _ then _ else _).
  assert (G : forall fuel x dst, width - x < fuel -> x <= width -> Pt (before x 0) dst ->
    exists dst' dp, while fuel (fun s => fst (fst s) <? width) body (x, start x, dst) = Some (width, dp, dst') /\
      Pt (before width 0) dst').
  { induction fuel as [|fuel IH]; intros x dst F L P; [lia|]. cbn [while fst].
    destruct (Nat.ltb_spec x width) as [X|X].
    - unfold body at 1. cbn [fst].
      destruct ((x + vsize <? width) && valigned x && use_simd) eqn:C.
      + apply andb_prop in C as [C _]. apply andb_prop in C as [C _]. apply Nat.ltb_lt in C.
        destruct (col_vector_ok x dst) as (dst' & -> & P'); [lia|auto|]. cbn [obind]. apply IH; [lia|lia|auto].
      + destruct (col_scalar_ok x dst) as (dst' & -> & P'); [lia|auto|]. cbn [obind]. apply IH; [lia|lia|auto].
    - replace x with width in * by lia. eauto. }
  destruct (G (S width) 0 dst0) as (dst' & dp & E & P); [lia|lia| |].
  - apply painted_start. intros a b _ _ [X|[_ X]]; lia.
  - replace (start 0) with 0%Z in E by (unfold start, pos, out_pos; destruct transp; reflexivity).
    rewrite E. cbn [obind]. exists dst'. split; [reflexivity|]. eapply painted_filled; [|exact P].
    intros a b La Lb. left. exact La.
Qed.
End Vector.
End Convcol.
End Ringed.
