From Coq Require Import List Arith ZArith Lia Bool QArith Qcanon Qcabs.
Import ListNotations.
From Verif Require Import Base Loop Rat ImOp_Spec ImOp_Model ImOp_Proofs ImOp_Props Kmeans_Spec MserSort_Proofs Gauss_Model Gauss_Proofs Homker_Proofs Sift_Proofs SiftDescr_Model SiftDescr_Proofs Quickshift_Model
  KdBatch_Proofs DsiftTranspose_Proofs Imsmooth_Model Imsmooth_Spec.
Local Open Scope nat_scope.

(** ** the filter *)
Lemma gauss_filter_ok expo eps junk sigma W : exists filt, gauss_filter expo eps junk sigma W = Some filt /\ length filt = 2 * W + 1 /\
  forall i, i < 2 * W + 1 -> nth i filt 0%Qc = bell_weight expo sigma eps W i.
Proof.
  unfold gauss_filter.
  match goal with |- context [iter (2 * W + 1) ?b (repeat junk ?n, ?z)] => destruct (iter_inv (fun j s => length (fst s) = 2 * W + 1 /\ (forall i, i < j -> nth i (fst s) 0%Qc = bell expo sigma eps W i) /\
    snd s = ksum j (bell expo sigma eps W)) b (2 * W + 1) (repeat junk n, z)) as ([f acc] & E & L & V & S) end.
  - cbn [fst snd]. split; [apply repeat_length|]. split; [intros; lia|reflexivity].
  - intros j [f acc] Lj (L & V & S). cbn [fst snd] in *. cbv zeta. fold (bell expo sigma eps W j). rewrite aset_lt by lia. cbn [obind]. eexists. split; [reflexivity|]. cbn [fst snd].
    split; [now rewrite upd_length|]. split.
    + intros i Li. rewrite nth_upd by lia. destruct (Nat.eqb_spec i j) as [->|N]; [reflexivity|]. apply V. lia.
    + replace (j + 1) with (Datatypes.S j) by lia. cbn [sum]. now rewrite S.
  - rewrite E. cbn [obind fst snd] in *.
    match goal with |- context [iter (2 * W + 1) ?b f] => destruct (iter_inv (fun j g => length g = 2 * W + 1 /\ forall i, i < 2 * W + 1 -> nth i g 0%Qc = if i <? j then bell_weight expo sigma eps W i else bell expo sigma eps W i) b (2 * W + 1) f) as (g & E2 & L2 & V2) end.
    + split; [exact L|]. intros i Li. cbn. now apply V.
    + intros j g Lj (Lg & Vg). rewrite (aget_nth g j 0%Qc) by lia. cbn [obind]. rewrite aset_lt by lia. eexists. split; [reflexivity|]. split; [now rewrite upd_length|].
      intros i Li. rewrite nth_upd by lia. destruct (Nat.eqb_spec i j) as [->|N].
      * rewrite (proj2 (Nat.ltb_lt j (j + 1))) by lia. rewrite (Vg j Lj). rewrite Nat.ltb_irrefl. unfold bell_weight. now rewrite S.
      * rewrite (Vg i Li). replace (i <? j + 1) with (i <? j); [reflexivity|]. destruct (Nat.ltb_spec i j), (Nat.ltb_spec i (j + 1)); auto; lia.
    + exists g. split; [exact E2|]. split; [exact L2|]. intros i Li. rewrite V2 by exact Li. now rewrite (proj2 (Nat.ltb_lt i _)).
Qed.
Lemma nq_diff a b c d : a + d = c + b -> (nq a - nq b = nq c - nq d)%Qc.
Proof. intro H. assert (E : (zq (Z.of_nat a + Z.of_nat d) = zq (Z.of_nat c + Z.of_nat b))%Qc) by (f_equal; lia). rewrite !zq_plus in E. unfold nq. set (x := zq (Z.of_nat a)) in *. set (y := zq (Z.of_nat b)) in *. set (z := zq (Z.of_nat c)) in *. set (t := zq (Z.of_nat d)) in *.
  replace x with (x + t - t)%Qc by ring. rewrite E. ring. Qed.
Lemma bell_even expo sigma eps W i : i <= 2 * W -> bell expo sigma eps W (2 * W - i) = bell expo sigma eps W i.
Proof.
  intro L. unfold bell. f_equal. f_equal. rewrite (nq_diff (2 * W - i) W W i) by lia. unfold Qcdiv. ring.
Qed.
Lemma bell_line expo sigma eps zp h col W filt y : length filt = 2 * W + 1 -> (forall i, i < 2 * W + 1 -> nth i filt 0%Qc = bell_weight expo sigma eps W i) ->
  conv_at 0%Qc Qcplus Qcmult zp h col filt (- Z.of_nat W) (Z.of_nat W) y = line zp h W (bell_weight expo sigma eps W) col y.
Proof.
  intros L V. unfold conv_at, line. replace (Z.to_nat (Z.of_nat W - - Z.of_nat W + 1)) with (2 * W + 1) by lia. rewrite (ImOp_Proofs.sum_rev _ _ _ _ _ _ Qcrt).
  apply ksum_ext. intros i Li. rewrite V by lia. rewrite Qcmult_comm. f_equal.
  - unfold bell_weight. f_equal. replace (2 * W + 1 - 1 - i) with (2 * W - i) by lia. apply bell_even. lia.
  - f_equal. lia.
Qed.
Lemma ramp_line zp h col F y : 0 < F -> ((1 / (nq F * nq F)) * triangle_at 0 Qcplus zp h col F y)%Qc = line zp h (F - 1) (ramp_weight F) col y.
Proof.
  intro HF. unfold triangle_at, line. replace (2 * (F - 1) + 1) with (2 * F - 1) by lia. rewrite <- (sum_scale _ _ _ _ _ _ Qcrt). apply ksum_ext. intros i Li. cbv zeta. rewrite times_nq.
  unfold ramp_weight. replace (Z.to_nat (Z.of_nat F - Z.abs (Z.of_nat i - (Z.of_nat F - 1)))) with (Nat.min (i + 1) (2 * F - 1 - i)) by lia.
  replace (Z.of_nat y + Z.of_nat i - Z.of_nat (F - 1))%Z with (Z.of_nat y + (Z.of_nat i - (Z.of_nat F - 1)))%Z by lia. unfold Qcdiv. ring.
Qed.

(** ** one pass *)
Definition kern_ok (k : kern) (W : nat) (weight : nat -> Qc) : Prop :=
  match k with
  | kern_filter filt W' => W' = W /\ length filt = 2 * W + 1 /\ forall zp h col y, conv_at 0%Qc Qcplus Qcmult zp h col filt (- Z.of_nat W) (Z.of_nat W) y = line zp h W weight col y
  | kern_triangle F => 0 < F /\ forall zp h col y, ((1 / (nq F * nq F)) * triangle_at 0 Qcplus zp h col F y)%Qc = line zp h W weight col y
  end.
Lemma line_ext zp h W weight f g y : 0 < h -> (forall p, p < h -> f p = g p) -> line zp h W weight f y = line zp h W weight g y.
Proof.
  intros Hh H. unfold line. apply ksum_ext. intros i _. f_equal. unfold padded. destruct (Z.leb_spec 0 (Z.of_nat y + Z.of_nat i - Z.of_nat W)), (Z.ltb_spec (Z.of_nat y + Z.of_nat i - Z.of_nat W) (Z.of_nat h)); cbn [andb].
  1: apply H; lia.
  all: destruct zp; [reflexivity|]; destruct (_ <? 0)%Z; apply H; lia.
Qed.
Lemma convolve_ok junk k W weight step zp dst dstride src width height : kern_ok k W weight -> 0 < step -> 0 < height -> length src = width * height ->
  dstride = (height - 1) / step + 1 -> length dst = width * dstride ->
  exists dst', convolve junk k step zp dst dstride src width height width = Some dst' /\ length dst' = width * dstride /\
    forall x j, x < width -> j < dstride -> nth (x * dstride + j) dst' 0%Qc = line zp height W weight (fun y => nth (x + y * width) src 0%Qc) (j * step).
Proof.
  intros K Hs Hh Ls Ed Ld.
  assert (IN : inside src width height width) by (intros x y Lx Ly; nia).
  assert (P : forall x j, x < width -> j < (height - 1) / step + 1 -> out_pos true dstride x j < length dst) by (intros x j Lx Lj; unfold out_pos; rewrite <- Ed in Lj; nia).
  destruct k as [filt W'|F]; unfold convolve.
  - destruct K as (-> & LF & K). destruct (C29_column_convolution Qc _ _ _ _ _ _ Qcrt dst src dstride width height width filt (- Z.of_nat W) (Z.of_nat W) step true zp Hs Hh ltac:(lia) ltac:(lia) IN P (Nat.eq_le_incl _ _ (eq_sym Ed))) as (dst' & E & L & V & _).
    exists dst'. split; [exact E|]. split; [lia|]. intros x j Lx Lj. specialize (V x j Lx ltac:(lia)). unfold out_pos in V. apply (nth_error_nth _ _ 0%Qc) in V. rewrite V. unfold pixel. apply K.
  - destruct K as (HF & K). destruct (C30_triangular_convolution Qc _ _ _ _ _ _ Qcrt dst src dstride width height width F (1 / (nq F * nq F))%Qc step true zp (repeat junk (height + F)) Hs Hh HF (repeat_length _ _) IN P (Nat.eq_le_incl _ _ (eq_sym Ed))) as (dst' & E & L & V & _).
    exists dst'. split; [exact E|]. split; [lia|]. intros x j Lx Lj. specialize (V x j Lx ltac:(lia)). unfold out_pos in V. apply (nth_error_nth _ _ 0%Qc) in V. rewrite V. unfold pixel. apply K.
Qed.

(** ** all channels *)
Lemma smooth_ok expo eps junk k sigma kern W weight step zp out input rows cols channels temp :
  make_kernel expo eps junk k sigma = Some kern -> kern_ok kern W weight -> 0 < step -> 0 < rows -> 0 < cols ->
  let oR := (rows - 1) / step + 1 in let oC := (cols - 1) / step + 1 in
  length input = channels * (rows * cols) -> length out = channels * (oR * oC) -> length temp = rows * oC ->
  exists out', smooth expo eps junk k sigma step zp out oR oC input rows cols channels temp = Some out' /\ length out' = length out /\
    forall c i j, c < channels -> i < oR -> j < oC -> entry out' oR oC c i j = both zp rows cols W weight (entry input rows cols c) (i * step) (j * step).
Proof.
  intros EK KO Hs Hr Hc oR oC LI LO LT. unfold smooth. rewrite EK. cbn [obind].
  match goal with |- context [iter channels ?b ?s] => destruct (iter_inv (fun n st => length (fst st) = channels * (oR * oC) /\ length (snd st) = rows * oC /\
    forall c i j, c < n -> i < oR -> j < oC -> entry (fst st) oR oC c i j = both zp rows cols W weight (entry input rows cols c) (i * step) (j * step)) b channels s) as ([o t] & E & L1 & L2 & V) end.
  - cbn [fst snd]. split; [exact LO|]. split; [exact LT|]. intros; lia.
  - intros c [o t] Lc (L1 & L2 & V). cbn [fst snd] in *.
    assert (B1 : c * (rows * cols) + rows * cols <= channels * (rows * cols)) by nia. assert (B2 : c * (oR * oC) + oR * oC <= channels * (oR * oC)) by nia.
    destruct (convolve_ok junk kern W weight step zp t oC (firstn (rows * cols) (skipn (c * (rows * cols)) input)) rows cols KO Hs Hc) as (t' & E1 & LT' & V1); [rewrite firstn_length, skipn_length; lia|reflexivity|exact L2|].
    rewrite E1. cbn [obind].
    destruct (convolve_ok junk kern W weight step zp (firstn (oR * oC) (skipn (c * (oR * oC)) o)) oR t' oC rows KO Hs Hr) as (p & E2 & LP & V2); [lia|reflexivity|rewrite firstn_length, skipn_length; lia|].
    rewrite E2. cbn [obind]. eexists. split; [reflexivity|]. cbn [fst snd].
    assert (LF : length (firstn (c * (oR * oC)) o) = c * (oR * oC)) by (rewrite firstn_length; lia).
    split; [rewrite !app_length, skipn_length, LF; lia|]. split; [lia|]. intros d i j Ld Li Lj. unfold entry at 1. assert (Q : j * oR + i < oR * oC) by nia.
    destruct (Nat.eq_dec d c) as [->|ND].
    + rewrite app_nth2 by lia. rewrite LF. rewrite app_nth1 by lia. replace (c * (oR * oC) + j * oR + i - c * (oR * oC)) with (j * oR + i) by lia. rewrite V2 by assumption.
      unfold both. apply line_ext; [exact Hr|]. intros r Lr. rewrite Nat.add_comm. rewrite V1 by assumption. apply line_ext; [exact Hc|]. intros q Lq.
      rewrite (nth_firstn 0%Qc) by nia. rewrite (nth_skipn 0%Qc). unfold entry. f_equal. lia.
    + assert (D : d * (oR * oC) + oR * oC <= c * (oR * oC)) by nia. rewrite app_nth1 by lia. rewrite (nth_firstn 0%Qc) by lia. apply V; lia.
  - rewrite E. cbn [obind fst snd] in *. exists o. split; [reflexivity|]. split; [lia|exact V].
Qed.
