(** C28-C30: integral images and column convolutions. *)
From Coq Require Import List Arith ZArith Lia Bool Ring Ring_theory.
From Verif Require Import Base Loop ImOp_Model ImOp_Spec ImOp_Proofs ImConv_Proofs ImTri_Proofs Word_Spec.
Import ListNotations.

(** an image of the given size and stride lies inside the array *)
Definition inside {A} (image : list A) (width height stride : nat) : Prop :=
  forall x y, x < width -> y < height -> x + y * stride < length image.

(** C28.  Over any ring (integers, integers modulo 2^32, reals), output pixel
    (x,y) holds the sum of the image over the rectangle (0,0)-(x,y), inclusive,
    and no other cell of the output array changes. *)
Theorem C28_integral_image : forall (A : Type) r0 r1 radd rmul rsub ropp,
  @ring_theory A r0 r1 radd rmul rsub ropp eq ->
  forall (image out : list A) (ostride width height istride : nat),
  inside image width height istride -> inside out width height ostride -> width <= ostride ->
  exists out', imintegral r0 radd out ostride image width height istride = Some out' /\
    filled (fun y x => x + y * ostride) (fun y x => rect_sum r0 radd image istride 0 (x + 1) 0 (y + 1))
      height width out out'.
Proof.
  intros A r0 r1 radd rmul rsub ropp Rth image out ostride width height istride Hi Ho Hs.
  destruct (imintegral_ok r0 r1 radd rmul rsub ropp Rth image out ostride width height istride Hi Ho Hs) as (out' & E & L & V & U).
  exists out'. split; [exact E|]. split; [exact L|]. split.
  - intros y x Ly Lx. rewrite Nat.add_comm. rewrite V by auto. unfold rect_sum, corner.
    now rewrite !Nat.sub_0_r.
  - intros i Hi'. apply U. intros a b La Lb. rewrite Nat.add_comm. now apply Hi'.
Qed.
Print Assumptions C28_integral_image.

(** the value of the integral image at the corner (x,y), 0 on the top and left
    border *)
Definition corner_value {A} (r0 : A) (out : list A) (ostride x y : nat) : A :=
  if (x =? 0) || (y =? 0) then r0 else nth ((x - 1) + (y - 1) * ostride) out r0.

(** C28.  The sum over any rectangle of the image is the four-corner
    combination of the computed integral image. *)
Theorem C28_rectangle_sums : forall (A : Type) r0 r1 radd rmul rsub ropp,
  @ring_theory A r0 r1 radd rmul rsub ropp eq ->
  forall (image out out' : list A) (ostride width height istride : nat),
  inside image width height istride -> inside out width height ostride -> width <= ostride ->
  imintegral r0 radd out ostride image width height istride = Some out' ->
  forall x0 x1 y0 y1, x0 <= x1 <= width -> y0 <= y1 <= height ->
  rect_sum r0 radd image istride x0 x1 y0 y1 =
  radd (rsub (rsub (corner_value r0 out' ostride x1 y1) (corner_value r0 out' ostride x0 y1))
             (corner_value r0 out' ostride x1 y0))
       (corner_value r0 out' ostride x0 y0).
Proof.
  intros A r0 r1 radd rmul rsub ropp Rth image out out' ostride width height istride Hi Ho Hs E x0 x1 y0 y1 Lx Ly.
  destruct (C28_integral_image A r0 r1 radd rmul rsub ropp Rth image out ostride width height istride Hi Ho Hs) as (o & E' & _ & V & _).
  rewrite E in E'. injection E' as <-.
  assert (C : forall x y, x <= width -> y <= height -> corner_value r0 out' ostride x y = cum r0 radd (pixel r0 image istride) y x).
  { intros x y Hx Hy. unfold corner_value, cum. destruct (Nat.eqb_spec x 0) as [->|X]; cbn [orb].
    - cbn [sum]. symmetry. apply (sum_zero _ _ _ _ _ _ Rth).
    - destruct (Nat.eqb_spec y 0) as [->|Y]; [reflexivity|].
      rewrite (nth_error_nth out' _ r0 (V (y - 1) (x - 1) ltac:(lia) ltac:(lia))). unfold rect_sum.
      rewrite !Nat.sub_0_r. replace (x - 1 + 1) with x by lia. replace (y - 1 + 1) with y by lia. reflexivity. }
  rewrite !C by lia. unfold rect_sum. apply (four_corners _ _ _ _ _ _ Rth); lia.
Qed.
Print Assumptions C28_rectangle_sums.

(** C28 for vl_imintegral_ui32: the unsigned 32 bit result is the exact sum
    modulo 2^32. *)
Lemma sum_word n (Hn : (0 < n)%Z) k f :
  to_Z n (sum (of_Z n Hn 0) (wadd n Hn) k f) = ((sum 0%Z Z.add k (fun i => to_Z n (f i))) mod n)%Z.
Proof.
  induction k as [|k IH]; [reflexivity|]. cbn [sum]. unfold wadd at 1. rewrite to_of. rewrite IH.
  rewrite Zplus_mod_idemp_l. reflexivity.
Qed.
Lemma sum_mod n k f : ((sum 0 Z.add k (fun i => f i mod n)) mod n = (sum 0 Z.add k f) mod n)%Z.
Proof.
  induction k as [|k IH]; [reflexivity|]. cbn [sum].
  rewrite Zplus_mod, IH, Zmod_mod, <- Zplus_mod. reflexivity.
Qed.
Theorem C28_integral_ui32 : forall (Hn : (0 < 2 ^ 32)%Z) (image out : list (word (2 ^ 32))) (ostride width height istride : nat),
  inside image width height istride -> inside out width height ostride -> width <= ostride ->
  exists out', imintegral (of_Z (2 ^ 32) Hn 0) (wadd (2 ^ 32) Hn) out ostride image width height istride = Some out' /\
    forall x y, x < width -> y < height ->
      option_map (to_Z (2 ^ 32)) (nth_error out' (x + y * ostride)) =
      Some (rect_sum 0%Z Z.add (map (to_Z (2 ^ 32)) image) istride 0 (x + 1) 0 (y + 1) mod 2 ^ 32)%Z.
Proof.
  intros Hn image out ostride width height istride Hi Ho Hs.
  destruct (C28_integral_image _ _ _ _ _ _ _ (word_ring (2 ^ 32) Hn) image out ostride width height istride Hi Ho Hs)
    as (out' & E & _ & V & _).
  exists out'. split; [exact E|]. intros x y Lx Ly. rewrite (V y x Ly Lx). cbn [option_map]. f_equal.
  unfold rect_sum. rewrite sum_word.
  erewrite sum_ext; [apply sum_mod|]. intros j Lj. cbv beta. rewrite sum_word. f_equal. apply sum_ext.
  intros i _. unfold pixel. symmetry. exact (map_nth (to_Z (2 ^ 32)) image (of_Z (2 ^ 32) Hn 0) (0 + i + (0 + j) * istride)).
Qed.
Print Assumptions C28_integral_ui32.

Definition C28_image : list Z := [1; 2; 3; 99; 4; 5; 6; 99]%Z.
Example C28_ex : imintegral 0%Z Z.add [7; 7; 7; 7; 7; 7; 7]%Z 4 C28_image 3 2 4 = Some [1; 3; 6; 7; 5; 12; 21]%Z.
Proof. reflexivity. Qed.
Example C28_ex_inside : inside C28_image 3 2 4 /\ rect_sum 0%Z Z.add C28_image 4 1 3 0 2 = 16%Z.
Proof. split; [intros x y Lx Ly; cbn; lia|reflexivity]. Qed.

(** C29.  Column convolution, for every ring, image, filter with support
    fb <= 0 <= fe, step, padding and orientation of the output: output (x,k)
    is the padded convolution of column x at row k*step; each output is inside
    the array and nothing else changes.  No read leaves the source or the
    filter (the model would return [None]). *)
Theorem C29_column_convolution : forall (A : Type) r0 r1 radd rmul rsub ropp,
  @ring_theory A r0 r1 radd rmul rsub ropp eq ->
  forall (dst src : list A) (dstride width height stride : nat) (filt : list A) (fb fe : Z) (step : nat) (transp zeropad : bool),
  0 < step -> 0 < height -> (fb <= 0 <= fe)%Z -> (fe - fb + 1 <= Z.of_nat (length filt))%Z ->
  inside src width height stride ->
  let rows := (height - 1) / step + 1 in
  (forall x k, x < width -> k < rows -> out_pos transp dstride x k < length dst) ->
  (if transp then rows else width) <= dstride ->
  exists dst', imconvcol r0 radd rmul dstride src width height stride filt fb fe step transp zeropad dst = Some dst' /\
    filled (out_pos transp dstride)
      (fun x k => conv_at r0 radd rmul zeropad height (pixel r0 src stride x) filt fb fe (k * step)) width rows dst dst'.
Proof.
  intros A r0 r1 radd rmul rsub ropp Rth dst src dstride width height stride filt fb fe step transp zeropad
    Hstep Hh Hf Hn Hs rows Hd Hds.
  exact (imconvcol_ok r0 r1 radd rmul rsub ropp Rth dstride src width height stride filt fb fe step transp zeropad dst
    Hstep Hh Hf Hn Hs Hd Hds).
Qed.
Print Assumptions C29_column_convolution.

(** C29.  The SSE2 version computes the same result for every vector width
    and every alignment of the source and of the stride. *)
Theorem C29_column_convolution_sse2 : forall (A : Type) r0 r1 radd rmul rsub ropp,
  @ring_theory A r0 r1 radd rmul rsub ropp eq ->
  forall (dst src : list A) (dstride width height stride : nat) (filt : list A) (fb fe : Z) (step : nat) (transp zeropad : bool)
    (vsize : nat) (valigned : nat -> bool) (use_simd : bool),
  0 < step -> 0 < height -> (fb <= 0 <= fe)%Z -> (fe - fb + 1 <= Z.of_nat (length filt))%Z ->
  inside src width height stride -> 0 < vsize ->
  let rows := (height - 1) / step + 1 in
  (forall x k, x < width -> k < rows -> out_pos transp dstride x k < length dst) ->
  (if transp then rows else width) <= dstride ->
  exists dst', imconvcol_sse2 r0 radd rmul dstride src width height stride filt fb fe step transp zeropad vsize valigned use_simd dst = Some dst' /\
    imconvcol r0 radd rmul dstride src width height stride filt fb fe step transp zeropad dst = Some dst' /\
    filled (out_pos transp dstride)
      (fun x k => conv_at r0 radd rmul zeropad height (pixel r0 src stride x) filt fb fe (k * step)) width rows dst dst'.
Proof.
  intros A r0 r1 radd rmul rsub ropp Rth dst src dstride width height stride filt fb fe step transp zeropad vsize valigned use_simd
    Hstep Hh Hf Hn Hs Hv rows Hd Hds.
  destruct (imconvcol_sse2_ok r0 r1 radd rmul rsub ropp Rth dstride src width height stride filt fb fe step transp zeropad dst
    Hstep Hh Hf Hn Hs Hd Hds vsize valigned use_simd Hv) as (d1 & E1 & F1).
  destruct (imconvcol_ok r0 r1 radd rmul rsub ropp Rth dstride src width height stride filt fb fe step transp zeropad dst
    Hstep Hh Hf Hn Hs Hd Hds) as (d2 & E2 & F2).
  exists d1. split; [exact E1|]. split; [|exact F1]. rewrite E2. f_equal.
  destruct F1 as (L1 & V1 & U1), F2 as (L2 & V2 & U2). apply nth_error_ext'. intro i.
  assert (D : (exists x k, x < width /\ k < rows /\ i = out_pos transp dstride x k) \/
              (forall x k, x < width -> k < rows -> i <> out_pos transp dstride x k)).
  { clear -rows. generalize rows as m; intro m. induction width as [|w IH].
    - right. intros; lia.
    - destruct IH as [(x & k & Lx & Lk & E)|N]; [left; exists x, k; auto|].
      assert (G : (exists k, k < m /\ i = out_pos transp dstride w k) \/ (forall k, k < m -> i <> out_pos transp dstride w k)).
      { clear. induction m as [|m IH]; [right; intros; lia|].
        destruct IH as [(k & L & E)|N]; [left; exists k; auto|].
        destruct (Nat.eq_dec i (out_pos transp dstride w m)) as [E|E]; [left; exists m; auto|].
        right. intros k L. destruct (Nat.eq_dec k m) as [->|]; [auto|apply N; lia]. }
      destruct G as [(k & L & E)|G]; [left; exists w, k; auto|].
      right. intros x k Lx Lk. destruct (Nat.eq_dec x w) as [->|]; [auto|apply N; lia]. }
  destruct D as [(x & k & Lx & Lk & ->)|N].
  - unfold dheight in *. fold rows in V1, V2. now rewrite V1, V2.
  - unfold dheight in *. fold rows in U1, U2. now rewrite U1, U2.
Qed.
Print Assumptions C29_column_convolution_sse2.

Definition C29_src : list Z := [1; 10; 2; 20; 3; 30; 4; 40]%Z.
Example C29_ex_transposed : imconvcol 0%Z Z.add Z.mul 4 C29_src 2 4 2 [1; 2; 5]%Z (-1) 1 1 true false (repeat 0%Z 8)
  = Some [9; 12; 20; 27; 90; 120; 200; 270]%Z.
Proof. reflexivity. Qed.
Example C29_ex_zero_step : imconvcol 0%Z Z.add Z.mul 2 C29_src 2 4 2 [1; 2; 5]%Z (-1) 1 2 false true (repeat 7%Z 6)
  = Some [4; 40; 20; 200; 7; 7]%Z.
Proof. reflexivity. Qed.
Example C29_ex_sse2 : imconvcol_sse2 0%Z Z.add Z.mul 4 (map Z.of_nat (seq 0 15)) 5 3 5 [1; 2; 5]%Z (-1) 1 1 true false 2 Nat.even true (repeat 0%Z 20)
  = imconvcol 0%Z Z.add Z.mul 4 (map Z.of_nat (seq 0 15)) 5 3 5 [1; 2; 5]%Z (-1) 1 1 true false (repeat 0%Z 20).
Proof. reflexivity. Qed.

(** C30.  Triangular convolution, also when the kernel is larger than the
    image. *)
Theorem C30_triangular_convolution : forall (A : Type) r0 r1 radd rmul rsub ropp,
  @ring_theory A r0 r1 radd rmul rsub ropp eq ->
  forall (dst image : list A) (dstride width height stride : nat) (fsize : nat) (scale : A) (step : nat) (transp zeropad : bool)
    (buffer : list A),
  0 < step -> 0 < height -> 0 < fsize -> length buffer = height + fsize ->
  inside image width height stride ->
  let rows := (height - 1) / step + 1 in
  (forall x k, x < width -> k < rows -> out_pos transp dstride x k < length dst) ->
  (if transp then rows else width) <= dstride ->
  exists dst', imconvcoltri r0 r1 radd rmul rsub ropp dstride image width height stride fsize scale step transp zeropad buffer dst = Some dst' /\
    filled (out_pos transp dstride)
      (fun x k => rmul scale (triangle_at r0 radd zeropad height (pixel r0 image stride x) fsize (k * step))) width rows dst dst'.
Proof.
  intros A r0 r1 radd rmul rsub ropp Rth dst image dstride width height stride fsize scale step transp zeropad buffer
    Hstep Hh Hf Hb Hs rows Hd Hds.
  exact (imconvcoltri_ok r0 r1 radd rmul rsub ropp Rth dstride image width height stride fsize scale step transp zeropad dst
    Hstep Hh Hf Hs Hd Hds buffer Hb).
Qed.
Print Assumptions C30_triangular_convolution.

(** C30.  The kernel is normalised: if [scale] is the inverse of fsize^2, a
    constant column is left unchanged under padding by continuity. *)
Theorem C30_normalised : forall (A : Type) r0 r1 radd rmul rsub ropp,
  @ring_theory A r0 r1 radd rmul rsub ropp eq ->
  forall (scale c : A) (height fsize y : nat) (col : nat -> A),
  0 < height -> rmul scale (times r0 radd (fsize * fsize) r1) = r1 -> (forall p, p < height -> col p = c) ->
  rmul scale (triangle_at r0 radd false height col fsize y) = c.
Proof.
  intros A r0 r1 radd rmul rsub ropp Rth scale c height fsize y col Hh Hsc Hc.
  rewrite (triangle_const _ _ _ _ _ _ Rth height col fsize c y Hh Hc).
  rewrite (times_ofnat _ _ _ _ _ _ Rth) in *.
  rewrite (ARmul_assoc (Rth_ARth (Eqsth A) (Eq_ext radd rmul ropp) Rth)).
  rewrite (Rmul_comm Rth _ r1), (Rmul_1_l Rth) in Hsc. rewrite Hsc. apply (Rmul_1_l Rth).
Qed.
Print Assumptions C30_normalised.

Definition C30_img : list Z := [1; 2; 3; 4; 50]%Z.
Example C30_ex : imconvcoltri 0%Z 1%Z Z.add Z.mul Z.sub Z.opp 1 C30_img 1 5 1 2 1%Z 1 false false (repeat 77%Z 7) (repeat 0%Z 5)
  = Some [5; 8; 12; 61; 154]%Z.
Proof. reflexivity. Qed.
Example C30_ex_wide : imconvcoltri 0%Z 1%Z Z.add Z.mul Z.sub Z.opp 1 C30_img 1 5 1 7 1%Z 2 false true (repeat 77%Z 12) (repeat 0%Z 3)
  = Some [200; 312; 400]%Z.
Proof. reflexivity. Qed.
