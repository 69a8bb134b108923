(** C184-C188: image gradients and cornerness measures. *)
From Coq Require Import List Arith ZArith Lia Bool QArith Qcanon.
Import ListNotations.
From Verif Require Import Base Loop Rat ImGrad_Model ImGrad_Spec ImGrad_Proofs.
Local Open Scope nat_scope.

(** C184.  vl_imgradient on an image of at least 2 by 2 pixels, of any stride, writes the derivatives of each pixel at the place given by the strides of
    the planes, and nothing else. *)
Theorem C184_gradient : forall img stride ws hs w h m1 m2, 2 <= w -> 2 <= h -> (h - 1) * stride + w <= length img -> layout w h ws hs ->
  (forall x y, x < w -> y < h -> y * hs + x * ws < length m1 /\ y * hs + x * ws < length m2) ->
  exists dx dy, imgradient img stride ws hs w h m1 m2 = Some (dx, dy) /\ length dx = length m1 /\ length dy = length m2 /\
    (forall x y, x < w -> y < h -> nth_error dx (y * hs + x * ws) = Some (horizontal img stride w x y) /\ nth_error dy (y * hs + x * ws) = Some (vertical img stride h x y)) /\
    (forall a, (forall x y, x < w -> y < h -> a <> y * hs + x * ws) -> nth_error dx a = nth_error m1 a /\ nth_error dy a = nth_error m2 a).
Proof.
  intros img stride ws hs w h m1 m2 W H I L M.
  destruct (gradient_ok (fun gx _ : Qc => gx) (fun _ gy : Qc => gy) img stride ws hs w h m1 m2 W H I L) as (dx & dy & E & (L1 & V1 & U1) & (L2 & V2 & U2)).
  { intros x y X Y. now apply M. } { intros x y X Y. now apply M. }
  exists dx, dy. split; [exact E|]. split; [auto|]. split; [auto|]. split.
  - intros x y X Y. split; [apply (V1 (x, y))|apply (V2 (x, y))]; auto.
  - intros a A. split; [apply U1|apply U2]; intros [x y] [X Y]; now apply A.
Qed.
Print Assumptions C184_gradient.
(** vl_imgradient_polar stores the modulus and the angle of the same derivatives. *)
Theorem C184_polar : forall (V : Type) (fsqrt : Qc -> V) (fatan2 : Qc -> Qc -> V) (turn : V -> V) img stride ws hs w h m1 m2, 2 <= w -> 2 <= h -> (h - 1) * stride + w <= length img -> layout w h ws hs ->
  (forall x y, x < w -> y < h -> y * hs + x * ws < length m1 /\ y * hs + x * ws < length m2) ->
  exists r t, imgradient_polar fsqrt fatan2 turn img stride ws hs w h m1 m2 = Some (r, t) /\
    (forall x y, x < w -> y < h -> let gx := horizontal img stride w x y in let gy := vertical img stride h x y in
       nth_error r (y * hs + x * ws) = Some (fsqrt (gx * gx + gy * gy)%Qc) /\ nth_error t (y * hs + x * ws) = Some (turn (fatan2 gy gx))) /\
    (forall a, (forall x y, x < w -> y < h -> a <> y * hs + x * ws) -> nth_error r a = nth_error m1 a /\ nth_error t a = nth_error m2 a).
Proof.
  intros V fsqrt fatan2 turn img stride ws hs w h m1 m2 W H I L M.
  destruct (gradient_ok (fun gx gy => fsqrt (gx * gx + gy * gy)%Qc) (fun gx gy => turn (fatan2 gy gx)) img stride ws hs w h m1 m2 W H I L) as (dx & dy & E & (L1 & V1 & U1) & (L2 & V2 & U2)).
  { intros x y X Y. now apply M. } { intros x y X Y. now apply M. }
  exists dx, dy. split; [exact E|]. split.
  - intros x y X Y. split; [apply (V1 (x, y))|apply (V2 (x, y))]; auto.
  - intros a A. split; [apply U1|apply U2]; intros [x y] [X Y]; now apply A.
Qed.
Print Assumptions C184_polar.
(** planes with rows of at least (w - 1) ws + 1 entries have different places for different pixels *)
Theorem C184_layout : forall w h ws hs, 0 < ws -> (w - 1) * ws < hs -> layout w h ws hs.
Proof. exact layout_rows. Qed.
Print Assumptions C184_layout.
Definition num (z : Z) : Qc := Q2Qc (inject_Z z).
Definition squares : list Qc := map num [0;1;4;9; 1;2;5;10; 4;5;8;13]%Z.
Example C184_ex : option_map (fun '(a, b) => (map this a, map this b)) (imgradient squares 4 2 7 3 3 (repeat (num 99) 21) (repeat (num 99) 21)) =
  Some (map (fun z => this (num z)) [1;99;2;99;3;99;99; 1;99;2;99;3;99;99; 1;99;2;99;3;99;99]%Z, map (fun z => this (num z)) [1;99;1;99;1;99;99; 2;99;2;99;2;99;99; 3;99;3;99;3;99;99]%Z).
Proof. vm_compute. reflexivity. Qed.

(** C185, refuted: an image of one column or one row makes vl_imgradient read or write outside of the arrays. *)
Theorem C185_small_refuted :
  imgradient (map num [1;2;3]%Z) 1 1 1 1 3 (repeat (num 0) 3) (repeat (num 0) 3) = None /\
  imgradient (map num [1;2;3]%Z) 3 1 3 3 1 (repeat (num 0) 3) (repeat (num 0) 3) = None /\
  (* even when one column of a larger image is processed: the second column of the planes is written *)
  imgradient squares 4 1 1 1 3 (repeat (num 0) 3) (repeat (num 0) 3) = None.
Proof. repeat split; vm_compute; reflexivity. Qed.
Print Assumptions C185_small_refuted.

(** C186.  The response of the Hessian detector on at least 3 by 3 pixels is the determinant of the Hessian of the nearest pixel not on the border, times the
    factor; every pixel is set, whatever was in the buffer. *)
Theorem C186_hessian : forall factor img buf w h, 3 <= w -> 3 <= h -> length img = w * h -> length buf = w * h ->
  exists b, det_hessian factor img w h buf = Some b /\ length b = w * h /\
    forall x y, x < w -> y < h -> nth_error b (y * w + x) = Some (factor * hessian_det img w (inner w x) (inner h y))%Qc.
Proof. intros. now apply det_hessian_ok. Qed.
Print Assumptions C186_hessian.
(** x^2 + 3 y^2 on 4 by 3 pixels: second derivatives 2 and 6 *)
Definition bowl : list Qc := map num [0;1;4;9; 3;4;7;12; 12;13;16;21]%Z.
Example C186_ex : option_map (map this) (det_hessian (num 1) bowl 4 3 (repeat (num 99) 12)) = Some (repeat (this (num 12)) 12).
Proof. vm_compute. reflexivity. Qed.

(** C187, refuted: with 2 columns or rows the response is what was in the buffer; with one column the copies are of size 2^64 - 1 entries. *)
Theorem C187_small_refuted :
  option_map (map this) (det_hessian (num 1) (map num [1;2;3;4;5;6]%Z) 2 3 (map num [7;8;9;10;11;12]%Z)) = Some (map (fun z => this (num z)) [8;8;10;10;10;10]%Z) /\
  option_map (map this) (det_hessian (num 1) (map num [1;2;3;4;5;6]%Z) 3 2 (map num [7;8;9;10;11;12]%Z)) = Some (map (fun z => this (num z)) [11;11;11;11;11;11]%Z) /\
  det_hessian (num 1) (map num [1;2;3]%Z) 1 3 (map num [7;8;9]%Z) = None.
Proof. repeat split; vm_compute; reflexivity. Qed.
Print Assumptions C187_small_refuted.

(** C188.  The difference of Gaussians is the level of larger scale minus the one of smaller scale, entry by entry. *)
Theorem C188_dog : forall l1 l2 n dog, n <= length l1 -> n <= length l2 -> n <= length dog -> exists r, dog_response l1 l2 n dog = Some r /\ length r = length dog /\
  (forall k, k < n -> nth_error r k = Some (nth k l2 0 - nth k l1 0)%Qc) /\ (forall k, n <= k -> nth_error r k = nth_error dog k).
Proof. exact dog_ok. Qed.
Print Assumptions C188_dog.
(** The response of Harris is the score of the smoothed products of the derivatives, times the factor, at each pixel. *)
Theorem C188_harris : forall smooth factor alpha img w h j1 j2 j3 harris, 2 <= w -> 2 <= h -> length img = w * h -> (forall l, length (smooth l) = length l) ->
  length j1 = w * h -> length j2 = w * h -> length j3 = w * h -> length harris = w * h ->
  exists xx yy xy r, length xx = w * h /\ length yy = w * h /\ length xy = w * h /\
    (forall x y, x < w -> y < h -> let gx := horizontal img w w x y in let gy := vertical img w h x y in
       nth_error xx (y * w + x) = Some (gx * gx)%Qc /\ nth_error yy (y * w + x) = Some (gy * gy)%Qc /\ nth_error xy (y * w + x) = Some (gx * gy)%Qc) /\
    harris_response smooth factor alpha img w h j1 j2 j3 harris = Some r /\ length r = w * h /\
    forall k, k < w * h -> nth_error r k = Some (factor * harris_score alpha (nth k (smooth xx) 0) (nth k (smooth yy) 0) (nth k (smooth xy) 0))%Qc.
Proof. exact harris_ok. Qed.
Print Assumptions C188_harris.
Example C188_ex_dog : option_map (map this) (dog_response (map num [1;2]%Z) (map num [5;4]%Z) 2 (map num [9;9;9]%Z)) = Some (map (fun z => this (num z)) [4;2;9]%Z).
Proof. vm_compute. reflexivity. Qed.
Example C188_ex_harris : option_map (map this) (harris_response (fun l => l) (num 2) (num 0) (map num [0;1;3;7]%Z) 2 2 (repeat (num 9) 4) (repeat (num 8) 4) (repeat (num 7) 4) (repeat (num 6) 4)) =
    Some (repeat (this (num 0)) 4) /\
  option_map (map this) (harris_response (fun l => l) (num 1) (num 1) (map num [0;1;3;7]%Z) 2 2 (repeat (num 9) 4) (repeat (num 8) 4) (repeat (num 7) 4) (repeat (num 6) 4)) =
    Some (map (fun z => this (num z)) [-100; -1369; -625; -2704]%Z).
Proof. split; vm_compute; reflexivity. Qed.
