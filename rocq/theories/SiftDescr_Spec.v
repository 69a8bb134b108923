(** Orientation and descriptor histograms, independently of the code. *)
From Coq Require Import List Arith ZArith Bool QArith Qcanon Qcabs.
From Verif Require Import Rat Kmeans_Spec Sift_Spec.
Local Open Scope nat_scope.

(** piecewise linear weight of a bin at distance [u] from a sample *)
Definition tent (u : Qc) : Qc := if Qclt_le_dec (Qcabs u) 1 then (1 - Qcabs u)%Qc else 0%Qc.
(** [u] up to multiples of [n], between - n / 2 and n / 2 *)
Definition wrap (n : nat) (u : Qc) : Qc := (u - nq n * zq (qfloor (u / nq n + 1 / nq 2)))%Qc.
(** exp(-x), interpolated linearly between the multiples of 25/256, and 0 above 25 *)
Definition tabulated (expo : Qc -> Qc) (x : Qc) : Qc :=
  if Qclt_le_dec (nq 25) x then 0%Qc else
  let t := (x * nq 256 / nq 25)%Qc in
  let e k := expo (- (zq k * nq 25 / nq 256))%Qc in
  (e (qfloor t) + (t - zq (qfloor t)) * (e (qfloor t + 1)%Z - e (qfloor t)))%Qc.

(** the pixel of a coordinate; coordinates that have one on an image of size n *)
Definition pixel_of (x : Qc) : Z := Z.max 0 (qfloor (x + 1 / nq 2))%Qc.
Definition on_image (n : nat) (x : Qc) : Prop := 0 < n /\ (- (nq 3 / nq 2) < x /\ x < nq n - 1 / nq 2)%Qc.
(** sum over the pixels of a w by h image at most W columns and rows away, except for [border] pixels on each side *)
Definition close (W : Z) (border n : nat) (x : Qc) (p : nat) : bool :=
  ((Z.abs (Z.of_nat p - pixel_of x) <=? W)%Z && (border <=? p) && (p + border <? n)).
Definition around_sum (W : Z) (border w h : nat) (x y : Qc) (f : nat -> nat -> Qc) : Qc :=
  ksum h (fun py => ksum w (fun px => if close W border w x px && close W border h y py then f px py else 0%Qc)).

(** magnitude and angle stored for a pixel, from position [base] *)
Definition mag (grad : list Qc) (base w px py : nat) : Qc := nth (base + 2 * (py * w + px)) grad 0%Qc.
Definition ang (grad : list Qc) (base w px py : nat) : Qc := nth (base + 2 * (py * w + px) + 1) grad 0%Qc.
(** squared distance of a pixel *)
Definition dist2 (x y : Qc) (px py : nat) : Qc := ((nq px - x) * (nq px - x) + (nq py - y) * (nq py - y))%Qc.

(** bin [b] of the orientation histogram of a keypoint at (x, y): 36 bins, angles interpolated
    between adjacent bins, pixels weighted by a Gaussian of scale 1.5 sigma and cut off *)
Section Orientation.
Variables (expo : Qc -> Qc) (pi : Qc) (grad : list Qc) (base w h : nat) (x y sigma : Qc).
Definition ori_scale : Qc := (nq 3 / nq 2 * sigma)%Qc.
Definition ori_reach : Z := Z.max 1 (qfloor (nq 9 / nq 2 * sigma)).
Definition ori_argument (px py : nat) : Qc := (dist2 x y px py / (nq 2 * (ori_scale * ori_scale)))%Qc.
Definition ori_inside (px py : nat) : Prop := (dist2 x y px py < zq (ori_reach * ori_reach) + zq 6 / zq 10)%Qc.
Definition ori_bin (b : nat) : Qc :=
  around_sum ori_reach 0 w h x y (fun px py =>
    if Qclt_le_dec (dist2 x y px py) (zq (ori_reach * ori_reach) + zq 6 / zq 10)%Qc then
      (tabulated expo (ori_argument px py) * mag grad base w px py *
       tent (wrap 36 (nq 36 * ang grad base w px py / (nq 2 * pi) - 1 / nq 2 - nq b)))%Qc
    else 0%Qc).
End Orientation.
(** circular averages of three bins *)
Definition averaged (h : nat -> Qc) : nat -> Qc := fun b => ((h ((b + 35) mod 36)%nat + h b + h ((b + 1) mod 36)%nat) / nq 3)%Qc.
Fixpoint averaged_times (k : nat) (h : nat -> Qc) : nat -> Qc := match k with 0 => h | S k => averaged (averaged_times k h) end.
(** the bins above both neighbours and above 0.8 of all others *)
Definition peak (h : nat -> Qc) (b : nat) : Prop :=
  b < 36 /\ (0 < h b)%Qc /\ (forall b', b' < 36 -> (zq 8 / zq 10 * h b' < h b)%Qc) /\ (h ((b + 35) mod 36)%nat < h b)%Qc /\ (h ((b + 1) mod 36)%nat < h b)%Qc.
(** the angle at the top of the parabola through a bin and its neighbours *)
Definition vertex (h : nat -> Qc) (b : nat) : Qc :=
  let hm := h ((b + 35) mod 36)%nat in let hp := h ((b + 1) mod 36)%nat in ((hp - hm) / (nq 2 * (nq 2 * h b - hm - hp)))%Qc.
Definition bin_angle (pi : Qc) (h : nat -> Qc) (b : nat) : Qc := (nq 2 * pi / nq 36 * (nq b + 1 / nq 2 + vertex h b))%Qc.

(** entry [i] of the histogram of a descriptor: 4 rows of 4 spatial bins of size [size], in the frame
    of the keypoint, with 8 orientations relative to [angle0] each *)
Section Descriptor.
Variables (expo sine cosine : Qc -> Qc) (pi : Qc) (grad : list Qc) (base w h : nat) (x y angle0 size wsigma : Qc).
Definition frame_x (px py : nat) : Qc := ((cosine angle0 * (nq px - x) + sine angle0 * (nq py - y)) / size)%Qc.
Definition frame_y (px py : nat) : Qc := ((cosine angle0 * (nq py - y) - sine angle0 * (nq px - x)) / size)%Qc.
Definition descr_argument (px py : nat) : Qc :=
  ((frame_x px py * frame_x px py + frame_y px py * frame_y px py) / (nq 2 * (wsigma * wsigma)))%Qc.
Definition descr_bin (reach : Z) (border i : nat) : Qc :=
  around_sum reach border w h x y (fun px py =>
    (tabulated expo (descr_argument px py) * mag grad base w px py *
     tent (frame_x px py - (nq (i / 8 mod 4) - nq 3 / nq 2)) *
     tent (frame_y px py - (nq (i / 32) - nq 3 / nq 2)) *
     tent (wrap 8 (nq 8 * (ang grad base w px py - angle0) / (nq 2 * pi) - nq (i mod 8))))%Qc).
End Descriptor.
(** division by the norm *)
Section Norm.
Variables (fsqrt : Qc -> Qc) (eps : Qc).
Definition norm_of (n : nat) (h : nat -> Qc) : Qc := (fsqrt (ksum n (fun i => h i * h i)%Qc) + eps)%Qc.
Definition normal (n : nat) (h : nat -> Qc) (i : nat) : Qc := (h i / norm_of n h)%Qc.
Definition cut (v : Qc) : Qc := if Qclt_le_dec (zq 2 / zq 10) v then (zq 2 / zq 10)%Qc else v.
(** normalised, cut at 0.2 and normalised, unless the norm is below the threshold *)
Definition below (n : nat) (thresh samples : Qc) (h : nat -> Qc) : Prop := thresh <> 0%Qc /\ (norm_of n h < thresh * samples)%Qc.
Definition final (n : nat) (h : nat -> Qc) : nat -> Qc := normal n (fun i => cut (normal n h i)).
End Norm.
