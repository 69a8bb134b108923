(** The LIOP descriptor from the patch to the normalised vector, vl/liop.c: vl_liopdesc_new and vl_liopdesc_process around the histogram of [Liop_Model].
    Floats and doubles are exact rationals.  The direction of the neighbours, cos and sin of atan2(y, x) + 2 pi t / numNeighbours (liop.c:379-390), is a function [dir] of x, y and t, and the square root a function [rt].
    The samples of the neighbours of all pixels are sorted before the histogram is accumulated, in the code pixel by pixel.  [None] is an access outside of an array or a failed assertion.  The patch has at least one pixel. *)
From Coq Require Import List Arith ZArith Bool QArith Qcanon.
Import ListNotations.
From Verif Require Import Base Loop Rat Gauss_Model Qsort_Model Liop_Model.
Local Open Scope nat_scope.

Fixpoint omap {A B} (f : A -> option B) (l : list A) : option (list B) :=
  match l with [] => Some [] | a :: l => do b <- f a; do r <- omap f l; Some (b :: r) end.

Section Liop.
Variables (side : nat) (radius : Qc) (nn bins : nat) (dir : Z -> Z -> nat -> Qc * Qc) (rt : Qc -> Qc).

(** liop.c:348 *)
Definition center : nat := (side - 1) / 2.
(** liop.c:349-350 *)
Definition t2 : Z := let t := (nq center - radius + Q2Qc (6 # 10))%Qc in qfloor (t * t)%Qc.
(** the loops that fill patchPixels, liop.c:351-360 *)
Definition pixels_row (y : nat) : list nat :=
  flat_map (fun x =>
    let dx := (Z.of_nat x - Z.of_nat center)%Z in let dy := (Z.of_nat y - Z.of_nat center)%Z in
    if (x =? 0) && (y =? 0) then [] else if (dx * dx + dy * dy <=? t2)%Z then [x + y * side] else []) (seq 0 side).
Definition patch_pixels : list nat := flat_map pixels_row (seq 0 side).
(** neighSamplesX and neighSamplesY, liop.c:376-392 *)
Definition neigh_sample (pixel t : nat) : Qc * Qc :=
  let x := (Z.of_nat (pixel mod side) - Z.of_nat center)%Z in let y := (Z.of_nat (pixel / side) - Z.of_nat center)%Z in
  let '(c, s) := dir x y t in
  ((zq x + radius * c + nq center)%Qc, (zq y + radius * s + nq center)%Qc).
Definition neigh_samples : list (Qc * Qc) := flat_map (fun pixel => map (neigh_sample pixel) (seq 0 nn)) patch_pixels.

(** patch_cmp and neigh_cmp, liop.c:265-270 and 285-290: the sign of the difference *)
Definition intensity_cmp (I : list Qc) (i j : nat) : Z :=
  let a := nth i I 0%Qc in let b := nth j I 0%Qc in if qlt a b then (-1)%Z else if qlt b a then 1%Z else 0%Z.

(** the bilinear interpolation, liop.c:500-523 *)
Definition interpolate (patch : list Qc) (x y : Qc) : option Qc :=
  let ix := qfloor x in let iy := qfloor y in
  let wx := (x - zq ix)%Qc in let wy := (y - zq iy)%Qc in
  let L := Z.of_nat side in
  do a <- (if (0 <=? ix)%Z && (0 <=? iy)%Z then zget patch (ix + iy * L) else Some 0%Qc);
  do b <- (if (ix <? L - 1)%Z && (0 <=? iy)%Z then zget patch (ix + 1 + iy * L) else Some 0%Qc);
  do c <- (if (0 <=? ix)%Z && (iy <? L - 1)%Z then zget patch (ix + (iy + 1) * L) else Some 0%Qc);
  do d <- (if (ix <? L - 1)%Z && (iy <? L - 1)%Z then zget patch (ix + 1 + (iy + 1) * L) else Some 0%Qc);
  Some ((1 - wy) * (a + (b - a) * wx) + wy * (c + (d - c) * wx))%Qc.

(** neighIntensities of the pixel at position p of patchPixels, liop.c:497-524 *)
Definition neigh_intensities (patch : list Qc) (p : nat) : option (list Qc) :=
  omap (fun t => do (x, y) <- aget neigh_samples (nn * p + t); interpolate patch x y) (seq 0 nn).

(** liop.c:534-542 *)
Definition weight_of (I : list Qc) (threshold : Qc) : option Z :=
  iter nn (fun k w => iter_from (nn - (k + 1)) (k + 1) (fun t w =>
    do a <- aget I k; do b <- aget I t;
    Some (w + if qlt (b + threshold)%Qc a || qlt (a + threshold)%Qc b then 1 else 0)%Z) w) 0%Z.

(** the permutation and the weight of one pixel, liop.c:494-542 *)
Definition pixel_pattern (patch : list Qc) (threshold : Qc) (p : nat) : option (list nat * Z) :=
  do V <- neigh_intensities patch p;
  do perm <- qs_sort (intensity_cmp V) (seq 0 nn) nn;
  do w <- weight_of V threshold;
  Some (perm, w).

(** liop.c:466-473 *)
Definition tune (intensity_threshold : Qc) (I : list Qc) (order : list nat) : option Qc :=
  if qlt intensity_threshold 0%Qc then
    do i <- aget order 0; do t <- aget order (length patch_pixels - 1);
    do hi <- aget I t; do lo <- aget I i;
    Some (- intensity_threshold * (hi - lo))%Qc
  else Some intensity_threshold.

(** the normalization, liop.c:547-556 *)
Definition normalise (h : list Z) : list Qc :=
  let s := fold_left (fun n v => n + zq v * zq v)%Qc h 0%Qc in
  let m := Q2Qc (1 # 1000000000000) in
  let norm := if qlt (rt s) m then m else rt s in
  map (fun v => zq v / norm)%Qc h.

(** vl_liopdesc_process up to the normalization, liop.c:441-545 *)
Definition liop_histogram (intensity_threshold : Qc) (patch : list Qc) : option (list Z) :=
  let n := length patch_pixels in
  do V <- omap (aget patch) patch_pixels;
  do order <- qs_sort (intensity_cmp V) (seq 0 n) n;
  do threshold <- tune intensity_threshold V order;
  do patterns <- omap (pixel_pattern patch threshold) order;
  liop_process nn bins n (fun i => fst (nth i patterns ([], 0%Z))) (fun i => snd (nth i patterns ([], 0%Z))).

(** vl_liopdesc_process, liop.c:441-557 *)
Definition liop (intensity_threshold : Qc) (patch : list Qc) : option (list Qc) :=
  do h <- liop_histogram intensity_threshold patch;
  Some (normalise h).
End Liop.
