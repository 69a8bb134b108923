(** Orientations and Laplacian scales of one frame, vl/covdet.c, over exact rationals.

    The patch around the frame, its gradients and the singular value decomposition of the frame are
    arguments.  [pi] is VL_PI, an arbitrary number; [pow] and [root] are pow and sqrt, arbitrary functions;
    [order] is what qsort does to the array.  Rounding is ignored.  [None] is an access out of bounds. *)
From Coq Require Import List Arith ZArith Bool QArith Qcanon Qcabs.
Import ListNotations.
From Verif Require Import Base Loop Rat Gauss_Model Sift_Model SiftDescr_Model.
Local Open Scope nat_scope.

Section Orientations.
Variables (pi : Qc) (order : list (Qc * Qc) -> list (Qc * Qc)).
(** binExtent, covdet.c:2724 *)
Definition bin_extent : Qc := (nq 2 * pi / nq 36)%Qc.
(** one pixel, covdet.c:2793-2804 *)
Definition vote (modulus angle weight : Qc) (hist : list Qc) : option (list Qc) :=
  let x := (angle / bin_extent)%Qc in
  let bin := qfloor x in
  let w2 := (x - zq bin)%Qc in
  let w1 := (1 - w2)%Qc in
  do hist <- hadd hist (Z.rem (bin + 36) 36) (w1 * (modulus * weight))%Qc;
  hadd hist (Z.rem (bin + 36 + 1) 36) (w2 * (modulus * weight))%Qc.
(** the histogram of [n] pixels, covdet.c:2790-2805 *)
Definition votes (n : nat) (modulus angle mask : list Qc) : option (list Qc) :=
  iter n (fun k hist => do m <- aget modulus k; do a <- aget angle k; do w <- aget mask k; vote m a w hist) (repeat 0%Qc 36).
(** the peaks, covdet.c:2826-2850: the number of orientations, the array and whether the loop was left;
    the smoothing and the maximum before it, covdet.c:2807-2824, are the statements of sift.c *)
Definition peaks (theta0 : Qc) (transposed : bool) (max_num : nat) (hist : list Qc) (out : list (Qc * Qc)) : option (nat * list (Qc * Qc) * bool) :=
  let maxh := max_hist hist in
  iter 36 (fun i (st : nat * list (Qc * Qc) * bool) =>
    let '(n, out, left_) := st in
    if left_ then Some st else
    do h0 <- aget hist i;
    do hm <- aget hist ((i + 35) mod 36);
    do hp <- aget hist ((i + 1 + 36) mod 36);
    if qlt (zq 8 / zq 10 * maxh)%Qc h0 && qlt hm h0 && qlt hp h0 then
      let di := (- half 1 * (hp - hm) / (hp + hm - nq 2 * h0))%Qc in
      let th := (bin_extent * (nq i + di) + theta0)%Qc in
      let th := if transposed then (th - pi / nq 2)%Qc else th in
      do out <- aset out n (th, h0);
      let n := n + 1 in
      Some (n, out, max_num <=? n)
    else Some st) (0, out, false).
(** vl_covdet_extract_orientations_for_frame, covdet.c:2786-2860, from the gradients of the patch on: the number of
    orientations and the array of angles and scores *)
Definition find_orientations (theta0 : Qc) (transposed : bool) (max_num n : nat) (modulus angle mask : list Qc) (out : list (Qc * Qc)) : option (nat * list (Qc * Qc)) :=
  do hist <- votes n modulus angle mask;
  do hist <- iter 6 (fun _ hist => smooth_once hist) hist;
  do (r, _) <- peaks theta0 transposed max_num hist out;
  let (k, out) := r in
  Some (k, order (firstn k out) ++ skipn k out).
End Orientations.

Section Scales.
Variables (pow : Qc -> Qc -> Qc) (root : Qc -> Qc) (sigma_image actual : Qc).
(** the scale of a level or between levels, covdet.c:2978-2984 and 3001-3005 *)
Definition lap_sigma (s : Qc) : Qc :=
  let p := pow (nq 2) (- half 1 + s / nq 9)%Qc in root (p * p - sigma_image * sigma_image + actual * actual)%Qc.
(** the scores of the 10 levels for a patch of [n] pixels, covdet.c:2972-2990; the state is the position of pt and the scores *)
Definition lap_scores (n : nat) (laplacians patch : list Qc) : option (list Qc) :=
  do (_, scores) <- iter 10 (fun k (st : nat * list Qc) =>
    let (pt, scores) := st in
    do (pt, score) <- iter n (fun q (st : nat * Qc) => let (pt, score) := st in
      do l <- aget laplacians pt; do p <- aget patch q; Some (pt + 1, (score + l * p)%Qc)) (pt, 0%Qc);
    let sg := lap_sigma (nq k) in
    do scores <- aset scores k (score * sg * sg)%Qc;
    Some (pt, scores)) (0, repeat 0%Qc 10);
  Some scores.
(** the extrema, covdet.c:2992-3016 *)
Definition lap_extrema (t : Qc) (scores : list Qc) (out : list (Qc * Qc)) : option (nat * list (Qc * Qc)) :=
  iter_from 8 1 (fun k (st : nat * list (Qc * Qc)) =>
    let (n, out) := st in
    do a <- aget scores (k - 1);
    do b <- aget scores k;
    do c <- aget scores (k + 1);
    if ((qlt a b && qlt c b) || (qlt b a && qlt b c)) && negb (qlt (Qcabs b) t) then
      let dk := (- half 1 * (c - a) / (c + a - nq 2 * b))%Qc in
      let scale := lap_sigma (nq k + dk)%Qc in
      if n <? 4 then do out <- aset out n (scale, (b + half 1 * (c - a) * dk)%Qc); Some (n + 1, out) else Some st
    else Some st) (0, out).
(** vl_covdet_extract_laplacian_scales_for_frame, covdet.c:2972-3018, from the patch on *)
Definition find_scales (t : Qc) (n : nat) (laplacians patch : list Qc) (out : list (Qc * Qc)) : option (nat * list (Qc * Qc)) :=
  do scores <- lap_scores n laplacians patch;
  lap_extrema t scores out.
End Scales.
