(** Orientations and descriptors of SIFT keypoints, vl/sift.c, over exact rationals.

    [pow], [root], [expo], [sine], [cosine], [lg] are pow, sqrt, exp, sin, cos and log2, [fsqrt] is
    vl_fast_sqrt_f, [magn] and [angl] are those of Sift_Model, all arbitrary functions; [pi],
    [eps_d], [eps_f] are VL_PI, VL_EPSILON_D, VL_EPSILON_F, arbitrary numbers.  Rounding to float
    is ignored.  [None] is an access out of bounds. *)
From Coq Require Import List Arith ZArith Bool QArith Qcanon Qcabs.
Import ListNotations.
From Verif Require Import Base Loop Rat Gauss_Model Sift_Model.
Local Open Scope nat_scope.

(** conversion of a double to int: towards zero *)
Definition trunc (q : Qc) : Z := Z.quot (Qnum (this q)) (Zpos (Qden (this q))).
Definition nearest (q : Qc) : Z := trunc (q + half 1)%Qc.
(** hist[i] += v *)
Definition hadd (hist : list Qc) (i : Z) (v : Qc) : option (list Qc) := do old <- zget hist i; zset hist i (old + v)%Qc.

Section Descr.
Variables (pow : Qc -> Qc -> Qc) (root fsqrt expo sine cosine lg : Qc -> Qc) (magn angl : Qc -> Qc -> Qc) (pi eps_d eps_f : Qc).
Definition two_pi : Qc := (nq 2 * pi)%Qc.

(** fast_expn_init, sift.c:707-714 *)
Definition expn_max : Qc := nq 25.
Definition expn_tab : list Qc := map (fun k => expo (- (nq k * (expn_max / nq 256)))%Qc) (seq 0 257).
(** fast_expn, sift.c:682-699 *)
Definition fast_expn (x : Qc) : option Qc :=
  if qlt expn_max x then Some 0%Qc else
  let x := (x * (nq 256 / expn_max))%Qc in
  let i := qfloor x in
  let r := (x - zq i)%Qc in
  do a <- zget expn_tab i;
  do b <- zget expn_tab (i + 1);
  Some (a + r * (b - a))%Qc.
(** vl_mod_2pi_f, mathop.h:108-114 *)
Definition mod_2pi (x : Qc) : option Qc :=
  let fuel := 2 + Z.to_nat (Z.abs (qfloor (x / two_pi))) in
  do x <- while fuel (fun x => qlt two_pi x) (fun x => Some (x - two_pi)%Qc) x;
  while fuel (fun x => qlt x 0) (fun x => Some (x + two_pi)%Qc) x.

(** one pixel of the orientation histogram, sift.c:1622-1640; (px, py) is the pixel and [base] the
    position of the gradients of the level *)
Definition ori_pixel (grad : list Qc) (base : Z) (w : nat) (x y sigmaw : Qc) (W : Z) (px py : Z) (hist : list Qc) : option (list Qc) :=
  let dx := (zq px - x)%Qc in
  let dy := (zq py - y)%Qc in
  let r2 := (dx * dx + dy * dy)%Qc in
  if negb (qlt r2 (zq (W * W) + zq 6 / zq 10)%Qc) then Some hist else
  do wgt <- fast_expn (r2 / (nq 2 * sigmaw * sigmaw))%Qc;
  do mg <- zget grad (base + 2 * px + 2 * Z.of_nat w * py);
  do ang <- zget grad (base + 2 * px + 2 * Z.of_nat w * py + 1);
  let fbin := (nq 36 * ang / two_pi)%Qc in
  let bin := qfloor (fbin - half 1)%Qc in
  let rbin := (fbin - zq bin - half 1)%Qc in
  do hist <- hadd hist (Z.rem (bin + 36) 36) ((1 - rbin) * mg * wgt)%Qc;
  hadd hist (Z.rem (bin + 1) 36) (rbin * mg * wgt)%Qc.
(** the loops over the window, sift.c:1613-1652, 1811-1875 and 1991-2051; [border] is 1 for the
    descriptor of a keypoint and 0 otherwise *)
Definition window (W : Z) (border : Z) (w h : nat) (xi yi : Z) (pixel : Z -> Z -> list Qc -> option (list Qc)) (hist : list Qc) : option (list Qc) :=
  zup (Z.max (- W) (border - yi)) (Z.min W (Z.of_nat h - yi - 1 - border) + 1) (fun dy hist =>
    zup (Z.max (- W) (border - xi)) (Z.min W (Z.of_nat w - xi - 1 - border) + 1) (fun dx hist =>
      pixel (xi + dx)%Z (yi + dy)%Z hist) hist) hist.
(** one smoothing of the histogram, sift.c:1656-1664 *)
Definition smooth_once (hist : list Qc) : option (list Qc) :=
  do prev <- aget hist 35;
  do first <- aget hist 0;
  do (prev, hist) <- iter 35 (fun i (st : Qc * list Qc) =>
    let (prev, hist) := st in
    do a <- aget hist i;
    do b <- aget hist ((i + 1) mod 36);
    do hist' <- aset hist i ((prev + a + b) / nq 3)%Qc;
    Some (a, hist')) (prev, hist);
  do a <- aget hist 35;
  aset hist 35 ((prev + a + first) / nq 3)%Qc.
(** the maximum, sift.c:1668-1670 *)
Definition max_hist (hist : list Qc) : Qc := fold_left (fun m v => if qlt v m then m else v) hist 0%Qc.
(** the peaks, sift.c:1673-1691; the state is the number of angles and the array *)
Definition find_peaks (hist : list Qc) (angles : list Qc) : option (nat * list Qc) :=
  let maxh := max_hist hist in
  iter 36 (fun i (st : nat * list Qc) =>
    let (n, angles) := st in
    if n =? 4 then Some st else
    do h0 <- aget hist i;
    do hm <- aget hist ((i + 35) mod 36);
    do hp <- aget hist ((i + 1 + 36) mod 36);
    if qlt (zq 8 / zq 10 * maxh)%Qc h0 && qlt hm h0 && qlt hp h0 then
      let di := (- (half 1 * (hp - hm)) / (hp + hm - nq 2 * h0))%Qc in
      let th := (two_pi * (nq i + di + half 1) / nq 36)%Qc in
      do angles <- aset angles n th;
      Some (n + 1, angles)
    else Some st) (0, angles).
(** vl_sift_calc_keypoint_orientations, sift.c:1556-1693; s_min + 1 = 0 and s_max - 2 = S - 1.
    The result is the filter, the number of angles and the array of angles. *)
Definition orientations (f : sift) (angles : list Qc) (k : keypoint) : option (sift * nat * list Qc) :=
  let xper := pow (nq 2) (zq (f_ocur f)) in
  let w := f_ow f in let h := f_oh f in
  let x := (k_x k / xper)%Qc in let y := (k_y k / xper)%Qc in let sigma := (k_sigma k / xper)%Qc in
  let xi := nearest x in let yi := nearest y in let si := k_is k in
  let sigmaw := (nq 3 / nq 2 * sigma)%Qc in
  let W := Z.max (qfloor (nq 3 * sigmaw)) 1 in
  if negb (k_o k =? f_ocur f)%Z then Some (f, 0, angles) else
  if (xi <? 0)%Z || (Z.of_nat w - 1 <? xi)%Z || (yi <? 0)%Z || (Z.of_nat h - 1 <? yi)%Z || (si <? 0)%Z || (Z.of_nat (c_S (f_cfg f)) - 1 <? si)%Z
  then Some (f, 0, angles) else
  do f <- update_gradient magn angl f;
  do hist <- window W 0 w h xi yi (ori_pixel (f_grad f) (2 * Z.of_nat (w * h) * si) w x y sigmaw W) (repeat 0%Qc 36);
  do hist <- iter 6 (fun _ hist => smooth_once hist) hist;
  do (n, angles) <- find_peaks hist angles;
  Some (f, n, angles).

(** normalize_histogram, sift.c:1702-1719: the norm and the histogram *)
Definition normalize (hist : list Qc) : Qc * list Qc :=
  let norm := (fsqrt (fold_left (fun n v => n + v * v) hist 0) + eps_f)%Qc in
  (norm, map (fun v => v / norm)%Qc hist).
(** one pixel of the descriptor, sift.c:1817-1873 and 1997-2049 *)
Definition descr_pixel (grad : list Qc) (base : Z) (w : nat) (x y angle0 sbp wsigma : Qc) (px py : Z) (hist : list Qc) : option (list Qc) :=
  do mg <- zget grad (base + 2 * px + 2 * Z.of_nat w * py);
  do angle <- zget grad (base + 2 * px + 2 * Z.of_nat w * py + 1);
  do theta <- mod_2pi (angle - angle0)%Qc;
  let st0 := sine angle0 in let ct0 := cosine angle0 in
  let dx := (zq px - x)%Qc in let dy := (zq py - y)%Qc in
  let nx := ((ct0 * dx + st0 * dy) / sbp)%Qc in
  let ny := ((- st0 * dx + ct0 * dy) / sbp)%Qc in
  let nt := (nq 8 * theta / two_pi)%Qc in
  do win <- fast_expn ((nx * nx + ny * ny) / (nq 2 * wsigma * wsigma))%Qc;
  let binx := qfloor (nx - half 1)%Qc in
  let biny := qfloor (ny - half 1)%Qc in
  let bint := qfloor nt in
  let rbinx := (nx - (zq binx + half 1))%Qc in
  let rbiny := (ny - (zq biny + half 1))%Qc in
  let rbint := (nt - zq bint)%Qc in
  zup 0 2 (fun dbinx hist => zup 0 2 (fun dbiny hist => zup 0 2 (fun dbint hist =>
    if (-2 <=? binx + dbinx)%Z && (binx + dbinx <? 2)%Z && (-2 <=? biny + dbiny)%Z && (biny + dbiny <? 2)%Z then
      let weight := (win * mg * Qcabs (1 - zq dbinx - rbinx) * Qcabs (1 - zq dbiny - rbiny) * Qcabs (1 - zq dbint - rbint))%Qc in
      hadd hist (2 * 32 + 2 * 8 + Z.rem (bint + dbint) 8 + (biny + dbiny) * 32 + (binx + dbinx) * 8) weight
    else Some hist) hist) hist) hist.
(** the normalisations and the threshold [t], sift.c:1877-1914 and 2053-2074 *)
Definition finish (thresh : Qc) (samples : Qc) (hist : list Qc) : list Qc :=
  let (norm, hist) := normalize hist in
  if negb (Qc_eq_bool thresh 0) && qlt norm (thresh * samples)%Qc then map (fun _ => 0%Qc) hist
  else snd (normalize (map (fun v => if qlt (zq 2 / zq 10) v then (zq 2 / zq 10)%Qc else v) hist)).
(** SBP and W, sift.c:1772-1774 and 1966-1968 *)
Definition bin_size (f : sift) (sigma : Qc) : Qc := (c_magnif (f_cfg f) * sigma + eps_d)%Qc.
Definition bin_reach (sbp : Qc) : Z := qfloor (root (nq 2) * sbp * nq 5 / nq 2 + half 1)%Qc.
(** vl_sift_calc_raw_descriptor, sift.c:1753-1915: the new contents of [descr] *)
Definition raw_descriptor (f : sift) (grad descr : list Qc) (w h : nat) (x y sigma angle0 : Qc) : option (list Qc) :=
  let xi := nearest x in let yi := nearest y in
  let sbp := bin_size f sigma in
  let W := bin_reach sbp in
  if (xi <? 0)%Z || (Z.of_nat w <=? xi)%Z || (yi <? 0)%Z || (Z.of_nat h - 1 <=? yi)%Z then Some descr else
  if length descr <? 128 then None else
  do hist <- window W 0 w h xi yi (descr_pixel grad 0 w x y angle0 sbp (c_window (f_cfg f))) (repeat 0%Qc 128);
  let samples := ((Z.min W (Z.of_nat w - xi - 1) - Z.max (- W) (- xi) + 1) * (Z.min W (Z.of_nat h - yi - 1) - Z.max (- W) (- yi) + 1))%Z in
  Some (finish (c_norm (f_cfg f)) (zq samples) hist ++ skipn 128 descr).
(** vl_sift_calc_keypoint_descriptor, sift.c:1936-2076: the filter and the new contents of [descr] *)
Definition keypoint_descriptor (f : sift) (descr : list Qc) (k : keypoint) (angle0 : Qc) : option (sift * list Qc) :=
  let xper := pow (nq 2) (zq (f_ocur f)) in
  let w := f_ow f in let h := f_oh f in
  let x := (k_x k / xper)%Qc in let y := (k_y k / xper)%Qc in let sigma := (k_sigma k / xper)%Qc in
  let xi := nearest x in let yi := nearest y in let si := k_is k in
  let sbp := bin_size f sigma in
  let W := bin_reach sbp in
  if negb (k_o k =? f_ocur f)%Z || (xi <? 0)%Z || (Z.of_nat w <=? xi)%Z || (yi <? 0)%Z || (Z.of_nat h - 1 <=? yi)%Z ||
     (si <? 0)%Z || (Z.of_nat (c_S (f_cfg f)) - 1 <? si)%Z then Some (f, descr) else
  do f <- update_gradient magn angl f;
  if length descr <? 128 then None else
  do hist <- window W 1 w h xi yi (descr_pixel (f_grad f) (2 * Z.of_nat (w * h) * si) w x y angle0 sbp (c_window (f_cfg f))) (repeat 0%Qc 128);
  Some (f, finish (c_norm (f_cfg f)) 1 hist ++ skipn 128 descr).

(** vl_sift_keypoint_init, sift.c:2162-2199 *)
Definition keypoint_init (f : sift) (x y sigma : Qc) : keypoint :=
  let c := f_cfg f in
  let phi := lg ((sigma + eps_d) / sigma0 pow (c_S c))%Qc in
  let o := qfloor (phi - (zq (-1) + half 1) / nq (c_S c))%Qc in
  let o := Z.min o (c_omin c + Z.of_nat (c_O c) - 1) in
  let o := Z.max o (c_omin c) in
  let s := (nq (c_S c) * (phi - zq o))%Qc in
  let is := nearest s in
  let is := Z.min is (Z.of_nat (c_S c) - 1) in
  let is := Z.max is 0 in
  let xper := pow (nq 2) (zq o) in
  {| k_o := o; k_ix := nearest (x / xper)%Qc; k_iy := nearest (y / xper)%Qc; k_is := is; k_x := x; k_y := y; k_s := s; k_sigma := sigma |}.
End Descr.
