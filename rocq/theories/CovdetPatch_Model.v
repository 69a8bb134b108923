(** Patches of the covariant detector, covdet.c:2171-2425: the choice of a level of the scale space, the
    padded copy of the region, the resampling.  Rationals stand for float and double; the singular values
    of the frame are inputs; [junk] is fresh memory.  [None] is an access out of bounds or a failed assertion. *)
From Coq Require Import List Arith ZArith Bool QArith Qcanon.
Import ListNotations.
From Verif Require Import Base Loop Rat Gauss_Model Quickshift_Model Covdet_Model.
Local Open Scope nat_scope.

(** ** the level, covdet.c:2222-2244 *)
(** the part of VlScaleSpaceGeometry read, scalespace.h:46-58 *)
Record geometry := Geom { g_first : Z; g_last : Z; g_res : nat; g_sub0 : Z; g_sub1 : Z; g_base : Qc }.
Definition two_to (n : Z) : Qc := if (0 <=? n)%Z then zq (2 ^ n) else (/ zq (2 ^ (- n)))%Qc.
(** sigma / (factor * baseScale) where factor is the reciprocal of the smaller singular value *)
Definition ratio (g : geometry) (sigma d1 d2 : Qc) : Qc := (sigma / (1 / qmin d1 d2 * g_base g))%Qc.
(** covdet.c:2225-2227 *)
Definition sub_at (g : geometry) (q : Qc) (o : Z) : Z :=
  Z.min (Z.max (floor_log2 (Qnum (this q)) (Zpos (Qden (this q))) - o) (g_sub0 g)) (g_sub1 g).
(** the test "factor * sigma_ > sigma", covdet.c:2228-2230: 2^(o + s / resolution) > q, done on the powers of exponent resolution *)
Definition too_smooth (g : geometry) (q : Qc) (o s : Z) : bool := qlt (q ^ g_res g)%Qc (two_to (o * Z.of_nat (g_res g) + s)).
(** the loop, covdet.c:2224-2234, with [n] octaves from [o] *)
Fixpoint octave_from (g : geometry) (q : Qc) (n : nat) (o : Z) : Z :=
  match n with
  | O => o
  | S n => if too_smooth g q o (sub_at g q o) then (o - 1)%Z else octave_from g q n (o + 1)
  end.
(** covdet.c:2235-2238 *)
Definition best_level (g : geometry) (q : Qc) : Z * Z :=
  let o := Z.min (octave_from g q (Z.to_nat (g_last g - g_first g)) (g_first g + 1)) (g_last g) in (o, sub_at g q o).

(** ** the padded copy, covdet.c:2314-2364 *)
Section Patch.
Variable junk : nat -> Qc.
(** "*dst++ = *src" ([inc] = 0) or "*dst++ = *src++" ([inc] = 1), [n] times *)
Definition put (level : list Qc) (n : nat) (inc : Z) (st : Z * Z * list Qc) : option (Z * Z * list Qc) :=
  iter n (fun _ st => let '(dst, src, buf) := st in
    do v <- zget level src; do buf <- zset buf dst v; Some (dst + 1, src + inc, buf)%Z) st.
(** memcpy of one row of the patch to another, covdet.c:2349-2358 *)
Definition copy_row (pw dst src : Z) (buf : list Qc) : option (list Qc) :=
  iter (Z.to_nat pw) (fun i buf => do v <- zget buf (src + Z.of_nat i); zset buf (dst + Z.of_nat i) v) buf.
(** one row of the central band, covdet.c:2340-2345 *)
Definition band_row (level : list Qc) (w : Z) (x0 y0 x1 pw padx0 padx1 y : Z) (buf : list Qc) : option (list Qc) :=
  let st := ((y - y0) * pw, y * w + Z.min (Z.max 0 x0) (w - 1), buf)%Z in
  do st <- put level (Z.to_nat padx0) 0 st;
  let x := (x0 + padx0)%Z in
  let n := Z.to_nat (x0 + pw - padx1 - 2 - x) in
  do st <- put level n 1 st;
  let x := (x + Z.of_nat n)%Z in
  do st <- put level (Z.to_nat (x0 + pw - x)) 0 st;
  Some (snd st).
(** the padded copy of the region from (x0, y0) to (x1, y1) *)
Definition pad (level : list Qc) (w h : Z) (x0 y0 x1 y1 : Z) (buf : list Qc) : option (list Qc) :=
  let padx0 := Z.max 0 (- x0) in let pady0 := Z.max 0 (- y0) in
  let padx1 := Z.max 0 (x1 - (w - 1)) in let pady1 := Z.max 0 (y1 - (h - 1)) in
  let pw := (x1 - x0 + 1)%Z in let ph := (y1 - y0 + 1)%Z in
  let size := Z.to_nat (pw * ph) in
  let buf := if length buf <? size then buf ++ map junk (seq (length buf) (size - length buf)) else buf in
  if (pady0 <? ph - pady1)%Z then
    do buf <- iter (Z.to_nat (ph - pady1 - pady0)) (fun i buf => band_row level w x0 y0 x1 pw padx0 padx1 (y0 + pady0 + Z.of_nat i)%Z buf) buf;
    do buf <- iter (Z.to_nat pady0) (fun i buf => copy_row pw (Z.of_nat i * pw) (pady0 * pw) buf) buf;
    iter (Z.to_nat pady1) (fun i buf => copy_row pw ((ph - pady1 + Z.of_nat i) * pw) ((ph - pady1 - 1) * pw) buf) buf
  else Some (repeat 0%Qc (length buf)).

(** ** resampling, covdet.c:2376-2414 *)
(** one pixel: the four reads, the assertions and the interpolation *)
Definition interpolate (level : list Qc) (w h : Z) (x y : Qc) : option Qc :=
  let xi := qfloor x in let yi := qfloor y in
  do i00 <- zget level (yi * w + xi); do i10 <- zget level (yi * w + xi + 1);
  do i01 <- zget level ((yi + 1) * w + xi); do i11 <- zget level ((yi + 1) * w + xi + 1);
  let wx := (x - zq xi)%Qc in let wy := (y - zq yi)%Qc in
  if ((0 <=? xi) && (xi <=? w - 1) && (0 <=? yi) && (yi <=? h - 1))%Z
  then Some ((1 - wy) * ((1 - wx) * i00 + wx * i10) + wy * ((1 - wx) * i01 + wx * i11))%Qc else None.
Definition resample (level : list Qc) (w h : Z) (f : frame) (extent : Qc) (resolution : nat) : option (list Qc) :=
  let stephat := (extent / nq resolution)%Qc in
  do r <- iter (2 * resolution + 1) (fun _ st => let '(yhat, pt) := st : Qc * list Qc in
    let rx := (f_a12 f * yhat + f_x f)%Qc in let ry := (f_a22 f * yhat + f_y f)%Qc in
    do r <- iter (2 * resolution + 1) (fun _ st => let '(xhat, pt) := st : Qc * list Qc in
      do v <- interpolate level w h (f_a11 f * xhat + rx) (f_a21 f * xhat + ry);
      Some (xhat + stephat, pt ++ v :: nil)%Qc) (- extent, pt)%Qc;
    Some (yhat + stephat, snd r)%Qc) (- extent, nil)%Qc;
  Some (snd r).

(** ** all from the level on, covdet.c:2253-2424: the patch, or [None] for "Frame out of image", and the buffer *)
Definition in_pixels (step : Qc) (f : frame) : frame :=
  Frame (f_x f / step) (f_y f / step) (f_a11 f / step) (f_a12 f / step) (f_a21 f / step) (f_a22 f / step).
Definition moved (x y : Z) (f : frame) : frame := Frame (f_x f - zq x) (f_y f - zq y) (f_a11 f) (f_a12 f) (f_a21 f) (f_a22 f).
Definition warp (padded : bool) (level : list Qc) (w h : nat) (step : Qc) (f : frame) (extent : Qc) (resolution : nat) (buf : list Qc)
  : option (option (list Qc) * list Qc) :=
  let f := in_pixels step f in
  if negb (frame_inside w h extent f) && negb padded then Some (None, buf) else
  let '(x0, x1) := bounds (map fst (corners f extent)) in
  let '(y0, y1) := bounds (map snd (corners f extent)) in
  let x0i := (qfloor x0 - 1)%Z in let y0i := (qfloor y0 - 1)%Z in
  let x1i := (qceil x1 + 1)%Z in let y1i := (qceil y1 + 1)%Z in
  let w := Z.of_nat w in let h := Z.of_nat h in
  if ((x0i <? 0) || (w - 1 <? x1i) || (y0i <? 0) || (h - 1 <? y1i))%Z then
    do buf <- pad level w h x0i y0i x1i y1i buf;
    do pt <- resample buf (x1i - x0i + 1) (y1i - y0i + 1) (moved x0i y0i f) extent resolution;
    Some (Some pt, buf)
  else do pt <- resample level w h f extent resolution; Some (Some pt, buf).
End Patch.
