(** Model of the HOG features, vl/hog.c.

    Numbers are exact rationals; square root, arc cosine and the reciprocal of the
    square root of block norms enter as arbitrary functions.  The orientation
    vectors are arbitrary arrays of numOrientations entries.  Rendering of glyphs
    is in HogRender_Model. *)
From Coq Require Import List Arith ZArith Lia Bool QArith Qcanon.
From Verif Require Import Base Loop Rat Gauss_Model Lbp_Model.
Import ListNotations.
Local Open Scope nat_scope.

Inductive variant := Uoctti | DalalTriggs.

(** hog.c:211-224 *)
Definition hog_dimension (v : variant) (n : nat) : nat :=
  match v with Uoctti => 3 * n + 4 | DalalTriggs => 4 * n end.

(** hog.c:248-250, 259-261 *)
Definition block_flip (k : nat) : nat :=
  let blockx := k mod 2 in
  let blocky := k / 2 in
  (1 - blockx) + blocky * 2.

(** the flip permutation, hog.c:234-269; [perm] is the allocated array *)
Definition hog_permutation (v : variant) (n : nat) (perm : list nat) : option (list nat) :=
  match v with
  | Uoctti =>
    do perm <- iter n (fun o perm =>
      let op := n - o in
      do perm <- aset perm o op;
      do perm <- aset perm (o + n) ((op + n) mod (2 * n));
      aset perm (o + 2 * n) (op mod n + 2 * n)) perm;
    iter 4 (fun k perm => aset perm (k + n * 3) (block_flip k + n * 3)) perm
  | DalalTriggs =>
    iter 4 (fun k perm =>
      iter n (fun o perm =>
        let op := n - o in
        aset perm (o + k * n) (op mod n + block_flip k * n)) perm) perm
  end.

(** the buffers of a HOG object *)
Record hog := mk_hog { h_width : nat; h_height : nat; h_bins : list Qc; h_norm : list Qc }.

(** memset(p, 0, k) *)
Definition clear (k : nat) (l : list Qc) : option (list Qc) :=
  if length l <? k then None else Some (repeat 0%Qc k ++ skipn k l).

Section Hog.
Variable n : nat.   (* numOrientations *)

(** vl_hog_prepare_buffers, hog.c:532-570; [None] for a failed assertion or a null
    cell size *)
Definition prepare (s : option hog) (width height size : nat) : option hog :=
  if size =? 0 then None else
  let hw := (width + size / 2) / size in
  let hh := (height + size / 2) / size in
  if negb ((3 <? width) && (3 <? height) && (0 <? hw) && (0 <? hh)) then None else
  match s with
  | Some s =>
    if (h_width s =? hw) && (h_height s =? hh) then
      do b <- clear (hw * hh * n * 2) (h_bins s);
      do m <- clear (hw * hh) (h_norm s);
      Some (mk_hog hw hh b m)
    else Some (mk_hog hw hh (repeat 0%Qc (hw * hh * n * 2)) (repeat 0%Qc (hw * hh)))
  | None => Some (mk_hog hw hh (repeat 0%Qc (hw * hh * n * 2)) (repeat 0%Qc (hw * hh)))
  end.

(** at(x,y,k) += value, hog.c:612, 711-722 *)
Definition add_cell (hw hh : nat) (x y k : Z) (value : Qc) (f : list Qc) : option (list Qc) :=
  let p := (x + y * Z.of_nat hw + k * Z.of_nat (hw * hh))%Z in
  do a <- zget f p;
  zset f p (a + value)%Qc.

(** bilinear accumulation of one vote, hog.c:691-722, 840-870; [amount wx wy] is the
    value added to a cell *)
Definition splat (hw hh size : nat) (amount : Qc -> Qc -> Qc) (x y : nat) (orientation : Z) (f : list Qc) : option (list Qc) :=
  if (orientation <? 0)%Z then Some f else
  let '(binx, wx1, wx2) := axis size (Z.of_nat x) in
  let '(biny, wy1, wy2) := axis size (Z.of_nat y) in
  do f <- (if (0 <=? binx)%Z && (0 <=? biny)%Z
           then add_cell hw hh binx biny orientation (amount wx1 wy1) f else Some f);
  do f <- (if (binx <? Z.of_nat hw - 1)%Z && (0 <=? biny)%Z
           then add_cell hw hh (binx + 1) biny orientation (amount wx2 wy1) f else Some f);
  do f <- (if (binx <? Z.of_nat hw - 1)%Z && (biny <? Z.of_nat hh - 1)%Z
           then add_cell hw hh (binx + 1) (biny + 1) orientation (amount wx2 wy2) f else Some f);
  if (0 <=? binx)%Z && (biny <? Z.of_nat hh - 1)%Z
  then add_cell hw hh binx (biny + 1) orientation (amount wx1 wy2) f else Some f.

Section Image.
Variables (sqrt_ : Qc -> Qc) (acos_ : Qc -> Qc) (pi tiny : Qc).   (* tiny is 1e-10 *)
Variables (ox oy : list Qc).          (* orientationX, orientationY *)
Variable (bilinear : bool).

(** the strongest gradient over the channels, hog.c:636-651 *)
Definition gradient (image : list Qc) (width height channels x y : nat) : option (Qc * Qc * Qc) :=
  iter channels (fun k '(gx, gy, g2) =>
    let p := y * width + x + k * (width * height) in
    do a <- aget image (p + 1);
    do b <- aget image (p - 1);
    do c <- aget image (p + width);
    do d <- aget image (p - width);
    let gx' := (a - b)%Qc in
    let gy' := (c - d)%Qc in
    let g2' := (gx' * gx' + gy' * gy')%Qc in
    Some (if qlt g2 g2' then (gx', gy', g2') else (gx, gy, g2))) (0, 0, 0)%Qc.

(** the two closest orientations, hog.c:659-675; state (weights[0], bins[0],
    weights[1], bins[1]) *)
Definition two_closest (gx gy : Qc) : option (Qc * Z * Qc * Z) :=
  iter n (fun k '(w0, b0, w1, b1) =>
    do u <- aget ox k;
    do v <- aget oy k;
    let score := (gx * u + gy * v)%Qc in
    let bin := Z.of_nat k in
    let '(score, bin) := if qlt score 0 then ((- score)%Qc, (bin + Z.of_nat n)%Z) else (score, bin) in
    Some (if qlt w0 score then (score, bin, w0, b0)
          else if qlt w1 score then (w0, b0, score, bin)
          else (w0, b0, w1, b1))) (-(1), (-1)%Z, -(1), (-1)%Z)%Qc.

(** VL_MAX and VL_MIN, mathop.h *)
Definition qmax (a b : Qc) : Qc := if qlt b a then a else b.
Definition qmin (a b : Qc) : Qc := if qlt a b then a else b.

(** the two votes of a gradient, hog.c:659-686 *)
Definition votes (gx gy norm : Qc) : option (Qc * Z * Qc * Z) :=
  do (w0, b0, w1, b1) <- two_closest gx gy;
  if bilinear then
    let angle0 := acos_ (qmin (w0 / qmax norm tiny) 1)%Qc in
    let w1 := (angle0 / (pi / nq n))%Qc in
    Some ((1 - w1)%Qc, b0, w1, b1)
  else Some (1%Qc, b0, w1, (-1)%Z).

(** one pixel, hog.c:616-724 *)
Definition image_pixel (image : list Qc) (width height channels size hw hh : nat) (y x : nat) (f : list Qc) : option (list Qc) :=
  do (gx, gy, g2) <- gradient image width height channels x y;
  let norm := sqrt_ g2 in
  do (w0, b0, w1, b1) <- votes gx gy norm;
  do f <- splat hw hh size (fun wx wy => norm * w0 * wx * wy)%Qc x y b0 f;
  splat hw hh size (fun wx wy => norm * w1 * wx * wy)%Qc x y b1 f.

(** vl_hog_put_image, hog.c:592-726 *)
Definition put_image (s : option hog) (image : list Qc) (width height channels size : nat) : option hog :=
  do s <- prepare s width height size;
  do b <- iter_from (height - 2) 1 (fun y =>
    iter_from (width - 2) 1 (image_pixel image width height channels size (h_width s) (h_height s) y)) (h_bins s);
  Some (mk_hog (h_width s) (h_height s) b (h_norm s)).
End Image.

Section Polar.
Variables (step : Qc) (bilinear directed : bool).   (* step is angleStep *)

(** the two votes of an angle, hog.c:806-827.  "while (bino < 0) bino += 2 n" followed
    by the remainder is the modulus. *)
Definition angle_votes (angle : Qc) : Qc * Z * Qc * Z :=
  let period := Z.of_nat (n * (if directed then 2 else 1)) in
  let ho := (angle / step)%Qc in
  let bino := qfloor ho in
  let wo2 := (ho - zq bino)%Qc in
  let wo1 := (1 - wo2)%Qc in
  if bilinear then (wo1, bino mod period, wo2, (bino + 1) mod period)%Z
  else (1%Qc, (bino + (if qlt wo2 wo1 then 0 else 1)) mod period, 0%Qc, -1)%Z.

(** one pixel, hog.c:793-871 *)
Definition polar_pixel (modulus angle : list Qc) (width size hw hh : nat) (y x : nat) (f : list Qc) : option (list Qc) :=
  do m <- aget modulus (y * width + x);
  do a <- aget angle (y * width + x);
  if negb (qlt 0 m) then Some f else
  let '(w0, b0, w1, b1) := angle_votes a in
  do f <- splat hw hh size (fun wx wy => m * (wx * w0) * (wy * w0))%Qc x y b0 f;
  splat hw hh size (fun wx wy => m * (wx * w1) * (wy * w1))%Qc x y b1 f.

(** vl_hog_put_polar_field, hog.c:762-875 *)
Definition put_polar_field (s : option hog) (modulus angle : list Qc) (width height size : nat) : option hog :=
  do s <- prepare s width height size;
  do b <- iter height (fun y =>
    iter width (polar_pixel modulus angle width size (h_width s) (h_height s) y)) (h_bins s);
  Some (mk_hog (h_width s) (h_height s) b (h_norm s)).
End Polar.

Section Extract.
Variables (v : variant) (transposed : bool).
Variables (isq : Qc -> Qc) (eps c02 c18 : Qc).
(* isq x is 1/sqrt x; eps, c02 and c18 are 1e-4, 0.2 and 1/sqrtf(18) *)

(** the norms of the cells, hog.c:904-919 *)
Definition norms (s : hog) : option (list Qc) :=
  let st := h_width s * h_height s in
  iter n (fun k m =>
    iter st (fun p m =>
      do h1 <- aget (h_bins s) (k * st + p);
      do h2 <- aget (h_bins s) (k * st + p + st * n);
      let h := (h1 + h2)%Qc in
      do a <- aget m p;
      aset m p (a + h * h)%Qc) m) (h_norm s).

(** the four factors of a cell, hog.c:966-1018 *)
Definition factors (hw hh : nat) (m : list Qc) (x y : nat) : option (list Qc) :=
  let at_norm x y := aget m (x + y * hw) in
  let xm := x - 1 in                       (* VL_MAX(x - 1, 0) *)
  let xp := Nat.min (x + 1) (hw - 1) in
  let ym := y - 1 in
  let yp := Nat.min (y + 1) (hh - 1) in
  do n1 <- at_norm xm ym; do n2 <- at_norm x ym; do n3 <- at_norm xp ym;
  do n4 <- at_norm xm y; do n5 <- at_norm x y; do n6 <- at_norm xp y;
  do n7 <- at_norm xm yp; do n8 <- at_norm x yp; do n9 <- at_norm xp yp;
  let f1 := isq (n1 + n2 + n4 + n5 + eps)%Qc in
  let f2 := isq (n2 + n3 + n5 + n6 + eps)%Qc in
  let f3 := isq (n4 + n5 + n7 + n8 + eps)%Qc in
  let f4 := isq (n5 + n6 + n8 + n9 + eps)%Qc in
  Some (if transposed then [f1; f3; f2; f4] else [f1; f2; f3; f4]).

Definition half_sum (l : list Qc) : Qc := (Q2Qc (1#2) * (nth 0 l 0 + nth 1 l 0 + nth 2 l 0 + nth 3 l 0))%Qc.

(** one orientation of a cell, hog.c:1020-1080; ha1 ... ha4 are the entries of the
    list [ha], and so on; state (t1 ... t4, features) *)
Definition extract_orientation (s : hog) (fac : list Qc) (base k : nat) (st : list Qc * list Qc) : option (list Qc * list Qc) :=
  let '(t, out) := st in
  let stride := h_width s * h_height s in
  do a <- aget (h_bins s) (base + stride * k);
  do b <- aget (h_bins s) (base + stride * (k + n));
  let ha := map (fun f => f * a)%Qc fac in
  let hb := map (fun f => f * b)%Qc fac in
  let hc := map (fun p => fst p + snd p)%Qc (combine ha hb) in
  let ha := map (qmin c02) ha in
  let hb := map (qmin c02) hb in
  let hc := map (qmin c02) hc in
  let t := map (fun p => fst p + snd p)%Qc (combine t hc) in
  let p := base + stride * k in
  match v with
  | Uoctti =>
    do out <- aset out p (half_sum ha);
    do out <- aset out (p + stride * n) (half_sum hb);
    do out <- aset out (p + 2 * stride * n) (half_sum hc);
    Some (t, out)
  | DalalTriggs =>
    do out <- aset out p (nth 0 hc 0%Qc);
    do out <- aset out (p + stride * n) (nth 1 hc 0%Qc);
    do out <- aset out (p + 2 * stride * n) (nth 2 hc 0%Qc);
    do out <- aset out (p + 3 * stride * n) (nth 3 hc 0%Qc);
    Some (t, out)
  end.

(** one cell, hog.c:961-1099 *)
Definition extract_cell (s : hog) (m : list Qc) (x y : nat) (out : list Qc) : option (list Qc) :=
  let stride := h_width s * h_height s in
  let base := x + h_width s * y in
  do fac <- factors (h_width s) (h_height s) m x y;
  do (t, out) <- iter n (extract_orientation s fac base) (repeat 0%Qc 4, out);
  match v with
  | Uoctti =>
    iter 4 (fun j out => aset out (base + stride * n + 2 * stride * n + j * stride) (c18 * nth j t 0%Qc)%Qc) out
  | DalalTriggs => Some out
  end.

(** vl_hog_extract, hog.c:887-1103: the object after the call and the features *)
Definition extract (s : hog) (features : list Qc) : option (hog * list Qc) :=
  do m <- norms s;
  do out <- iter (h_height s) (fun y out =>
    iter (h_width s) (fun x out => extract_cell s m x y out) out) features;
  Some (mk_hog (h_width s) (h_height s) (h_bins s) m, out).
End Extract.
End Hog.
