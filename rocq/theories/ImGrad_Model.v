(** Image derivatives: vl_imgradient_f/d and vl_imgradient_polar_f/d of imopv.c, and the cornerness measures of covdet.c.
    Pixels are rational numbers for float and double.  The image and the planes written are separate arrays; pointers are indices into them. *)
From Coq Require Import List Arith ZArith Lia Bool QArith Qcanon.
Import ListNotations.
From Verif Require Import Base Loop Rat.
Local Open Scope nat_scope.

Definition half (q : Qc) : Qc := (Q2Qc (1 # 2) * q)%Qc.
Section Gradient.
(** what the two planes store of the derivatives gx and gy *)
Context {V : Type}.
Variable f1 f2 : Qc -> Qc -> V.
(** image, imageStride, gradWidthStride *)
Variable img : list Qc.
Variable yo ws : nat.
(** the planes, the pointers into them and src *)
Record grad := Grad { g_m1 : list V; g_m2 : list V; g_p1 : nat; g_p2 : nat; g_src : nat }.
(** src[a] - src[b] with the indices computed by the caller *)
Definition diff (a b : nat) : option Qc := do u <- aget img a; do v <- aget img b; Some (u - v)%Qc.
(** the stores of a pixel and the increments: imopv.c:720-724 for example, and SAVE_BACK, imopv.c:892-897 *)
Definition save (gx gy : Qc) (s : grad) : option grad :=
  do m1 <- aset (g_m1 s) (g_p1 s) (f1 gx gy);
  do m2 <- aset (g_m2 s) (g_p2 s) (f2 gx gy);
  Some (Grad m1 m2 (g_p1 s + ws) (g_p2 s + ws) (g_src s + 1)).
(** the vertical derivatives of the first, a middle and the last row, imopv.c:722, 757, 804 *)
Definition dy_first (src : nat) : option Qc := diff (src + yo) src.
Definition dy_middle (src : nat) : option Qc := do d <- diff (src + yo) (src - yo); Some (half d).
Definition dy_last (src : nat) : option Qc := diff src (src - yo).
(** one row: imopv.c:719-743 (first), 753-779 (middle), 800-828 (last); imopv.c:903-922, 931-951 and 958-977 in the polar version.
    [end = (src - 1) + w - 1] leaves w - 2 pixels for the loop, none if w is less than 2 *)
Definition grad_row (dy : nat -> option Qc) (w : nat) (s : grad) : option grad :=
  do gx <- diff (g_src s + 1) (g_src s); do gy <- dy (g_src s);
  do s <- save gx gy s;
  do s <- iter (w - 2) (fun _ s => do d <- diff (g_src s + 1) (g_src s - 1); do gy <- dy (g_src s); save (half d) gy s) s;
  do gx <- diff (g_src s) (g_src s - 1); do gy <- dy (g_src s);
  save gx gy s.
(** vl_imgradient_f/d, imopv.c:693-829, and vl_imgradient_polar_f/d, imopv.c:874-980.  For h = 0 the bound h - 1 of the loop wraps around: [None] *)
Definition gradient (hs w h : nat) (m1 m2 : list V) : option (list V * list V) :=
  if h =? 0 then None else
  do s <- grad_row dy_first w (Grad m1 m2 0 0 0);
  do (s, g, i) <- iter (h - 2) (fun _ '(s, g, i) =>
     do s <- grad_row dy_middle w (Grad (g_m1 s) (g_m2 s) g g i); Some (s, g + hs, i + yo)) (s, hs, yo);
  do s <- grad_row dy_last w (Grad (g_m1 s) (g_m2 s) g g i);
  Some (g_m1 s, g_m2 s).
End Gradient.
(** vl_imgradient *)
Definition imgradient := @gradient Qc (fun gx _ => gx) (fun _ gy => gy).
(** vl_imgradient_polar: [fsqrt], [fatan2] and [mod2pi] are vl_fast_sqrt_f, vl_fast_atan2_f and vl_mod_2pi_f, [twopi] the constant *)
Definition imgradient_polar {V} (fsqrt : Qc -> V) (fatan2 : Qc -> Qc -> V) (turn : V -> V) :=
  @gradient V (fun gx gy => fsqrt (gx * gx + gy * gy)%Qc) (fun gx gy => turn (fatan2 gy gx)).

(** ** _vl_det_hessian_response, covdet.c:1759-1838 *)
(** the determinant of one 3 by 3 window, covdet.c:1799-1804 *)
Definition window (factor p11 p12 p13 p21 p22 p23 p31 p32 p33 : Qc) : Qc :=
  let two := Q2Qc 2 in
  let Lxx := (- p21 + two * p22 - p23)%Qc in
  let Lyy := (- p12 + two * p22 - p32)%Qc in
  let Lxy := ((p11 - p31 - p13 + p33) / Q2Qc 4)%Qc in
  ((Lxx * Lyy - Lxy * Lxy) * factor)%Qc.
(** covdet.c:1782-1817: the rows of the interior *)
Definition hess_rows (factor : Qc) (img : list Qc) (w h : nat) (buf : list Qc) : option (list Qc) :=
  do (buf, inp, out) <- iter (h - 2) (fun _ '(buf, inp, out) =>
    do p11 <- aget img (inp - w); do p12 <- aget img (inp + 1 - w);
    do p21 <- aget img inp; do p22 <- aget img (inp + 1);
    do p31 <- aget img (inp + w); do p32 <- aget img (inp + 1 + w);
    do (buf, inp, out, p11, p12, p21, p22, p31, p32) <- iter (w - 2) (fun _ '(buf, inp, out, p11, p12, p21, p22, p31, p32) =>
      do p13 <- aget img (inp - w); do p23 <- aget img inp; do p33 <- aget img (inp + w);
      do buf <- aset buf out (window factor p11 p12 p13 p21 p22 p23 p31 p32 p33);
      Some (buf, inp + 1, out + 1, p12, p13, p22, p23, p32, p33)) (buf, inp + 2, out, p11, p12, p21, p22, p31, p32);
    Some (buf, inp, out + 2)) (buf, w, 1 + w);
  Some buf.
(** memcpy of n entries inside an array *)
Definition copy {V} (n dst src : nat) (buf : list V) : option (list V) :=
  iter n (fun i buf => do v <- aget buf (src + i); aset buf (dst + i) v) buf.
(** covdet.c:1819-1837: the borders *)
Definition hess_borders {V} (w h : nat) (buf : list V) : option (list V) :=
  if w <? 2 then None (* the size w - 2 of the copies wraps around *) else
  do buf <- copy (w - 2) 1 (w + 1) buf;
  do (buf, inp, out) <- iter (h - 1) (fun _ '(buf, inp, out) =>
    do a <- aget buf inp; do buf <- aset buf out a;
    do b <- zget buf (Z.of_nat inp + Z.of_nat w - 3); do buf <- zset buf (Z.of_nat out + Z.of_nat w - 1) b;
    Some (buf, inp + w, out + w)) (buf, 1, 0);
  let inp := inp - w in
  do a <- aget buf inp; do buf <- aset buf out a;
  do b <- zget buf (Z.of_nat inp + Z.of_nat w - 3); do buf <- zset buf (Z.of_nat out + Z.of_nat w - 1) b;
  copy (w - 2) (out + 1) inp buf.
(** [factor] is (sigma / step)^4; for w = 0 or h = 0 the bounds w - 1 and h - 1 wrap around: [None] *)
Definition det_hessian (factor : Qc) (img : list Qc) (w h : nat) (buf : list Qc) : option (list Qc) :=
  if (w =? 0) || (h =? 0) then None else
  do buf <- hess_rows factor img w h buf; hess_borders w h buf.

(** ** _vl_dog_response, covdet.c:1908-1919 *)
Definition dog_response (l1 l2 : list Qc) (n : nat) (dog : list Qc) : option (list Qc) :=
  iter n (fun k dog => do a <- aget l2 k; do b <- aget l1 k; aset dog k (a - b)%Qc) dog.
(** ** _vl_harris_response, covdet.c:1850-1901.  [smooth] is vl_imsmooth_f at sigmaI / step, [junk] the memory of the buffers *)
Definition harris_response (smooth : list Qc -> list Qc) (factor alpha : Qc) (img : list Qc) (w h : nat) (junk1 junk2 junk3 harris : list Qc) : option (list Qc) :=
  do (xx, yy) <- imgradient img w 1 w w h junk1 junk2;
  do (xx, yy, xy) <- iter (w * h) (fun k '(xx, yy, xy) =>
    do dx <- aget xx k; do dy <- aget yy k;
    do xx <- aset xx k (dx * dx)%Qc; do yy <- aset yy k (dy * dy)%Qc; do xy <- aset xy k (dx * dy)%Qc;
    Some (xx, yy, xy)) (xx, yy, junk3);
  let xx := smooth xx in let yy := smooth yy in let xy := smooth xy in
  iter (w * h) (fun k harris =>
    do a <- aget xx k; do b <- aget yy k; do c <- aget xy k;
    let determinant := (a * b - c * c)%Qc in
    let trace := (a + b)%Qc in
    aset harris k (factor * (determinant - alpha * (trace * trace)))%Qc) harris.
