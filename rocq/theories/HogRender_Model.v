(** Rendering of HOG features, vl/hog.c:276-312 (glyphs) and 427-495 (vl_hog_render).
    Numbers are exact rationals.  The direction, slope and number of skipped columns of the bar of each orientation, which the code computes with cosines and sines, are inputs. *)
From Coq Require Import List Arith ZArith Bool QArith Qcanon.
From Verif Require Import Base Loop Rat Gauss_Model Hog_Model.
Import ListNotations.
Local Open Scope nat_scope.

(** vl_round_d, mathop.h:211-225: lround, halves away from zero *)
Definition lround (x : Qc) : Z :=
  if qlt x 0 then (- qfloor (- x + Q2Qc (1 # 2)))%Z else qfloor (x + Q2Qc (1 # 2))%Qc.
(** the bar of an orientation: [true] if along the horizontal direction, slope, skipped columns or rows, hog.c:279-287 and 298-301 *)
Definition bar : Type := bool * Qc * nat.
Section Glyphs.
Variables (G n : nat) (transposed : bool).
(** atglyph(x,y,k) = 1, hog.c:277 *)
Definition set_glyph (glyphs : list Qc) (x y : Z) (k : nat) : option (list Qc) :=
  zset glyphs (x + Z.of_nat G * y + Z.of_nat G * Z.of_nat G * Z.of_nat k)%Z 1%Qc.
(** one bar, hog.c:283-310 *)
Definition draw_bar (b : bar) (o : nat) (glyphs : list Qc) : option (list Qc) :=
  let '(horizontal, slope, skip) := b in
  let offset := ((1 - slope) * (nq G - 1) / zq 2)%Qc in
  iter_from (G - skip - skip) skip (fun t glyphs =>
    let u := lround (slope * nq t + offset) in
    let '(i, j) := if horizontal then (Z.of_nat t, u) else (u, Z.of_nat t) in
    if negb transposed then set_glyph glyphs i j o else set_glyph glyphs j i o) glyphs.
(** all bars, hog.c:276-311; the array is cleared *)
Definition draw_glyphs (bars : nat -> bar) : option (list Qc) :=
  iter n (fun o glyphs => draw_bar (bars o) o glyphs) (repeat 0%Qc (G * G * n)).
End Glyphs.

Section Render.
Variables (v : variant) (n G : nat) (glyphs : list Qc) (width height : nat) (descriptor : list Qc).
(** the weight of an orientation in a cell, hog.c:453-469 *)
Definition render_weight (cell k : nat) : option Qc :=
  let hogStride := width * height in
  do a <- aget descriptor (cell + k * hogStride);
  do b <- aget descriptor (cell + (k + n) * hogStride);
  do c <- aget descriptor (cell + (k + 2 * n) * hogStride);
  match v with
  | Uoctti => Some (a + b + c)%Qc
  | DalalTriggs => do d <- aget descriptor (cell + (k + 3 * n) * hogStride); Some (a + b + c + d)%Qc
  end.
(** the loops over the pixels of a cell, hog.c:451, 473-478 and 482-489: [f] computes the new value of a pixel from its number in the glyph;
    state (image, pointer into the image, pointer into the glyph) *)
Definition cell_loop (f : nat -> Qc -> option Qc) (x y : nat) (image : list Qc) : option (list Qc) :=
  do (image, _, _) <- iter G (fun cy s =>
    do (image, p, q) <- iter G (fun cx s => let '(image, p, q) := s in
      do a <- aget image p; do a <- f q a; do image <- aset image p a; Some (image, p + 1, q + 1)) s;
    Some (image, p + (width - 1) * G, q)) (image, G * x + y * width * (G * G), 0);
  Some image.
(** one cell, hog.c:444-491 *)
Definition render_cell (x y : nat) (image : list Qc) : option (list Qc) :=
  do (image, minWeight, maxWeight) <- iter n (fun k s => let '(image, minWeight, maxWeight) := s in
    do weight <- render_weight (x + y * width) k;
    let maxWeight := qmax weight maxWeight in
    let minWeight := qmin weight minWeight in
    do image <- cell_loop (fun q a => do g <- aget glyphs (k * (G * G) + q); Some (a + weight * g)%Qc) x y image;
    Some (image, minWeight, maxWeight)) (image, 0%Qc, 0%Qc);
  cell_loop (fun _ value => Some (qmax minWeight (qmin maxWeight value))) x y image.
(** vl_hog_render, hog.c:427-495 *)
Definition hog_render (image : list Qc) : option (list Qc) :=
  if negb ((0 <? width) && (0 <? height)) then None else
  iter height (fun y image => iter width (fun x image => render_cell x y image) image) image.
End Render.
