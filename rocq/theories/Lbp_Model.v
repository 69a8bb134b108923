(** Model of the local binary patterns, vl/lbp.c.

    Pixels are of any type with a comparison [gt] (nothing is assumed of it, so
    not-a-numbers are covered).  Weights and features are exact rationals; the
    float square root enters as an arbitrary function [root] and the constant
    1e-10f as [eps]. *)
From Coq Require Import List Arith ZArith NArith Lia Bool QArith Qcanon.
From Verif Require Import Base Loop Rat.
Import ListNotations.
Local Open Scope nat_scope.

(** the pattern of a run of j ones, lbp.c:193-202 *)
Definition run_string (transposed : bool) (i j : nat) : N :=
  let ip := if transposed
            then Z.to_N (Z.rem (- Z.of_nat i + 2 - (Z.of_nat j - 1) + 16) 8)
            else N.of_nat i in
  let string := (N.shiftl 1 (N.of_nat j) - 1)%N in
  let string := N.shiftl string ip in
  N.land (N.lor string (N.shiftr string 8)) 255.

(** _vl_lbp_init_uniform, lbp.c:171-207 *)
Definition init_uniform (transposed : bool) : option (list nat) :=
  let mapping := repeat 57 256 in
  do mapping <- aset mapping 0 56;
  do mapping <- aset mapping 255 56;
  iter 8 (fun i mapping =>
    iter_from 7 1 (fun j mapping =>
      aset mapping (N.to_nat (run_string transposed i j)) (i * 7 + (j - 1))) mapping) mapping.

(** vl_lbp_get_dimension, lbp.c:244-247 *)
Definition dimension : nat := 58.

Section Process.
Context {V : Type} (gt : V -> V -> bool) (image : list V) (width height cell_size : nat).
Local Open Scope Z_scope.

(** the macro at, lbp.c:277 *)
Definition at_ (u v : Z) : option V := zget image (Z.of_nat width * v + u).

(** one bit of the string, lbp.c:306-313 *)
Definition neighbour_bit (center : V) (u v : Z) (k : N) (s : N) : option N :=
  do a <- at_ u v;
  Some (if gt a center then N.lor s (N.shiftl 1 k) else s).

(** the bit string of a pixel, lbp.c:303-313 *)
Definition bit_string (x y : Z) : option N :=
  do c <- at_ x y;
  do s <- neighbour_bit c (x + 1) (y + 0) 0 0;
  do s <- neighbour_bit c (x + 1) (y + 1) 1 s;
  do s <- neighbour_bit c (x + 0) (y + 1) 2 s;
  do s <- neighbour_bit c (x - 1) (y + 1) 3 s;
  do s <- neighbour_bit c (x - 1) (y + 0) 4 s;
  do s <- neighbour_bit c (x - 1) (y - 1) 5 s;
  do s <- neighbour_bit c (x + 0) (y - 1) 6 s;
  neighbour_bit c (x + 1) (y - 1) 7 s.

Definition cwidth : nat := (width / cell_size)%nat.
Definition cheight : nat := (height / cell_size)%nat.
Definition cstride : nat := (cwidth * cheight)%nat.

(** to(u,v,w) += value, lbp.c:278, 317-328 *)
Definition add_to (u v w : Z) (value : Qc) (f : list Qc) : option (list Qc) :=
  let p := Z.of_nat cstride * w + Z.of_nat cwidth * v + u in
  do a <- zget f p;
  zset f p (a + value)%Qc.

(** weights along one axis, lbp.c:285-289: first cell, its weight and the weight
    of the next *)
Definition axis (x : Z) : Z * Qc * Qc :=
  let w1 := ((zq x + Q2Qc (1#2)) / nq cell_size - Q2Qc (1#2))%Qc in
  let c1 := qfloor w1 in
  let w2 := (w1 - zq c1)%Qc in
  let w1 := (1 - w2)%Qc in
  (c1, w1, w2).

(** one pixel, lbp.c:293-329 *)
Definition pixel (mapping : list nat) (y : Z) (cy1 : Z) (wy1 wy2 : Qc) (x : nat) (f : list Qc) : option (list Qc) :=
  let '(cx1, wx1, wx2) := axis (Z.of_nat x) in
  let cx2 := cx1 + 1 in
  let cy2 := cy1 + 1 in
  if Z.of_nat cwidth <=? cx1 then Some f else
  do s <- bit_string (Z.of_nat x) y;
  do bin <- aget mapping (N.to_nat s);
  let bin := Z.of_nat bin in
  do f <- (if (0 <=? cx1) && (0 <=? cy1) then add_to cx1 cy1 bin (wx1 * wy1)%Qc f else Some f);
  do f <- (if (cx2 <? Z.of_nat cwidth) && (0 <=? cy1) then add_to cx2 cy1 bin (wx2 * wy1)%Qc f else Some f);
  do f <- (if (0 <=? cx1) && (cy2 <? Z.of_nat cheight) then add_to cx1 cy2 bin (wx1 * wy2)%Qc f else Some f);
  if (cx2 <? Z.of_nat cwidth) && (cy2 <? Z.of_nat cheight) then add_to cx2 cy2 bin (wx2 * wy2)%Qc f else Some f.

(** one line of pixels, lbp.c:284-330 *)
Definition line (mapping : list nat) (y : nat) (f : list Qc) : option (list Qc) :=
  let '(cy1, wy1, wy2) := axis (Z.of_nat y) in
  if Z.of_nat cheight <=? cy1 then Some f else
  iter_from (width - 2) 1 (pixel mapping (Z.of_nat y) cy1 wy1 wy2) f.

(** the accumulation of vl_lbp_process, lbp.c:270-331; division by a zero cell
    size is [None] *)
Definition accumulate (mapping : list nat) : option (list Qc) :=
  if (cell_size =? 0)%nat then None else
  iter_from (height - 2) 1 (line mapping) (repeat 0%Qc (dimension * cstride)).

Variables (root : Qc -> Qc) (eps : Qc).

(** normalisation of one cell, lbp.c:336-344; [base] is the advance of the
    pointer features *)
Definition normalize_cell (base : nat) (f : list Qc) : option (list Qc) :=
  do norm <- iter dimension (fun k norm =>
    do a <- aget f (base + k * cstride); Some (norm + a)%Qc) 0%Qc;
  let norm := (root norm + eps)%Qc in
  iter dimension (fun k f =>
    do a <- aget f (base + k * cstride);
    aset f (base + k * cstride) (root a / norm)%Qc) f.

(** vl_lbp_process, lbp.c:264-347; the two loops over the cells advance the
    pointer by one each time *)
Definition process (mapping : list nat) : option (list Qc) :=
  do f <- accumulate mapping;
  iter cheight (fun cy f =>
    iter cwidth (fun cx f => normalize_cell (cy * cwidth + cx) f) f) f.
End Process.
