(** SLIC superpixels, vl/slic.c, over exact rationals.  Labels are unbounded integers (the code
    uses 32 bits).  [None] is an access out of bounds. *)
From Coq Require Import List Arith ZArith Bool QArith Qcanon Qround.
Import ListNotations.
From Verif Require Import Base Loop Rat Gauss_Model.
Local Open Scope nat_scope.

(** ** K-means on the tiles, slic.c:181-333.  [w], [h], [K], [rs] are the width, the height, the
    number of channels and the size of the regions; they are positive. *)
Section Tiles.
Variables (w h K rs : nat) (reg : Qc) (image : list Qc).

(** numRegionsX and numRegionsY, slic.c:181-183: quotients rounded up *)
Definition tiles (n : nat) : nat := (n + rs - 1) / rs.
Definition numX : nat := tiles w.
Definition numY : nat := tiles h.
(** atimage, slic.c:200 *)
Definition atimage (x y k : nat) : option Qc := aget image (x + y * w + k * w * h).

(** the edge map, slic.c:207-218 *)
Definition edge_step (k y x : nat) (e : list Qc) : option (list Qc) :=
  do a <- atimage (x - 1) y k;
  do b <- atimage (x + 1) y k;
  do c <- atimage x (y + 1) k;
  do d <- atimage x (y - 1) k;
  do v <- aget e (x + y * w);
  aset e (x + y * w) (v + ((a - b) * (a - b) + (c - d) * (c - d)))%Qc.
Definition edge_map : option (list Qc) :=
  iter K (fun k e => iter_from (h - 2) 1 (fun y e => iter_from (w - 2) 1 (fun x e => edge_step k y x e) e) e) (repeat 0%Qc (w * h)).

(** the nominal position of a center, slic.c:230-234: [rs * (u + 0.5)] rounded, at most n - 1 *)
Definition nominal (u n : nat) : nat := Nat.min ((rs * (2 * u + 1) + 1) / 2) (n - 1).
(** the pixel of smallest edge response around (x, y), slic.c:224-246; [None] inside stands for
    an infinite response *)
Definition flattest (e : list Qc) (x y : nat) : option (nat * nat) :=
  do (cx, cy, _) <- iter_from (Nat.min (h - 1) (y + 1) + 1 - (y - 1)) (y - 1) (fun yp st =>
    iter_from (Nat.min (w - 1) (x + 1) + 1 - (x - 1)) (x - 1) (fun xp (st : nat * nat * option Qc) =>
      let '(cx, cy, best) := st in
      do v <- aget e (xp + yp * w);
      Some (if (match best with Some b => qlt v b | None => true end) then (xp, yp, Some v) else st)) st) (0, 0, None);
  Some (cx, cy).
(** one center, slic.c:248-253; centers are appended in order *)
Definition center_at (cx cy : nat) (cs : list Qc) : option (list Qc) :=
  iter K (fun k cs => do z <- atimage cx cy k; Some (cs ++ [z])) (cs ++ [nq cx; nq cy]).
Definition init_centers (e : list Qc) : option (list Qc) :=
  iter numY (fun v cs => iter numX (fun u cs =>
    do (cx, cy) <- flattest e (nominal u w) (nominal v h);
    center_at cx cy cs) cs) [].

(** the distance of a pixel and a center, slic.c:272-283 *)
Definition factor : Qc := (reg / nq (rs * rs))%Qc.
Definition distance (cs : list Qc) (x y region : nat) : option Qc :=
  do cx <- aget cs ((2 + K) * region);
  do cy <- aget cs ((2 + K) * region + 1);
  let spatial := ((nq x - cx) * (nq x - cx) + (nq y - cy) * (nq y - cy))%Qc in
  do appearance <- iter K (fun k acc =>
    do c <- aget cs ((2 + K) * region + k + 2);
    do z <- atimage x y k;
    Some (acc + (z - c) * (z - c))%Qc) 0%Qc;
  Some (appearance + factor * spatial)%Qc.
(** the tile index, slic.c:265-266: [x / rs - 0.5] rounded down *)
Definition tile (x : nat) : Z := ((2 * Z.of_nat x - Z.of_nat rs) / (2 * Z.of_nat rs))%Z.
(** the label of a pixel, slic.c:265-291 *)
Definition assign_pixel (cs : list Qc) (x y : nat) (seg : list Z) : option (list Z * option Qc) :=
  let u := tile x in let v := tile y in
  zup (Z.max 0 v) (Z.min (Z.of_nat numY - 1) (v + 1) + 1) (fun vp st =>
    zup (Z.max 0 u) (Z.min (Z.of_nat numX - 1) (u + 1) + 1) (fun up (st : list Z * option Qc) =>
      let (seg, best) := st in
      let region := (up + vp * Z.of_nat numX)%Z in
      do d <- distance cs x y (Z.to_nat region);
      if (match best with Some b => qlt d b | None => true end) then
        do seg <- aset seg (x + y * w) region;
        Some (seg, Some d)
      else Some st) st) (seg, None).
(** all pixels, with the energy; an infinite energy would be [None] *)
Definition assign (cs : list Qc) (seg : list Z) : option (list Z * option Qc) :=
  iter h (fun y st => iter w (fun x (st : list Z * option Qc) =>
    let (seg, energy) := st in
    do (seg, best) <- assign_pixel cs x y seg;
    Some (seg, match energy, best with Some e, Some b => Some (e + b)%Qc | _, _ => None end)) st) (seg, Some 0%Qc).

(** the centers, slic.c:308-332 *)
Definition accumulate_pixel (seg : list Z) (x y : nat) (st : list nat * list Qc) : option (list nat * list Qc) :=
  let (masses, cs) := st in
  do l <- aget seg (x + y * w);
  let region := Z.to_nat l in
  do m <- aget masses region;
  do masses <- aset masses region (m + 1);
  do a <- aget cs (region * (2 + K));
  do cs <- aset cs (region * (2 + K)) (a + nq x)%Qc;
  do a <- aget cs (region * (2 + K) + 1);
  do cs <- aset cs (region * (2 + K) + 1) (a + nq y)%Qc;
  do cs <- iter K (fun k cs =>
    do z <- atimage x y k;
    do a <- aget cs (region * (2 + K) + k + 2);
    aset cs (region * (2 + K) + k + 2) (a + z)%Qc) cs;
  Some (masses, cs).
Definition tiny : Qc := Q2Qc (1 # 100000000).
Definition recompute (seg : list Z) : option (list Qc) :=
  do (masses, cs) <- iter h (fun y st => iter w (fun x st => accumulate_pixel seg x y st) st)
    (repeat 0 (w * h), repeat 0%Qc ((2 + K) * (numX * numY)));
  iter (numX * numY) (fun region cs =>
    do m <- aget masses region;
    let mass := (if qlt tiny (nq m) then nq m else tiny) in
    iter (2 + K) (fun i cs => do a <- aget cs ((2 + K) * region + i); aset cs ((2 + K) * region + i) (a / mass)%Qc) cs) cs.

(** the iterations, slic.c:258-333; the energies so far, latest first, are kept *)
Fixpoint kmeans (todo : nat) (cs : list Qc) (seg : list Z) (energies : list Qc) (start : Qc) : option (list Z * list Qc * list Qc) :=
  match todo with
  | O => Some (seg, cs, energies)
  | S todo =>
    do (seg, e) <- assign cs seg;
    do energy <- e;
    let start := match energies with [] => energy | _ => start end in
    let stop := match energies with
                | [] => false
                | previous :: _ => qlt (previous - energy) (Q2Qc (1 # 100000) * (start - energy))
                end in
    if stop then Some (seg, cs, energy :: energies) else
    do cs' <- recompute seg;
    kmeans todo cs' seg (energy :: energies) start
  end.
(** the labels before the small regions are removed; [seg] is the output buffer *)
Definition raw_segment (seg : list Z) : option (list Z * list Qc * list Qc) :=
  do e <- edge_map;
  do cs <- init_centers e;
  kmeans 100 cs seg [] 0%Qc.
End Tiles.

(** ** Small regions, slic.c:339-410 *)
Section Clean.
Variables (w h minsize : nat).

(** the pixel next to p in one of four directions, if inside the image, slic.c:347-348, 365-372 *)
Definition shift_x (dir : nat) : Z := match dir with 0 => 1%Z | 1 => (-1)%Z | _ => 0%Z end.
Definition shift_y (dir : nat) : Z := match dir with 2 => 1%Z | 3 => (-1)%Z | _ => 0%Z end.
Definition neighbor (p dir : nat) : option nat :=
  let xp := (Z.of_nat (p mod w) + shift_x dir)%Z in
  let yp := (Z.of_nat (p / w) + shift_y dir)%Z in
  if ((0 <=? xp) && (xp <? Z.of_nat w) && (0 <=? yp) && (yp <? Z.of_nat h))%Z then Some (Z.to_nat (xp + yp * Z.of_nat w)) else None.

(** cleanedLabel, slic.c:363-376 *)
Definition clean_label (cleaned : list Z) (p : nat) (label : Z) : option Z :=
  iter 4 (fun dir cl =>
    match neighbor p dir with
    | None => Some cl
    | Some q => do v <- aget cleaned q; Some (if (v =? 0)%Z then cl else v)
    end) (label + 1)%Z.
(** the neighbours of one pixel of the segment, slic.c:380-394 *)
Definition open_pixel (seg : list Z) (label : Z) (open : nat) (st : list Z * list nat * nat) : option (list Z * list nat * nat) :=
  iter 4 (fun dir (st : list Z * list nat * nat) =>
    let '(cleaned, segment, size) := st in
    match neighbor open dir with
    | None => Some st
    | Some q =>
      do v <- aget cleaned q;
      do l <- aget seg q;
      if (v =? 0)%Z && (l =? label)%Z then
        do cleaned <- aset cleaned q (label + 1)%Z;
        do segment <- aset segment size q;
        Some (cleaned, segment, size + 1)
      else Some st
    end) st.
(** slic.c:378-395 *)
Fixpoint expand (fuel : nat) (seg : list Z) (label : Z) (numExpanded : nat) (st : list Z * list nat * nat) : option (list Z * list nat * nat) :=
  match fuel with
  | O => None
  | S fuel =>
    let '(cleaned, segment, size) := st in
    if numExpanded <? size then
      do open <- aget segment numExpanded;
      do st <- open_pixel seg label open st;
      expand fuel seg label (numExpanded + 1) st
    else Some st
  end.
(** slic.c:397-402 *)
Definition relabel (segment : list nat) (size : nat) (cl : Z) (cleaned : list Z) : option (list Z) :=
  iter size (fun k cleaned => do q <- aget segment (size - 1 - k); aset cleaned q cl) cleaned.
(** one pixel of the scan, slic.c:352-403 *)
Definition clean_pixel (seg : list Z) (p : nat) (st : list Z * list nat) : option (list Z * list nat) :=
  let (cleaned, segment) := st in
  do v <- aget cleaned p;
  if negb (v =? 0)%Z then Some (cleaned, segment) else
  do label <- aget seg p;
  do segment <- aset segment 0 p;
  do cleaned <- aset cleaned p (label + 1)%Z;
  do cl <- clean_label cleaned p label;
  do (cleaned, segment, size) <- expand (w * h + 1) seg label 0 (cleaned, segment, 1);
  if size <? minsize then
    do cleaned <- relabel segment size cl cleaned;
    Some (cleaned, segment)
  else Some (cleaned, segment).
(** slic.c:339-410; [junk] is the fresh memory of segment *)
Definition clean (seg : list Z) (junk : list nat) : option (list Z) :=
  do (cleaned, _) <- iter (w * h) (clean_pixel seg) (repeat 0%Z (w * h), junk);
  iter (w * h) (fun p cleaned => do v <- aget cleaned p; aset cleaned p (v - 1)%Z) cleaned.
End Clean.

(** vl_slic_segment *)
Definition segment (w h K rs : nat) (reg : Qc) (image : list Qc) (minsize : nat) (seg : list Z) (junk : list nat) : option (list Z) :=
  do (seg, _, _) <- raw_segment w h K rs reg image seg;
  clean w h minsize seg junk.
