(** Dense SIFT, stated without the loops of the model. *)
From Coq Require Import List Arith ZArith Lia Bool QArith Qcanon Qcabs.
From Verif Require Import Rat ImOp_Spec Dsift_Model.
Local Open Scope nat_scope.

(** [n] is the number of positions lo, lo + step, ... whose [nb] bins, [bs] apart, end by [hi] *)
Definition fits (lo hi step : Z) (nb bs n : nat) : Prop :=
  forall k, k < n <-> (lo + Z.of_nat k * step + (Z.of_nat nb - 1) * Z.of_nat bs <= hi)%Z.

Definition half : Qc := Q2Qc (1 # 2).
(** discrete derivative of n samples at i *)
Definition diff (f : nat -> Qc) (n i : nat) : Qc :=
  if i =? 0 then (f 1%nat - f 0%nat)%Qc
  else if i =? n - 1 then (f i - f (i - 1)%nat)%Qc
  else (half * (f (i + 1)%nat - f (i - 1)%nat))%Qc.

Section Spec.
Variables (sqrt_ exp_ : Qc -> Qc) (turn : Qc -> Qc -> Qc) (eps : Qc).
Notation csum n f := (sum 0%Qc Qcplus n f).

(** entry t of the histogram of T orientations of a gradient: linear interpolation *)
Definition orient (T : nat) (gx gy : Qc) (t : nat) : Qc :=
  let nt := (turn gy gx * nq T)%Qc in
  let r := (nt - zq (qfloor nt))%Qc in
  let md := sqrt_ (gx * gx + gy * gy)%Qc in
  if ((qfloor nt + 1) mod Z.of_nat T =? Z.of_nat t)%Z then (r * md)%Qc
  else if (qfloor nt mod Z.of_nat T =? Z.of_nat t)%Z then ((1 - r) * md)%Qc
  else 0%Qc.
(** entry t at pixel (x, y) of the image [I] of size w x h *)
Definition energy (w h T : nat) (I : nat -> nat -> Qc) (t x y : nat) : Qc :=
  orient T (diff (fun a => I a y) w x) (diff (I x) h y) t.

(** Gaussian window, of standard deviation [wi] bins, at [d] pixels from the centre of the frame *)
Definition gaussian (bs : nat) (wi d : Qc) : Qc := exp_ (- (half * ((d / (nq bs * wi)) * (d / (nq bs * wi)))))%Qc.
(** position of a bin relative to the centre of the frame *)
Definition bin_pos (bs nb bin : nat) : Qc := (nq bs * (nq bin - half * (nq nb - 1)))%Qc.
(** kernel of a bin: triangular times Gaussian; entry k weighs the pixel at -(k - bs + 1) of the bin *)
Definition kernel (bs nb bin : nat) (wi : Qc) : list Qc :=
  map (fun k => let x := (- Z.of_nat bs + 1 + Z.of_nat k)%Z in
                ((1 - Qcabs (zq x) / nq bs) * gaussian bs wi (bin_pos bs nb bin - zq x))%Qc) (seq 0 (2 * bs - 1)).
(** mean of the Gaussian window over a bin *)
Definition bin_mean (bs nb bin : nat) (wi : Qc) : Qc :=
  (csum (2 * bs - 1) (fun k => gaussian bs wi (bin_pos bs nb bin + zq (- Z.of_nat bs + 1 + Z.of_nat k))) / zq (2 * Z.of_nat bs - 1))%Qc.
Definition filtered (n : nat) (f : nat -> Qc) (bs : nat) (ker : list Qc) (x : nat) : Qc :=
  conv_at 0%Qc Qcplus Qcmult false n f ker (- (Z.of_nat bs - 1)) (Z.of_nat bs - 1) x.
Definition smoothed (n : nat) (f : nat -> Qc) (bs x : nat) : Qc :=
  (1 / (nq bs * nq bs) * triangle_at 0%Qc Qcplus false n f bs x)%Qc.

(** response of bin (binx, biny), orientation t, at pixel (x, y) *)
Definition response (c : settings) (I : nat -> nat -> Qc) (t binx biny x y : nat) : Qc :=
  let e := energy (imw c) (imh c) (nbt c) I t in
  if flat c then
    (bin_mean (bsx c) (nbx c) binx (window c) * nq (bsx c) * (bin_mean (bsy c) (nby c) biny (window c) * nq (bsy c)) *
     smoothed (imw c) (fun a => smoothed (imh c) (e a) (bsy c) y) (bsx c) x)%Qc
  else filtered (imw c) (fun a => filtered (imh c) (e a) (bsy c) (kernel (bsy c) (nby c) biny (window c)) y)
         (bsx c) (kernel (bsx c) (nbx c) binx (window c)) x.

(** entry j of the descriptor at frame corner (fx, fy) before normalisation *)
Definition raw (c : settings) (I : nat -> nat -> Qc) (fx fy : nat) (j : nat) : Qc :=
  let t := j mod nbt c in let binx := j / nbt c mod nbx c in let biny := j / nbt c / nbx c in
  response c I t binx biny (fx + binx * bsx c) (fy + biny * bsy c).
(** mean, over the pixels of the frame, of the descriptor entries [r] *)
Definition mean_energy (c : settings) (r : nat -> Qc) : Qc :=
  (csum (nbx c * nby c * nbt c) r / nq ((bsx c * (nbx c - 1) + 1) * (bsy c * (nby c - 1) + 1)))%Qc.
Definition normalised (D : nat) (r : nat -> Qc) (j : nat) : Qc :=
  (r j / (sqrt_ (csum D (fun i => r i * r i)%Qc) + eps))%Qc.
Definition clamped (r : nat -> Qc) (j : nat) : Qc := if Qclt_le_dec (Q2Qc (1 # 5)) (r j) then Q2Qc (1 # 5) else r j.
Definition finish (D : nat) (r : nat -> Qc) : nat -> Qc := normalised D (clamped (normalised D r)).
End Spec.

(** the place, in the descriptor of the transposed image, of entry j of a descriptor with T
    orientations and X x Y bins: bins (x, y) and (y, x) are exchanged, and the angle of the
    orientation is subtracted from a quarter of a turn *)
Definition place (T X Y j : nat) : nat :=
  let t := j mod T in let x := j / T mod X in let y := j / T / X in
  T * (y + x * Y) + (T / 4 + T - t) mod T.
(** the settings for the transposed image *)
Definition flipped (c : settings) : settings :=
  mk_settings (imh c) (imw c) (stepy c) (stepx c) (miny c) (minx c) (maxy c) (maxx c) (nbt c) (nby c) (nbx c) (bsy c) (bsx c) (flat c) (window c).
(** transposing the gradient reflects its direction across the diagonal *)
Definition reflecting (turn : Qc -> Qc -> Qc) : Prop :=
  forall gx gy, (gx <> 0%Qc \/ gy <> 0%Qc) -> exists m : Z, (turn gx gy = Q2Qc (1 # 4) - turn gy gx + zq m)%Qc.
