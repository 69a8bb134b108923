(** HOG features, stated without the model. *)
From Coq Require Import List Arith ZArith Lia Bool QArith Qcanon Qcabs.
From Verif Require Import ImOp_Spec Rat Lbp_Spec.
Import ListNotations.
Local Open Scope nat_scope.
Notation qtotal n f := (sum 0%Qc Qcplus n f).

(** bilinear histogram: vote j of pixel (x, y) has bin [bin x y j] (none if negative)
    and amount [amount x y j]; pixels x0 <= x < x0 + w, y0 <= y < y0 + h *)
Definition hog_bins (x0 w y0 h size : nat) (bin : nat -> nat -> nat -> Z) (amount : nat -> nat -> nat -> Qc) (cx cy k : nat) : Qc :=
  qtotal h (fun y => qtotal w (fun x => qtotal 2 (fun j =>
    if (bin (x0 + x)%nat (y0 + y)%nat j =? Z.of_nat k)%Z
    then (amount (x0 + x)%nat (y0 + y)%nat j * (tent size cx (x0 + x)%nat * tent size cy (y0 + y)%nat))%Qc else 0%Qc))).

(** a central difference of greatest norm over the channels; zero without channels *)
Definition strongest (im : nat -> nat -> nat -> Qc) (channels x y : nat) (gx gy : Qc) : Prop :=
  let dx k := (im (x + 1)%nat y k - im (x - 1)%nat y k)%Qc in
  let dy k := (im x (y + 1)%nat k - im x (y - 1)%nat k)%Qc in
  (forall k, k < channels -> (dx k * dx k + dy k * dy k <= gx * gx + gy * gy)%Qc) /\
  ((gx = 0%Qc /\ gy = 0%Qc) \/ exists k, k < channels /\ gx = dx k /\ gy = dy k).

(** the directed orientation closest to (gx, gy) among +-(ox k, oy k): orientation
    k + n is opposite to k *)
Definition score (ox oy : nat -> Qc) (gx gy : Qc) (k : nat) : Qc := (gx * ox k + gy * oy k)%Qc.
Definition directed_bin (n : nat) (ox oy : nat -> Qc) (gx gy : Qc) (k : nat) : Z :=
  if Qclt_le_dec (score ox oy gx gy k) 0 then Z.of_nat (k + n) else Z.of_nat k.
Definition closest (n : nat) (ox oy : nat -> Qc) (gx gy : Qc) (k : nat) : Prop :=
  k < n /\ forall j, j < n -> ([score ox oy gx gy j] <= [score ox oy gx gy k])%Qc.
(** the second closest: the best of the others *)
Definition second (n : nat) (ox oy : nat -> Qc) (gx gy : Qc) (k1 k2 : nat) : Prop :=
  k2 < n /\ k2 <> k1 /\ forall j, j < n -> j <> k1 -> ([score ox oy gx gy j] <= [score ox oy gx gy k2])%Qc.

(** squared norm of the undirected histogram of a cell; [h] takes the column and row
    of the cell and a directed orientation *)
Definition cell_norm (n : nat) (h : nat -> nat -> nat -> Qc) (x y : nat) : Qc :=
  qtotal n (fun k => (h x y k + h x y (k + n)%nat) * (h x y k + h x y (k + n)%nat))%Qc.
Definition clamp (m : nat) (z : Z) : nat := Z.to_nat (Z.max 0 (Z.min z (Z.of_nat m - 1))).

Section Features.
Variables (n W H : nat) (h : nat -> nat -> nat -> Qc) (u : nat -> nat -> Qc).   (* u: squared norms of the cells *)
Variables (transposed : bool) (isq : Qc -> Qc) (eps c02 c18 : Qc).

(** block j of four around a cell: j mod 2 right or left, j / 2 below or above (of
    the image; in memory columns and rows are exchanged when it is transposed) *)
Definition block_norm (x y j : nat) : Qc :=
  let '(r, d) := if transposed then (j / 2, j mod 2) else (j mod 2, j / 2) in
  qtotal 2 (fun b => qtotal 2 (fun a =>
    u (clamp W (Z.of_nat x + Z.of_nat r - 1 + Z.of_nat a)) (clamp H (Z.of_nat y + Z.of_nat d - 1 + Z.of_nat b)))).
Definition gain (x y j : nat) : Qc := isq (block_norm x y j + eps)%Qc.
Definition saturate (z : Qc) : Qc := if Qclt_le_dec c02 z then c02 else z.
Definition directed_value (x y k j : nat) : Qc := saturate (gain x y j * h x y k)%Qc.
Definition undirected_value (x y k j : nat) : Qc := saturate (gain x y j * (h x y k + h x y (k + n)%nat))%Qc.

(** channel d of the UoCTTI features *)
Definition uoctti (x y d : nat) : Qc :=
  if d <? 2 * n then (Q2Qc (1#2) * qtotal 4 (fun j => directed_value x y d j))%Qc
  else if d <? 3 * n then (Q2Qc (1#2) * qtotal 4 (fun j => undirected_value x y (d - 2 * n) j))%Qc
  else (c18 * qtotal n (fun k => undirected_value x y k (d - 3 * n)))%Qc.
(** channel d of the Dalal-Triggs features *)
Definition dalal_triggs (x y d : nat) : Qc := undirected_value x y (d mod n) (d / n).
End Features.

(** reflection of the image about a vertical axis: the orientation of angle t goes
    to pi - t *)
Definition flip_orientation (n k : nat) : nat := (3 * n - k) mod (2 * n).
Definition flip_x (W : nat) (transposed : bool) (x : nat) : nat := if transposed then x else W - 1 - x.
Definition flip_y (H : nat) (transposed : bool) (y : nat) : nat := if transposed then H - 1 - y else y.
