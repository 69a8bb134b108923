(** Extrema of a scale space and their refinement, independently of the code. *)
From Coq Require Import List Arith ZArith QArith Qcanon Qcabs.
From Verif Require Import Rat Sift_Spec.
Import ListNotations.
Local Open Scope Z_scope.

(** functions of column, row and level *)
Definition volume := Z -> Z -> Z -> Qc.
Definition val (D : volume) (x y s : Z) : Qc := D x y s.
(** the difference of two adjacent levels; level s = -1, 0, ... starts at position (s + 1) w h *)
Definition difference (octave : list Qc) (w h : nat) : volume := fun x y s =>
  (stored octave (Z.to_nat (s + 2) * (w * h)) w (Z.to_nat x) (Z.to_nat y) -
   stored octave (Z.to_nat (s + 1) * (w * h)) w (Z.to_nat x) (Z.to_nat y))%Qc.

(** larger than the 26 neighbours, or smaller *)
Definition near (d : Z) : Prop := -1 <= d <= 1.
Definition local_max (D : volume) (x y s : Z) : Prop :=
  forall dx dy ds, near dx -> near dy -> near ds -> (dx, dy, ds) <> (0, 0, 0) -> (val D (x + dx) (y + dy) (s + ds) < val D x y s)%Qc.
Definition local_min (D : volume) (x y s : Z) : Prop :=
  forall dx dy ds, near dx -> near dy -> near ds -> (dx, dy, ds) <> (0, 0, 0) -> (val D x y s < val D (x + dx) (y + dy) (s + ds))%Qc.
Definition extremum (tp : Qc) (D : volume) (x y s : Z) : Prop :=
  (zq 8 / zq 10 * tp <= val D x y s /\ local_max D x y s)%Qc \/ (val D x y s <= - (zq 8 / zq 10 * tp) /\ local_min D x y s)%Qc.
(** inside an image of size n: not on the border *)
Definition inner (n : nat) (x : Z) : Prop := 1 <= x <= Z.of_nat n - 2.
(** order of levels, rows, columns; points are triples (x, y, s) *)
Definition earlier (p q : Z * Z * Z) : Prop :=
  let '(x, y, s) := p in let '(x', y', s') := q in
  s < s' \/ s = s' /\ (y < y' \/ y = y' /\ x < x').

(** derivatives by central differences *)
Section Derivatives.
Variable (D : volume) (x y s : Z).
Definition D_x : Qc := ((val D (x + 1) y s - val D (x - 1) y s) / nq 2)%Qc.
Definition D_y : Qc := ((val D x (y + 1) s - val D x (y - 1) s) / nq 2)%Qc.
Definition D_s : Qc := ((val D x y (s + 1) - val D x y (s - 1)) / nq 2)%Qc.
Definition D_xx : Qc := (val D (x + 1) y s + val D (x - 1) y s - nq 2 * val D x y s)%Qc.
Definition D_yy : Qc := (val D x (y + 1) s + val D x (y - 1) s - nq 2 * val D x y s)%Qc.
Definition D_ss : Qc := (val D x y (s + 1) + val D x y (s - 1) - nq 2 * val D x y s)%Qc.
Definition D_xy : Qc := ((val D (x + 1) (y + 1) s + val D (x - 1) (y - 1) s - val D (x - 1) (y + 1) s - val D (x + 1) (y - 1) s) / nq 4)%Qc.
Definition D_xs : Qc := ((val D (x + 1) y (s + 1) + val D (x - 1) y (s - 1) - val D (x - 1) y (s + 1) - val D (x + 1) y (s - 1)) / nq 4)%Qc.
Definition D_ys : Qc := ((val D x (y + 1) (s + 1) + val D x (y - 1) (s - 1) - val D x (y - 1) (s + 1) - val D x (y + 1) (s - 1)) / nq 4)%Qc.
(** the product of the Hessian with a vector *)
Definition hessian (b : Qc * Qc * Qc) : Qc * Qc * Qc :=
  let '(b0, b1, b2) := b in
  (D_xx * b0 + D_xy * b1 + D_xs * b2, D_xy * b0 + D_yy * b1 + D_ys * b2, D_xs * b0 + D_ys * b1 + D_ss * b2)%Qc.
(** the step to the stationary point of the second order expansion; none if the Hessian is singular up to 1e-10 *)
Definition newton (b : Qc * Qc * Qc) : Prop :=
  (forall b', hessian b' = (- D_x, - D_y, - D_s)%Qc <-> b' = b) \/
  b = (0, 0, 0)%Qc /\ exists v0 v1 v2, (v0 = 1 \/ v1 = 1 \/ v2 = 1)%Qc /\
    let '(r0, r1, r2) := hessian (v0, v1, v2) in
    (Qcabs r0 < Q2Qc (1 # 10000000000) /\ Qcabs r1 < Q2Qc (1 # 10000000000) /\ Qcabs r2 < Q2Qc (1 # 10000000000))%Qc.
End Derivatives.

(** one pixel in the direction of an offset above 0.6, staying inside *)
Definition pixel_step (b : Qc) (x : Z) (n : nat) (d : Z) : Prop :=
  ((zq 6 / zq 10 < b)%Qc -> x < Z.of_nat n - 2 -> d = 1) /\
  ((b < - (zq 6 / zq 10))%Qc -> 1 < x -> d = -1) /\
  (~ ((zq 6 / zq 10 < b)%Qc /\ x < Z.of_nat n - 2) -> ~ ((b < - (zq 6 / zq 10))%Qc /\ 1 < x) -> d = 0).
(** steps from pixel to pixel until there is none, at most [n]: the last pixel and the offset there *)
Inductive refined (D : volume) (w h : nat) (s : Z) : nat -> Z -> Z -> Z -> Z -> Qc * Qc * Qc -> Prop :=
| R_stop n x y b0 b1 b2 : newton D x y s (b0, b1, b2) -> pixel_step b0 x w 0 -> pixel_step b1 y h 0 -> refined D w h s n x y x y (b0, b1, b2)
| R_last x y b : newton D x y s b -> refined D w h s 0 x y x y b
| R_step n x y b0 b1 b2 dx dy x' y' b' : newton D x y s (b0, b1, b2) -> pixel_step b0 x w dx -> pixel_step b1 y h dy -> (dx, dy) <> (0, 0) ->
    refined D w h s n (x + dx) (y + dy) x' y' b' -> refined D w h s (S n) x y x' y' b'.

(** a point that is kept: strong, not on an edge, close to the pixel and inside the octave with [n] levels *)
Definition kept (D : volume) (tp te : Qc) (w h n : nat) (x y s : Z) (b : Qc * Qc * Qc) : Prop :=
  let '(b0, b1, b2) := b in
  let trace := (D_xx D x y s + D_yy D x y s)%Qc in
  let det := (D_xx D x y s * D_yy D x y s - D_xy D x y s * D_xy D x y s)%Qc in
  (tp < Qcabs (val D x y s + (D_x D x y s * b0 + D_y D x y s * b1 + D_s D x y s * b2) / nq 2) /\
   (0 < det /\ te * (trace * trace) < (te + 1) * (te + 1) * det \/ det < 0 /\ trace = 0) /\
   Qcabs b0 < nq 3 / nq 2 /\ Qcabs b1 < nq 3 / nq 2 /\ Qcabs b2 < nq 3 / nq 2 /\
   0 <= zq x + b0 /\ zq x + b0 <= zq (Z.of_nat w - 1) /\ 0 <= zq y + b1 /\ zq y + b1 <= zq (Z.of_nat h - 1) /\
   zq (-1) <= zq s + b2 /\ zq s + b2 <= zq (Z.of_nat n + 1))%Qc.
