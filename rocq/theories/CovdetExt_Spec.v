(** Extrema of a map in two or three dimensions and their refinement, independently of the code. *)
From Coq Require Import List Arith ZArith Sorted QArith Qcanon Qcabs.
From Verif Require Import Rat SiftDetect_Spec.
Import ListNotations.
Local Open Scope Z_scope.

(** an array as a function of column, row and slice *)
Definition volume_of (m : list Qc) (w h : nat) : volume := fun x y z => nth (Z.to_nat (x + Z.of_nat w * y + Z.of_nat (w * h) * z)) m 0%Qc.
Definition image_of (m : list Qc) (w : nat) : Z -> Z -> Qc := fun x y => nth (Z.to_nat (x + Z.of_nat w * y)) m 0%Qc.

Definition pix (I : Z -> Z -> Qc) (x y : Z) : Qc := I x y.

(** at least [t] and larger than the 26 neighbours, or at most [- t] and smaller *)
Definition extremal (t : Qc) (V : volume) (x y z : Z) : Prop :=
  (t <= val V x y z)%Qc /\ local_max V x y z \/ (val V x y z <= - t)%Qc /\ local_min V x y z.
(** the same in an image, with 8 neighbours *)
Definition above (I : Z -> Z -> Qc) (x y : Z) : Prop :=
  forall dx dy, near dx -> near dy -> (dx, dy) <> (0, 0) -> (pix I (x + dx) (y + dy) < pix I x y)%Qc.
Definition below (I : Z -> Z -> Qc) (x y : Z) : Prop :=
  forall dx dy, near dx -> near dy -> (dx, dy) <> (0, 0) -> (pix I x y < pix I (x + dx) (y + dy))%Qc.
Definition extremal2 (t : Qc) (I : Z -> Z -> Qc) (x y : Z) : Prop :=
  (t <= pix I x y)%Qc /\ above I x y \/ (pix I x y <= - t)%Qc /\ below I x y.
Definition earlier2 (p q : Z * Z) : Prop := snd p < snd q \/ snd p = snd q /\ fst p < fst q.
(** a list of points written one after the other *)
Definition written3 (l : list (Z * Z * Z)) : list Z := flat_map (fun '(x, y, z) => [x; y; z]) l.
Definition written2 (l : list (Z * Z)) : list Z := flat_map (fun '(x, y) => [x; y]) l.

(** the stationary point of the second order expansion, relative to a pixel; none if the Hessian is singular up to 1e-10 *)
Definition tiny_number : Qc := Q2Qc (1 # 10000000000).
Definition stationary (V : volume) (x y z : Z) (o : option (Qc * Qc * Qc)) : Prop :=
  match o with
  | Some b => forall b', hessian V x y z b' = (- D_x V x y z, - D_y V x y z, - D_s V x y z)%Qc <-> b' = b
  | None => exists v0 v1 v2, (v0 = 1 \/ v1 = 1 \/ v2 = 1)%Qc /\
      let '(r0, r1, r2) := hessian V x y z (v0, v1, v2) in (Qcabs r0 < tiny_number /\ Qcabs r1 < tiny_number /\ Qcabs r2 < tiny_number)%Qc
  end.
Section Image.
Variables (I : Z -> Z -> Qc) (x y : Z).
Definition I_x : Qc := ((pix I (x + 1) y - pix I (x - 1) y) / nq 2)%Qc.
Definition I_y : Qc := ((pix I x (y + 1) - pix I x (y - 1)) / nq 2)%Qc.
Definition I_xx : Qc := (pix I (x + 1) y + pix I (x - 1) y - nq 2 * pix I x y)%Qc.
Definition I_yy : Qc := (pix I x (y + 1) + pix I x (y - 1) - nq 2 * pix I x y)%Qc.
Definition I_xy : Qc := ((pix I (x + 1) (y + 1) + pix I (x - 1) (y - 1) - pix I (x - 1) (y + 1) - pix I (x + 1) (y - 1)) / nq 4)%Qc.
Definition hessian2 (b : Qc * Qc) : Qc * Qc := (I_xx * fst b + I_xy * snd b, I_xy * fst b + I_yy * snd b)%Qc.
Definition stationary2 (o : option (Qc * Qc)) : Prop :=
  match o with
  | Some b => forall b', hessian2 b' = (- I_x, - I_y)%Qc <-> b' = b
  | None => exists v0 v1, (v0 = 1 \/ v1 = 1)%Qc /\ (Qcabs (fst (hessian2 (v0, v1))) < tiny_number /\ Qcabs (snd (hessian2 (v0, v1))) < tiny_number)%Qc
  end.
End Image.

(** steps of one pixel towards the stationary point, at most [n], until there is none: the last pixel and what
    was found there.  [there x y o] is stationarity and [part] gives the two first coordinates of an offset. *)
Section Steps.
Context {B : Type}.
Variables (w h : nat) (there : Z -> Z -> option B -> Prop) (part : B -> Qc * Qc).
Inductive steps : nat -> Z -> Z -> Z -> Z -> option B -> Prop :=
| S_none n x y : there x y None -> steps n x y x y None
| S_stop n x y b : there x y (Some b) -> pixel_step (fst (part b)) x w 0 -> pixel_step (snd (part b)) y h 0 -> steps n x y x y (Some b)
| S_last x y b : there x y (Some b) -> steps 0 x y x y (Some b)
| S_step n x y b dx dy x' y' o : there x y (Some b) -> pixel_step (fst (part b)) x w dx -> pixel_step (snd (part b)) y h dy -> (dx, dy) <> (0, 0) ->
    steps n (x + dx) (y + dy) x' y' o -> steps (S n) x y x' y' o.
End Steps.

(** closer than one pixel and a half and inside an array of size [n] *)
Definition fits (n : nat) (x : Z) (b : Qc) : Prop := (Qcabs b < nq 3 / nq 2 /\ 0 <= zq x + b /\ zq x + b <= zq (Z.of_nat n - 1))%Qc.

(** the ratio of the eigenvalues [a], [b] of a symmetric matrix, the one of larger modulus first *)
Definition eigenvalues (xx yy xy a b : Qc) : Prop := (xx + yy = a + b /\ xx * yy - xy * xy = a * b)%Qc.
Definition square_root (root : Qc -> Qc) : Prop := forall q, (0 <= q)%Qc -> root (q * q)%Qc = q.

(** what an extremum gives: the refined position (x', y', z) + (b0, b1, b2) and the value there *)
Definition value3 (V : volume) (x y z : Z) (b0 b1 b2 : Qc) : Qc := (val V x y z + (D_x V x y z * b0 + D_y V x y z * b1 + D_s V x y z * b2) / nq 2)%Qc.
Definition value2 (I : Z -> Z -> Qc) (x y : Z) (b0 b1 : Qc) : Qc := (pix I x y + (I_x I x y * b0 + I_y I x y * b1) / nq 2)%Qc.
