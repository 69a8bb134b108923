(** What a patch is. *)
From Coq Require Import List Arith ZArith Bool QArith Qcanon.
From Verif Require Import Base Rat Covdet_Model.
Local Open Scope Qc_scope.

(** an image of w by h numbers stored by rows, extended by continuity *)
Definition clamp (n : nat) (x : Z) : Z := Z.max 0 (Z.min x (Z.of_nat n - 1)).
Definition extended (m : list Qc) (w h : nat) (x y : Z) : Qc := nth (Z.to_nat (clamp h y * Z.of_nat w + clamp w x)) m 0.
(** bilinear interpolation of a function of the integers *)
Definition at_pixel (I : Z -> Z -> Qc) (x y : Z) : Qc := I x y.
Definition bilinear (I : Z -> Z -> Qc) (x y : Qc) : Qc :=
  let u := qfloor x in let v := qfloor y in let p := x - zq u in let q := y - zq v in
  (1 - p) * (1 - q) * at_pixel I u v + p * (1 - q) * at_pixel I (u + 1) v + (1 - p) * q * at_pixel I u (v + 1) + p * q * at_pixel I (u + 1) (v + 1).
(** the points of the patch and where the frame sends them, in pixels of size [step] *)
Definition in_patch (e : Qc) (u v : Qc) : Prop := - e <= u /\ u <= e /\ - e <= v /\ v <= e.
Definition at_x (f : frame) (step u v : Qc) : Qc := (f_a11 f * u + f_a12 f * v + f_x f) / step.
Definition at_y (f : frame) (step u v : Qc) : Qc := (f_a21 f * u + f_a22 f * v + f_y f) / step.
(** coordinate of the sample i of 2 r + 1 *)
Definition grid (e : Qc) (r i : nat) : Qc := - e + nq i * (e / nq r).
(** 2^(o + s / r) is at most q *)
Definition level_below (r : nat) (q : Qc) (o s : Z) : Prop :=
  let n := (o * Z.of_nat r + s)%Z in zq (2 ^ Z.max n 0) <= q ^ r * zq (2 ^ Z.max (- n) 0).
(** the patch of 2 r + 1 by 2 r + 1 samples of an image *)
Definition patch_of (I : Z -> Z -> Qc) (f : frame) (step e : Qc) (r : nat) : list Qc :=
  flat_map (fun j => map (fun i => bilinear I (at_x f step (grid e r i) (grid e r j)) (at_y f step (grid e r i) (grid e r j))) (seq 0 (2 * r + 1)%nat)) (seq 0 (2 * r + 1)%nat).
