(** The Gaussian scale space, independently of the code.  Images are functions of column and row. *)
From Coq Require Import List Arith ZArith Bool QArith Qcanon.
From Verif Require Import Rat ImOp_Spec Kmeans_Spec.
Import ListNotations.
Local Open Scope nat_scope.

Definition img := nat -> nat -> Qc.
(** the image stored row by row from position [off] *)
Definition stored (l : list Qc) (off w : nat) : img := fun x y => nth (off + y * w + x) l 0%Qc.
Definition same_image (w h : nat) (I J : img) : Prop := forall x y, x < w -> y < h -> I x y = J x y.

(** twice the resolution: samples at 2 x, averages of neighbours between them, the last sample repeated *)
Definition between (n : nat) (line : nat -> Qc) (X : nat) : Qc :=
  if Nat.even X then line (X / 2) else ((line (X / 2)%nat + line (Nat.min (X / 2 + 1) (n - 1))%nat) / nq 2)%Qc.
Definition doubled (w h : nat) (I : img) : img := fun X Y => between h (fun y => between w (fun x => I x y) X) Y.
Fixpoint doubled_times (k w h : nat) (I : img) : img :=
  match k with 0 => I | S k => doubled (w * 2 ^ k) (h * 2 ^ k) (doubled_times k w h I) end.
Definition reduced (d : nat) (I : img) : img := fun x y => I (x * 2 ^ d) (y * 2 ^ d).

(** Gaussian smoothing with repeated border pixels *)
Section Blur.
Variables (expo : Qc -> Qc) (sigma : Qc).
Definition reach : nat := Nat.max 1 (Z.to_nat (- qfloor (- (nq 4 * sigma)))).
Definition bell (t : Z) : Qc := expo (- (1 / nq 2 * (zq t / sigma * (zq t / sigma))))%Qc.
Definition bell_sum : Qc := ksum (2 * reach + 1) (fun i => bell (Z.of_nat i - Z.of_nat reach)).
Definition blur1 (n : nat) (line : nat -> Qc) (x : nat) : Qc :=
  ksum (2 * reach + 1) (fun i => let t := (Z.of_nat i - Z.of_nat reach)%Z in
    padded 0%Qc false n line (Z.of_nat x - t) * (bell t / bell_sum))%Qc.
Definition blur (w h : nat) (I : img) : img := fun x y => blur1 w (fun x => blur1 h (fun y => I x y) y) x.
End Blur.

(** the levels of an octave: each one is the previous one smoothed *)
Fixpoint levels (expo : Qc -> Qc) (sig : nat -> Qc) (w h : nat) (base : img) (l : nat) : img :=
  match l with 0 => base | S l => blur expo (sig l) w h (levels expo sig w h base l) end.
(** the octaves: the base of each one is level S of the previous one at half the resolution *)
Fixpoint octaves (expo : Qc -> Qc) (sig : nat -> Qc) (S : nat) (w h : nat -> nat) (base : img) (k : nat) : img :=
  match k with
  | 0 => base
  | Datatypes.S k => reduced 1 (levels expo sig (w k) (h k) (octaves expo sig S w h base k) S)
  end.

(** the image at the resolution 2^-o *)
Definition resampled (o : Z) (w h : nat) (I : img) : img :=
  if (o <? 0)%Z then doubled_times (Z.to_nat (- o)) w h I else reduced (Z.to_nat o) I.
Definition size_at (n : nat) (o : Z) : nat := if (o <? 0)%Z then n * 2 ^ Z.to_nat (- o) else n / 2 ^ Z.to_nat o.

(** The scales, for S levels per octave.  Level -1 has the scale 1.6; the input has 0.5 2^-o in the
    pixels of octave o; level l is level l - 1 smoothed so that its scale is 1.6 2^((l + 1) / S). *)
Section Scales.
Variables (pow : Qc -> Qc -> Qc) (root : Qc -> Qc) (n : nat).
Definition ratio : Qc := pow (nq 2) (1 / nq n).
Definition scale0 : Qc := (zq 16 / zq 10 * ratio)%Qc.
Definition step_sigma (l : nat) : Qc := (scale0 * root (1 - 1 / (ratio * ratio)) * pow ratio (zq (Z.of_nat l)))%Qc.
Definition start_sigma : Qc := (scale0 * pow ratio (zq (-1)))%Qc.
Definition input_sigma (o : Z) : Qc := (1 / nq 2 * pow (nq 2) (zq (- o)))%Qc.
End Scales.
(** smoothing from scale [b] to scale [a], if it is larger *)
Definition raised (root expo : Qc -> Qc) (a b : Qc) (w h : nat) (I J : img) : Prop :=
  ((b < a)%Qc -> J = blur expo (root (a * a - b * b)%Qc) w h I) /\ ((a <= b)%Qc -> J = I).

(** centred differences, one-sided at the border *)
Definition slope (n : nat) (line : nat -> Qc) (x : nat) : Qc :=
  if x =? 0 then (line 1%nat - line 0%nat)%Qc else if x =? n - 1 then (line (n - 1)%nat - line (n - 2)%nat)%Qc
  else ((line (x + 1)%nat - line (x - 1)%nat) / nq 2)%Qc.
