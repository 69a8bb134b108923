(** The LIOP descriptor of a patch, stated apart from the code. *)
From Coq Require Import List Arith ZArith Bool QArith Qcanon Qcabs Permutation.
Import ListNotations.
From Verif Require Import Rat Liop_Spec.
Local Open Scope nat_scope.

(** the circular region: the distance of (x, y) to the centre c of the patch is at most |c - radius + 0.6|; the corner (0, 0) is never in it *)
Definition region (side : nat) (radius : Qc) (p : nat) : Prop :=
  exists x y, x < side /\ y < side /\ p = x + y * side /\ ~ (x = 0 /\ y = 0) /\
    let c := (side - 1) / 2 in let t := (nq c - radius + Q2Qc (6 # 10))%Qc in
    ((nq x - nq c) * (nq x - nq c) + (nq y - nq c) * (nq y - nq c) <= t * t)%Qc.
(** the patch extended with zeros *)
Definition img (side : nat) (patch : list Qc) (x y : Z) : Qc :=
  if (0 <=? x)%Z && (x <? Z.of_nat side)%Z && (0 <=? y)%Z && (y <? Z.of_nat side)%Z then nth (Z.to_nat (x + y * Z.of_nat side)) patch 0%Qc else 0%Qc.
(** its bilinear interpolation *)
Definition bil (side : nat) (patch : list Qc) (p : Qc * Qc) : Qc :=
  let '(x, y) := p in let ix := qfloor x in let iy := qfloor y in let u := (x - zq ix)%Qc in let v := (y - zq iy)%Qc in
  ((1 - u) * (1 - v) * img side patch ix iy + u * (1 - v) * img side patch (ix + 1) iy + (1 - u) * v * img side patch ix (iy + 1) + u * v * img side patch (ix + 1) (iy + 1))%Qc.
(** the point at distance [radius] of the pixel p in the direction of its t-th neighbour *)
Definition point (side : nat) (radius : Qc) (dir : Z -> Z -> nat -> Qc * Qc) (p t : nat) : Qc * Qc :=
  let x := p mod side in let y := p / side in let c := (side - 1) / 2 in
  let d := dir (Z.of_nat x - Z.of_nat c)%Z (Z.of_nat y - Z.of_nat c)%Z t in
  ((nq x + radius * fst d)%Qc, (nq y + radius * snd d)%Qc).
(** the intensities of the neighbours of the pixel p *)
Definition around (side : nat) (radius : Qc) (dir : Z -> Z -> nat -> Qc * Qc) (nn : nat) (patch : list Qc) (p : nat) : list Qc :=
  map (fun t => bil side patch (point side radius dir p t)) (seq 0 nn).
(** the number of pairs that differ by more than [th] *)
Definition differs (th a b : Qc) : bool := if Qclt_le_dec th (Qcabs (a - b)) then true else false.
Fixpoint pairs (th : Qc) (l : list Qc) : Z := match l with [] => 0%Z | a :: l => (Z.of_nat (length (filter (differs th a) l)) + pairs th l)%Z end.
(** [perm] lists the neighbours by increasing intensity *)
Definition orders (nn : nat) (I : list Qc) (perm : list nat) : Prop :=
  is_perm nn perm /\ forall a b x y, a < b -> nth_error perm a = Some x -> nth_error perm b = Some y -> (nth x I 0 <= nth y I 0)%Qc.
(** the threshold of the intensities: as given, or relative to the range of the region *)
Definition threshold_of (side : nat) (radius : Qc) (patch : list Qc) (given th : Qc) : Prop :=
  ((0 <= given)%Qc /\ th = given) \/
  ((given < 0)%Qc /\ exists p q, region side radius p /\ region side radius q /\ (forall r, region side radius r -> (nth q patch 0 <= nth r patch 0)%Qc /\ (nth r patch 0 <= nth p patch 0)%Qc) /\ th = (- given * (nth p patch 0 - nth q patch 0))%Qc).
Definition squares (l : list Qc) : Qc := fold_right (fun v s => v * v + s)%Qc 0%Qc l.
