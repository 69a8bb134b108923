(** Quick shift and medoid shift, independently of the code.  Pixels are numbered column by column;
    [feature w h image p] are the coordinates and the channels of pixel p, w being the height. *)
From Coq Require Import List Arith ZArith Bool QArith Qcanon.
From Verif Require Import ImOp_Spec Rat Kmeans_Spec SlicTiles_Spec.
Import ListNotations.
Local Open Scope nat_scope.

Section Shift.
Variables (w h K : nat) (image : list Qc).
Local Notation x := (feature w h image).
(** squared distance and inner product of pixels *)
Definition sqdist (p q : nat) : Qc := ksum (2 + K) (fun i => gap false (x p i) (x q i)).
Definition dot (p q : nat) : Qc := ksum (2 + K) (fun i => x p i * x q i)%Qc.
(** q is within R rows and columns of p *)
Definition apart (a b : nat) : Z := Z.abs (Z.of_nat a - Z.of_nat b).
Definition within (R : Z) (p q : nat) : bool := ((apart (p mod w) (q mod w) <=? R) && (apart (p / w) (q / w) <=? R))%Z.
(** the sum of f over the window of p *)
Definition wsum (R : Z) (p : nat) (f : nat -> Qc) : Qc := ksum (w * h) (fun q => if within R p q then f q else 0%Qc).
(** the least integer not below q *)
Definition is_ceil (q : Qc) (R : Z) : Prop := (q <= zq R)%Qc /\ (zq R < q + 1)%Qc.
(** the density of p *)
Definition parzen (expo : Qc -> Qc) (sigma : Qc) (R : Z) (p : nat) : Qc := wsum R p (fun q => expo (- sqdist p q / (nq 2 * sigma * sigma))%Qc).

(** q is denser than p and at most tau away *)
Definition better (E : list Qc) (tau : Qc) (p q : nat) : Prop :=
  q < w * h /\ (nth p E 0 < nth q E 0)%Qc /\ (sqdist p q <= tau * tau)%Qc.
(** the closest such pixel and its squared distance, the first one of equally close ones *)
Definition linked (E : list Qc) (tau : Qc) (p parent : nat) (d : option Qc) : Prop :=
  match d with
  | None => parent = p /\ forall q, ~ better E tau p q
  | Some d => better E tau p parent /\ d = sqdist p parent /\
      forall q, better E tau p q -> (d < sqdist p q)%Qc \/ d = sqdist p q /\ parent <= q
  end.
(** k steps along the links *)
Fixpoint climb (parents : list nat) (k p : nat) : nat :=
  match k with 0 => p | S k => climb parents k (nth p parents 0) end.

(** medoid shift: the score of q as a parent of p, e being the density of p *)
Definition around (expo : Qc -> Qc) (sigma : Qc) (R : Z) (p : nat) (f : nat -> Qc) : Qc :=
  wsum R p (fun r => expo (- sqdist p r / (nq 2 * sigma * sigma))%Qc * f r)%Qc.
Definition score (expo : Qc -> Qc) (sigma : Qc) (R : Z) (e : Qc) (p q : nat) : Qc :=
  (nq 2 * around expo sigma R p (fun r => dot q r) - e * dot q q)%Qc.
(** the best pixel of the window, the first one of equally good ones, if its score is positive *)
Definition chosen (expo : Qc -> Qc) (sigma : Qc) (R : Z) (e : Qc) (p parent : nat) (v : Qc) : Prop :=
  (parent = p /\ v = 0%Qc /\ forall q, q < w * h -> within R p q = true -> (score expo sigma R e p q <= 0)%Qc) \/
  (parent < w * h /\ within R p parent = true /\ v = score expo sigma R e p parent /\ (0 < v)%Qc /\
   forall q, q < w * h -> within R p q = true -> (score expo sigma R e p q < v)%Qc \/ score expo sigma R e p q = v /\ parent <= q).
(** the sum of the weighted squared distances of q and the pixels around p *)
Definition spread (expo : Qc -> Qc) (sigma : Qc) (R : Z) (p q : nat) : Qc := around expo sigma R p (fun r => sqdist q r).
(** and of the origin of the feature space *)
Definition from_origin (expo : Qc -> Qc) (sigma : Qc) (R : Z) (p : nat) : Qc := around expo sigma R p (fun r => dot r r).
End Shift.
