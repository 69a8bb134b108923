(** Superpixels as clusters, independently of the code.  Pixels p < w * h are numbered row by
    row; a pixel has its column, its row and K channels as features. *)
From Coq Require Import List Arith ZArith Bool QArith Qcanon.
From Verif Require Import ImOp_Spec Rat Kmeans_Spec.
Import ListNotations.
Local Open Scope nat_scope.

Section Features.
Variables (w h K rs : nat) (reg : Qc) (image : list Qc).
Definition feature (p i : nat) : Qc :=
  match i with
  | 0 => nq (p mod w)
  | 1 => nq (p / w)
  | S (S k) => nth (p + k * (w * h)) image 0%Qc
  end.
Definition weight (i : nat) : Qc := if i <? 2 then (reg / nq (rs * rs))%Qc else 1%Qc.
(** coordinate i of center r, the centers being stored one after the other *)
Definition coord (cs : list Qc) (r i : nat) : Qc := nth ((2 + K) * r + i) cs 0%Qc.
Definition cost (cs : list Qc) (p r : nat) : Qc :=
  ksum (2 + K) (fun i => weight i * gap false (feature p i) (coord cs r i))%Qc.
Definition label_of (seg : list Z) (p : nat) : nat := Z.to_nat (nth p seg 0%Z).
Definition total (cs : list Qc) (seg : list Z) : Qc := ksum (w * h) (fun p => cost cs p (label_of seg p)).

(** tile u, which has its center at rs * (u + 1/2), meets the first n pixels and its center is
    within rs of x *)
Definition near (n x u : nat) : Prop := u * rs < n /\ 2 * x < rs * (2 * u + 1) + 2 * rs /\ rs * (2 * u + 1) <= 2 * x + 2 * rs.
(** tile r is near pixel p; there are X tiles in a row *)
Definition nearby (X p r : nat) : Prop := exists u v, near w (p mod w) u /\ near h (p / w) v /\ r = u + v * X.
(** label_of seg p is a nearby tile with the closest center *)
Definition closest (X : nat) (cs : list Qc) (seg : list Z) (p : nat) : Prop :=
  (0 <= nth p seg 0)%Z /\ nearby X p (label_of seg p) /\ forall r, nearby X p r -> (cost cs p (label_of seg p) <= cost cs p r)%Qc.
(** center r is the mean of its pixels, zero if there are none *)
Definition centroid (seg : list Z) (cs : list Qc) (r : nat) : Prop := forall i, i < 2 + K ->
  if mass (w * h) (label_of seg) r =? 0 then coord cs r i = 0%Qc
  else is_mean (w * h) (label_of seg) r (fun p => feature p i) (coord cs r i).

(** the variation around a pixel *)
Definition edge (p : nat) : Qc :=
  if (0 <? p mod w) && (p mod w + 1 <? w) && (0 <? p / w) && (p / w + 1 <? h) then
    ksum K (fun k => gap false (feature (p - 1) (2 + k)) (feature (p + 1) (2 + k)) + gap false (feature (p + w) (2 + k)) (feature (p - w) (2 + k)))%Qc
  else 0%Qc.
(** the pixel closest to the center of a tile *)
Definition middle (n u x : nat) : Prop := exists m, 2 * m <= rs * (2 * u + 1) + 1 < 2 * m + 2 /\ x = Nat.min m (n - 1).
Definition around (x y q : nat) : Prop :=
  q < w * h /\ x <= q mod w + 1 /\ q mod w <= x + 1 /\ y <= q / w + 1 /\ q / w <= y + 1.
(** center r = u + v * X is a pixel of least variation around the middle of the tile *)
Definition seed (cs : list Qc) (X u v : nat) : Prop := exists x y c, middle w u x /\ middle h v y /\
  around x y c /\ (forall q, around x y q -> (edge c <= edge q)%Qc) /\ forall i, i < 2 + K -> coord cs (u + v * X) i = feature c i.
End Features.
