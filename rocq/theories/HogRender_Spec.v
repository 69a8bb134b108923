(** Rendered HOG features, stated apart from the code. *)
From Coq Require Import List Arith ZArith QArith Qcanon.
From Verif Require Import Rat Hog_Model.
Local Open Scope nat_scope.

Fixpoint total (n : nat) (f : nat -> Qc) : Qc := match n with O => 0%Qc | S n => (total n f + f n)%Qc end.
Fixpoint least (n : nat) (f : nat -> Qc) : Qc := match n with O => 0%Qc | S n => if Qclt_le_dec (f n) (least n f) then f n else least n f end.
Fixpoint most (n : nat) (f : nat -> Qc) : Qc := match n with O => 0%Qc | S n => if Qclt_le_dec (most n f) (f n) then f n else most n f end.
Definition clamp (lo hi x : Qc) : Qc := if Qclt_le_dec x lo then lo else if Qclt_le_dec hi x then hi else x.

(** the pixel at position [t] along the bar and [u] across it is in the bar: the line through the center of the glyph passes the column [t] in the pixel [u] *)
Definition on_bar (G : nat) (slope : Qc) (skip : nat) (t u : nat) : Prop :=
  skip <= t /\ t + skip < G /\
  let c := ((nq G - 1) / zq 2)%Qc in
  (nq u - Q2Qc (1 # 2) <= c + slope * (nq t - c) /\ c + slope * (nq t - c) < nq u + Q2Qc (1 # 2))%Qc.
(** the pixel at [x], [y] is in a bar along the horizontal direction or not, in a glyph stored by rows or, if transposed, by columns *)
Definition in_bar (G : nat) (transposed : bool) (b : bool * Qc * nat) (x y : nat) : Prop :=
  let '(horizontal, slope, skip) := b in
  if xorb horizontal transposed then on_bar G slope skip x y else on_bar G slope skip y x.

(** the weight of an orientation in a cell: the sum of its three or four components in the features [D] *)
Definition blocks (v : variant) : nat := match v with Uoctti => 3 | DalalTriggs => 4 end.
Definition weight (v : variant) (n : nat) (D : nat -> nat -> Qc) (cell k : nat) : Qc := total (blocks v) (fun b => D (k + b * n) cell).
