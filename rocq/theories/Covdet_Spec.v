(** Sets of features, independently of the code. *)
From Coq Require Import List Arith ZArith QArith Qcanon Qcabs.
From Verif Require Import Rat Covdet_Model.
Import ListNotations.
Local Open Scope nat_scope.

(** the features of an object, of which the block holds [s_size] *)
Definition holds (s : store) (fs : list feature) : Prop :=
  s_num s = length fs /\
  ((s_block s = None /\ fs = [] /\ s_size s = 0) \/ exists l, s_block s = Some l /\ length l = s_size s /\ length fs <= length l /\ firstn (length fs) l = fs).

(** [i] is stronger than [j] and close in space and scale *)
Definition beats (tol : Qc) (fi fj : feature) : Prop :=
  let a := f_frame fi in let b := f_frame fj in
  (f_a11 a < (1 + tol) * f_a11 b /\ f_a11 b < (1 + tol) * f_a11 a /\
   Qcabs (f_x b - f_x a) < tol * f_a11 a /\ Qcabs (f_y b - f_y a) < tol * f_a11 a /\ Qcabs (f_peak fj) < Qcabs (f_peak fi))%Qc.
(** the elements of a list that are marked *)
Fixpoint marked {A} (m : list bool) (l : list A) : list A :=
  match m, l with b :: m, x :: l => if b then x :: marked m l else marked m l | _, _ => [] end.
(** the number of marks different from [b] *)
Definition unmarked (m : list bool) : nat := length (filter negb m).

(** a frame maps (u, v) into the image *)
Definition maps (f : frame) (u v : Qc) : Qc * Qc := (f_a11 f * u + f_a12 f * v + f_x f, f_a21 f * u + f_a22 f * v + f_y f)%Qc.
Definition in_image (w h : nat) (p : Qc * Qc) : Prop := (0 <= fst p /\ fst p <= zq (Z.of_nat w - 1) /\ 0 <= snd p /\ snd p <= zq (Z.of_nat h - 1))%Qc.

(** each feature replaced by its first variant, followed by all other variants *)
Definition spread {A} (found : frame -> list A) (update : A -> feature -> feature) (none : feature -> feature) (fs : list feature) : list feature :=
  map (fun f => match found (f_frame f) with [] => none f | a :: _ => update a f end) fs ++
  flat_map (fun f => map (fun a => update a f) (tl (found (f_frame f)))) fs.
