(** What a linear SVM should compute, in terms of plain functions: data x(k,j), labels y(k),
    weights p(k). *)
From Coq Require Import List Arith ZArith QArith Qcanon Qround.
From Verif Require Import Base Rat ImOp_Spec.
Local Open Scope Qc_scope.

Notation qsum := (sum 0 Qcplus).

(** an array as a function; datum k of an array of vectors of dimension d; the weights *)
Definition fn (l : list Qc) (k : nat) : Qc := nth k l 0.
Definition datum (d : nat) (l : list Qc) (k j : nat) : Qc := nth (d * k + j) l 0.
Definition weight_of (w : option (list Qc)) (k : nat) : Qc := match w with Some l => nth k l 0 | None => 1 end.

(** ** Losses as functions of the score z and the label y *)
(** the conjugate [c] (infinite where [None]) bounds the loss from below: z u - c(u) <= l(z) *)
Definition fenchel (lab : Qc -> Prop) (loss : Qc -> Qc -> Qc) (conj : Qc -> Qc -> option Qc) : Prop :=
  forall z u y c, lab y -> conj u y = Some c -> z * u - c <= loss z y.
(** and nothing larger does: the bound is attained *)
Definition attained (lab : Qc -> Prop) (loss : Qc -> Qc -> Qc) (conj : Qc -> Qc -> option Qc) : Prop :=
  forall u y c, lab y -> conj u y = Some c -> exists z, z * u - c = loss z y.
(** [deriv] is a slope supporting the loss *)
Definition subgradient (lab : Qc -> Prop) (loss deriv : Qc -> Qc -> Qc) : Prop :=
  forall z z' y, lab y -> loss z y + deriv z y * (z' - z) <= loss z' y.

(** the one-dimensional dual problem of a coordinate: maximise -A/2 d^2 - B d - c(-(a + d)) *)
Definition gain (A B : Qc) (d c : Qc) : Qc := - (Q2Qc (1 # 2) * A * d * d) - B * d - c.
Definition optimal_step (conj : Qc -> Qc -> option Qc) (a A B y d : Qc) : Prop :=
  exists c, conj (- (a + d)) y = Some c /\
  forall d' c', conj (- (a + d')) y = Some c' -> gain A B d' c' <= gain A B d c.

(** ** Training problem *)
Definition dot (n : nat) (f g : nat -> Qc) : Qc := qsum n (fun j => f j * g j).
Section Problem.
Variables (n d : nat) (x : nat -> nat -> Qc) (y p : nat -> Qc) (lam B : Qc).
(** the score of datum k under the model (w, b); the data are extended by the constant B *)
Definition lin (w : nat -> Qc) (b : Qc) (k : nat) : Qc := dot d (x k) w + B * b.
(** lambda/2 |(w,b)|^2 *)
Definition ridge (w : nat -> Qc) (b : Qc) : Qc := lam / zq 2 * (dot d w w + b * b).
(** the objective; data whose weight is not positive do not count *)
Definition primal (loss : Qc -> Qc -> Qc) (w : nat -> Qc) (b : Qc) : Qc :=
  ridge w b + qsum n (fun k => if Qclt_le_dec 0 (p k) then p k * loss (lin w b k) (y k) else 0) / nq n.
(** the model given by dual variables *)
Definition comb (a : nat -> Qc) (j : nat) : Qc := qsum n (fun k => a k * x k j) / (lam * nq n).
Definition comb_bias (a : nat -> Qc) : Qc := B * qsum n a / (lam * nq n).
(** the dual objective; [c] gives the conjugate loss of each counted datum *)
Definition dual (c : nat -> Qc) (a : nat -> Qc) : Qc :=
  - ridge (comb a) (comb_bias a) - qsum n (fun k => if Qclt_le_dec 0 (p k) then p k * c k else 0) / nq n.

(** the first step counts as step t0 *)
Definition first_step (l : Qc) : Z := Z.max 2 (Qceiling (this (1 / l))).
(** ** Plain stochastic gradient descent: step t visits datum i *)
Variables (deriv : Qc -> Qc -> Qc) (blr : Qc) (t0 : Z).
Definition plain_rate (t : nat) : Qc := 1 / (lam * zq (Z.of_nat t + t0)).
Definition plain_gradient (i : nat) (w : nat -> Qc) (b : Qc) : Qc :=
  (if Qclt_le_dec 0 (p i) then p i else 0) * deriv (lin w b i) (y i).
Definition plain_step (t i : nat) (wb : (nat -> Qc) * Qc) : (nat -> Qc) * Qc :=
  let (w, b) := wb in
  let r := plain_rate t in
  let g := plain_gradient i w b in
  (fun j => (1 - r * lam) * w j - r * g * x i j, (1 - r * blr * lam) * b - r * blr * g * B).
Fixpoint plain_run (order : nat -> nat) (steps : nat) (wb : (nat -> Qc) * Qc) : (nat -> Qc) * Qc :=
  match steps with O => wb | S t => plain_step t (order t) (plain_run order t wb) end.
(** the score computed at the last visit of a datum, zero before any visit, and the one before
    it, minus infinity ([None]) before any visit *)
Fixpoint plain_score (order : nat -> nat) (steps : nat) (wb : (nat -> Qc) * Qc) (k : nat) : Qc :=
  match steps with
  | O => 0
  | S t => if (order t =? k)%nat then let (w, b) := plain_run order t wb in lin w b k else plain_score order t wb k
  end.
Fixpoint plain_previous (order : nat -> nat) (steps : nat) (wb : (nat -> Qc) * Qc) (k : nat) : option Qc :=
  match steps with
  | O => None
  | S t => if (order t =? k)%nat then Some (plain_score order t wb k) else plain_previous order t wb k
  end.
End Problem.
