(** Gaussian mixtures with diagonal covariances, stated without the model. *)
From Coq Require Import Arith Bool Reals.
From Verif Require Import ImOp_Spec.
Local Open Scope R_scope.

Notation total n f := (sum 0 Rplus n f).
(** f(0) ... f(n-1) *)
Fixpoint product (n : nat) (f : nat -> R) : R := match n with O => 1 | S n => product n f * f n end.

Section Density.
(* datum and coordinate, mode and coordinate *)
Variables (D K : nat) (x mu v : nat -> nat -> R) (pi : nat -> R).
(** the density of the Gaussian k at the datum i *)
Definition density (i k : nat) : R :=
  exp (- / 2 * total D (fun d => (x i d - mu k d) ^ 2 / v k d)) / sqrt (product D (fun d => 2 * PI * v k d)).
(** modes of prior below 1e-6 are left out *)
Definition weight (k : nat) : R := if Rlt_dec (pi k) (/ 1000000) then 0 else pi k.
(** the density of the mixture *)
Definition mixture (i : nat) : R := total K (fun k => weight k * density i k).
(** the probability that datum i comes from mode k *)
Definition posterior (i k : nat) : R := weight k * density i k / mixture i.
Definition log_likelihood (N : nat) : R := total N (fun i => ln (mixture i)).
End Density.

Section Estimates.
Variables (D K N : nat) (x q : nat -> nat -> R).
(** assignments below 0.01 / K are left out *)
Definition used (i k : nat) : R := if Rlt_dec (q i k) (/ 100 / INR K) then 0 else q i k.
Definition mass (k : nat) : R := total N (fun i => used i k).
Definition wmean (k d : nat) : R := total N (fun i => used i k * x i d) / mass k.
Definition wvar (k d : nat) : R := total N (fun i => used i k * (x i d - wmean k d) ^ 2) / mass k.
Definition share (k : nat) : R := mass k / total K mass.
End Estimates.

Section Data.
Variables (N : nat) (x : nat -> nat -> R).
Definition data_mean (d : nat) : R := total N (fun i => x i d) / INR N.
Definition data_variance (d : nat) : R := total N (fun i => (x i d - data_mean d) ^ 2) / (INR N - 1).
End Data.

Section Split.
Variables (D : nat) (x v q : nat -> nat -> R) (pi : nat -> R).
(** the weighted entropy of the Gaussian k in the mixture *)
Definition entropy (k : nat) : R :=
  pi k * (INR D / 2 * (1 + ln (2 * PI)) + / 2 * total D (fun d => ln (v k d)) - ln (pi k)).
(** mode i takes the data of modes i and j below m in coordinate b, mode j the others *)
Definition split (b : nat) (m : R) (i j : nat) (a k : nat) : R :=
  let s := q a j + q a i in
  if (k =? i)%nat then (if Rlt_dec (x a b) m then s else 0)
  else if (k =? j)%nat then (if Rlt_dec (x a b) m then 0 else s)
  else q a k.
End Split.
