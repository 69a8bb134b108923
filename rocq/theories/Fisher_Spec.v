(** Fisher vectors, stated without the model. *)
From Coq Require Import List Arith Bool Reals.
From Verif Require Import ImOp_Spec Gmm_Spec.
Local Open Scope R_scope.

(** at least 1e-6 *)
Definition heavy (r : R) : bool := if Rlt_dec r (/ 1000000) then false else true.
(** the number of i < n with P i *)
Fixpoint count (n : nat) (P : nat -> bool) : nat := match n with O => O | S n => (count n P + if P n then 1 else 0)%nat end.
Fixpoint ntotal (n : nat) (f : nat -> nat) : nat := match n with O => O | S n => (ntotal n f + f n)%nat end.

Section Fisher.
Variables (D K N : nat) (x mu v q : nat -> nat -> R) (pi : nat -> R).
(** assignments below 1e-6 are left out *)
Definition kept (i k : nat) : R := if heavy (q i k) then q i k else 0.
(** the standardized datum *)
Definition score (i k d : nat) : R := (x i d - mu k d) / sqrt (v k d).
(** the first and second order components of mode k *)
Definition first_order (k d : nat) : R :=
  if heavy (pi k) then total N (fun i => kept i k * score i k d) / (INR N * sqrt (pi k)) else 0.
Definition second_order (k d : nat) : R :=
  if heavy (pi k) then total N (fun i => kept i k * (score i k d ^ 2 - 1)) / (INR N * sqrt (2 * pi k)) else 0.
(** the vector: u_0, ..., u_(K-1), v_0, ..., v_(K-1) *)
Definition fisher_vector (r d : nat) : R := if (r <? K)%nat then first_order r d else second_order (r - K) d.
(** the number of averaging operations *)
Definition terms : nat := ntotal K (fun k => if heavy (pi k) then count N (fun i => heavy (q i k)) else 0%nat).
End Fisher.

(** the first largest of f(0), ..., f(n) *)
Fixpoint argmax (n : nat) (f : nat -> R) : nat :=
  match n with O => O | S n => if Rlt_dec (f (argmax n f)) (f (S n)) then S n else argmax n f end.
(** each datum is assigned to its best mode *)
Definition hard (K : nat) (q : nat -> nat -> R) (i k : nat) : R := if (k =? argmax (K - 1) (q i))%nat then 1 else 0.
Definition norm2 (R_ D : nat) (F : nat -> nat -> R) : R := total R_ (fun r => total D (fun d => F r d ^ 2)).
(** f with the value t at (k, d) *)
Definition set2 (f : nat -> nat -> R) (k d : nat) (t : R) (k' d' : nat) : R := if (k' =? k)%nat && (d' =? d)%nat then t else f k' d'.
