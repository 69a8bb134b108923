(** Exact arithmetic, for the vector comparison functions. *)
From Coq Require Import List Arith Bool Ring_theory.
From Verif Require Import Vec_Model.
Import ListNotations.

(** The operations are exact: a commutative ring with a division by non-zero
    numbers, and |x| is the larger of x and -x. *)
Record exact {A} (o : ops A) : Prop := {
  ex_ring : ring_theory (o_zero o) (o_one o) (o_add o) (o_mul o) (o_sub o) (o_opp o) eq;
  ex_div : exists inv, forall x y, o_nz o y = true -> o_div o x y = o_mul o x (inv y);
  ex_abs : forall x, o_abs o x = if o_gt o x (o_opp o x) then x else o_opp o x }.

(** ** The documented comparisons of non-negative vectors, mathop.c:45-125 *)
From Coq Require Import Reals.
Local Open Scope R_scope.

(** the number type is the reals *)
Definition real_ops : ops R :=
  mk_ops 0 1 Rplus Rminus Rmult Rdiv Ropp
    (fun x y => if Rlt_dec y x then true else false)
    (fun x => if Req_EM_T x 0 then false else true)
    Rabs R_sqrt.sqrt (fun x => ln x / ln 2).

Definition log2 (x : R) : R := ln x / ln 2.
(** x log2(x / y), zero when x is zero *)
Definition xlog2 (x y : R) : R := if Req_EM_T x 0 then 0 else x * log2 (x / y).
(** x / y, zero when y is zero *)
Definition ratio (x y : R) : R := if Req_EM_T y 0 then 0 else x / y.

(** the term of each comparison for one component *)
Definition component (t : comparison) (x y : R) : R :=
  match t with
  | DistanceL1 => Rabs (x - y)
  | DistanceL2 => (x - y) ^ 2
  | DistanceChi2 => ratio ((x - y) ^ 2) (x + y)
  | DistanceHellinger => (R_sqrt.sqrt x - R_sqrt.sqrt y) ^ 2
  | DistanceJS => xlog2 x ((x + y) / 2) + xlog2 y ((x + y) / 2)
  | KernelL1 => Rmin x y
  | KernelL2 => x * y
  | KernelChi2 => 2 * ratio (x * y) (x + y)
  | KernelHellinger => R_sqrt.sqrt (x * y)
  | KernelJS => / 2 * (- xlog2 x (x + y) - xlog2 y (x + y))
  end.
(** x(0) + ... + x(n-1) *)
Fixpoint rsum (n : nat) (f : nat -> R) : R := match n with O => 0 | S n => rsum n f + f n end.
Definition compared (t : comparison) (dim : nat) (X Y : list R) : R :=
  rsum dim (fun i => component t (nth i X 0) (nth i Y 0)).

(** the kernel that corresponds to a distance *)
Definition kernel_of (t : comparison) : comparison :=
  match t with
  | DistanceL1 => KernelL1 | DistanceL2 => KernelL2 | DistanceChi2 => KernelChi2
  | DistanceHellinger => KernelHellinger | DistanceJS => KernelJS
  | k => k
  end.
Definition is_distance (t : comparison) : bool :=
  match t with DistanceL1 | DistanceL2 | DistanceChi2 | DistanceHellinger | DistanceJS => true | _ => false end.
