(** The distances and kernels documented in vl_alldist2.m, stated apart from the code, of two vectors [x] and [y] of [L] components. *)
From Coq Require Import List Arith ZArith QArith Qcanon Qcabs Sorted.
Import ListNotations.
From Verif Require Import Rat AllDist_Model.
Local Open Scope Qc_scope.

Fixpoint sum (L : nat) (f : nat -> Qc) : Qc := match L with O => 0 | S L => sum L f + f L end.
Definition least (x y : Qc) : Qc := if Qclt_le_dec x y then x else y.
(** [0 / 0] is zero in the chi2 sums *)
Definition dist_of (rt : Qc -> Qc) (n : norm) (L : nat) (x y : nat -> Qc) (v : Qc) : Prop :=
  match n with
  | LINF => (forall l, (l < L)%nat -> Qcabs (x l - y l) <= v) /\ (L = 0%nat /\ v = 0 \/ exists l, (l < L)%nat /\ v = Qcabs (x l - y l))
  | L2 => v = sum L (fun l => (x l - y l) * (x l - y l))
  | L1 => v = sum L (fun l => Qcabs (x l - y l))
  | L0 => v = sum L (fun l => if Qc_eq_dec (x l) (y l) then 0 else 1)
  | CHI2 => v = sum L (fun l => if Qc_eq_dec (x l + y l) 0 then 0 else (x l - y l) * (x l - y l) / (x l + y l))
  | HELL => v = sum L (fun l => x l + y l - zq 2 * rt (x l * y l))
  | KL2 => v = sum L (fun l => x l * y l)
  | KL1 | MIN => v = sum L (fun l => least (x l) (y l))
  | KCHI2 => v = zq 2 * sum L (fun l => if Qc_eq_dec (x l + y l) 0 then 0 else x l * y l / (x l + y l))
  | KHELL => v = sum L (fun l => rt (x l * y l))
  end.
(** the component l of the column j of a matrix of L rows *)
Definition full_at (v : list Qc) (L j l : nat) : Qc := nth (L * j + l) v 0.
(** a sparse matrix of L rows and N columns: one value per row index, the offsets of the columns do not decrease and the rows of a column increase and exist *)
Definition well_formed (s : sparse) (L N : nat) : Prop :=
  length (jc s) = S N /\ length (ir s) = length (pr s) /\
  forall j, (j < N)%nat -> exists a b, nth_error (jc s) j = Some a /\ nth_error (jc s) (S j) = Some b /\ (a <= b <= length (pr s))%nat /\
    (forall p r, (a <= p < b)%nat -> nth_error (ir s) p = Some r -> (r < L)%nat) /\
    (forall p q r t, (a <= p < q)%nat -> (q < b)%nat -> nth_error (ir s) p = Some r -> nth_error (ir s) q = Some t -> (r < t)%nat).
(** [v] is the component l of the column j: the value written for this row, or zero if there is none *)
Definition sparse_at (s : sparse) (j l : nat) (v : Qc) : Prop :=
  exists a b, nth_error (jc s) j = Some a /\ nth_error (jc s) (S j) = Some b /\
    ((exists p, (a <= p < b)%nat /\ nth_error (ir s) p = Some l /\ nth_error (pr s) p = Some v) \/
     ((forall p, (a <= p < b)%nat -> nth_error (ir s) p <> Some l) /\ v = 0)).
