(** k-means, stated without the model. *)
From Coq Require Import List Arith ZArith Lia Bool QArith Qcanon Qcabs.
From Verif Require Import ImOp_Spec Rat.
Import ListNotations.
Local Open Scope nat_scope.
Notation ksum n f := (sum 0%Qc Qcplus n f).

(** vectors stored one after the other: the i-th and its coordinates *)
Definition rowv (dim : nat) (l : list Qc) (i : nat) : list Qc := firstn dim (skipn (dim * i) l).
Definition view (dim : nat) (l : list Qc) (i d : nat) : Qc := nth (i * dim + d) l 0%Qc.

(** a nearest of K centers, and the first of them *)
Definition nearest (K : nat) (D : nat -> Qc) (a : nat) : Prop :=
  a < K /\ forall k, k < K -> (D a <= D k)%Qc.
Definition first_nearest (K : nat) (D : nat -> Qc) (a : nat) : Prop :=
  nearest K D a /\ forall k, k < a -> (D a < D k)%Qc.

(** distance of the points X x and C k of dimension [dim]; [l1] chooses the sum of
    absolute differences instead of squares *)
Definition gap (l1 : bool) (u v : Qc) : Qc := if l1 then Qcabs (u - v) else ((u - v) * (u - v))%Qc.
Definition dist (l1 : bool) (dim : nat) (X C : nat -> nat -> Qc) (x k : nat) : Qc :=
  ksum dim (fun d => gap l1 (X x d) (C k d)).
Definition energy (l1 : bool) (dim N : nat) (X C : nat -> nat -> Qc) (a : nat -> nat) : Qc :=
  ksum N (fun x => dist l1 dim X C x (a x)).

Definition count (N : nat) (p : nat -> bool) : nat := length (filter p (seq 0 N)).
Definition mass (N : nat) (a : nat -> nat) (k : nat) : nat := count N (fun x => a x =? k).

(** v is the mean of the numbers f x over cluster k *)
Definition is_mean (N : nat) (a : nat -> nat) (k : nat) (f : nat -> Qc) (v : Qc) : Prop :=
  (nq (mass N a k) * v)%Qc = ksum N (fun x => if a x =? k then f x else 0%Qc).
(** v is one of the numbers, at most half of them are smaller and at most half larger *)
Definition qless (u v : Qc) : bool := if Qclt_le_dec u v then true else false.
Definition is_median (N : nat) (a : nat -> nat) (k : nat) (f : nat -> Qc) (v : Qc) : Prop :=
  (exists x, x < N /\ a x = k /\ f x = v) /\
  2 * count N (fun x => (a x =? k) && qless (f x) v) <= mass N a k /\
  2 * count N (fun x => (a x =? k) && qless v (f x)) <= mass N a k.

(** points [idx] of X, pairwise different *)
Definition same_point (dim : nat) (u v : nat -> Qc) : Prop := forall d, d < dim -> u d = v d.
Definition distinct_points (dim : nat) (X : nat -> nat -> Qc) (idx : list nat) : Prop :=
  forall i j, i < j -> j < length idx -> ~ same_point dim (X (nth i idx 0)) (X (nth j idx 0)).

(** numbers that never go up *)
Fixpoint descending (l : list Qc) : Prop :=
  match l with
  | u :: (v :: _) as l' => (v <= u)%Qc /\ descending l'
  | _ => True
  end.
