(** Trees given by parents, the paths to their roots and counts, stated apart from the code.  The nodes are numbered from one. *)
From Coq Require Import List Arith ZArith.
Import ListNotations.
Local Open Scope Z_scope.

(** [p] is the parent written for the node [k] *)
Definition parent (parents : list Z) (k p : Z) : Prop := 1 <= k /\ nth_error parents (Z.to_nat (k - 1)) = Some p.
(** every link goes to a later node, except the links of roots: 0, 1 or the node itself *)
Definition proper (parents : list Z) : Prop := forall k p, parent parents k p -> p = 0 \/ p = 1 \/ p = k \/ (k < p <= Z.of_nat (length parents)).
(** [k] is [x] or one of its ancestors *)
Inductive above (parents : list Z) (x : Z) : Z -> Prop :=
| above_self : above parents x x
| above_up k p : above parents x k -> parent parents k p -> p <> 0 -> p <> 1 -> above parents x p.
(** [n] elements of the list have the property *)
Inductive counts {A} (Q : A -> Prop) : list A -> Z -> Prop :=
| counts_nil : counts Q [] 0
| counts_yes a l n : Q a -> counts Q l n -> counts Q (a :: l) (n + 1)
| counts_no a l n : ~ Q a -> counts Q l n -> counts Q (a :: l) n.
