(** Bins, sums over bins and running maxima. *)
From Coq Require Import List Arith ZArith QArith Qcanon.
Import ListNotations.
Local Open Scope nat_scope.

(** B does not decrease *)
Definition nondecreasing (B : list Qc) : Prop := forall i j a b, i <= j -> nth_error B i = Some a -> nth_error B j = Some b -> (a <= b)%Qc.
(** k is the bin of x: the first k bounds are at most x, the others greater *)
Definition bin (B : list Qc) (x : Qc) (k : nat) : Prop :=
  k <= length B /\ (forall i b, nth_error B i = Some b -> (i < k -> (b <= x)%Qc) /\ (k <= i -> (x < b)%Qc)).
Definition total (l : list Qc) : Qc := fold_right Qcplus 0%Qc l.
(** the i-th of the values, or the only one *)
Definition value (X : list Qc) (i : nat) : Qc := match X with [x] => x | _ => nth i X 0%Qc end.
(** the sum of the values whose index is in the class p *)
Definition binned (X : list Qc) (B : list Z) (p : nat -> Z -> bool) : Qc :=
  total (map (fun i => if p i (nth i B 0%Z) then value X i else 0%Qc) (seq 0 (length B))).
(** elements of an array of a by n by c elements *)
Definition at3 (a n : nat) (i k j : nat) : nat := i + a * (k + n * j).
(** m is the greatest of the values f 0 ... f k *)
Definition greatest (f : nat -> Qc) (k : nat) (m : Qc) : Prop := (exists i, i <= k /\ m = f i) /\ forall i, i <= k -> (f i <= m)%Qc.
