(** Bilinear interpolation of the samples of an image on a rectangular grid, stated apart from the code. *)
From Coq Require Import List Arith ZArith QArith Qcanon.
Import ListNotations.
Local Open Scope nat_scope.

Definition increasing (X : list Qc) : Prop := forall i j a b, nth_error X i = Some a -> nth_error X j = Some b -> i < j -> (a < b)%Qc.
(** [v] is the value at [x] of the function that is [g k] at the k-th element of X and linear between neighbours *)
Definition lin (X : list Qc) (x : Qc) (g : nat -> Qc) (v : Qc) : Prop :=
  (exists k, nth_error X k = Some x /\ v = g k) \/
  (exists k a b, nth_error X k = Some a /\ nth_error X (S k) = Some b /\ (a <= x)%Qc /\ (x <= b)%Qc /\ (v * (b - a) = g k * (b - x) + g (S k) * (x - a))%Qc).
(** linear in x along each row, then linear in y; [f i j] is the sample of row i and column j *)
Definition bilin (X Y : list Qc) (f : nat -> nat -> Qc) (x y v : Qc) : Prop :=
  exists r : nat -> Qc, (forall i, i < length Y -> lin X x (f i) (r i)) /\ lin Y y r v.
(** the sample of row i and column j of an image stored by columns *)
Definition sample (Y I : list Qc) (i j : nat) : Qc := nth (j * length Y + i) I 0%Qc.
(** [x] is between the first and the last element of X *)
Definition covered (X : list Qc) (x : Qc) : Prop := exists a b, nth_error X 0 = Some a /\ nth_error X (length X - 1) = Some b /\ (a <= x)%Qc /\ (x <= b)%Qc.
(** [x] is in the k-th cell of X, its right end excluded *)
Definition cell (X : list Qc) (k : nat) (x : Qc) : Prop := exists a b, nth_error X k = Some a /\ nth_error X (S k) = Some b /\ (a <= x)%Qc /\ (x < b)%Qc.
(** the width of the k-th cell *)
Definition step (X : list Qc) (k : nat) : Qc := (nth (S k) X 0 - nth k X 0)%Qc.
