(** What the regions found by MSER should be. *)
From Coq Require Import List Arith Permutation Sorted ZArith QArith.
Local Open Scope nat_scope.
Import ListNotations.

(** All pixel indexes by increasing intensity, equal ones in raster order. *)
Definition in_stable_order (im perm : list nat) : Prop :=
  Permutation perm (seq 0 (length im)) /\
  StronglySorted (fun i j => nth i im 0 < nth j im 0 \/ (nth i im 0 = nth j im 0 /\ i < j)) perm.

(** The subscript of a pixel, first dimension fastest. *)
Fixpoint coords (dims : list nat) (p : nat) : list nat :=
  match dims with [] => [] | d :: r => p mod d :: coords r (p / d) end.

(** Neighbours: subscripts that differ by at most one in each dimension. *)
Definition adjacent (dims : list nat) (p q : nat) : Prop :=
  Forall2 (fun a b => a <= b + 1 /\ b <= a + 1) (coords dims p) (coords dims q).

(** [connected dims im v p q]: a path of neighbours from p to q in the level
    set of the pixels of intensity at most v. *)
Inductive connected (dims im : list nat) (v : nat) (p : nat) : nat -> Prop :=
| conn_refl : p < length im -> nth p im 0 <= v -> connected dims im v p p
| conn_step q s : connected dims im v p q -> adjacent dims q s -> s < length im -> nth s im 0 <= v ->
    connected dims im v p s.

(** [l] lists the pixels of the component of p, each once. *)
Definition component (dims im : list nat) (v p : nat) (l : list nat) : Prop :=
  NoDup l /\ forall q, In q l <-> connected dims im v p q.

(** Mean of coordinate i, and covariance of coordinates i and j, over the
    pixels of l. *)
Definition coord (dims : list nat) (i q : nat) : Z := Z.of_nat (nth i (coords dims q) 0).
Definition total_of (f : nat -> Z) (l : list nat) : Z := fold_right Z.add 0%Z (map f l).
Definition mean_of (f : nat -> Z) (l : list nat) : Q := (inject_Z (total_of f l) / inject_Z (Z.of_nat (length l)))%Q.
Definition covariance (dims : list nat) (i j : nat) (l : list nat) : Q :=
  (mean_of (fun q => coord dims i q * coord dims j q)%Z l - mean_of (coord dims i) l * mean_of (coord dims j) l)%Q.
