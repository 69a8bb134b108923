(** What the selection of the maximally stable regions should compute, given the
    tree of the extremal regions: the parent [up] (the root is its own parent),
    the intensity [value] and the size [area] of regions 0 .. N-1. *)
From Coq Require Import List Arith.
Import ListNotations.

Section Tree.
  Variable N : nat.
  Variable up value area : nat -> nat.

  (** [above i j]: j is i or contains it. *)
  Inductive above (i : nat) : nat -> Prop :=
  | ab_refl : above i i
  | ab_step j : above i j -> above i (up j).

  (** The largest region that contains i with an intensity at most delta above. *)
  Definition top_of (delta i t : nat) : Prop :=
    above i t /\ value t <= value i + delta /\ (up t = t \/ value i + delta < value (up t)).

  Context {V : Type}.
  Variable vlt : V -> V -> bool.
  Variable var : nat -> V.

  (** Region i is less variable than its parent, unless the parent is more than
      one level above, and no child at most one level below is less variable. *)
  Definition stable (i : nat) : Prop :=
    (value (up i) <= value i + 1 -> vlt (var i) (var (up i)) = true) /\
    (forall j, j < N -> up j = i -> value i <= value j + 1 -> vlt (var j) (var i) = false).

  (** The first selected region from p upwards, or else the root. *)
  Definition nearest (sel : nat -> Prop) (p t : nat) : Prop :=
    above p t /\ (sel t \/ (~ sel t /\ up t = t)) /\
    (forall s, above p s -> above s t -> s <> t -> ~ sel s).

  Variable too_variable : V -> bool.
  Variable too_big too_small : nat -> bool.
  Variable check_dups : bool.
  Variable too_similar : nat -> nat -> bool.

  Inductive fate := Kept | Unstable | TooBig | TooSmall | Duplicate.

  (** Region i duplicates the selected region above it. *)
  Definition duplicate (sel : nat -> Prop) (i : nat) : Prop :=
    check_dups = true /\ up i <> i /\ exists t, nearest sel (up i) t /\ too_similar (area i) (area t) = true.

  (** What becomes of a stable region. *)
  Definition has_fate (sel : nat -> Prop) (i : nat) (w : fate) : Prop :=
    match w with
    | Unstable => too_variable (var i) = true
    | TooBig => too_variable (var i) = false /\ too_big (area i) = true
    | TooSmall => too_variable (var i) = false /\ too_big (area i) = false /\ too_small (area i) = true
    | Duplicate => too_variable (var i) = false /\ too_big (area i) = false /\ too_small (area i) = false /\
                   duplicate sel i
    | Kept => too_variable (var i) = false /\ too_big (area i) = false /\ too_small (area i) = false /\
              ~ duplicate sel i
    end.
End Tree.

(** [l] lists the numbers with property [S], each once. *)
Definition counts (S : nat -> Prop) (k : nat) : Prop :=
  exists l, NoDup l /\ (forall q, In q l <-> S q) /\ length l = k.
