(** A batch of queries, stated without the model. *)
From Coq Require Import List ZArith Sorted.
From Verif Require Import KdTree_Model KdTree_Spec.
Import ListNotations.
Local Open Scope nat_scope.

(** part number [q] of an array of parts of [k] elements *)
Definition part {A} (k q : nat) (l : list A) : list A := firstn k (skipn (q * k) l).

(** the indexes [I] and distances [D] answer a query for [k] neighbours, comparing [ncmp] data: they are those nearest
    of the data compared, by increasing distance; and without limit of comparisons, and for the L2 distance, of all *)
Definition answers (data : list Z) (dimension numData : nat) (met : metric) (maxcmp k : nat) (query : list Z)
    (I : list Z) (D : option (list (option Z))) (ncmp : nat) : Prop :=
  let dist := dist_to met data dimension query in
  exists compared found,
    NoDup compared /\ incl compared (seq 0 numData) /\ ncmp = length compared /\ (0 < maxcmp -> ncmp <= maxcmp) /\
    NoDup found /\ StronglySorted (fun a b => (dist a <= dist b)%Z) found /\ length found = Nat.min k ncmp /\ nearest_of dist compared found /\
    (maxcmp = 0 -> met = L2 -> length found = Nat.min k numData /\ nearest_of dist (seq 0 numData) found) /\
    I = map Z.of_nat found ++ repeat (2 ^ 32 - 1)%Z (k - length found) /\
    (forall ds, D = Some ds -> ds = map (fun a => Some (dist a)) found ++ repeat None (k - length found)).
