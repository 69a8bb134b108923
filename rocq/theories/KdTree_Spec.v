(** What a kd-tree and a nearest neighbour query should be. *)
From Coq Require Import List ZArith Permutation Sorted.
From Verif Require Import Base KdTree_Model.
Import ListNotations.
Local Open Scope Z_scope.

(** Coordinate d of datum di. *)
Definition coord (data : list Z) (dimension di d : nat) : Z := nth (di * dimension + d)%nat data 0.

(** The contract of qsort with the comparison of the index entries. *)
Definition sorts (sorter : list entry -> list entry) : Prop :=
  forall l, Permutation (sorter l) l /\ StronglySorted (fun a b => e_value a <= e_value b) (sorter l).

(** [choose] names existing dimensions, and its mean is not smaller than every
    datum of the range (true of the exact mean of any sample of the range). *)
Definition chooses_well (data : list Z) (dimension : nat)
    (choose : nat -> list nat -> option (nat * Z)) : Prop :=
  forall ni l d mean, choose ni l = Some (d, mean) ->
    (d < dimension)%nat /\ exists di, In di l /\ coord data dimension di d <= mean.

(** [subtree dim cells nodes ni p b e L] : node [ni], of parent [p], is the
    root of a binary tree over the positions b <= i < e; its nodes are [L].
    [x i d] is the coordinate d of the datum at position i. *)
Inductive subtree (dimension : nat) (x : nat -> nat -> Z) (nodes : list kdnode)
  : nat -> nat -> nat -> nat -> list nat -> Prop :=
| sub_leaf ni p b e nd :
    nth_error nodes ni = Some nd -> n_parent nd = p ->
    n_lower nd = - Z.of_nat b - 1 -> n_upper nd = - Z.of_nat e - 1 ->
    (n_dim nd < dimension)%nat ->
    subtree dimension x nodes ni p b e [ni]
| sub_split ni p b e nd lo up s L U :
    nth_error nodes ni = Some nd -> n_parent nd = p ->
    n_lower nd = Z.of_nat lo -> n_upper nd = Z.of_nat up ->
    (n_dim nd < dimension)%nat -> (b < s < e)%nat ->
    (forall i, (b <= i < s)%nat -> x i (n_dim nd) <= n_thr nd) ->
    (forall i, (s <= i < e)%nat -> n_thr nd <= x i (n_dim nd)) ->
    subtree dimension x nodes lo ni b s L ->
    subtree dimension x nodes up ni s e U ->
    subtree dimension x nodes ni p b e (ni :: L ++ U).

(** A good tree: the data index lists every datum once, the nodes in use are
    exactly those of one binary tree over all positions, each once, and there
    are at most 2n-1 of them. *)
Definition good_tree (data : list Z) (dimension numData : nat) (t : kdtree) : Prop :=
  Permutation (map e_index (t_index t)) (seq 0 numData) /\
  (exists L,
     subtree dimension
       (fun i d => coord data dimension (nth i (map e_index (t_index t)) 0%nat) d)
       (t_nodes t) 0 0 0 numData L /\ Permutation L (seq 0 (t_used t))) /\
  (t_used t <= 2 * numData - 1)%nat.

(** Squared Euclidean distance and L1 distance. *)
Definition dist_to (m : metric) (data : list Z) (dimension : nat) (query : list Z) (di : nat) : Z :=
  fold_right Z.add 0
    (map (fun d => term m (nth d query 0 - coord data dimension di d)) (seq 0 dimension)).

(** The output of a query for [k] neighbours lists, by increasing distance, the
    data [found], with their distances, then marks the missing ones. *)
Definition reports (D : nat -> Z) (k : nat) (found : list nat) (out : list nbr) : Prop :=
  out = map (fun di => mk_nbr (Some (D di)) (Z.of_nat di)) found
        ++ repeat (mk_nbr None (2 ^ 64 - 1)) (k - length found) /\
  StronglySorted (fun a b => D a <= D b) found /\ NoDup found.

(** [found] are nearest among the data [all]. *)
Definition nearest_of (D : nat -> Z) (all found : list nat) : Prop :=
  incl found all /\ forall a b, In a found -> In b all -> ~ In b found -> D a <= D b.
