(** Histograms over an AIB tree: toolbox/aib/vl_aibhist.c.
    The unsigned 32-bit values are integers; PARENTS and DATA are lists, the elements of DATA after their conversion to unsigned integers (integral doubles from 0 to 2^32 - 1).
    [None] is an access outside of an array, [Some Err] an error raised, and [Some (Running x tree)] a loop that has not ended after the steps allowed by the fuel.
    Not modelled: the checks of the types of the arguments (lines 48-86). *)
From Coq Require Import List Arith Bool ZArith.
Import ListNotations.
From Verif Require Import Base.
Local Open Scope Z_scope.

Inductive outcome : Type :=
| Done (tree : list Z)
| Err
| Running (x : Z) (tree : list Z).

Definition u32 (z : Z) : Z := z mod 2 ^ 32.

(** the loop over the parents, vl_aibhist.c:103-125: [i] counts from zero, [None] is an error; returns min_node.  max_node and nnull are not used *)
Fixpoint check (P : Z) (parents : list Z) (i min_node : Z) : option Z :=
  match parents with
  | [] => Some min_node
  | node :: parents' =>
    let min_node := if negb (node =? 0) && negb (node =? 1) then Z.min node min_node else min_node in
    if P <? node then None else
    if negb (node =? 0) && negb (node =? 1) && (node <? i) then None else
    check P parents' (i + 1) min_node
  end.

(** the walk to the root, vl_aibhist.c:158-164 *)
Fixpoint walk (parents : list Z) (fuel : nat) (x : Z) (tree : list Z) : option outcome :=
  match fuel with
  | O => Some (Running x tree)
  | S fuel' =>
    do x_ <- zget parents (x - 1);
    do t <- zget tree (x - 1); do tree <- zset tree (x - 1) (u32 (t + 1));
    if (x_ =? x) || (x_ =? 0) || (x_ =? 1) then Some (Done tree) else walk parents fuel' x_ tree
  end.

(** the loop over the data, vl_aibhist.c:138-165 *)
Fixpoint push (parents : list Z) (fuel : nat) (histmode : bool) (last_leaf : Z) (data : list Z) (i : Z) (tree : list Z) : option outcome :=
  match data with
  | [] => Some (Done tree)
  | d :: data' =>
    let x := if histmode then i else d in
    if (x <? 1) || (last_leaf <? x) then Some Err else
    do r <- walk parents fuel x tree;
    match r with
    | Done tree => push parents fuel histmode last_leaf data' (i + 1) tree
    | _ => Some r
    end
  end.

(** vl_aibhist.c:88-166: min_node starts from zero (line 98) and last_leaf is one less (line 134) *)
Definition aibhist (fuel : nat) (parents : list Z) (data : list Z) (histmode : bool) : option outcome :=
  match check (Z.of_nat (length parents)) parents 0 0 with
  | None => Some Err
  | Some min_node => push parents fuel histmode (u32 (min_node - 1)) data 0 (repeat 0 (length parents))
  end.
