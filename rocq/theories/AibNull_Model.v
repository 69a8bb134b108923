(** The MATLAB interface of AIB, toolbox/aib/vl_aib.c: joining the values of null probability (option ClusterNull),
    and the numbers of the nodes in MATLAB.  Indices are unbounded (32 bits in the code, with 2 nvalues below 2^32).
    AIB itself is in Aib_Model; the messages are left out. *)
From Coq Require Import List Arith Bool.
Import ListNotations.
From Verif Require Import Base Loop.

(** vl_aib.c:62-67: null nodes *)
Definition count_null (N : nat) (parents : list nat) : option nat :=
  iter N (fun n k => do p <- aget parents n; Some (if 2 * N - 1 <=? p then k + 1 else k)) 0.
(** vl_aib.c:106-117: the leaf merged first, with its parent *)
Definition find_first (N : nat) (parents : list nat) : option (nat * nat) :=
  iter N (fun n s =>
    do p <- aget parents n;
    let '(first, first_parent) := s in
    Some (if (p <=? 2 * N - 2) && negb (p =? 1) then if p <=? first_parent then (n, p) else s else s)) (0, 2 * N - 2).
(** vl_aib.c:125-129; e - ep is the number of null nodes *)
Definition shift_parents (N nnull : nat) (parents : list nat) : option (list nat) :=
  iter (2 * N - 2) (fun n ps =>
    do p <- aget ps n;
    if (p <=? 2 * N - 2) && negb (p =? 0) then aset ps n (p + nnull) else Some ps) parents.
(** vl_aib.c:130-132, for n from e down to d; also 178-180 for the costs, with another first index *)
Definition move_up {A} (count last nnull : nat) (l : list A) : option (list A) :=
  iter count (fun k l => do v <- aget l (last - k - nnull); aset l (last - k) v) l.
(** vl_aib.c:136-141: the first null node from [n] on, or the end *)
Fixpoint find_null (fuel N n : nat) (parents : list nat) : option nat :=
  match fuel with
  | O => None
  | S fuel => if n <? N then do p <- aget parents n; if 2 * N - 2 <? p then Some n else find_null fuel N (n + 1) parents else Some n
  end.
(** vl_aib.c:150-156: the others, from [n] on *)
Definition chain (N n : nat) (parents : list nat) : option (nat * list nat) :=
  iter_from (N - n) n (fun n s =>
    let '(last, ps) := s in
    do p <- aget ps n;
    if 2 * N - 2 <? p then do ps <- aset ps n last; do ps <- aset ps last (last + 1); Some (last + 1, ps)
    else Some s) (N, parents).
(** cluster_null_nodes, vl_aib.c:51-185, the parents *)
Definition cluster_parents (N : nat) (parents : list nat) : option (list nat) :=
  do nnull <- count_null N parents;
  if nnull =? 0 then Some parents
  else
    let d := N + nnull in
    do (first, _) <- find_first N parents;
    do ps <- shift_parents N nnull parents;
    do ps <- move_up (2 * N - 1 - d) (2 * N - 2) nnull ps;
    do n <- find_null (N + 1) N 0 ps;
    do ps <- (if n <? N then aset ps n N else Some ps);
    do (last, ps) <- chain N n ps;
    do ps <- aset ps last d;
    aset ps first last.
(** vl_aib.c:174-184, the costs: the entry of node n is number n - (nvalues - 1) *)
Definition cluster_costs {A} (N nnull : nat) (cost : list A) : option (list A) :=
  if nnull =? 0 then Some cost
  else
    let at_ n := n - (N - 1) in
    let d := N + nnull in
    do cost <- move_up (2 * N - 1 - d) (at_ (2 * N - 2)) nnull cost;
    iter nnull (fun k cost => do v <- aget cost (at_ d); aset cost (at_ (N + nnull - 1 - k)) v) cost.
(** vl_aib.c:285-294: numbers of MATLAB *)
Definition matlab_parents (N : nat) (parents : list nat) : list nat :=
  map (fun p => if 2 * N - 1 <? p then 0 else p + 1) parents.
