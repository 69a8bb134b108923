(** A priority queue as a bag, independently of any heap layout. *)
From Coq Require Import List ZArith Permutation.
From Verif Require Import Heap_Model.
Import ListNotations.

Section Spec.
  Context {A : Type}.
  Variable cmp : A -> A -> Z.

  (** [pq_trace bag ops outs bag'] : from the bag of queued elements [bag], the
      operations [ops] may show the outputs [outs] and leave the bag [bag'].
      Bags are lists up to permutation. *)
  Inductive pq_trace : list A -> list (heap_op (A:=A)) -> list (heap_out (A:=A)) -> list A -> Prop :=
  | pq_nil bag bag' : Permutation bag bag' -> pq_trace bag [] [] bag'
  | pq_push bag x ops outs bag' :
      pq_trace (x :: bag) ops outs bag' ->
      pq_trace bag (Push x :: ops) (OPush :: outs) bag'
  | pq_pop bag y rest ops outs bag' :
      Permutation bag (y :: rest) ->
      (forall z, In z rest -> (cmp y z <= 0)%Z) ->
      pq_trace rest ops outs bag' ->
      pq_trace bag (Pop :: ops) (OPop y :: outs) bag'
  | pq_update bag i x old rest ops outs bag' :
      Permutation bag (old :: rest) ->
      pq_trace (x :: rest) ops outs bag' ->
      pq_trace bag (Update i x :: ops) (OUpdate old :: outs) bag'.

  (** Operations allowed by the interface with an array of capacity [cap] when
      [n] elements are queued: no push when full, no pop when empty, updates
      only of queued positions. *)
  Fixpoint allowed (cap n : nat) (ops : list (heap_op (A:=A))) : Prop :=
    match ops with
    | [] => True
    | Push _ :: r => n < cap /\ allowed cap (n + 1) r
    | Pop :: r => 0 < n /\ allowed cap (n - 1) r
    | Update i _ :: r => i < n /\ allowed cap n r
    end.
End Spec.
