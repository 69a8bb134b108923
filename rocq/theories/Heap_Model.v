(** Model of the generic heap of /repo/vl/heap-def.h.

    The element type and the comparison are parameters, as in the C header
    (VL_HEAP_type, VL_HEAP_cmp).  The array passed by the user is a list whose
    length is its capacity.  The comparison returns a number whose sign is the
    only thing used. *)
From Coq Require Import List ZArith Arith.
From Verif Require Import Base.
Import ListNotations.

(** vl_heap_parent, /repo/vl/heap-def.h:189-194 *)
Definition heap_parent (index : nat) : nat :=
  if index =? 0 then 0 else (index - 1) / 2.

(** vl_heap_left_child, /repo/vl/heap-def.h:201-205 *)
Definition heap_left_child (index : nat) : nat := 2 * index + 1.

(** vl_heap_right_child, /repo/vl/heap-def.h:212-216 *)
Definition heap_right_child (index : nat) : nat := heap_left_child index + 1.

Section Heap.
  Context {A : Type}.
  Variable cmp : A -> A -> Z.

  (** VL_HEAP_cmp on two positions of the array, /repo/vl/heap-def.h:234-241;
      the user may supply any comparison of elements. *)
  Definition heap_cmp (array : list A) (indexA indexB : nat) : option Z :=
    do a <- aget array indexA; do b <- aget array indexB; Some (cmp a b).

  (** VL_HEAP_up, /repo/vl/heap-def.h:287-321.  The recursion of the C code is
      bounded by [fuel]; [None] also stands for running out of fuel. *)
  Fixpoint heap_up (fuel : nat) (array : list A) (heapSize index : nat) : option (list A) :=
    match fuel with
    | O => None
    | S fuel' =>
      let leftIndex := heap_left_child index in
      let rightIndex := heap_right_child index in
      if heapSize <=? leftIndex then Some array
      else if heapSize <=? rightIndex then
        do c <- heap_cmp array index leftIndex;
        if (0 <? c)%Z then aswap array index leftIndex else Some array
      else
        do c <- heap_cmp array leftIndex rightIndex;
        if (c <? 0)%Z then
          do c2 <- heap_cmp array index leftIndex;
          if (0 <? c2)%Z then
            do array1 <- aswap array index leftIndex;
            heap_up fuel' array1 heapSize leftIndex
          else Some array
        else
          do c2 <- heap_cmp array index rightIndex;
          if (0 <? c2)%Z then
            do array1 <- aswap array index rightIndex;
            heap_up fuel' array1 heapSize rightIndex
          else Some array
    end.

  (** VL_HEAP_down, /repo/vl/heap-def.h:336-350. *)
  Fixpoint heap_down (fuel : nat) (array : list A) (index : nat) : option (list A) :=
    match fuel with
    | O => None
    | S fuel' =>
      if index =? 0 then Some array
      else
        let parentIndex := heap_parent index in
        do c <- heap_cmp array index parentIndex;
        if (c <? 0)%Z then
          do array1 <- aswap array index parentIndex;
          heap_down fuel' array1 parentIndex
        else Some array
    end.

  (** The array and the heapSize variable owned by the user. *)
  Record heap := mk_heap { h_array : list A; h_size : nat }.

  (** VL_HEAP_push, /repo/vl/heap-def.h:368-374. *)
  Definition heap_push (h : heap) : option heap :=
    do a <- heap_down (S (h_size h)) (h_array h) (h_size h);
    Some (mk_heap a (h_size h + 1)).

  (** VL_HEAP_pop, /repo/vl/heap-def.h:399-414; returns the new heap and the
      index of the popped element.  A failing [assert] is [None]. *)
  Definition heap_pop (h : heap) : option (heap * nat) :=
    if h_size h =? 0 then None
    else
      let n := h_size h - 1 in
      do a <- aswap (h_array h) 0 n;
      do a' <- (if 1 <? n then heap_up (S n) a n 0 else Some a);
      Some (mk_heap a' n, n).

  (** VL_HEAP_update, /repo/vl/heap-def.h:439-447. *)
  Definition heap_update (h : heap) (index : nat) : option heap :=
    do a <- heap_up (S (h_size h)) (h_array h) (h_size h) index;
    do a' <- heap_down (S index) a index;
    Some (mk_heap a' (h_size h)).

  (** The user's side of the protocol (see /repo/vl/heap-def.h:30-110): to
      push, the element is first written at position heapSize; to update, the
      element at a position is overwritten first; a popped element is read at
      the returned index. *)
  Inductive heap_op := Push (x : A) | Pop | Update (index : nat) (x : A).

  (** What the user sees of one operation: the popped element, or the element
      overwritten by an update. *)
  Inductive heap_out := OPush | OPop (y : A) | OUpdate (old : A).

  Definition heap_step (h : heap) (o : heap_op) : option (heap * heap_out) :=
    match o with
    | Push x =>
        do a <- aset (h_array h) (h_size h) x;
        do h' <- heap_push (mk_heap a (h_size h));
        Some (h', OPush)
    | Pop =>
        do (h', i) <- heap_pop h;
        do y <- aget (h_array h') i;
        Some (h', OPop y)
    | Update i x =>
        do old <- aget (h_array h) i;
        do a <- aset (h_array h) i x;
        do h' <- heap_update (mk_heap a (h_size h)) i;
        Some (h', OUpdate old)
    end.

  Fixpoint heap_run (h : heap) (ops : list heap_op) : option (heap * list heap_out) :=
    match ops with
    | [] => Some (h, [])
    | o :: ops' =>
        do (h1, out) <- heap_step h o;
        do (h2, outs) <- heap_run h1 ops';
        Some (h2, out :: outs)
    end.
End Heap.
Arguments mk_heap {A}. Arguments h_array {A}. Arguments h_size {A}.
Arguments Push {A}. Arguments Pop {A}. Arguments Update {A}.
Arguments OPush {A}. Arguments OPop {A}. Arguments OUpdate {A}.
