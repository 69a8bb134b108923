(** Model of the list of searchers of a kd-forest, /repo/vl/kdtree.c:387-482.

    Memory is a partial map from addresses to searcher objects; reading or
    writing a freed object is [None].  The address of a new searcher is chosen
    by the allocator: it is an argument of the operation, and must be free.
    Only the fields next and previous are kept; the search buffers are part of
    KdTree_Model. *)
From Coq Require Import List Arith.
From Verif Require Import Base.
Import ListNotations.

(** VlKDForestSearcher, /repo/vl/kdtree.h:120-137: the two links. *)
Record snode := mk_snode { s_next : option nat; s_previous : option nat }.

(** The fields of VlKDForest the code uses, /repo/vl/kdtree.h:84-117, with the
    heap of searcher objects. *)
Record sforest := mk_sforest {
  f_mem : nat -> option snode;
  f_head : option nat;
  f_num : nat }.

Definition mset (m : nat -> option snode) (a : nat) (v : option snode) : nat -> option snode :=
  fun b => if b =? a then v else m b.

(** vl_kdforest_new, /repo/vl/kdtree.c:331-370: no searchers. *)
Definition sforest_new : sforest := mk_sforest (fun _ => None) None 0.

(** The loop of /repo/vl/kdtree.c:396-406: find the last searcher. *)
Fixpoint find_last (fuel : nat) (m : nat -> option snode) (last : nat) : option nat :=
  match fuel with
  | O => None
  | S fuel' =>
    do n <- m last;
    match s_next n with
    | Some b => find_last fuel' m b
    | None => Some last
    end
  end.

(** vl_kdforest_new_searcher, /repo/vl/kdtree.c:387-415. *)
Definition new_searcher (f : sforest) (self : nat) : option sforest :=
  match f_mem f self with
  | Some _ => None
  | None =>
    let m0 := mset (f_mem f) self (Some (mk_snode None None)) in
    if f_num f =? 0 then
      Some (mk_sforest m0 (Some self) (f_num f + 1))
    else
      do h <- f_head f;
      do last <- find_last (S (f_num f)) m0 h;
      do n <- m0 last;
      let m1 := mset m0 last (Some (mk_snode (Some self) (s_previous n))) in
      let m2 := mset m1 self (Some (mk_snode None (Some last))) in
      Some (mk_sforest m2 (f_head f) (f_num f + 1))
  end.

(** vl_kdforestsearcher_delete, /repo/vl/kdtree.c:422-440. *)
Definition searcher_delete (f : sforest) (self : nat) : option sforest :=
  do n <- f_mem f self;
  do (m, h) <-
    match s_previous n, s_next n with
    | Some p, Some q =>
        do pn <- f_mem f p;
        let m1 := mset (f_mem f) p (Some (mk_snode (Some q) (s_previous pn))) in
        do qn <- m1 q;
        Some (mset m1 q (Some (mk_snode (s_next qn) (Some p))), f_head f)
    | Some p, None =>
        do pn <- f_mem f p;
        Some (mset (f_mem f) p (Some (mk_snode None (s_previous pn))), f_head f)
    | None, Some q =>
        do qn <- f_mem f q;
        Some (mset (f_mem f) q (Some (mk_snode (s_next qn) None)), Some q)
    | None, None => Some (f_mem f, None)
    end;
  if f_num f =? 0 then None
  else Some (mk_sforest (mset m self None) h (f_num f - 1)).

(** The loop of vl_kdforest_get_searcher, /repo/vl/kdtree.c:442-452.  The
    outer option is undefined behaviour, the inner one the NULL pointer. *)
Fixpoint get_from (m : nat -> option snode) (last : option nat) (pos : nat) : option (option nat) :=
  match pos, last with
  | S pos', Some a => do n <- m a; get_from m (s_next n) pos'
  | _, _ => Some last
  end.

Definition get_searcher (f : sforest) (pos : nat) : option (option nat) :=
  get_from (f_mem f) (f_head f) pos.

(** The loop of vl_kdforest_delete over the searchers, /repo/vl/kdtree.c:466-468. *)
Fixpoint delete_all (fuel : nat) (f : sforest) : option sforest :=
  match fuel with
  | O => None
  | S fuel' =>
    do s <- get_searcher f 0;
    match s with
    | None => Some f
    | Some a => do f1 <- searcher_delete f a; delete_all fuel' f1
    end
  end.

(** The user's calls. *)
Inductive sop := SNew (a : nat) | SDelete (a : nat).

Definition sstep (f : sforest) (o : sop) : option sforest :=
  match o with
  | SNew a => new_searcher f a
  | SDelete a => searcher_delete f a
  end.

Fixpoint srun (f : sforest) (ops : list sop) : option sforest :=
  match ops with
  | [] => Some f
  | o :: r => do f1 <- sstep f o; srun f1 r
  end.
