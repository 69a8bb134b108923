(** Batches of queries to a kd-forest, vl/kdtree.c vl_kdforest_query_with_array, and the indexes which
    toolbox/misc/vl_kdtreequery.c returns.  The threads of OpenMP have a searcher and a buffer each; a run is any
    sequence of queries, each done by some thread.  Simplification: a query is one step, so threads are interleaved
    between queries only (within queries they share the forest, which is not written, and the disjoint parts of
    the outputs).  The searchers are not linked to the forest (KdSearchers_Model has the links). *)
From Coq Require Import List ZArith Arith Bool.
From Verif Require Import Base Loop KdTree_Model.
Import ListNotations.
Local Open Scope nat_scope.

(** kdtree.c:886-888: what a thread owns *)
Record thread := mk_thread { th_searcher : searcher; th_neighbors : list nbr; th_count : nat }.
(** kdtree.c:894-895; vl_calloc clears the buffer *)
Definition new_thread (F : forest) (k : nat) (junk : sstate) : thread :=
  mk_thread (new_buffers F junk) (repeat (mk_nbr (Some 0%Z) 0%Z) k) 0.

(** kdtree.c:906, 918: the coordinates of query [qi] *)
Definition query_of (queries : list Z) (dimension qi : nat) : option (list Z) :=
  if qi * dimension + dimension <=? length queries then Some (firstn dimension (skipn (qi * dimension) queries)) else None.

(** kdtree.c:907-912, 919-924: the neighbours of query [qi] are copied; the index is converted to vl_uint32, and there
    may be no array of distances *)
Definition write_out (k qi : nat) (nbs : list nbr) (out : list Z * option (list (option Z))) : option (list Z * option (list (option Z))) :=
  iter k (fun ni s =>
    let '(indexes, distances) := s in
    do v <- aget nbs ni;
    do indexes <- aset indexes (qi * k + ni) (nb_index v mod 2 ^ 32)%Z;
    do distances <- match distances with
                    | None => Some None
                    | Some ds => do ds <- aset ds (qi * k + ni) (nb_dist v); Some (Some ds)
                    end;
    Some (indexes, distances)) out.

(** an iteration of kdtree.c:901-930, by thread [t] *)
Definition batch_step (F : forest) (met : metric) (maxcmp k : nat) (queries : list Z)
    (s : list thread * (list Z * option (list (option Z)))) (e : nat * nat) : option (list thread * (list Z * option (list (option Z)))) :=
  let '(threads, out) := s in
  let '(t, qi) := e in
  do th <- aget threads t;
  do q <- query_of queries (fo_dim F) qi;
  do (se, (nbs, ncmp)) <- run_query F met (th_searcher th) (mk_qcall maxcmp k q (th_neighbors th));
  do out <- write_out k qi nbs out;
  do threads <- aset threads t (mk_thread se nbs (th_count th + ncmp));
  Some (threads, out).
Fixpoint batch_run F met maxcmp k queries s (es : list (nat * nat)) : option (list thread * (list Z * option (list (option Z)))) :=
  match es with
  | [] => Some s
  | e :: es => do s <- batch_step F met maxcmp k queries s e; batch_run F met maxcmp k queries s es
  end.
(** vl_kdforest_query_with_array, kdtree.c:869-942: the outputs and the number of comparisons, for [T] threads doing
    the queries as in [es] *)
Definition query_with_array (F : forest) (met : metric) (maxcmp k T : nat) (junk : sstate) (es : list (nat * nat)) (queries : list Z)
    (out : list Z * option (list (option Z))) : option (list Z * option (list (option Z)) * nat) :=
  do (threads, out) <- batch_run F met maxcmp k queries (repeat (new_thread F k junk) T, out) es;
  Some (out, fold_right (fun t m => th_count t + m) 0 threads).

(** vl_kdtreequery.c:142-143: indexes of MATLAB, in vl_uint32 *)
Definition matlab_indexes (indexes : list Z) : list Z := map (fun i => ((i + 1) mod 2 ^ 32)%Z) indexes.
