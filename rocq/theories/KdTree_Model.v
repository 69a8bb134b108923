(** Model of the kd-forest of /repo/vl/kdtree.c: construction and queries.

    Simplifications.
    - Data, thresholds and distances are integers computed exactly.  Building a
      tree only compares values, so any finite set of floats is covered up to a
      common scale; rounding of distances and of the lower bounds is not
      modelled, nor are infinities and NaN in the data.
    - The statistics of /repo/vl/kdtree.c:184-258 (sampled mean and variance of
      each dimension, the heap of the most varying dimensions and the random
      choice among them) are replaced by an arbitrary function [choose] of the
      node and of the data in its range: either no dimension varies, or a
      dimension and its computed mean.
    - qsort of the C library is an arbitrary function [sorter]; the theorems
      assume it sorts.
    - The arrays obtained from malloc hold arbitrary contents [junk].
    - Counters are unbounded except where the C code relies on wrap-around. *)
From Coq Require Import List ZArith Arith Bool.
From Verif Require Import Base Heap_Model.
Import ListNotations.
Local Open Scope Z_scope.

(** Bounds: doubles that may be infinite. *)
Inductive ext := NInf | Fin (z : Z) | PInf.

(** struct _VlKDTreeNode, /repo/vl/kdtree.h:27-36. *)
Record kdnode := mk_kdnode {
  n_parent : nat; n_lower : Z; n_upper : Z; n_dim : nat; n_thr : Z; n_lb : ext; n_ub : ext }.

(** struct _VlKDTreeDataIndexEntry, /repo/vl/kdtree.h:45-49. *)
Record entry := mk_entry { e_index : nat; e_value : Z }.

(** VlKDTree, /repo/vl/kdtree.h:64-71; numAllocatedNodes is the length of the
    list of nodes. *)
Record kdtree := mk_kdtree {
  t_nodes : list kdnode; t_used : nat; t_index : list entry; t_depth : nat }.

(** VlKDTreeThresholdingMethod, /repo/vl/kdtree.h:52-56. *)
Inductive method := MEDIAN | MEAN.

(** Changing one field of a node. *)
Definition set_children (n : kdnode) (lo up : Z) : kdnode :=
  mk_kdnode (n_parent n) lo up (n_dim n) (n_thr n) (n_lb n) (n_ub n).
Definition set_dim (n : kdnode) (d : nat) : kdnode :=
  mk_kdnode (n_parent n) (n_lower n) (n_upper n) d (n_thr n) (n_lb n) (n_ub n).
Definition set_thr (n : kdnode) (t : Z) : kdnode :=
  mk_kdnode (n_parent n) (n_lower n) (n_upper n) (n_dim n) t (n_lb n) (n_ub n).
Definition set_bounds (n : kdnode) (lb ub : ext) : kdnode :=
  mk_kdnode (n_parent n) (n_lower n) (n_upper n) (n_dim n) (n_thr n) lb ub.

Definition with_node (t : kdtree) (ni : nat) (f : kdnode -> kdnode) : option kdtree :=
  do n <- aget (t_nodes t) ni;
  do ns <- aset (t_nodes t) ni (f n);
  Some (mk_kdtree ns (t_used t) (t_index t) (t_depth t)).

(** vl_kdtree_node_new, /repo/vl/kdtree.c:119-135; the failing assertion is
    [None]. *)
Definition node_new (t : kdtree) (parent : nat) : option (kdtree * nat) :=
  let ni := t_used t in
  do n <- aget (t_nodes t) ni;
  do ns <- aset (t_nodes t) ni (mk_kdnode parent 0 0 0 0 (n_lb n) (n_ub n));
  Some (mk_kdtree ns (S ni) (t_index t) (t_depth t), ni).

Section Build.
  Variable data : list Z.                (* numData x dimension values *)
  Variable dimension : nat.
  Variable meth : method.
  Variable choose : nat -> list nat -> option (nat * Z).
  Variable sorter : list entry -> list entry.

  (** data[di * dimension + d] *)
  Definition datum (di d : nat) : option Z := aget data (di * dimension + d)%nat.

  (** /repo/vl/kdtree.c:262-277: store the value of each datum of the range;
      [cnt] data from position [i]. *)
  Fixpoint set_values (idx : list entry) (d i cnt : nat) : option (list entry) :=
    match cnt with
    | O => Some idx
    | S cnt' =>
      do en <- aget idx i;
      do v <- datum (e_index en) d;
      do idx1 <- aset idx i (mk_entry (e_index en) v);
      set_values idx1 d (S i) cnt'
    end.

  (** The entries at positions b <= i < e. *)
  Definition range {A} (l : list A) (b e : nat) : list A := firstn (e - b) (skipn b l).

  (** qsort on the range, /repo/vl/kdtree.c:278-281. *)
  Definition sort_range (idx : list entry) (b e : nat) : option (list entry) :=
    if (e <=? length idx)%nat then
      Some (firstn b idx ++ sorter (range idx b e) ++ skipn e idx)
    else None.

  (** /repo/vl/kdtree.c:287-289: the first position of the range whose value
      exceeds the threshold. *)
  Fixpoint scan (idx : list entry) (i cnt : nat) (thr : Z) : option nat :=
    match cnt with
    | O => Some i
    | S cnt' =>
      do en <- aget idx i;
      if e_value en <=? thr then scan idx (S i) cnt' thr else Some i
    end.

  Definition usize (x : Z) : Z := x mod 2 ^ 64.

  (** /repo/vl/kdtree.c:284-311.  The result is splitIndex + 1, the first
      position of the upper part, and the threshold.  splitIndex is a vl_uindex
      and wraps around. *)
  Definition threshold (idx : list entry) (b e : nat) (mean : Z) : option (nat * Z) :=
    let median :=
      let m := ((b + e - 1) / 2)%nat in
      do en <- aget idx m; Some (S m, e_value en) in
    match meth with
    | MEAN =>
      do i <- scan idx b (e - b) mean;
      let splitIndex := usize (Z.of_nat i - 1) in
      if (Z.of_nat b <=? splitIndex) && (usize (splitIndex + 1) <? Z.of_nat e)
      then Some (Z.to_nat (usize (splitIndex + 1)), mean)
      else median
    | MEDIAN => median
    end.

  (** vl_kdtree_build_recursively, /repo/vl/kdtree.c:165-317. *)
  Fixpoint build_rec (fuel : nat) (t : kdtree) (ni b e depth : nat) : option kdtree :=
    match fuel with
    | O => None
    | S fuel' =>
      if (e - b <=? 1)%nat then
        with_node (mk_kdtree (t_nodes t) (t_used t) (t_index t) (Nat.max (t_depth t) depth)) ni
          (fun n => set_children n (- Z.of_nat b - 1) (- Z.of_nat e - 1))
      else
        match choose ni (map e_index (range (t_index t) b e)) with
        | None => with_node t ni (fun n => set_children n (- Z.of_nat b - 1) (- Z.of_nat e - 1))
        | Some (d, mean) =>
          do t1 <- with_node t ni (fun n => set_dim n d);
          do idx1 <- set_values (t_index t1) d b (e - b);
          do idx2 <- sort_range idx1 b e;
          do (s, thr) <- threshold idx2 b e mean;
          do t2 <- with_node (mk_kdtree (t_nodes t1) (t_used t1) idx2 (t_depth t1)) ni
                     (fun n => set_thr n thr);
          do (t3, lo) <- node_new t2 ni;
          do t4 <- with_node t3 ni (fun n => set_children n (Z.of_nat lo) (n_upper n));
          do t5 <- build_rec fuel' t4 lo b s (S depth);
          do (t6, up) <- node_new t5 ni;
          do t7 <- with_node t6 ni (fun n => set_children n (n_lower n) (Z.of_nat up));
          build_rec fuel' t7 up s e (S depth)
        end
    end.

  (** One iteration of the first loop of vl_kdforest_build,
      /repo/vl/kdtree.c:543-559. *)
  Definition build_tree (junk : kdnode) (numData : nat) : option kdtree :=
    let t0 := mk_kdtree (repeat junk (2 * numData - 1)) 0
                (map (fun di => mk_entry di 0) (seq 0 numData)) 0 in
    do (t1, root) <- node_new t0 0;
    build_rec (2 * numData) t1 root 0 numData 0.
End Build.

(** vl_kdtree_calc_bounds_recursively, /repo/vl/kdtree.c:490-513. *)
Fixpoint calc_bounds (fuel : nat) (ns : list kdnode) (ni : nat) (sb : list ext)
  : option (list kdnode * list ext) :=
  match fuel with
  | O => None
  | S fuel' =>
    do n <- aget ns ni;
    let i := n_dim n in
    let t := n_thr n in
    do lb <- aget sb (2 * i + 0)%nat;
    do ub <- aget sb (2 * i + 1)%nat;
    do ns1 <- aset ns ni (set_bounds n lb ub);
    do (ns2, sb2) <-
      (if 0 <? n_lower n then
         do sb1 <- aset sb (2 * i + 1)%nat (Fin t);
         do (ns', sb') <- calc_bounds fuel' ns1 (Z.to_nat (n_lower n)) sb1;
         do sb'' <- aset sb' (2 * i + 1)%nat ub;
         Some (ns', sb'')
       else Some (ns1, sb));
    (if 0 <? n_upper n then
       do sb1 <- aset sb2 (2 * i + 0)%nat (Fin t);
       do (ns', sb') <- calc_bounds fuel' ns2 (Z.to_nat (n_upper n)) sb1;
       do sb'' <- aset sb' (2 * i + 0)%nat lb;
       Some (ns', sb'')
     else Some (ns2, sb2))
  end.

(** VlKDForest after vl_kdforest_build, /repo/vl/kdtree.h:84-117. *)
Record forest := mk_forest {
  fo_dim : nat; fo_data : list Z; fo_num : nat; fo_trees : list kdtree; fo_max_nodes : nat }.

(** The initial bounds, /repo/vl/kdtree.c:564-569. *)
Fixpoint inf_bounds (dimension : nat) : list ext :=
  match dimension with O => [] | S d => NInf :: PInf :: inf_bounds d end.

(** The second loop of vl_kdforest_build on one tree, /repo/vl/kdtree.c:563-572. *)
Definition tree_bounds (dimension : nat) (t : kdtree) : option kdtree :=
  do (ns, _) <- calc_bounds (S (t_used t)) (t_nodes t) 0 (inf_bounds dimension);
  Some (mk_kdtree ns (t_used t) (t_index t) (t_depth t)).

Fixpoint omap {A B} (f : A -> option B) (l : list A) : option (list B) :=
  match l with
  | [] => Some []
  | x :: r => do y <- f x; do ys <- omap f r; Some (y :: ys)
  end.

(** vl_kdforest_build, /repo/vl/kdtree.c:529-577; one [choose] function per tree. *)
Definition forest_build (junk : kdnode) (dimension : nat) (meth : method)
    (chooses : list (nat -> list nat -> option (nat * Z)))
    (sorter : list entry -> list entry) (numData : nat) (data : list Z) : option forest :=
  if (numData =? 0)%nat then None
  else
    do ts <- omap (fun ch => build_tree data dimension meth ch sorter junk numData) chooses;
    do ts' <- omap (tree_bounds dimension) ts;
    Some (mk_forest dimension data numData ts' (fold_right (fun t n => (t_used t + n)%nat) 0%nat ts)).

(** VlKDForestSearchState, /repo/vl/kdtree.h:73-78; the tree by its number. *)
Record sstate := mk_sstate { ss_tree : nat; ss_node : nat; ss_dist : Z }.

(** VlKDForestNeighbor, /repo/vl/kdtree.h:59-62.  The index is unsigned; the
    distance is [None] for NaN. *)
Record nbr := mk_nbr { nb_dist : option Z; nb_index : Z }.

(** The comparisons of the two heaps, /repo/vl/kdtree.c:97-110.  NaN entries
    are never inside the heap; they are given the key 0. *)
Definition nb_key (a : nbr) : Z := match nb_dist a with Some z => z | None => 0 end.
Definition nb_cmp (a b : nbr) : Z := nb_key b - nb_key a.
Definition ss_cmp (a b : sstate) : Z := ss_dist a - ss_dist b.

(** VlKDForestSearcher, /repo/vl/kdtree.h:120-137, and the neighbours being
    collected. *)
Record qstate := mk_qstate {
  q_book : list nat; q_id : nat; q_ncmp : nat;
  q_heap : heap (A:=sstate); q_nbs : heap (A:=nbr) }.

(** The two distances, in exact arithmetic; /repo/vl/mathop.c:
    _vl_distance_l2, _vl_distance_l1 (the former is squared). *)
Inductive metric := L1 | L2.
Definition term (m : metric) (z : Z) : Z := match m with L1 => Z.abs z | L2 => z * z end.

Definition ext_le (x : Z) (b : ext) : bool :=   (* x <= b *)
  match b with NInf => false | Fin z => x <=? z | PInf => true end.
Definition ext_gt (x : Z) (b : ext) : bool :=   (* x > b *)
  match b with NInf => true | Fin z => z <? x | PInf => false end.
Definition ext_val (b : ext) : Z := match b with Fin z => z | _ => 0 end.

Section Query.
  Variable F : forest.
  Variable met : metric.
  Variable maxcmp : nat.         (* searchMaxNumComparisons, 0 = no limit *)
  Variable numNeighbors : nat.
  Variable query : list Z.

  (** distanceFunction (dimension, query, data + di * dimension); coordinates
      [d .. d + cnt). *)
  Fixpoint distance (di d cnt : nat) : option Z :=
    match cnt with
    | O => Some 0
    | S cnt' =>
      do q <- aget query d;
      do x <- aget (fo_data F) (di * fo_dim F + d)%nat;
      do r <- distance di (S d) cnt';
      Some (term met (q - x) + r)
    end.

  Definition budget (q : qstate) : bool := (maxcmp =? 0)%nat || (q_ncmp q <? maxcmp)%nat.

  (** /repo/vl/kdtree.c:656-671: add a datum to the result set. *)
  Definition add_neighbor (h : heap (A:=nbr)) (di : nat) (dist : Z) : option (heap (A:=nbr)) :=
    let nb := mk_nbr (Some dist) (Z.of_nat di) in
    if (h_size h <? numNeighbors)%nat then
      do a <- aset (h_array h) (h_size h) nb;
      heap_push nb_cmp (mk_heap a (h_size h))
    else
      do largest <- aget (h_array h) 0;
      if dist <? nb_key largest then
        do a <- aset (h_array h) 0 nb;
        heap_update nb_cmp (mk_heap a (h_size h)) 0
      else Some h.

  (** The loop over the data of a leaf, /repo/vl/kdtree.c:622-672. *)
  Fixpoint leaf_loop (idx : list entry) (iter cnt : nat) (q : qstate) : option qstate :=
    match cnt with
    | O => Some q
    | S cnt' =>
      if budget q then
        do en <- aget idx iter;
        let di := e_index en in
        do mark <- aget (q_book q) di;
        if (mark =? q_id q)%nat then leaf_loop idx (S iter) cnt' q
        else
          do book <- aset (q_book q) di (q_id q);
          do dist <- distance di 0 (fo_dim F);
          do nbs <- add_neighbor (q_nbs q) di dist;
          leaf_loop idx (S iter) cnt'
            (mk_qstate book (q_id q) (S (q_ncmp q)) (q_heap q) nbs)
      else Some q
    end.

  (** vl_kdforest_query_recursively, /repo/vl/kdtree.c:584-727. *)
  Fixpoint query_rec (fuel : nat) (q : qstate) (ti ni : nat) (dist : Z) : option qstate :=
    match fuel with
    | O => None
    | S fuel' =>
      do t <- aget (fo_trees F) ti;
      do n <- aget (t_nodes t) ni;
      let x1 := n_lb n in
      let x2 := n_thr n in
      let x3 := n_ub n in
      do x <- aget query (n_dim n);
      if n_lower n <? 0 then
        let b := Z.to_nat (- n_lower n - 1) in
        let e := Z.to_nat (- n_upper n - 1) in
        leaf_loop (t_index t) b (e - b) q
      else
        let saveDist0 := dist + (x - x2) * (x - x2) in
        let '(nextChild, saveChild, saveDist) :=
          if x <=? x2 then
            (n_lower n, n_upper n,
             if ext_le x x1 then saveDist0 - (x - ext_val x1) * (x - ext_val x1) else saveDist0)
          else
            (n_upper n, n_lower n,
             if ext_gt x x3 then saveDist0 - (x - ext_val x3) * (x - ext_val x3) else saveDist0) in
        do push <-
          (if (h_size (q_nbs q) <? numNeighbors)%nat then Some true
           else do largest <- aget (h_array (q_nbs q)) 0; Some (saveDist <? nb_key largest));
        do q1 <-
          (if push : bool then
             do a <- aset (h_array (q_heap q)) (h_size (q_heap q))
                       (mk_sstate ti (Z.to_nat saveChild) saveDist);
             do h <- heap_push ss_cmp (mk_heap a (h_size (q_heap q)));
             Some (mk_qstate (q_book q) (q_id q) (q_ncmp q) h (q_nbs q))
           else Some q);
        query_rec fuel' q1 ti (Z.to_nat nextChild) dist
    end.

  (** /repo/vl/kdtree.c:793-803: put the roots into the search heap. *)
  Fixpoint push_roots (h : heap (A:=sstate)) (ti cnt : nat) : option (heap (A:=sstate)) :=
    match cnt with
    | O => Some h
    | S cnt' =>
      do a <- aset (h_array h) (h_size h) (mk_sstate ti 0 0);
      do h1 <- heap_push ss_cmp (mk_heap a (h_size h));
      push_roots h1 (S ti) cnt'
    end.

  (** The branch and bound loop, /repo/vl/kdtree.c:806-832. *)
  Fixpoint search_loop (fuel : nat) (q : qstate) : option qstate :=
    match fuel with
    | O => None
    | S fuel' =>
      if budget q then
        if (h_size (q_heap q) =? 0)%nat then Some q
        else
          do (h, i) <- heap_pop ss_cmp (q_heap q);
          do s <- aget (h_array h) i;
          let q1 := mk_qstate (q_book q) (q_id q) (q_ncmp q) h (q_nbs q) in
          do stop <-
            (if (h_size (q_nbs q) =? numNeighbors)%nat then
               do largest <- aget (h_array (q_nbs q)) 0; Some (nb_key largest <? ss_dist s)
             else Some false);
          if stop : bool then Some q1
          else
            do q2 <- query_rec (S (fo_max_nodes F)) q1 (ss_tree s) (ss_node s) (ss_dist s);
            search_loop fuel' q2
      else Some q
    end.

  (** /repo/vl/kdtree.c:835-838: mark the unfilled neighbours; [cnt] entries
      from position [i].  The index -1 is converted to vl_uindex. *)
  Fixpoint mark_unfilled (a : list nbr) (i cnt : nat) : option (list nbr) :=
    match cnt with
    | O => Some a
    | S cnt' => do a1 <- aset a i (mk_nbr None (2 ^ 64 - 1)); mark_unfilled a1 (S i) cnt'
    end.

  (** /repo/vl/kdtree.c:840-842: heap sort by popping. *)
  Fixpoint pop_all (n : nat) (h : heap (A:=nbr)) : option (heap (A:=nbr)) :=
    match n with
    | O => Some h
    | S n' => do (h1, _) <- heap_pop nb_cmp h; pop_all n' h1
    end.

  (** vl_kdforestsearcher_query, /repo/vl/kdtree.c:773-847.  [neighbors] is the
      user's output array, with arbitrary contents.  The result is the state of
      the searcher, the neighbours and the returned number of comparisons. *)
  Definition searcher_query (book : list nat) (id : nat) (harr : list sstate) (neighbors : list nbr)
    : option (list nat * nat * list sstate * list nbr * nat) :=
    if (numNeighbors =? 0)%nat then None
    else
      do h0 <- push_roots (mk_heap harr 0) 0 (length (fo_trees F));
      do q <- search_loop (S (fo_max_nodes F))
                (mk_qstate book (S id) 0 h0 (mk_heap neighbors 0));
      let added := h_size (q_nbs q) in
      do a1 <- mark_unfilled (h_array (q_nbs q)) added (numNeighbors - added);
      do h <- pop_all added (mk_heap a1 added);
      Some (q_book q, q_id q, h_array (q_heap q), h_array h, q_ncmp q).
End Query.

(** The buffers of vl_kdforest_new_searcher, /repo/vl/kdtree.c:411-413. *)
Record searcher := mk_searcher { se_book : list nat; se_id : nat; se_heap : list sstate }.
Definition new_buffers (F : forest) (junk : sstate) : searcher :=
  mk_searcher (repeat 0%nat (fo_num F)) 0 (repeat junk (fo_max_nodes F)).

(** One query of a history: the budget in force, the number of neighbours, the
    query point and the initial contents of the output array. *)
Record qcall := mk_qcall { c_max : nat; c_k : nat; c_query : list Z; c_out : list nbr }.

Definition run_query (F : forest) (met : metric) (s : searcher) (c : qcall)
  : option (searcher * (list nbr * nat)) :=
  do (book, id, harr, out, ncmp) <-
    searcher_query F met (c_max c) (c_k c) (c_query c) (se_book s) (se_id s) (se_heap s) (c_out c);
  Some (mk_searcher book id harr, (out, ncmp)).

Fixpoint run_queries (F : forest) (met : metric) (s : searcher) (cs : list qcall)
  : option (list (list nbr * nat)) :=
  match cs with
  | [] => Some []
  | c :: r => do (s1, o) <- run_query F met s c; do os <- run_queries F met s1 r; Some (o :: os)
  end.
