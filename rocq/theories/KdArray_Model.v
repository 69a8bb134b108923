(** Conversion of a kd-forest to a MATLAB structure and back, toolbox/misc/kdtree.h.
    The classes and the presence of the fields of the structure are not modelled; the sizes and the contents of the arrays are.
    Errors raised are [Some None]; [None] is an access out of bounds.  Fresh memory is [junk]. *)
From Coq Require Import List ZArith Arith Bool.
From Verif Require Import Base KdTree_Model.
Import ListNotations.
Local Open Scope Z_scope.

(** conversions to int and to vl_uint32 *)
Definition i32 (z : Z) : Z := (z + 2 ^ 31) mod 2 ^ 32 - 2 ^ 31.
Definition u32 (z : Z) : Z := z mod 2 ^ 32.

(** FOREST.TREES(ti), kdtree.h:83-93: fields of nodes, and dataIndex *)
Record tree_array := mk_tree_array {
  a_lower : list Z; a_upper : list Z; a_dim : list Z; a_thr : list Z; a_lb : list ext; a_ub : list ext; a_index : list Z }.
(** FOREST, kdtree.h:76-82; the string of the distance is [None] if neither "l1" nor "l2" *)
Record forest_array := mk_forest_array { a_dimension : nat; a_numData : nat; a_trees : list tree_array; a_distance : option metric }.

(** the value of a child, kdtree.h:150-153 and 423-424 *)
Definition child_out (c : Z) : Z := let a := i32 c in i32 (if 0 <=? a then a + 1 else a).
Definition child_in (c : Z) : Z := if 1 <=? c then c - 1 else c.

(** one tree of new_array_from_kdforest, kdtree.h:118-178: the arrays have as many elements as nodes in use, and as data *)
Definition tree_to_array (numData : nat) (t : kdtree) : option tree_array :=
  do nodes <- omap (fun ni => aget (t_nodes t) ni) (seq 0 (t_used t));
  do index <- omap (fun di => aget (t_index t) di) (seq 0 numData);
  Some (mk_tree_array
    (map (fun n => child_out (n_lower n)) nodes) (map (fun n => child_out (n_upper n)) nodes)
    (map (fun n => u32 (Z.of_nat (n_dim n) + 1)) nodes) (map n_thr nodes) (map n_lb nodes) (map n_ub nodes)
    (map (fun e => u32 (Z.of_nat (e_index e) + 1)) index)).
(** new_array_from_kdforest, kdtree.h:64-181 *)
Definition to_array (F : forest) (dist : metric) : option forest_array :=
  do ts <- omap (tree_to_array (fo_num F)) (fo_trees F);
  Some (mk_forest_array (fo_dim F) (fo_num F) ts (Some dist)).

Definition set_parent (n : kdnode) (p : nat) : kdnode :=
  mk_kdnode p (n_lower n) (n_upper n) (n_dim n) (n_thr n) (n_lb n) (n_ub n).
(** the visit of a child, kdtree.h:41-50; [rec] is the recursive call, an error raised is kept *)
Definition visit (rec : list kdnode -> nat -> nat -> option (option (list kdnode * nat))) (ni : nat) (c : Z) (s : option (list kdnode * nat)) : option (option (list kdnode * nat)) :=
  match s with
  | None => Some None
  | Some (ns, todo) =>
    if 0 <=? c then
      do child <- aget ns (Z.to_nat c);
      do ns <- aset ns (Z.to_nat c) (set_parent child ni);
      rec ns (Z.to_nat c) todo
    else Some (Some (ns, todo))
  end.
(** restore_parent_recursively, kdtree.h:26-51; the result is the nodes and the number of nodes to visit, [fuel] bounds the depth *)
Fixpoint restore (fuel : nat) (ns : list kdnode) (ni : nat) (todo : nat) : option (option (list kdnode * nat)) :=
  match fuel with
  | O => None
  | S fuel =>
    do node <- aget ns ni;
    let lowerChild := n_lower node in
    let upperChild := n_upper node in
    if (todo =? 0)%nat then Some None else
    let todo := (todo - 1)%nat in
    do s <- visit (restore fuel) ni lowerChild (Some (ns, todo));
    visit (restore fuel) ni upperChild s
  end.

(** the loop over the nodes, kdtree.h:395-430; [cnt] nodes from number [ni] *)
Fixpoint load_nodes (dimension numData numUsed : nat) (a : tree_array) (cnt ni : nat) : option (option (list kdnode)) :=
  match cnt with
  | O => Some (Some [])
  | S cnt =>
    do lc <- aget (a_lower a) ni;
    do uc <- aget (a_upper a) ni;
    do d <- aget (a_dim a) ni;
    if (uc <? - i32 (Z.of_nat numData) - 1) || (i32 (Z.of_nat numUsed) <? uc) then Some None else
    if (lc <? - i32 (Z.of_nat numData)) || (i32 (Z.of_nat numUsed) <? lc) then Some None else
    if u32 (Z.of_nat dimension) <? d then Some None else
    do thr <- aget (a_thr a) ni;
    do lb <- aget (a_lb a) ni;
    do ub <- aget (a_ub a) ni;
    do r <- load_nodes dimension numData numUsed a cnt (S ni);
    Some (option_map (fun l => mk_kdnode 0 (child_in lc) (child_in uc) (Z.to_nat (u32 (d - 1))) thr lb ub :: l) r)
  end.

(** one tree of new_kdforest_from_array, kdtree.h:302-448; the depth and the values of the data index are not set *)
Definition tree_from_array (junk_depth : nat) (junk_value : Z) (dimension numData : nat) (a : tree_array) : option (option kdtree) :=
  let numUsed := length (a_lower a) in
  if negb ((length (a_upper a) =? numUsed)%nat && (length (a_dim a) =? numUsed)%nat && (length (a_thr a) =? numUsed)%nat
        && (length (a_lb a) =? numUsed)%nat && (length (a_ub a) =? numUsed)%nat && (length (a_index a) =? numData)%nat) then Some None else
  do ns <- load_nodes dimension numData numUsed a numUsed 0;
  match ns with
  | None => Some None
  | Some ns =>
    let index := map (fun i => mk_entry (Z.to_nat (u32 (i - 1))) junk_value) (a_index a) in
    do s <- restore (S numUsed) ns 0 numUsed;
    match s with
    | None => Some None
    | Some (ns, todo) => if negb (todo =? 0)%nat then Some None else Some (Some (mk_kdtree ns numUsed index junk_depth))
    end
  end.
Fixpoint trees_from_array (junk_depth : nat) (junk_value : Z) (dimension numData : nat) (l : list tree_array) : option (option (list kdtree)) :=
  match l with
  | [] => Some (Some [])
  | a :: l =>
    do t <- tree_from_array junk_depth junk_value dimension numData a;
    match t with
    | None => Some None
    | Some t => do r <- trees_from_array junk_depth junk_value dimension numData l; Some (option_map (cons t) r)
    end
  end.
(** new_kdforest_from_array, kdtree.h:195-453; [data_array] is the number of rows and columns and the contents *)
Definition from_array (junk_depth : nat) (junk_value : Z) (a : forest_array) (data_array : nat * nat * list Z) : option (option (forest * metric)) :=
  match a_distance a with
  | None => Some None
  | Some dist =>
    let '(M, N, data) := data_array in
    if (a_dimension a <? 1)%nat || (a_numData a <? 1)%nat || (length (a_trees a) <? 1)%nat || negb ((M =? a_dimension a)%nat && (N =? a_numData a)%nat) then Some None else
    do ts <- trees_from_array junk_depth junk_value (a_dimension a) (a_numData a) (a_trees a);
    match ts with
    | None => Some None
    | Some ts => Some (Some (mk_forest (a_dimension a) data (a_numData a) ts (fold_left (fun m t => m + t_used t)%nat ts 0%nat), dist))
    end
  end.
