(** Trees of integer k-means as MATLAB structures: toolbox/kmeans/vl_hikmeans.c and vl_hikmeanspush.c.
    The options have been parsed; the depth is computed from the number of leaves at the end of the file.
    Errors raised are [Some None]; [None] is an access out of bounds, a failed assertion or a conversion of
    a number that does not fit in an int.  Scalars of the structure are the integers their values truncate to. *)
From Coq Require Import List ZArith Arith Bool Reals.
Import ListNotations.
From Verif Require Import Base Loop Ikm_Model.
Local Open Scope nat_scope.

(** a numeric array, column by column: is it of class INT32, is it a matrix, its sizes and its values *)
Record matrix := mk_matrix { is_int32 : bool; is_matrix : bool; m_rows : nat; m_cols : nat; m_vals : list Z }.
(** an element of a structure array: field centers, and field sub ([None] if empty or missing, [Some None] if not a structure) *)
Inductive mnode := MNode (mcenters : option matrix) (msub : option (option (list mnode))).
(** TREE, vl_hikmeans.c:86-97: fields K and depth ([None] if missing or not plain scalars), and those of the root *)
Record mtree := mk_mtree { is_struct : bool; m_K : option Z; m_depth : option Z; m_root : mnode }.

(** the first n elements of a list through f, in order; [None] if there are fewer *)
Definition omap_first {A B : Type} (f : A -> option B) := fix go (n : nat) (l : list A) {struct l} : option (list B) :=
  match l with
  | [] => match n with O => Some [] | S _ => None end
  | x :: l => match n with O => Some [] | S n => do y <- f x; do ys <- go n l; Some (y :: ys) end
  end.
(** memcpy of the first n values, vl_hikmeans.c:56 and ikmeans_init.tc:84 *)
Definition copy_first (n : nat) (l : list Z) : option (list Z) := omap_first Some n l.

(** xcreate, vl_hikmeans.c:46-76 *)
Fixpoint to_node (nd : node) : option mnode :=
  let 'Node f children := nd in
  do v <- copy_first (fM f * fK f) (centers f);
  let mc := Some (mk_matrix true true (fM f) (fK f) v) in
  match children with
  | None => Some (MNode mc None)
  | Some cs => do ms <- omap_first to_node (fK f) cs; Some (MNode mc (Some (Some ms)))
  end.
(** hikm_to_matlab, vl_hikmeans.c:83-99; the tree has a root *)
Definition to_tree (K depth : nat) (root : node) : option mtree :=
  do m <- to_node root; Some (mk_mtree true (Some (Z.of_nat K)) (Some (Z.of_nat depth)) m).

(** the children of a node, vl_hikmeanspush.c:99-101: [rec] is xcreate, tM is tree->M *)
Definition from_children (rec : nat -> list nat -> mnode -> option (option (node * nat))) (path : list nat) :=
  fix go (k tM : nat) (l : list mnode) {struct l} : option (option (list node * nat)) :=
  match l with
  | [] => Some (Some ([], tM))
  | x :: l =>
    do r <- rec tM (path ++ [k]) x;
    match r with
    | None => Some None
    | Some (c, tM) =>
      do r <- go (k + 1) tM l;
      Some (match r with None => None | Some (cs, tM) => Some (c :: cs, tM) end)
    end
  end.
(** xcreate, vl_hikmeanspush.c:47-104; [junk] is the fresh table of the node at a path *)
Fixpoint from_node (el : bool) (K : nat) (junk : list nat -> nat -> list Z) (tM : nat) (path : list nat) (m : mnode) {struct m} : option (option (node * nat)) :=
  let 'MNode mc ms := m in
  match mc with
  | None => Some None
  | Some c =>
    if negb (is_int32 c) || negb (is_matrix c) then Some None
    else if m_rows c =? 0 then Some None
    else if K <? m_cols c then Some None
    else if negb (tM =? 0) && negb (m_rows c =? tM) then Some None
    else
      do v <- copy_first (m_rows c * m_cols c) (m_vals c);
      do f <- init el v (m_rows c) (m_cols c) 200 (junk path (m_cols c));
      match ms with
      | None => Some (Some (Node f None, if tM =? 0 then m_rows c else tM))
      | Some None => Some None
      | Some (Some l) =>
        if negb (length l =? m_cols c) then Some None
        else
          do r <- from_children (from_node el K junk) path 0 (if tM =? 0 then m_rows c else tM) l;
          Some (match r with None => None | Some (cs, tM) => Some (Node f (Some cs), tM) end)
      end
  end.
(** a conversion of a double to int *)
Definition to_int (v : Z) : option Z := if ((-2147483648 <=? v) && (v <=? 2147483647))%Z then Some v else None.
(** a scalar that is at least one, vl_hikmeanspush.c:129-133 and 135-139 *)
Definition positive_field (v : option Z) : option (option nat) :=
  match v with
  | None => Some None
  | Some v => do v <- to_int v; Some (if (v <? 1)%Z then None else Some (Z.to_nat v))
  end.
(** matlab_to_hikm, vl_hikmeanspush.c:111-148: the root, tree->M and tree->depth *)
Definition from_tree (el : bool) (junk : list nat -> nat -> list Z) (t : mtree) : option (option (node * nat * nat)) :=
  if negb (is_struct t) then Some None
  else
    do K <- positive_field (m_K t);
    match K with
    | None => Some None
    | Some K =>
      do depth <- positive_field (m_depth t);
      match depth with
      | None => Some None
      | Some depth =>
        do r <- from_node el K junk 0 [] (m_root t);
        Some (match r with None => None | Some (root, M) => Some (root, M, depth) end)
      end
    end.

(** ids[j] ++ on a vl_uint32, vl_hikmeanspush.c:239 and vl_hikmeans.c:217 *)
Definition u32_succ (v : Z) : Z := ((v + 1) mod 4294967296)%Z.
(** vl_hikmeanspush: mexFunction, vl_hikmeanspush.c:171-240, for DATA with N columns; [uint8] tells its class *)
Definition hikmeanspush (el : bool) (junk : list nat -> nat -> list Z) (t : mtree) (uint8 : bool) (data : list Z) (N : nat) : option (option (list Z)) :=
  if negb uint8 then Some None
  else
    do r <- from_tree el junk t;
    match r with
    | None => Some None
    | Some (root, M, depth) =>
      do ids <- hikm_push M depth root (repeat 0%Z (depth * N)) data N;
      Some (Some (map u32_succ ids))
    end.
(** vl_hikmeans: mexFunction, vl_hikmeans.c:128-218, for DATA of size M by N; the number of iterations is the
    argument of the option MaxIters, and 200 is set by vl_hikm_new, hikmeans.c:186.  The assertions are
    hikmeans.c:216-218 *)
Definition hikmeans (depth : nat) (el : bool) (maxIters : Z) (uint8 : bool) (M : nat) (K : Z) (ch : chance) (data : list Z) (N : nat) : option (option (mtree * list Z)) :=
  if negb uint8 then Some None
  else if ((K <? 0) || (Z.of_nat N <? K))%Z then Some None
  else if (maxIters <? 1)%Z then Some None
  else if (depth =? 0) || (M =? 0) || (K =? 0)%Z then None
  else
    do root <- hikm_train depth el M (Z.to_nat K) 200 ch data N;
    do t <- to_tree (Z.to_nat K) depth root;
    do asgn <- hikm_push M depth root (repeat 0%Z (depth * N)) data N;
    Some (Some (t, map u32_succ asgn)).

(** the depth, vl_hikmeans.c:194, with real numbers *)
Definition ceil (x : R) : Z := (- Int_part (- x))%Z.
Definition tree_depth (nleaves K : Z) : Z := Z.max 1 (ceil (ln (IZR nleaves) / ln (IZR K))).
