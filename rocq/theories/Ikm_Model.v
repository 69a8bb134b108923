(** Integer k-means and hierarchical integer k-means: vl/ikmeans.c, ikmeans_init.tc,
    ikmeans_lloyd.tc, ikmeans_elkan.tc, hikmeans.c.  Accumulators (32 bits) are unbounded integers;
    the random permutations and the contents of fresh memory are inputs.  [None] is an access out
    of bounds, or fuel exhausted. *)
From Coq Require Import List Arith ZArith Bool.
Import ListNotations.
From Verif Require Import Base Loop.
Local Open Scope nat_scope.

(** VL_IKMACC_MAX, ikmeans.h:27 *)
Definition acc_max : Z := 2147483647.
(** the squared distance of two vectors, the first at position oa of a, the second at ob of b; the
    inner loops of ikmeans.c:199-202, ikmeans_elkan.tc:30-33, ikmeans_lloyd.tc:56-60, ikmeans_init.tc:33-42 *)
Definition dist2 (M : nat) (a : list Z) (oa : nat) (b : list Z) (ob : nat) : option Z :=
  iter M (fun i acc => do p <- aget a (oa + i); do q <- aget b (ob + i); Some (acc + (p - q) * (p - q))%Z) 0%Z.
(** (vl_uint32)-1 *)
Definition no_center : Z := 4294967295.

(** vl_ikm_push_one, ikmeans.c:184-211, for the datum at position o *)
Definition push_one (M K : nat) (centers data : list Z) (o : nat) : option Z :=
  do best <- iter K (fun k (best : option (nat * Z)) =>
    do dist <- dist2 M data o centers (k * M);
    Some (match best with
          | None => Some (k, dist)
          | Some (_, bd) => if (dist <? bd)%Z then Some (k, dist) else best
          end)) None;
  Some (match best with Some (k, _) => Z.of_nat k | None => no_center end).

(** ** Elkan's tables *)
(** vl_ikm_elkan_update_inter_dist, ikmeans_elkan.tc:20-38; also ikmeans_elkan.tc:200-212 *)
Definition update_inter (M K : nat) (centers inter : list Z) : option (list Z) :=
  iter K (fun k inter => iter K (fun kp inter =>
    do dist <- (if k =? kp then Some 0%Z else dist2 M centers (kp * M) centers (k * M));
    do inter <- aset inter (kp * K + k) (Z.shiftr dist 2);
    aset inter (k * K + kp) (Z.shiftr dist 2)) inter) inter.
(** vl_ikm_push_elkan for one datum, ikmeans_elkan.tc:333-352 *)
Definition push_elkan_one (M K : nat) (centers inter data : list Z) (o : nat) : option Z :=
  do (cx, _) <- iter K (fun c (st : nat * Z) =>
    let (cx, best) := st in
    do d <- aget inter (K * cx + c);
    if (d <? best)%Z then
      do dist <- dist2 M data o centers (c * M);
      Some (if (dist <? best)%Z then (c, dist) else (cx, best))
    else Some (cx, best)) (0, acc_max);
  Some (Z.of_nat cx).

(** ** The quantiser: [elkan] is the method; [inter] is empty for Lloyd *)
Record ikm := mk_ikm { elkan : bool; fM : nat; fK : nat; centers : list Z; inter : list Z; niters : nat }.
(** vl_ikm_push, ikmeans.c:163-171, ikmeans_lloyd.tc:124-131: asgn has N entries *)
Definition push_datum (f : ikm) (data : list Z) (o : nat) : option Z :=
  if elkan f then push_elkan_one (fM f) (fK f) (centers f) (inter f) data o else push_one (fM f) (fK f) (centers f) data o.
Definition push (f : ikm) (asgn data : list Z) (N : nat) : option (list Z) :=
  iter N (fun x asgn => do c <- push_datum f data (x * fM f); aset asgn x c) asgn.

(** vl_ikm_init, vl_ikm_init_helper, ikmeans_init.tc:64-86, ikmeans_elkan.tc:45-53; [junk] is the fresh table *)
Definition init (el : bool) (cs : list Z) (M K nit : nat) (junk : list Z) : option ikm :=
  if el then do i <- update_inter M K cs junk; Some (mk_ikm el M K cs i nit) else Some (mk_ikm el M K cs [] nit).

(** vl_ikm_init_rand_data, ikmeans_init.tc:120-162; [order] lists the data sorted by random keys.
    N - 1 wraps around when N is zero *)
Definition dup (M : nat) (cs data : list Z) (k o : nat) : option bool :=
  iter k (fun prevk (found : bool) =>
    if found then Some true else do d <- dist2 M cs (prevk * M) data o; Some (d =? 0)%Z) false.
Fixpoint search (fuel M : nat) (cs data : list Z) (order : list nat) (last : Z) (k j : nat) : option nat :=
  match fuel with
  | O => None
  | S fuel =>
    if (Z.of_nat j <? last)%Z then
      do p <- aget order j;
      do d <- dup M cs data k (p * M);
      if d then search fuel M cs data order last k (j + 1) else Some j
    else Some j
  end.
Definition pick (M N : nat) (data : list Z) (order : list nat) (k : nat) (st : list Z * nat) : option (list Z * nat) :=
  let (cs, j) := st in
  let last := if N =? 0 then (2 ^ 64 - 1)%Z else (Z.of_nat N - 1)%Z in
  do j <- search (N + 1) M cs data order last k j;
  do p <- aget order j;
  do cs <- iter M (fun i cs => do v <- aget data (p * M + i); aset cs (k * M + i) v) cs;
  Some (cs, if (Z.of_nat j <? last)%Z then j + 1 else j).
Definition init_rand_data (el : bool) (data : list Z) (M N K nit : nat) (order : list nat) (junk : list Z) : option ikm :=
  do (cs, _) <- iter K (pick M N data order) (repeat 0%Z (M * K), 0);
  init el cs M K nit junk.

(** ** Means, ikmeans_lloyd.tc:82-107, ikmeans_elkan.tc:138-162.  [counts] has N entries of which
    the first K are cleared. *)
Definition clear_counts (K N : nat) : option (list Z) := if K <=? N then Some (repeat 0%Z N) else None.
Definition accumulate (M N : nat) (data : list Z) (asgn : list Z) (st : list Z * list Z) : option (list Z * list Z) :=
  iter N (fun x (st : list Z * list Z) =>
    let (sums, counts) := st in
    do cx <- aget asgn x;
    do n <- zget counts cx;
    do counts <- zset counts cx (n + 1)%Z;
    do sums <- iter M (fun i sums =>
      do v <- aget data (x * M + i);
      do s <- zget sums (cx * Z.of_nat M + Z.of_nat i)%Z;
      zset sums (cx * Z.of_nat M + Z.of_nat i)%Z (s + v)%Z) sums;
    Some (sums, counts)) st.
Definition normalize (M K : nat) (counts sums : list Z) : option (list Z) :=
  iter K (fun c sums =>
    do n <- aget counts c;
    if (0 <? n)%Z then
      iter M (fun i sums => do s <- aget sums (c * M + i); aset sums (c * M + i) (Z.quot s n)) sums
    else Some sums) sums.
Definition means (M K N : nat) (data asgn : list Z) : option (list Z) :=
  do counts <- clear_counts K N;
  do (sums, counts) <- accumulate M N data asgn (repeat 0%Z (M * K), counts);
  normalize M K counts sums.

(** vl_ikm_train_lloyd, ikmeans_lloyd.tc:33-113 (the overflow flag is not modelled); [asgn] starts
    with the contents of fresh memory.  The result tells whether the assignments became stable. *)
Definition lloyd_assign (M K N : nat) (cs data asgn : list Z) : option (list Z * bool) :=
  iter N (fun j (st : list Z * bool) =>
    let (asgn, done) := st in
    do best <- push_one M K cs data (j * M);
    do a <- aget asgn j;
    (* a cluster index is compared with -1, not with its unsigned value *)
    if (a =? best)%Z && negb (best =? no_center)%Z then Some (asgn, done)
    else do asgn <- aset asgn j best; Some (asgn, false)) (asgn, true).
Fixpoint lloyd_loop (fuel M K N : nat) (nit : nat) (data : list Z) (it : nat) (cs asgn : list Z) : option (list Z * list Z * bool * nat) :=
  match fuel with
  | O => None
  | S fuel =>
    do (asgn, done) <- lloyd_assign M K N cs data asgn;
    if done || (it =? nit) then Some (cs, asgn, done, it) else
    do cs <- means M K N data asgn;
    lloyd_loop fuel M K N nit data (it + 1) cs asgn
  end.

(** vl_ikm_train_elkan, ikmeans_elkan.tc:63-313.  The lower bounds are indexed by c * N + x. *)
Record bounds := mk_bounds { asg : list Z; up : list Z; stale : list bool; low : list Z }.
(** the first assignment of datum x, ikmeans_elkan.tc:89-127 *)
Definition elkan_first (M K N : nat) (cs d data : list Z) (x : nat) (b : bounds) : option bounds :=
  do dist <- dist2 M data (x * M) cs 0;
  do l <- aset (low b) x dist;
  do (cx, best, l) <- iter_from (K - 1) 1 (fun c (st : nat * Z * list Z) =>
    let '(cx, best, l) := st in
    do dd <- aget d (K * cx + c);
    if (dd <? best)%Z then
      do dist <- dist2 M data (x * M) cs (c * M);
      do l <- aset l (N * c + x) dist;
      Some (if (dist <? best)%Z then (c, dist, l) else (cx, best, l))
    else Some (cx, best, l)) (0, dist, l);
  do a <- aset (asg b) x (Z.of_nat cx);
  do u <- aset (up b) x best;
  Some (mk_bounds a u (stale b) l).
(** the bounds after center c moved by the squared distance dist, ikmeans_elkan.tc:178-196 *)
Definition move_datum (N c : nat) (dist : Z) (x : nat) (b : bounds) : option bounds :=
  do lxc <- aget (low b) (c * N + x);
  do cx <- aget (asg b) x;
  let lxc := if (dist <? lxc)%Z then (lxc + dist - 2 * (Z.sqrt lxc + 1) * (Z.sqrt dist + 1))%Z else 0%Z in
  do l <- aset (low b) (c * N + x) lxc;
  if (Z.of_nat c =? cx)%Z then
    do ux <- aget (up b) x;
    do u <- aset (up b) x (ux + dist + 2 * (Z.sqrt ux + 1) * (Z.sqrt dist + 1))%Z;
    do r <- aset (stale b) x true;
    Some (mk_bounds (asg b) u r l)
  else Some (mk_bounds (asg b) (up b) (stale b) l).
(** ikmeans_elkan.tc:167-197: the new center is copied and its displacement measured *)
Definition move_center (M N : nat) (m : list Z) (c : nat) (st : list Z * bounds) : option (list Z * bounds) :=
  let (cs, b) := st in
  do (dist, cs) <- iter M (fun i (st : Z * list Z) =>
    let (dist, cs) := st in
    do new <- aget m (c * M + i);
    do old <- aget cs (c * M + i);
    do cs <- aset cs (c * M + i) new;
    Some ((dist + (new - old) * (new - old))%Z, cs)) (0%Z, cs);
  do b <- iter N (move_datum N c dist) b;
  Some (cs, b).
(** s_pt, ikmeans_elkan.tc:215-222 *)
Definition closest (K : nat) (d : list Z) : option (list Z) :=
  iter K (fun c out =>
    do best <- iter K (fun cp best =>
      do dist <- aget d (c * K + cp);
      Some (if negb (c =? cp) && (dist <? best)%Z then dist else best)) acc_max;
    Some (out ++ [Z.shiftr best 2])) [].
(** one datum, ikmeans_elkan.tc:240-290; [cx] stays the center at the beginning *)
Definition compare_center (M K N : nat) (cs d data : list Z) (x : nat) (cx : Z) (c : nat) (st : bounds * Z * bool) : option (bounds * Z * bool) :=
  let '(b, ux, done) := st in
  if (Z.of_nat c =? cx)%Z then Some (b, ux, done) else
  do l <- aget (low b) (N * c + x);
  do dd <- zget d (Z.of_nat (K * c) + cx)%Z;
  if (ux <=? l)%Z || (ux <=? dd)%Z then Some (b, ux, done) else
  do s <- aget (stale b) x;
  do (b, ux, skip) <- (if s then
      do dist <- dist2 M data (x * M) cs (Z.to_nat cx * M);
      do u <- aset (up b) x dist;
      do r <- aset (stale b) x false;
      Some (mk_bounds (asg b) u r (low b), dist, (dist <=? l)%Z || (dist <=? dd)%Z)
    else Some (b, ux, false));
  if skip then Some (b, ux, done) else
  do dist <- dist2 M data (x * M) cs (c * M);
  do l <- aset (low b) (N * c + x) dist;
  let b := mk_bounds (asg b) (up b) (stale b) l in
  if (dist <? ux)%Z then
    do u <- aset (up b) x dist;
    do a <- aset (asg b) x (Z.of_nat c);
    Some (mk_bounds a u (stale b) (low b), dist, false)
  else Some (b, ux, done).
(** ikmeans_elkan.tc:229-291 *)
Definition assign_datum (M K N : nat) (cs d s data : list Z) (x : nat) (st : bounds * bool) : option (bounds * bool) :=
  let (b, done) := st in
  do cx <- aget (asg b) x;
  do ux <- aget (up b) x;
  do sx <- zget s cx;
  if (ux <=? sx)%Z then Some (b, done) else
  do (b, _, done) <- iter K (compare_center M K N cs d data x cx) (b, ux, done);
  Some (b, done).
(** one pass, ikmeans_elkan.tc:133-297 *)
Definition elkan_pass (M K N : nat) (data cs d : list Z) (b : bounds) : option (list Z * list Z * bounds * bool) :=
  do m <- means M K N data (asg b);
  do (cs, b) <- iter K (move_center M N m) (cs, b);
  do d <- update_inter M K cs d;
  do s <- closest K d;
  do (b, done) <- iter N (assign_datum M K N cs d s data) (b, true);
  Some (cs, d, b, done).
Fixpoint elkan_loop (fuel M K N nit : nat) (data : list Z) (pass : nat) (cs d : list Z) (b : bounds) : option (list Z * list Z * bounds * bool * nat) :=
  match fuel with
  | O => None
  | S fuel =>
    do (cs, d, b, done) <- elkan_pass M K N data cs d b;
    if done || (pass =? nit) then Some (cs, d, b, done, pass)
    else elkan_loop fuel M K N nit data (pass + 1) cs d b
  end.
Definition elkan_train (M K N nit : nat) (data cs d asgn : list Z) : option (list Z * list Z * bounds * bool * nat) :=
  do d <- update_inter M K cs d;
  do b <- iter N (elkan_first M K N cs d data) (mk_bounds asgn (repeat 0%Z N) (repeat false N) (repeat 0%Z (N * K)));
  elkan_loop (nit + 1) M K N nit data 0 cs d b.

(** vl_ikm_train, ikmeans.c:133-150; also returns the final assignments, whether they became
    stable, and the number of the last pass *)
Definition train (f : ikm) (data : list Z) (N : nat) (asgn : list Z) : option (ikm * list Z * bool * nat) :=
  if elkan f then
    do (cs, d, b, done, p) <- elkan_train (fM f) (fK f) N (niters f) data (centers f) (inter f) asgn;
    Some (mk_ikm (elkan f) (fM f) (fK f) cs d (niters f), asg b, done, p)
  else
    do (cs, a, done, p) <- lloyd_loop (niters f + 1) (fM f) (fK f) N (niters f) data 0 (centers f) asgn;
    Some (mk_ikm (elkan f) (fM f) (fK f) cs (inter f) (niters f), a, done, p).

(** ** Trees, hikmeans.c *)
Inductive node := Node (f : ikm) (children : option (list node)).
(** vl_hikm_copy_subset, hikmeans.c:55-87: the data labelled id *)
Definition copy_subset (data ids : list Z) (N M : nat) (id : Z) : option (list Z * nat) :=
  iter N (fun i (st : list Z * nat) =>
    let (out, n) := st in
    do l <- aget ids i;
    if (l =? id)%Z then
      do out <- iter M (fun j out => do v <- aget data (i * M + j); Some (out ++ [v])) out;
      Some (out, n + 1)
    else Some (out, n)) ([], 0).
(** the random order of n data, the n fresh assignments and the fresh table of k centers of the node at a path *)
Record chance := mk_chance { order_at : list nat -> nat -> list nat; fresh_asgn : list nat -> nat -> list Z; fresh_inter : list nat -> nat -> list Z }.
(** xmeans, hikmeans.c:103-148; [height] is one less than in the code *)
Fixpoint xmeans (height : nat) (el : bool) (M nit : nat) (ch : chance) (path : list nat) (data : list Z) (N K : nat) : option node :=
  do f <- init_rand_data el data M N K nit (order_at ch path N) (fresh_inter ch path K);
  do (f, _, _, _) <- train f data N (fresh_asgn ch path N);
  do ids <- push f (repeat 0%Z N) data N;
  match height with
  | O => Some (Node f None)
  | S h =>
    do cs <- iter K (fun k (cs : list node) =>
      do (part, n) <- copy_subset data ids N M (Z.of_nat k);
      do c <- xmeans h el M nit ch (path ++ [k]) part n (Nat.min K n);
      Some (cs ++ [c])) [];
    Some (Node f (Some cs))
  end.
(** vl_hikm_train, hikmeans.c:237-240; depth is positive *)
Definition hikm_train (depth : nat) (el : bool) (M K nit : nat) (ch : chance) (data : list Z) (N : nat) : option node :=
  xmeans (depth - 1) el M nit ch [] data N (Nat.min K N).
(** vl_hikm_push, hikmeans.c:256-278, for one datum: the path is written from position o of asgn *)
Fixpoint descend (fuel M : nat) (nd : node) (data : list Z) (x o : nat) (asgn : list Z) : option (list Z) :=
  match fuel with
  | O => None
  | S fuel =>
    let 'Node f children := nd in
    do best <- push_datum f data (x * M);
    do asgn <- aset asgn o best;
    match children with
    | None => Some asgn
    | Some cs => do nd <- (if (best <? Z.of_nat (length cs))%Z then zget cs best else None); descend fuel M nd data x (o + 1) asgn
    end
  end.
Definition hikm_push (M depth : nat) (root : node) (asgn data : list Z) (N : nat) : option (list Z) :=
  iter N (fun i asgn => descend (depth + 1) M root data i (i * depth) asgn) asgn.
