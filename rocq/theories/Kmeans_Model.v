(** Model of k-means, vl/kmeans.c.

    Numbers are exact rationals; infinity (bestDistance, bestEnergy before the first
    value) is [None].  The comparison function distFn is arbitrary where the code
    takes any, and the scalar L1 or squared L2 distance of mathop.c in the
    refinements.  The pairs compared by vl_eval_vector_comparison_on_all_pairs are
    compared one at a time.  vl_rand_uindex is an arbitrary stream of indexes, the
    k-d forest of the ANN variant an arbitrary function returning an index.  The
    parallel loops, whose iterations write disjoint entries, run in order.
    Counters of distance computations and messages are left out, except that the
    refinements return the energies they print. *)
From Coq Require Import List Arith ZArith Lia Bool QArith Qcanon.
From Verif Require Import Base Loop Rat Gauss_Model Qsort_Model.
Import ListNotations.
Local Open Scope nat_scope.

(** the [dim] numbers at l + dim * i *)
Definition row (dim : nat) (l : list Qc) (i : nat) : option (list Qc) :=
  if dim * i + dim <=? length l then Some (firstn dim (skipn (dim * i) l)) else None.

Inductive metric := L1 | L2.

(** _vl_distance_l2, _vl_distance_l1, mathop.c:297-322 *)
Definition term (m : metric) (x y : Qc) : Qc :=
  match m with
  | L2 => ((x - y) * (x - y))%Qc
  | L1 => let d := (x - y)%Qc in if qlt d (- d) then (- d)%Qc else d     (* VL_MAX(d, -d) *)
  end.
Fixpoint compare (m : metric) (x y : list Qc) (acc : Qc) : Qc :=
  match x, y with
  | a :: x, b :: y => compare m x y (acc + term m a b)%Qc
  | _, _ => acc
  end.
Definition distance (m : metric) (x y : list Qc) : Qc := compare m x y 0%Qc.

Definition below (d : Qc) (best : option Qc) : bool :=
  match best with None => true | Some b => qlt d b end.

Section Quantize.
Variable comp : list Qc -> list Qc -> Qc.   (* distFn *)
Variables (dim K : nat).                    (* dimension, numCenters *)

(** one datum, kmeans.c:684-700; [None] also when there is no center *)
Definition quantize_one (centers data : list Qc) (i : nat) (s : list nat * list Qc) : option (list nat * list Qc) :=
  let '(asg, dst) := s in
  do x <- row dim data i;
  do (best, asg) <- iter K (fun k '(best, asg) =>
    do c <- row dim centers k;
    let d := comp x c in
    if below d best then do asg <- aset asg i k; Some (Some d, asg) else Some (best, asg)) (None, asg);
  match best with
  | None => None
  | Some d => do dst <- aset dst i d; Some (asg, dst)
  end.

(** _vl_kmeans_quantize, kmeans.c:655-703 *)
Definition quantize (centers data : list Qc) (N : nat) (asg : list nat) (dst : list Qc) : option (list nat * list Qc) :=
  iter N (quantize_one centers data) (asg, dst).

(** _vl_kmeans_quantize_ann with distances, kmeans.c:708-771 *)
Variable ann : list Qc -> list Qc -> nat.   (* centers, query -> neighbor *)
Definition quantize_ann (update : bool) (centers data : list Qc) (N : nat) (asg : list nat) (dst : list Qc) : option (list nat * list Qc) :=
  iter N (fun i '(asg, dst) =>
    do x <- row dim data i;
    let n := ann centers x in
    do c <- row dim centers n;
    let d := comp x c in
    if negb update then
      do dst <- aset dst i d; do asg <- aset asg i n; Some (asg, dst)
    else
      do a <- aget asg i;
      do c' <- row dim centers a;
      let prev := comp x c' in
      if qlt d prev then do dst <- aset dst i d; do asg <- aset asg i n; Some (asg, dst)
      else do dst <- aset dst i prev; Some (asg, dst)) (asg, dst).
End Quantize.

Section Refine.
Variables (dim K : nat) (data : list Qc) (N : nat).
Variable choose : nat -> nat.   (* the successive vl_rand_uindex (rand, numData) *)

(** clusterMasses, an array of numData entries, kmeans.c:895-898 *)
Definition masses (asg : list nat) : option (list nat) :=
  iter N (fun x m =>
    do c <- aget asg x;
    do v <- aget m c;
    aset m c (v + 1)) (repeat 0 N).

(** copying a datum to a center, kmeans.c:921-923, 944-946 *)
Definition restart (x c : nat) (centers : list Qc) : option (list Qc) :=
  iter dim (fun d centers =>
    do v <- aget data (x * dim + d);
    aset centers (c * dim + d) v) centers.

(** L2: sums, kmeans.c:903-910 *)
Definition add_datum (asg : list nat) (x : nat) (centers : list Qc) : option (list Qc) :=
  do a <- aget asg x;
  iter dim (fun d centers =>
    do v <- aget data (x * dim + d);
    do w <- aget centers (a * dim + d);
    aset centers (a * dim + d) (w + v)%Qc) centers.
(** L2: division or restart, kmeans.c:911-925; the state counts random numbers *)
Definition finish_center (m : list nat) (c : nat) (s : list Qc * nat) : option (list Qc * nat) :=
  let '(centers, t) := s in
  do mass <- aget m c;
  if 0 <? mass then
    do centers <- iter dim (fun d centers =>
      do w <- aget centers (c * dim + d);
      aset centers (c * dim + d) (w / nq mass)%Qc) centers;
    Some (centers, t)
  else
    do centers <- restart (choose t) c centers;
    Some (centers, t + 1).
(** L2 update, kmeans.c:902-926 and 1324-1348 *)
Definition update_l2 (asg m : list nat) (centers : list Qc) (t : nat) : option (list Qc * nat) :=
  if length centers <? dim * K then None else
  let centers := (repeat 0%Qc (dim * K) ++ skipn (dim * K) centers) in
  do centers <- iter N (add_datum asg) centers;
  iter K (finish_center m) (centers, t).

(** order of two data along a dimension, kmeans.c:782-790 *)
Definition order (d : nat) (i j : nat) : Z :=
  match Qccompare (nth (i * dim + d) data 0%Qc) (nth (j * dim + d) data 0%Qc) with Lt => (-1)%Z | Eq => 0%Z | Gt => 1%Z end.
(** the data sorted along each dimension, kmeans.c:806-822; the C array of
    permutations is a list of rows *)
Definition sort_data : option (list (list nat)) :=
  iter dim (fun d perms =>
    if length data <? N * dim then None else
    do p <- qs_sort (order d) (seq 0 N) N;
    Some (perms ++ [p])) [].

(** one pass along a dimension, kmeans.c:929-939, 1350-1360 *)
Definition median_pass (perm : list nat) (asg m : list nat) (d : nat) (centers : list Qc) : option (list Qc) :=
  do (seen, centers) <- iter N (fun x '(seen, centers) =>
    do p <- aget perm x;
    do c <- aget asg p;
    do n <- aget seen c;
    do mass <- aget m c;
    do centers <- (if 2 * n <? mass then
                     do v <- aget data (d + p * dim);
                     aset centers (d + c * dim) v
                   else Some centers);
    do seen <- aset seen c (n + 1);
    Some (seen, centers)) (repeat 0 K, centers);
  Some centers.

(** L1 update of the Lloyd and ANN refinements, kmeans.c:928-949.  The loop that
    restarts a center uses the variable d of the outer loop. *)
Definition restarts_lloyd (m : list nat) (s : nat * list Qc * nat) : option (nat * list Qc * nat) :=
  iter K (fun c '(d, centers, t) =>
    do mass <- aget m c;
    if mass =? 0 then
      do centers <- restart (choose t) c centers;
      Some (dim, centers, t + 1)
    else Some (d, centers, t)) s.
Definition update_l1_lloyd (perms : list (list nat)) (asg m : list nat) (centers : list Qc) (t : nat) : option (list Qc * nat) :=
  do (d, centers, t) <- while (dim + 1) (fun '(d, _, _) => d <? dim) (fun '(d, centers, t) =>
    do perm <- aget perms d;
    do centers <- median_pass perm asg m d centers;
    do (d, centers, t) <- restarts_lloyd m (d, centers, t);
    Some (d + 1, centers, t)) (0, centers, t);
  Some (centers, t).

(** L1 update of the Elkan refinement, kmeans.c:1350-1372 *)
Definition update_l1_elkan (perms : list (list nat)) (asg m : list nat) (centers : list Qc) (t : nat) : option (list Qc * nat) :=
  do centers <- iter dim (fun d centers =>
    do perm <- aget perms d;
    median_pass perm asg m d centers) centers;
  iter K (fun c '(centers, t) =>
    do mass <- aget m c;
    if mass =? 0 then
      do centers <- restart (choose t) c centers;
      Some (centers, t + 1)
    else Some (centers, t)) (centers, t).

Definition permutations (mt : metric) : option (list (list nat)) :=
  match mt with L2 => Some [] | L1 => sort_data end.

Definition update (mt : metric) (lloyd : bool) (perms : list (list nat)) (asg : list nat) (centers : list Qc) (t : nat) : option (list Qc * nat) :=
  do m <- masses asg;
  match mt with
  | L2 => update_l2 asg m centers t
  | L1 => if lloyd then update_l1_lloyd perms asg m centers t else update_l1_elkan perms asg m centers t
  end.

Definition total (dst : list Qc) : option Qc :=
  iter N (fun x e => do d <- aget dst x; Some (e + d)%Qc) 0%Qc.

(** the refinement loop, kmeans.c:854-964 (Lloyd) and 1030-1147 (ANN); [quant] is the
    assignment step, told the number of the iteration; [todo] is maxNumIterations -
    iteration.  Returns the energies of all iterations, the last being the result,
    and the centers and assignments.  [None] also for a division by zero in the
    relative variation. *)
Section Loop.
Variable quant : nat -> list Qc -> list nat -> list Qc -> option (list nat * list Qc).
Variables (mt : metric) (perms : list (list nat)) (minvar : Qc).
Fixpoint refine (todo iteration : nat) (centers : list Qc) (t : nat) (asg : list nat) (dst : list Qc)
  (previous initial : option Qc) : option (list Qc * list Qc * list nat) :=
  do (asg, dst) <- quant iteration centers asg dst;
  do energy <- total dst;
  match todo with
  | O => Some ([energy], centers, asg)
  | S todo =>
    if match previous with Some p => if Qc_eq_dec energy p then true else false | None => false end
    then Some ([energy], centers, asg)
    else
    do stop <- match iteration, previous, initial with
               | S _, Some p, Some i =>
                 if Qc_eq_dec (i - energy) 0 then None
                 else Some (qlt ((p - energy) / (i - energy))%Qc minvar)
               | S _, _, _ => None
               | O, _, _ => Some false
               end;
    if (stop : bool) then Some ([energy], centers, asg)
    else
    do (centers', t') <- update mt true perms asg centers t;
    do (es, centers'', asg'') <- refine todo (iteration + 1) centers' t' asg dst (Some energy)
      (match iteration with O => Some energy | _ => initial end);
    Some (energy :: es, centers'', asg'')
  end.
End Loop.

(** _vl_kmeans_refine_centers_lloyd, kmeans.c:828-977; [asg] and [dst] are the
    allocated arrays *)
Definition refine_lloyd (mt : metric) (maxiter : nat) (minvar : Qc) (centers : list Qc) (asg : list nat) (dst : list Qc)
  : option (list Qc * list Qc * list nat) :=
  do perms <- permutations mt;
  refine (fun _ centers => quantize (distance mt) dim K centers data N) mt perms minvar maxiter 0 centers 0 asg dst None None.
(** _vl_kmeans_refine_centers_ann, kmeans.c:1003-1157 *)
Definition refine_ann (ann : list Qc -> list Qc -> nat) (mt : metric) (maxiter : nat) (minvar : Qc) (centers : list Qc) (asg : list nat) (dst : list Qc)
  : option (list Qc * list Qc * list nat) :=
  do perms <- permutations mt;
  refine (fun iteration centers => quantize_ann (distance mt) dim ann (0 <? iteration) centers data N) mt perms minvar maxiter 0 centers 0 asg dst None None.
End Refine.

(** vl_kmeans_cluster, kmeans.c:2023-2093: [runs] are the energies and centers that
    initialisation followed by refinement give at each repetition; an energy that is
    not a number is [None].  Returns the energy and the centers left in the object. *)
Section Cluster.
Context {C : Type}.
Definition better (energy best : option Qc) : bool :=
  match energy, best with
  | Some e, Some b => qlt e b
  | _, _ => false
  end.
Fixpoint cluster (repetition : nat) (best : option (option Qc * C)) (runs : list (option Qc * C)) : option (option Qc * C) :=
  match runs with
  | [] => best
  | (e, c) :: runs =>
    let replace := match best with None => true | Some (b, _) => better e b || (repetition =? 0) end in
    cluster (repetition + 1) (if replace then Some (e, c) else best) runs
  end.
End Cluster.
