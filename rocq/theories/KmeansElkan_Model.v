(** Model of the Elkan refinement and of the seeding of k-means, vl/kmeans.c.

    Numbers are exact rationals and sqrt is an arbitrary function.  The arrays
    assignments, pointToClosestCenterUB, pointToClosestCenterUBIsStrict and
    pointToCenterLB, of which each iteration over the data touches the entries of
    one datum, are a list of records.  Counters of distance computations and the
    energies that are only printed are left out. *)
From Coq Require Import List Arith ZArith Lia Bool QArith Qcanon.
From Verif Require Import Base Loop Rat Gauss_Model Kmeans_Model.
Import ListNotations.
Local Open Scope nat_scope.

Record point := mkPoint { cl : nat; ub : Qc; strict : bool; lb : list Qc }.

Definition qle (x y : Qc) : bool := negb (qlt y x).

Section Elkan.
Variables (mt : metric) (dim K : nat) (data : list Qc) (N : nat).
Variable choose : nat -> nat.
Variable sqrt_ : Qc -> Qc.

(** 2.0 or 4.0, kmeans.c:1245 *)
Definition factor : Qc := match mt with L1 => zq 2 | L2 => zq 4 end.

(** _vl_kmeans_update_center_distances, kmeans.c:981-1001, by the second branch of
    vl_eval_vector_comparison_on_all_pairs, mathop.c:564-594 *)
Definition center_distances (centers cd : list Qc) : option (list Qc) :=
  if dim =? 0 then Some cd else
  iter K (fun yi cd =>
    do y <- row dim centers yi;
    iter (yi + 1) (fun xi cd =>
      do x <- row dim centers xi;
      let z := distance mt x y in
      do cd <- aset cd (yi * K + xi) z;
      aset cd (xi * K + yi) z) cd) cd.

(** the first assignment of a datum, kmeans.c:1224-1261 *)
Definition init_point (centers cd : list Qc) (x : nat) : option point :=
  do v <- row dim data x;
  do c0 <- row dim centers 0;
  let d0 := distance mt v c0 in
  do l0 <- aset (repeat 0%Qc K) 0 d0;
  iter_from (K - 1) 1 (fun c p =>
    do cc <- aget cd (c + cl p * K);
    if qle (factor * ub p)%Qc cc then Some p
    else
      do r <- row dim centers c;
      let d := distance mt v r in
      do l <- aset (lb p) c d;
      Some (if qlt d (ub p) then mkPoint c d (strict p) l else mkPoint (cl p) (ub p) (strict p) l))
    (mkPoint 0 d0 true l0).

(** distances of the new to the old centers, kmeans.c:1391-1397 *)
Definition moves (new old : list Qc) : option (list Qc) :=
  iter K (fun c l =>
    do u <- row dim new c;
    do v <- row dim old c;
    Some (l ++ [distance mt u v])) [].

(** nextCenterDistances, kmeans.c:1416-1424; infinity is None *)
Definition next_distances (cd : list Qc) : option (list (option Qc)) :=
  iter K (fun c l =>
    do m <- iter K (fun j m =>
      if j =? c then Some m else
      do v <- aget cd (j + c * K);
      Some (Some (match m with None => v | Some w => if qlt w v then w else v end))) None;
    Some (l ++ [m])) [].

(** bounds after the centers moved, kmeans.c:1430-1475 *)
Definition grow (a b : Qc) : Qc :=
  match mt with L1 => a + b | L2 => a + b + zq 2 * sqrt_ (a * b) end%Qc.
Definition shrink (a b : Qc) : Qc :=
  if qlt a b then 0%Qc
  else match mt with L1 => a - b | L2 => a + b - zq 2 * sqrt_ (a * b) end%Qc.
Definition move_point (mv : list Qc) (p : point) : option point :=
  do b <- aget mv (cl p);
  do l <- iter K (fun c l =>
    do a <- aget l c;
    do b <- aget mv c;
    aset l c (shrink a b)) (lb p);
  Some (mkPoint (cl p) (grow (ub p) b) false l).

(** a datum against a center, kmeans.c:1525-1591; the flag says that the datum was
    reassigned *)
Definition scan_center (centers cd : list Qc) (x c : nat) (s : point * bool) : option (point * bool) :=
  let '(p, moved) := s in
  if cl p =? c then Some (p, moved) else
  do cc <- aget cd (c + cl p * K);
  if qle (factor * ub p)%Qc cc then Some (p, moved) else
  do l <- aget (lb p) c;
  if qle (ub p) l then Some (p, moved) else
  do v <- row dim data x;
  do (p, skip) <- (if strict p then Some (p, false) else
    do r <- row dim centers (cl p);
    let d := distance mt v r in
    do lb' <- aset (lb p) (cl p) d;
    do l <- aget lb' c;
    Some (mkPoint (cl p) d true lb', qle (factor * d)%Qc cc || qle d l));
  if skip then Some (p, moved) else
  do r <- row dim centers c;
  let d := distance mt v r in
  do lb' <- aset (lb p) c d;
  Some (if qlt d (ub p) then (mkPoint c d (strict p) lb', true)
        else (mkPoint (cl p) (ub p) (strict p) lb', moved)).
(** a datum against all centers, kmeans.c:1516-1592 *)
Definition scan_point (centers cd : list Qc) (next : list (option Qc)) (x : nat) (p : point) : option (point * bool) :=
  do nx <- aget next (cl p);
  if match nx with None => true | Some v => qle (factor * ub p)%Qc v end then Some (p, false)
  else iter K (scan_center centers cd x) (p, false).

(** one iteration, kmeans.c:1313-1593; [buffer] is newCenters, which is exchanged
    with centers; the flag is allDone *)
Definition elkan_step (perms : list (list nat)) (centers buffer cd : list Qc) (t : nat) (pts : list point)
  : option (list Qc * list Qc * list Qc * nat * list point * bool) :=
  do (new, t) <- update dim K data N choose mt false perms (map cl pts) buffer t;
  do mv <- moves new centers;
  do cd <- center_distances new cd;
  do next <- next_distances cd;
  do (pts', done) <- iter N (fun x '(out, done) =>
    do p <- aget pts x;
    do p <- move_point mv p;
    do (p, moved) <- scan_point new cd next x p;
    Some (out ++ [p], if (moved : bool) then false else done)) ([], true);
  Some (new, centers, cd, t, pts', done).

(** the iterations, kmeans.c:1300-1655; [todo] is the number of iterations that may
    follow the present one.  Returns the centers and assignments after each
    iteration and whether the loop stopped because of allDone. *)
Fixpoint elkan (perms : list (list nat)) (todo : nat) (centers buffer cd : list Qc) (t : nat) (pts : list point)
  : option (list (list Qc * list nat) * bool) :=
  do (s, done) <- elkan_step perms centers buffer cd t pts;
  let '(centers, buffer, cd, t, pts) := s in
  match todo with
  | O => Some ([(centers, map cl pts)], done)
  | S todo =>
    if (done : bool) then Some ([(centers, map cl pts)], true)
    else do (trace, d) <- elkan perms todo centers buffer cd t pts;
         Some ((centers, map cl pts) :: trace, d)
  end.

(** the energy, kmeans.c:1657-1665 *)
Definition final_energy (centers : list Qc) (asg : list nat) : option Qc :=
  iter N (fun x e =>
    do c <- aget asg x;
    do v <- row dim data x;
    do r <- row dim centers c;
    Some (e + distance mt v r)%Qc) 0%Qc.

(** _vl_kmeans_refine_centers_elkan, kmeans.c:1163-1729; [buffer] and [cd] are the
    allocated newCenters and centerDistances.  Returns the energy and the trace, from
    the first assignment on. *)
Definition refine_elkan (maxiter : nat) (centers buffer cd : list Qc)
  : option (Qc * list (list Qc * list nat) * bool) :=
  do perms <- permutations dim data N mt;
  do cd <- center_distances centers cd;
  do pts <- iter N (fun x out => do p <- init_point centers cd x; Some (out ++ [p])) [];
  do (trace, done) <- elkan perms (maxiter - 1) centers buffer cd 0 pts;
  let trace := (centers, map cl pts) :: trace in
  let '(c, a) := last trace ([], []) in
  do e <- final_energy c a;
  Some (e, trace, done).
End Elkan.

(** *** Seeding.  [comp] is distFn. *)
Section Seed.
Variable comp : list Qc -> list Qc -> Qc.
Variables (dim K : nat) (data : list Qc) (N : nat).

Definition is_zero (q : Qc) : bool := if Qc_eq_dec q 0 then true else false.

(** _vl_kmeans_init_centers_with_rand_data, kmeans.c:527-582; [perm] is the shuffled
    list of indexes, the centers a list of rows *)
Definition init_rand_data (perm : list nat) : option (list (list Qc)) :=
  do (i, centers) <- while (N + K + 1) (fun '(i, centers) => length centers <? K) (fun '(i, centers) =>
    do p <- aget perm i;
    do v <- row dim data p;
    if (K - length centers <? N - i) && existsb (fun c => is_zero (comp v c)) centers
    then Some (i + 1, centers)
    else Some (i + 1, centers ++ [v])) (0, []);
  Some centers.

(** the choice of the next datum, kmeans.c:636-640 *)
Fixpoint pick (mins : list Qc) (bound acc : Qc) (x last : nat) : nat :=
  match mins with
  | [] => last
  | m :: mins => if x =? last then last
                 else if qle bound (acc + m) then x else pick mins bound (acc + m)%Qc (x + 1) last
  end.
(** _vl_kmeans_init_centers_plus_plus, kmeans.c:588-648; [todo] centers remain after
    the present one; [real t] are the successive vl_rand_real1.  numData is not zero.
    Infinity in minDistances is None. *)
Variable real : nat -> Qc.
Fixpoint plus_plus (todo t x : nat) (mins : list (option Qc)) (centers : list (list Qc)) : option (list (list Qc)) :=
  do v <- row dim data x;
  let centers := centers ++ [v] in
  match todo with
  | O => Some centers
  | S todo =>
    do ms <- iter N (fun j ms =>
      do r <- row dim data j;
      do m <- aget mins j;
      let d := comp v r in
      Some (ms ++ [match m with None => d | Some w => if qlt w d then w else d end])) [];
    let energy := fold_left Qcplus ms 0%Qc in
    plus_plus todo (t + 1) (pick ms (real t * energy)%Qc 0 0 (N - 1)) (map Some ms) centers
  end.
(** [first] is vl_rand_uindex (rand, numData); numCenters is not zero *)
Definition init_plus_plus (first : nat) : option (list (list Qc)) :=
  plus_plus (K - 1) 0 first (repeat None N) [].
End Seed.
