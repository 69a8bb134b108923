(** Quick shift, vl/quickshift.c, over exact rationals; [expo] and [root] are exp and sqrt, arbitrary
    functions.  [None] is an access out of bounds. *)
From Coq Require Import List Arith ZArith Bool QArith Qcanon.
Import ListNotations.
From Verif Require Import Base Loop Rat Gauss_Model.
Local Open Scope nat_scope.

Definition qceil (q : Qc) : Z := (- qfloor (- q))%Z.

(** the outputs of VlQS, quickshift.h:33-48; an infinite distance is [None] *)
Record qs := { q_tau : Qc; q_sigma : Qc; q_medoid : bool; q_parents : list nat; q_dists : list (option Qc); q_density : list Qc }.
(** vl_quickshift_new, quickshift.c:229-250; the quotients are those of integers and of numbers *)
Definition qs_new (N1 N2 : nat) : qs :=
  let tau := nq (Nat.max N1 N2 / 50) in
  {| q_tau := tau; q_sigma := if qlt (nq 2) (tau / nq 3) then (tau / nq 3)%Qc else nq 2; q_medoid := false;
     q_parents := repeat 0 (N1 * N2); q_dists := repeat (Some 0%Qc) (N1 * N2); q_density := repeat 0%Qc (N1 * N2) |}.
(** quickshift.h:107-163 *)
Definition set_max_dist (q : qs) (tau : Qc) : qs :=
  {| q_tau := tau; q_sigma := q_sigma q; q_medoid := q_medoid q; q_parents := q_parents q; q_dists := q_dists q; q_density := q_density q |}.
Definition set_kernel_size (q : qs) (sigma : Qc) : qs :=
  {| q_tau := q_tau q; q_sigma := sigma; q_medoid := q_medoid q; q_parents := q_parents q; q_dists := q_dists q; q_density := q_density q |}.
Definition set_medoid (q : qs) (m : bool) : qs :=
  {| q_tau := q_tau q; q_sigma := q_sigma q; q_medoid := m; q_parents := q_parents q; q_dists := q_dists q; q_density := q_density q |}.

Section Process.
(** height, width, channels *)
Variables (N1 N2 K : nat) (image : list Qc) (expo root : Qc -> Qc).
Definition at_image (i1 i2 k : nat) : option Qc := aget image (i1 + N1 * i2 + N1 * N2 * k).
(** vl_quickshift_distance, quickshift.c:152-173 *)
Definition qs_distance (i1 i2 j1 j2 : nat) : option Qc :=
  iter K (fun k dist => do a <- at_image i1 i2 k; do b <- at_image j1 j2 k; Some (dist + (a - b) * (a - b))%Qc)
    ((nq j1 - nq i1) * (nq j1 - nq i1) + (nq j2 - nq i2) * (nq j2 - nq i2))%Qc.
(** vl_quickshift_inner, quickshift.c:196-212 *)
Definition qs_inner (i1 i2 j1 j2 : nat) : option Qc :=
  iter K (fun k ker => do a <- at_image i1 i2 k; do b <- at_image j1 j2 k; Some (ker + a * b)%Qc) (nq i1 * nq j1 + nq i2 * nq j2)%Qc.

(** the loops over the window of half size R around (i1, i2), quickshift.c:318-326, 371-377, 420-426 *)
Definition window {S} (R : Z) (i1 i2 : nat) (body : nat -> nat -> S -> option S) (s : S) : option S :=
  zup (Z.max (Z.of_nat i2 - R) 0) (Z.min (Z.of_nat i2 + R) (Z.of_nat N2 - 1) + 1) (fun j2 s =>
    zup (Z.max (Z.of_nat i1 - R) 0) (Z.min (Z.of_nat i1 + R) (Z.of_nat N1 - 1) + 1) (fun j1 s =>
      body (Z.to_nat j1) (Z.to_nat j2) s) s) s.
(** for all pixels *)
Definition pixels {S} (body : nat -> nat -> S -> option S) (s : S) : option S :=
  iter N2 (fun i2 s => iter N1 (fun i1 s => body i1 i2 s) s) s.

(** n, quickshift.c:287-298 *)
Definition norms : option (list Qc) :=
  pixels (fun i1 i2 n => do v <- qs_inner i1 i2 i1 i2; aset n (i1 + N1 * i2) v) (repeat 0%Qc (N1 * N2)).
Definition add_to (l : list Qc) (i : nat) (v : Qc) : option (list Qc) := do a <- aget l i; aset l i (a + v)%Qc.
(** E and M, quickshift.c:304-349; M is computed for medoids only *)
Definition density_step (medoid : bool) (sigma : Qc) (i1 i2 j1 j2 : nat) (st : list Qc * list Qc) : option (list Qc * list Qc) :=
  let (E, M) := st in
  do D <- qs_distance i1 i2 j1 j2;
  let F := (- expo (- D / (nq 2 * sigma * sigma)))%Qc in
  do E <- add_to E (i1 + N1 * i2) (- F)%Qc;
  if medoid then
    do M <- add_to M (i1 + N1 * i2) (nq j1 * F)%Qc;
    do M <- add_to M (i1 + N1 * i2 + N1 * N2) (nq j2 * F)%Qc;
    do M <- iter K (fun k M => do z <- at_image j1 j2 k; add_to M (i1 + N1 * i2 + N1 * N2 * (k + 2)) (z * F)%Qc) M;
    Some (E, M)
  else Some (E, M).
Definition densities (medoid : bool) (sigma : Qc) (E M : list Qc) : option (list Qc * list Qc) :=
  pixels (fun i1 i2 st => window (qceil (nq 3 * sigma)) i1 i2 (fun j1 j2 st => density_step medoid sigma i1 i2 j1 j2 st) st) (E, M).

(** one pixel of medoid shift, quickshift.c:362-404: the best score and its pixel *)
Definition medoid_pixel (sigma : Qc) (n E M : list Qc) (i1 i2 : nat) : option (Qc * nat * nat) :=
  window (qceil (nq 3 * sigma)) i1 i2 (fun j1 j2 (st : Qc * nat * nat) =>
    let '(best, b1, b2) := st in
    do nj <- aget n (j1 + j2 * N1);
    do e <- aget E (i1 + i2 * N1);
    do m0 <- aget M (i1 + i2 * N1);
    do m1 <- aget M (i1 + i2 * N1 + N1 * N2);
    do Q <- iter K (fun k Q => do z <- at_image j1 j2 k; do m <- aget M (i1 + i2 * N1 + N1 * N2 * (k + 2)); Some (Q - nq 2 * z * m)%Qc)
      (- nj * e - nq 2 * nq j1 * m0 - nq 2 * nq j2 * m1)%Qc;
    Some (if qlt best Q then (Q, j1, j2) else st)) (0%Qc, i1, i2).
(** one pixel of quick shift, quickshift.c:412-444: the least squared distance and its pixel *)
Definition shift_pixel (tau : Qc) (E : list Qc) (i1 i2 : nat) : option (option Qc * nat * nat) :=
  do e0 <- aget E (i1 + N1 * i2);
  window (qceil tau) i1 i2 (fun j1 j2 (st : option Qc * nat * nat) =>
    let '(best, b1, b2) := st in
    do e <- aget E (j1 + N1 * j2);
    if qlt e0 e then
      do D <- qs_distance i1 i2 j1 j2;
      Some (if negb (qlt (tau * tau) D) && match best with Some b => qlt D b | None => true end then (Some D, j1, j2) else st)
    else Some st) (None, i1, i2).

(** vl_quickshift_process, quickshift.c:257-449 *)
Definition process (q : qs) : option qs :=
  do n <- (if q_medoid q then norms else Some []);
  do (E, M) <- densities (q_medoid q) (q_sigma q) (q_density q) (if q_medoid q then repeat 0%Qc (N1 * N2 * (2 + K)) else []);
  do (parents, dists) <- pixels (fun i1 i2 (st : list nat * list (option Qc)) =>
    let (parents, dists) := st in
    do (v, b1, b2) <- (if q_medoid q then do (v, b1, b2) <- medoid_pixel (q_sigma q) n E M i1 i2; Some (Some v, b1, b2)
                       else do (v, b1, b2) <- shift_pixel (q_tau q) E i1 i2; Some (option_map root v, b1, b2));
    do parents <- aset parents (i1 + N1 * i2) (b1 + N1 * b2);
    do dists <- aset dists (i1 + N1 * i2) v;
    Some (parents, dists)) (q_parents q, q_dists q);
  Some {| q_tau := q_tau q; q_sigma := q_sigma q; q_medoid := q_medoid q; q_parents := parents; q_dists := dists; q_density := E |}.
End Process.
