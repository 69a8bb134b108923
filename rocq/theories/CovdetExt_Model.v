(** Extrema of the cornerness measures and their refinement, vl/covdet.c, over exact rationals.

    All the neighbours of a pixel are read even if the first comparison fails.  [root] and [pow] are
    sqrt and pow, arbitrary functions; [junk] is fresh memory.  A score that is infinite or not a
    number is [None]; it is below no threshold.  As a result [None] is an access out of bounds. *)
From Coq Require Import List Arith ZArith Bool QArith Qcanon Qcabs.
Import ListNotations.
From Verif Require Import Base Loop Rat Gauss_Model Sift_Model SiftDetect_Model Covdet_Model.
Local Open Scope nat_scope.

(** ** vl_find_local_extrema_3 and vl_find_local_extrema_2, covdet.c:1056-1190 *)
Section Scan.
Variable junk : nat -> Z.
(** one more extremum with the coordinates [p], covdet.c:1108-1118 and 1175-1184; the state is the number of extrema and the buffer *)
Definition record (p : list Z) (st : nat * list Z) : option (nat * list Z) :=
  let (n, b) := st in
  let k := length p in
  let n := n + 1 in
  let b := if length b <? k * n then b ++ map junk (seq (length b) (k * n + 2000 * k - length b)) else b in
  do b <- iter k (fun j b => do v <- aget p j; aset b (k * (n - 1) + j) v) b;
  Some (n, b).
(** CHECK_NEIGHBORS_3 and CHECK_NEIGHBORS_2, covdet.c:1071-1101 and 1159-1169 *)
Definition is_extremum (t : Qc) (offsets : list Z) (m : list Qc) (pt : Z) : option bool :=
  do v <- zget m pt;
  do ns <- zgets m (map (fun d => pt + d)%Z offsets);
  Some ((negb (qlt v t) && forallb (fun n => qlt n v) ns) || (negb (qlt (- t) v) && forallb (fun n => qlt v n) ns)).
Definition neighbours2 (xo yo : Z) : list Z := [xo; - xo; yo; - yo; yo + xo; yo - xo; - yo + xo; - yo - xo]%Z.
(** covdet.c:1103-1125; the state is pt, the number of extrema and the buffer *)
Definition extrema3 (t : Qc) (m : list Qc) (w h d : nat) (b : list Z) : option (nat * list Z) :=
  do (_, r) <- iter (d - 2) (fun z st =>
      do (pt, r) <- iter (h - 2) (fun y st =>
          do (pt, r) <- iter (w - 2) (fun x (st : Z * (nat * list Z)) =>
              let (pt, r) := st in
              do p <- is_extremum t (neighbours 1 (Z.of_nat w) (Z.of_nat (w * h))) m pt;
              do r <- (if p : bool then record [Z.of_nat x + 1; Z.of_nat y + 1; Z.of_nat z + 1]%Z r else Some r);
              Some ((pt + 1)%Z, r)) st;
          Some ((pt + 2)%Z, r)) st;
      Some ((pt + 2 * Z.of_nat w)%Z, r)) ((1 + Z.of_nat w + Z.of_nat (w * h))%Z, (0, b));
  Some r.
(** covdet.c:1171-1189 *)
Definition extrema2 (t : Qc) (m : list Qc) (w h : nat) (b : list Z) : option (nat * list Z) :=
  do (_, r) <- iter (h - 2) (fun y st =>
      do (pt, r) <- iter (w - 2) (fun x (st : Z * (nat * list Z)) =>
          let (pt, r) := st in
          do p <- is_extremum t (neighbours2 1 (Z.of_nat w)) m pt;
          do r <- (if p : bool then record [Z.of_nat x + 1; Z.of_nat y + 1]%Z r else Some r);
          Some ((pt + 1)%Z, r)) st;
      Some ((pt + 2)%Z, r)) ((1 + Z.of_nat w)%Z, (0, b));
  Some r.
End Scan.

(** ** vl_refine_local_extreum_3 and vl_refine_local_extreum_2, covdet.c:1205-1426 *)
(** the loop, covdet.c:1233-1282 and 1356-1395; [solve x y] computes the derivatives at a pixel, solves the system and
    tells if it could be solved.  [n] iterations remain, the displacement is (dx, dy) and [last] is the result of the iteration before. *)
Section Walk.
Context {J : Type}.
Variables (w h : nat) (solve : Z -> Z -> option (J * bool * list Qc)).
Fixpoint walk (n : nat) (x y dx dy : Z) (last : option (Z * Z * J * bool * list Qc)) : option (Z * Z * J * bool * list Qc) :=
  match n with
  | 0 => last
  | S n =>
    let x := (x + dx)%Z in let y := (y + dy)%Z in
    do (d, ok, b) <- solve x y;
    if ok : bool then
      do b0 <- aget b 0;
      do b1 <- aget b 1;
      let dx := move b0 x w in let dy := move b1 y h in
      let r := Some (x, y, d, true, b) in
      if (dx =? 0)%Z && (dy =? 0)%Z then r else walk n x y dx dy r
    else Some (x, y, d, false, map (fun _ => 0%Qc) b)
  end.
End Walk.

(** edgeScore, covdet.c:1288-1296 and 1400-1408 *)
Definition edge_score (root : Qc -> Qc) (dxx dyy dxy : Qc) : option Qc :=
  let det := (dxx * dyy - dxy * dxy)%Qc in
  if isz det then None else
  let alpha := ((dxx + dyy) * (dxx + dyy) / det)%Qc in
  if qlt alpha 0 then None
  else Some (half alpha - 1 + root (qmax (alpha / nq 4 - 1) 0 * alpha))%Qc.

(** VlCovDetExtremum3, covdet.c:1007-1017 *)
Record extremum3 := Ext3 { e_xi : Z; e_yi : Z; e_zi : Z; e_x : Qc; e_y : Qc; e_z : Qc; e_peak : Qc; e_edge : option Qc }.
Definition close (b : Qc) : bool := qlt (Qcabs b) onehalf3.
Definition within (n : nat) (v : Qc) : bool := negb (qlt v 0) && negb (qlt (zq (Z.of_nat n - 1)) v).
(** covdet.c:1236-1264 *)
Definition solve_at3 (m : list Qc) (w h : nat) (z x y : Z) : option (jet * bool * list Qc) :=
  do d <- derivatives m w h (x + Z.of_nat w * y + Z.of_nat (w * h) * z)%Z;
  do (ok, b) <- Gauss_Model.solve3 [d_xx d; d_xy d; d_xs d; d_xy d; d_yy d; d_ys d; d_xs d; d_ys d; d_ss d] [- d_x d; - d_y d; - d_s d]%Qc;
  Some (d, ok, b).
(** the refined extremum and the result, covdet.c:1205-1318 *)
Definition refine3 (root : Qc -> Qc) (m : list Qc) (w h depth : nat) (x y z : Z) : option (extremum3 * bool) :=
  do (x, y, d, ok, b) <- walk w h (solve_at3 m w h z) 5 x y 0 0 None;
  do b0 <- aget b 0; do b1 <- aget b 1; do b2 <- aget b 2;
  let r := Ext3 x y z (zq x + b0) (zq y + b1) (zq z + b2) (d_v d + half (d_x d * b0 + d_y d * b1 + d_s d * b2)) (edge_score root (d_xx d) (d_yy d) (d_xy d)) in
  Some (r, ok && close b0 && close b1 && close b2 && within w (e_x r) && within h (e_y r) && within depth (e_z r)).

(** VlCovDetExtremum2, covdet.c:997-1005 *)
Record extremum2 := Ext2 { p_xi : Z; p_yi : Z; p_x : Qc; p_y : Qc; p_peak : Qc; p_edge : option Qc }.
(** the derivatives at a pixel of an image, covdet.c:1361-1368 *)
Record jet2 := Jet2 { j_v : Qc; j_x : Qc; j_y : Qc; j_xx : Qc; j_yy : Qc; j_xy : Qc }.
Definition around2 (m : list Qc) (w : nat) (pt dx dy : Z) : option Qc := zget m (pt + dx + dy * Z.of_nat w)%Z.
Definition derivatives2 (m : list Qc) (w : nat) (pt : Z) : option jet2 :=
  let at_ := around2 m w pt in
  let two := nq 2 in let q := (1 / nq 4)%Qc in
  do v <- at_ 0%Z 0%Z;
  do xp <- at_ 1%Z 0%Z; do xm <- at_ (-1)%Z 0%Z;
  do yp <- at_ 0%Z 1%Z; do ym <- at_ 0%Z (-1)%Z;
  do a <- at_ 1%Z 1%Z; do b <- at_ (-1)%Z (-1)%Z; do c <- at_ (-1)%Z 1%Z; do d <- at_ 1%Z (-1)%Z;
  Some (Jet2 v (half (xp - xm)) (half (yp - ym)) (xp + xm - two * v) (yp + ym - two * v) (q * (a + b - c - d)))%Qc.
(** covdet.c:1359-1378 *)
Definition solve_at2 (m : list Qc) (w : nat) (x y : Z) : option (jet2 * bool * list Qc) :=
  do d <- derivatives2 m w (x + Z.of_nat w * y)%Z;
  do (ok, b) <- solve2 [j_xx d; j_xy d; j_xy d; j_yy d] [- j_x d; - j_y d]%Qc;
  Some (d, ok, b).
(** covdet.c:1331-1426 *)
Definition refine2 (root : Qc -> Qc) (m : list Qc) (w h : nat) (x y : Z) : option (extremum2 * bool) :=
  do (x, y, d, ok, b) <- walk w h (solve_at2 m w) 5 x y 0 0 None;
  do b0 <- aget b 0; do b1 <- aget b 1;
  let r := Ext2 x y (zq x + b0) (zq y + b1) (j_v d + half (j_x d * b0 + j_y d * b1)) (edge_score root (j_xx d) (j_yy d) (j_xy d)) in
  Some (r, ok && close b0 && close b1 && within w (p_x r) && within h (p_y r)).

(** ** vl_covdet_detect, covdet.c:2006-2096: the features found in an octave *)
Section Features.
Variables (junk : nat -> Z) (root : Qc -> Qc) (pow : Qc -> Qc -> Qc).
(** peakThreshold, edgeThreshold, baseScale, octaveResolution *)
Variables (peak edge base : Qc) (res : nat).
Definition strong (p : Qc) (e : option Qc) : bool := qlt peak (Qcabs p) && match e with Some e => qlt e edge | None => false end.
Definition feature_at (x y sigma p e : Qc) : feature := Feature (Frame x y sigma 0 0 sigma) p e 0 0.
Definition score (e : option Qc) : Qc := match e with Some e => e | None => 0%Qc end.
(** DoG and Hessian, covdet.c:2022-2055; the buffer [b] of extrema is kept for the next octave *)
Definition octave_features (o first : Z) (step : Qc) (m : list Qc) (w h depth : nat) (b : list Z) : option (list feature * list Z) :=
  do (n, b) <- extrema3 junk (point8 * peak) m w h depth b;
  do l <- iter n (fun i l =>
    do x <- aget b (3 * i); do y <- aget b (3 * i + 1); do z <- aget b (3 * i + 2);
    do (r, ok) <- refine3 root m w h depth x y z;
    Some (if ok && strong (e_peak r) (e_edge r) then
            let sigma := (base * pow (nq 2) (zq o + (e_z r + zq first) / nq res))%Qc in
            l ++ feature_at (e_x r * step) (e_y r * step) sigma (e_peak r) (score (e_edge r)) :: nil
          else l)) nil;
  Some (l, b).
(** the other methods, covdet.c:2058-2094, at subdivision [s] *)
Definition level_features (o s : Z) (step : Qc) (m : list Qc) (w h : nat) (b : list Z) : option (list feature * list Z) :=
  do (n, b) <- extrema2 junk (point8 * peak) m w h b;
  do l <- iter n (fun i l =>
    do x <- aget b (2 * i); do y <- aget b (2 * i + 1);
    do (r, ok) <- refine2 root m w h x y;
    Some (if ok && strong (p_peak r) (p_edge r) then
            let sigma := (base * pow (nq 2) (zq o + zq s / nq res))%Qc in
            l ++ feature_at (p_x r * step) (p_y r * step) sigma (p_peak r) (score (p_edge r)) :: nil
          else l)) nil;
  Some (l, b).
End Features.
