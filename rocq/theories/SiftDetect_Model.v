(** The SIFT detector, vl/sift.c, over exact rationals.

    The keypoint buffer is a list, so that its growth by reallocation is not visible.  All the
    neighbours of a pixel are read even if the first comparison fails.  [pow] is pow and [sig0]
    the base scale sigma0 of the filter. *)
From Coq Require Import List Arith ZArith Bool QArith Qcanon Qcabs.
Import ListNotations.
From Verif Require Import Base Loop Rat Gauss_Model Sift_Model.
Local Open Scope nat_scope.

(** the differences of Gaussians, sift.c:1178-1187; state (pt, dog) *)
Definition compute_dog (octave : list Qc) (w h S : nat) (dog : list Qc) : option (list Qc) :=
  do (_, dog) <- iter (S + 2) (fun s st => iter (w * h) (fun i (st : nat * list Qc) =>
      let (pt, dog) := st in
      do b <- aget octave ((s + 1) * (w * h) + i);
      do a <- aget octave (s * (w * h) + i);
      do dog <- aset dog pt (b - a)%Qc;
      Some (pt + 1, dog)) st) (0, dog);
  Some dog.

(** the offsets in CHECK_NEIGHBORS, sift.c:1201-1230 *)
Definition neighbours (xo yo so : Z) : list Z :=
  [xo; - xo; so; - so; yo; - yo;
   yo + xo; yo - xo; - yo + xo; - yo - xo;
   xo + so; - xo + so; yo + so; - yo + so; yo + xo + so; yo - xo + so; - yo + xo + so; - yo - xo + so;
   xo - so; - xo - so; yo - so; - yo - so; yo + xo - so; yo - xo - so; - yo + xo - so; - yo - xo - so]%Z.
Fixpoint zgets (l : list Qc) (pos : list Z) : option (list Qc) :=
  match pos with
  | [] => Some []
  | p :: pos => do v <- zget l p; do r <- zgets l pos; Some (v :: r)
  end.
(** 0.8 tp, sift.c:1201 *)
Definition point8 : Qc := (zq 8 / zq 10)%Qc.
Definition is_peak (dog : list Qc) (w h : nat) (tp : Qc) (pt : Z) : option bool :=
  do v <- zget dog pt;
  do ns <- zgets dog (map (fun d => pt + d)%Z (neighbours 1 (Z.of_nat w) (Z.of_nat (w * h))));
  Some ((negb (qlt v (point8 * tp)) && forallb (fun n => qlt n v) ns) ||
        (negb (qlt (- (point8 * tp)) v) && forallb (fun n => qlt v n) ns)).
(** the scan for extrema, sift.c:1193-1262: x, y, s of the candidates; state (pt, candidates) *)
Definition candidates (dog : list Qc) (w h S : nat) (tp : Qc) : option (list (Z * Z * Z)) :=
  do (_, keys) <- iter S (fun s st =>
      do (pt, keys) <- iter (h - 2) (fun y st =>
          do (pt, keys) <- iter (w - 2) (fun x (st : Z * list (Z * Z * Z)) =>
              let (pt, keys) := st in
              do p <- is_peak dog w h tp pt;
              Some ((pt + 1)%Z, if p then keys ++ [(Z.of_nat x + 1, Z.of_nat y + 1, Z.of_nat s)%Z] else keys)) st;
          Some ((pt + 2)%Z, keys)) st;
      Some ((pt + 2 * Z.of_nat w)%Z, keys)) ((1 + Z.of_nat w + Z.of_nat (w * h))%Z, []);
  Some keys.

(** the Gauss elimination, sift.c:1318-1368; A is stored by columns and [tiny] is 1e-10f *)
Definition aat (A : list Qc) (i j : nat) : option Qc := aget A (i + j * 3).
Definition pivot (A : list Qc) (j : nat) : option (Qc * Qc * nat) :=
  iter_from (3 - j) j (fun i (st : Qc * Qc * nat) =>
    let '(maxa, maxabsa, maxi) := st in
    do a <- aat A i j;
    Some (if qlt maxabsa (Qcabs a) then (a, Qcabs a, i) else (maxa, maxabsa, maxi))) (0%Qc, 0%Qc, 3).
Definition swap_row (A : list Qc) (i j : nat) (maxa : Qc) : option (list Qc) :=
  iter_from (3 - j) j (fun jj A =>
    do tmp <- aat A i jj;
    do v <- aat A j jj;
    do A <- aset A (i + jj * 3) v;
    do A <- aset A (j + jj * 3) tmp;
    do v <- aat A j jj;
    aset A (j + jj * 3) (v / maxa)%Qc) A.
Definition clear_below (A b : list Qc) (j : nat) : option (list Qc * list Qc) :=
  iter_from (3 - (j + 1)) (j + 1) (fun ii (st : list Qc * list Qc) =>
    let (A, b) := st in
    do x <- aat A ii j;
    do A <- iter_from (3 - j) j (fun jj A =>
      do u <- aat A ii jj;
      do v <- aat A j jj;
      aset A (ii + jj * 3) (u - x * v)%Qc) A;
    do u <- aget b ii;
    do v <- aget b j;
    do b <- aset b ii (u - x * v)%Qc;
    Some (A, b)) (A, b).
(** the columns from [j] on; the flag tells that a pivot was too small *)
Fixpoint eliminate (n j : nat) (A b : list Qc) : option (list Qc * list Qc * bool) :=
  match n with
  | 0 => Some (A, b, true)
  | S n =>
    do (maxa, maxabsa, i) <- pivot A j;
    if qlt maxabsa tiny then Some (A, [0; 0; 0]%Qc, false) else
    do A <- swap_row A i j maxa;
    do u <- aget b j;
    do v <- aget b i;
    do b <- aset b j v;
    do b <- aset b i u;
    do v <- aget b j;
    do b <- aset b j (v / maxa)%Qc;
    do (A, b) <- clear_below A b j;
    eliminate n (j + 1) A b
  end.
(** backward substitution, sift.c:1370-1376, for i = 2 and 1 *)
Definition back_one (A : list Qc) (i : nat) (b : list Qc) : option (list Qc) :=
  do x <- aget b i;
  iter i (fun k b =>
    let ii := i - 1 - k in
    do u <- aget b ii;
    do v <- aat A ii i;
    aset b ii (u - x * v)%Qc) b.
Definition solve3 (A b : list Qc) : option (list Qc * bool) :=
  do (A, b, ok) <- eliminate 3 0 A b;
  do b <- back_one A 2 b;
  do b <- back_one A 1 b;
  Some (b, ok).

(** the derivatives at a pixel, sift.c:1293-1304 *)
Record jet := Jet { d_v : Qc; d_x : Qc; d_y : Qc; d_s : Qc; d_xx : Qc; d_yy : Qc; d_ss : Qc; d_xy : Qc; d_xs : Qc; d_ys : Qc }.
Definition around (dog : list Qc) (w h : nat) (pt dx dy ds : Z) : option Qc :=
  zget dog (pt + dx + dy * Z.of_nat w + ds * Z.of_nat (w * h))%Z.
Definition derivatives (dog : list Qc) (w h : nat) (pt : Z) : option jet :=
  let at_ := around dog w h pt in
  let two := nq 2 in let q := (1 / nq 4)%Qc in
  do v <- at_ 0%Z 0%Z 0%Z;
  do xp <- at_ 1%Z 0%Z 0%Z; do xm <- at_ (-1)%Z 0%Z 0%Z;
  do yp <- at_ 0%Z 1%Z 0%Z; do ym <- at_ 0%Z (-1)%Z 0%Z;
  do sp <- at_ 0%Z 0%Z 1%Z; do sm <- at_ 0%Z 0%Z (-1)%Z;
  do xy1 <- at_ 1%Z 1%Z 0%Z; do xy2 <- at_ (-1)%Z (-1)%Z 0%Z; do xy3 <- at_ (-1)%Z 1%Z 0%Z; do xy4 <- at_ 1%Z (-1)%Z 0%Z;
  do xs1 <- at_ 1%Z 0%Z 1%Z; do xs2 <- at_ (-1)%Z 0%Z (-1)%Z; do xs3 <- at_ (-1)%Z 0%Z 1%Z; do xs4 <- at_ 1%Z 0%Z (-1)%Z;
  do ys1 <- at_ 0%Z 1%Z 1%Z; do ys2 <- at_ 0%Z (-1)%Z (-1)%Z; do ys3 <- at_ 0%Z (-1)%Z 1%Z; do ys4 <- at_ 0%Z 1%Z (-1)%Z;
  Some {| d_v := v; d_x := half (xp - xm); d_y := half (yp - ym); d_s := half (sp - sm);
          d_xx := xp + xm - two * v; d_yy := yp + ym - two * v; d_ss := sp + sm - two * v;
          d_xy := q * (xy1 + xy2 - xy3 - xy4); d_xs := q * (xs1 + xs2 - xs3 - xs4); d_ys := q * (ys1 + ys2 - ys3 - ys4) |}%Qc.
(** the displacement of one step, sift.c:1383-1387 *)
Definition point6 : Qc := (zq 6 / zq 10)%Qc.
Definition move (b : Qc) (x : Z) (n : nat) : Z :=
  ((if qlt point6 b && (x <? Z.of_nat n - 2) then 1 else 0) + (if qlt b (- point6) && (1 <? x) then -1 else 0))%Z.
(** the iterations, sift.c:1285-1390; [n] remain and the displacement is (dx, dy).  The result is
    the pixel, the derivatives there and the offset. *)
Fixpoint refine_loop (n : nat) (dog : list Qc) (w h : nat) (x y s dx dy : Z) (last : jet * list Qc) : option (Z * Z * jet * list Qc) :=
  match n with
  | 0 => Some (x, y, fst last, snd last)
  | S n =>
    let x := (x + dx)%Z in let y := (y + dy)%Z in
    do d <- derivatives dog w h (x + Z.of_nat w * y + Z.of_nat (w * h) * (s + 1))%Z;
    do (b, _) <- solve3 [d_xx d; d_xy d; d_xs d; d_xy d; d_yy d; d_ys d; d_xs d; d_ys d; d_ss d] [- d_x d; - d_y d; - d_s d]%Qc;
    do b0 <- aget b 0;
    do b1 <- aget b 1;
    let dx := move b0 x w in let dy := move b1 y h in
    if (dx =? 0)%Z && (dy =? 0)%Z then Some (x, y, d, b) else refine_loop n dog w h x y s dx dy (d, b)
  end.
Definition no_jet : jet := Jet 0 0 0 0 0 0 0 0 0 0.
Definition refine (dog : list Qc) (w h : nat) (x y s : Z) : option (Z * Z * jet * list Qc) :=
  refine_loop 5 dog w h x y s 0 0 (no_jet, [0; 0; 0]%Qc).

(** the test of a refined candidate, sift.c:1395-1415.  A zero determinant makes the score infinite
    or undefined, so that it is rejected; a zero edge threshold makes the bound infinite. *)
Definition onehalf3 : Qc := (nq 3 / nq 2)%Qc.
Definition accept (tp te : Qc) (w h S : nat) (x y s : Z) (d : jet) (b0 b1 b2 : Qc) : bool :=
  let val := (d_v d + half (d_x d * b0 + d_y d * b1 + d_s d * b2))%Qc in
  let det := (d_xx d * d_yy d - d_xy d * d_xy d)%Qc in
  let score := ((d_xx d + d_yy d) * (d_xx d + d_yy d) / det)%Qc in
  let xn := (zq x + b0)%Qc in let yn := (zq y + b1)%Qc in let sn := (zq s + b2)%Qc in
  qlt tp (Qcabs val) &&
  negb (Qc_eq_bool det 0) && (Qc_eq_bool te 0 || qlt score ((te + 1) * (te + 1) / te)%Qc) && negb (qlt score 0) &&
  qlt (Qcabs b0) onehalf3 && qlt (Qcabs b1) onehalf3 && qlt (Qcabs b2) onehalf3 &&
  negb (qlt xn 0) && negb (qlt (zq (Z.of_nat w - 1)) xn) && negb (qlt yn 0) && negb (qlt (zq (Z.of_nat h - 1)) yn) &&
  negb (qlt sn (zq (-1))) && negb (qlt (zq (Z.of_nat S + 1)) sn).

(** vl_sift_detect, sift.c:1153-1433 *)
Section Detect.
Variables (pow : Qc -> Qc -> Qc).
Definition detect (f : sift) : option sift :=
  let c := f_cfg f in let w := f_ow f in let h := f_oh f in let n := c_S c in
  let xper := pow (nq 2) (zq (f_ocur f)) in
  do dog <- compute_dog (f_octave f) w h n (f_dog f);
  do cs <- candidates dog w h n (c_peak c);
  do keys <- iter (length cs) (fun i keys =>
    do (xy, s) <- aget cs i;
    do (x, y, d, b) <- refine dog w h (fst xy) (snd xy) s;
    do b0 <- aget b 0; do b1 <- aget b 1; do b2 <- aget b 2;
    Some (if accept (c_peak c) (c_edge c) w h n x y s d b0 b1 b2 then
            keys ++ [{| k_o := f_ocur f; k_ix := x; k_iy := y; k_is := s; k_s := (zq s + b2)%Qc;
                        k_x := ((zq x + b0) * xper)%Qc; k_y := ((zq y + b1) * xper)%Qc;
                        k_sigma := (sigma0 pow n * pow (nq 2) ((zq s + b2) / nq n) * xper)%Qc |}]
          else keys)) [];
  Some {| f_cfg := c; f_ocur := f_ocur f; f_ow := w; f_oh := h; f_temp := f_temp f; f_octave := f_octave f; f_dog := dog;
          f_grad := f_grad f; f_grado := f_grado f; f_filt := f_filt f; f_fsigma := f_fsigma f; f_fwidth := f_fwidth f; f_keys := keys |}.
End Detect.
