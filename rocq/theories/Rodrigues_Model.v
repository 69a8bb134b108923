(** Rodrigues' formula and its inverse, vl/rodrigues.c, over the real numbers (rounding is not
    modelled).  Matrices are lists in the order of the arrays of the code: entry (i, j) of a
    matrix with m rows is at position i + m * j. *)
From Coq Require Import List Arith Bool Reals.
Import ListNotations.
Local Open Scope R_scope.

(** rodrigues.c:58, 200 *)
Definition small : R := / 1000000.
(** the comparisons of the code *)
Definition ltb (a b : R) : bool := if Rlt_dec a b then true else false.
Definition geb (a b : R) : bool := if Rle_dec b a then true else false.
Definition vec : Type := R * R * R.

(** th, rodrigues.c:60-62 *)
Definition angle (om : vec) : R := let '(o0, o1, o2) := om in sqrt (o0 * o0 + o1 * o1 + o2 * o2).

(** the matrix written by vl_rodrigues, rodrigues.c:60-115 *)
Definition rodrigues (om : vec) : list R :=
  let '(o0, o1, o2) := om in
  let th := angle om in
  if ltb th small then [1; 0; 0; 0; 1; 0; 0; 0; 1]
  else
    let x := o0 / th in let y := o1 / th in let z := o2 / th in
    let xx := x * x in let xy := x * y in let xz := x * z in
    let yy := y * y in let yz := y * z in let zz := z * z in
    let yx := xy in
    let sth := sin th in let cth := cos th in let mcth := 1 - cth in
    [ 1 - mcth * (yy + zz); sth * z + mcth * xy; - sth * y + mcth * xz;
      - sth * z + mcth * yx; 1 - mcth * (zz + xx); sth * x + mcth * yz;
      sth * y + mcth * xz; - sth * x + mcth * yz; 1 - mcth * (xx + yy) ].

(** the derivative written by vl_rodrigues, rodrigues.c:69-81, 117-158: 9 rows, 3 columns *)
Definition drodrigues (om : vec) : list R :=
  let '(o0, o1, o2) := om in
  let th := angle om in
  if ltb th small then
    [0; 0; 0; 0; 0; 1; 0; -1; 0;
     0; 0; -1; 0; 0; 0; 1; 0; 0;
     0; 1; 0; -1; 0; 0; 0; 0; 0]
  else
    let x := o0 / th in let y := o1 / th in let z := o2 / th in
    let xx := x * x in let xy := x * y in let xz := x * z in
    let yy := y * y in let yz := y * z in let zz := z * z in
    let yx := xy in let zx := xz in let zy := yz in
    let sth := sin th in let cth := cos th in let mcth := 1 - cth in
    let a := sth / th in let b := mcth / th in let c := cth - a in let d := sth - 2 * b in
    [ - d * (yy + zz) * x;
      b * y + c * zx + d * xy * x;
      b * z - c * yx + d * xz * x;
      b * y - c * zx + d * xy * x;
      - 2 * b * x - d * (zz + xx) * x;
      a + c * xx + d * yz * x;
      b * z + c * yx + d * zx * x;
      - a - c * xx + d * zy * x;
      - 2 * b * x - d * (yy + xx) * x;

      - 2 * b * y - d * (yy + zz) * y;
      b * x + c * zy + d * xy * y;
      - a - c * yy + d * xz * y;
      b * x - c * zy + d * xy * y;
      - d * (zz + xx) * y;
      b * z + c * xy + d * yz * y;
      a + c * yy + d * zx * y;
      b * z - c * xy + d * zy * y;
      - 2 * b * y - d * (yy + xx) * y;

      - 2 * b * z - d * (yy + zz) * z;
      a + c * zz + d * xy * z;
      b * x - c * yz + d * xz * z;
      - a - c * zz + d * xy * z;
      - 2 * b * z - d * (zz + xx) * z;
      b * y + c * xz + d * yz * z;
      b * x + c * yz + d * zx * z;
      b * y - c * xz + d * zy * z;
      - d * (yy + xx) * z ].

(** entry (i, j) of the 3x3 argument of vl_irodrigues *)
Definition at3 (m : list R) (i j : nat) : R := nth (i + 3 * j) m 0.
(** th, rodrigues.c:202-203 *)
Definition iangle (m : list R) : R := acos ((1 / 2) * (Rmax (at3 m 0 0 + at3 m 1 1 + at3 m 2 2) (-1) - 1)).
(** whether the rotation is about pi, rodrigues.c:208 *)
Definition singular (m : list R) : bool := ltb (Rabs (sin (iangle m))) small && ltb (cos (iangle m)) 0.
(** a nonnegative entry keeps the component, rodrigues.c:244-251 *)
Definition signed (w v : R) : R := if geb w 0 then v else - v.

(** the vector written by vl_irodrigues, rodrigues.c:202-276 *)
Definition irodrigues (m : list R) : vec :=
  let th := iangle m in
  let sth := sin th in let cth := cos th in
  if singular m then
    let w i j := (1 / 2) * (at3 m i j + at3 m j i) - (if (i =? j)%nat then 1 else 0) in
    let x := sqrt ((1 / 2) * (w 0%nat 0%nat - w 1%nat 1%nat - w 2%nat 2%nat)) in
    let y := sqrt ((1 / 2) * (w 1%nat 1%nat - w 2%nat 2%nat - w 0%nat 0%nat)) in
    let z := sqrt ((1 / 2) * (w 2%nat 2%nat - w 0%nat 0%nat - w 1%nat 1%nat)) in
    let '(x, y, z) :=
      if geb x y && geb x z then (x, signed (w 1%nat 0%nat) y, signed (w 2%nat 0%nat) z)
      else if geb y x && geb y z then (signed (w 1%nat 0%nat) x, y, signed (w 2%nat 1%nat) z)
      else (signed (w 2%nat 0%nat) x, signed (w 2%nat 1%nat) y, z) in
    let scale := th / sqrt (1 - cth) in
    (scale * x, scale * y, scale * z)
  else
    let a := if ltb (Rabs sth) small then 1 else th / sin th in
    ((1 / 2) * a * (at3 m 2 1 - at3 m 1 2), (1 / 2) * a * (at3 m 0 2 - at3 m 2 0), (1 / 2) * a * (at3 m 1 0 - at3 m 0 1)).

(** the derivative written by vl_irodrigues, rodrigues.c:263-267, 278-322: 3 rows, 9 columns; [None]
    when filled with NaN *)
Definition dirodrigues (m : list R) : option (list R) :=
  let th := iangle m in
  let sth := sin th in let cth := cos th in
  if singular m then None
  else
    let '(o0, o1, o2) := irodrigues m in
    let tiny := ltb (Rabs sth) small in
    let a := if tiny then 1 / 2 else th / (2 * sth) in
    let b := if tiny then 0 else (th * cth - sth) / (2 * sth * sth) / th in
    Some
      [ b * o0; b * o1; b * o2;
        0; 0; a;
        0; - a; 0;
        0; 0; - a;
        b * o0; b * o1; b * o2;
        a; 0; 0;
        0; a; 0;
        - a; 0; 0;
        b * o0; b * o1; b * o2 ].
