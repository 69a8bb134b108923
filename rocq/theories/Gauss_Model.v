(** Model of the linear solvers of vl/mathop.c: vl_gaussian_elimination and the
    2x2 and 3x3 solvers built on it.

    Doubles are exact rationals [Qc] (no rounding, infinities or NaN).  A
    numRows x numColumns matrix is a flat column-major array; [None] stands for
    an access outside the array. *)
From Coq Require Import List Arith ZArith Lia Bool QArith Qcanon Qcabs.
From Verif Require Import Base Loop.
Import ListNotations.
Local Open Scope Qc_scope.

(** x < y on numbers *)
Definition qlt (x y : Qc) : bool := match x ?= y with Lt => true | _ => false end.

(** 1e-10 *)
Definition tiny : Qc := Q2Qc (1 # 10000000000).

Section Gauss.
Variable rows : nat.

(** Aat(i,j), mathop.c:912 *)
Definition mget (m : list Qc) (i j : nat) : option Qc := aget m (i + j * rows)%nat.
Definition mset (m : list Qc) (i j : nat) (v : Qc) : option (list Qc) := aset m (i + j * rows)%nat v.

(** search of the pivot, mathop.c:936-944; state (maxa, maxabsa, maxi), where
    maxi = -1 is [None] *)
Definition pivot_step (m : list Qc) (j i : nat) (s : Qc * Qc * option nat) : option (Qc * Qc * option nat) :=
  let '(maxa, maxabsa, maxi) := s in
  do a <- mget m i j;
  let absa := Qcabs a in
  if qlt maxabsa absa then Some (a, absa, Some i) else Some (maxa, maxabsa, maxi).
Definition pivot (m : list Qc) (j : nat) : option (Qc * Qc * option nat) :=
  iter_from (rows - j) j (pivot_step m j) (0, 0, None).

(** one column of the exchange of rows i and j, mathop.c:951-954 *)
Definition swap_step (i j : nat) (maxa : Qc) (jj : nat) (m : list Qc) : option (list Qc) :=
  do tmp <- mget m i jj;
  do v <- mget m j jj;
  do m <- mset m i jj v;
  do m <- mset m j jj tmp;
  do w <- mget m j jj;
  mset m j jj (w / maxa).

(** elimination in one row, mathop.c:971-976 *)
Definition elim_cell (ii j : nat) (x : Qc) (jj : nat) (m : list Qc) : option (list Qc) :=
  do a <- mget m ii jj;
  do b <- mget m j jj;
  mset m ii jj (a - x * b).
Definition elim_row (columns j ii : nat) (m : list Qc) : option (list Qc) :=
  do x <- mget m ii j;
  iter_from (columns - j) j (elim_cell ii j x) m.

(** one column of the elimination, mathop.c:915-993; the flag is false when the
    function returns VL_ERR_OVERFLOW.  [maxi] is -1 only when [maxabsa] is 0,
    and then the function returns. *)
Definition column (columns j : nat) (m : list Qc) : option (bool * list Qc) :=
  do (maxa, maxabsa, maxi) <- pivot m j;
  if qlt maxabsa tiny then Some (false, m) else
  do i <- maxi;
  do m <- iter_from (columns - j) j (swap_step i j maxa) m;
  do m <- iter_from (rows - (j + 1)) (j + 1) (elim_row columns j) m;
  Some (true, m).

(** the loop over the columns with its early return *)
Fixpoint columns_loop (k columns j : nat) (m : list Qc) : option (bool * list Qc) :=
  match k with
  | O => Some (true, m)
  | S k => do (ok, m) <- column columns j m;
           if ok then columns_loop k columns (j + 1) m else Some (false, m)
  end.

(** substitution of row i in one row above, mathop.c:1000-1006 *)
Definition back_cell (ii i : nat) (x : Qc) (j : nat) (m : list Qc) : option (list Qc) :=
  do a <- mget m ii j;
  do b <- mget m i j;
  mset m ii j (a - x * b).
Definition back_row (columns i : nat) (s : nat) (m : list Qc) : option (list Qc) :=
  let ii := (i - 1 - s)%nat in
  do x <- mget m ii i;
  iter_from (columns - rows) rows (back_cell ii i x) m.

(** backward substitution, mathop.c:997-1008: rows - 1 rounds with
    i = rows - 1, ..., 1 and ii = i - 1, ..., 0 *)
Definition back (columns : nat) (m : list Qc) : option (list Qc) :=
  iter (rows - 1) (fun t m => let i := (rows - 1 - t)%nat in iter i (back_row columns i) m) m.

(** vl_gaussian_elimination, mathop.c:905-1027 *)
Definition gaussian_elimination (columns : nat) (m : list Qc) : option (bool * list Qc) :=
  do (ok, m) <- columns_loop rows columns 0 m;
  if ok then do m <- back columns m; Some (true, m) else Some (false, m).
End Gauss.

(** vl_solve_linear_system_3, mathop.c:838-860: error flag and x *)
Definition solve3 (a b : list Qc) : option (bool * list Qc) :=
  do (ok, m) <- gaussian_elimination 3 4 (firstn 9 a ++ firstn 3 b);
  do x0 <- aget m 9; do x1 <- aget m 10; do x2 <- aget m 11;
  Some (ok, [x0; x1; x2]%list).

(** vl_solve_linear_system_2, mathop.c:871-886 *)
Definition solve2 (a b : list Qc) : option (bool * list Qc) :=
  do (ok, m) <- gaussian_elimination 2 3 (firstn 4 a ++ firstn 2 b);
  do x0 <- aget m 4; do x1 <- aget m 5;
  Some (ok, [x0; x1]%list).
