(** Backward warping of the MATLAB toolbox: toolbox/imop/vl_imwbackwardmx.c.
    Doubles are exact rationals; a NaN written to an output is [None] inside the result, an access outside of an array is [None] outside of it.
    The points are finite numbers; the image has one column per element of X and one row per element of Y, stored by columns.
    Not modelled: the checks of the arguments (lines 79-112) and a division by a zero step of the grid. *)
From Coq Require Import List Arith Bool ZArith QArith Qcanon.
Import ListNotations.
From Verif Require Import Base Rat Gauss_Model.
Local Open Scope nat_scope.

(** the bisection of findNeighbor, vl_imwbackwardmx.c:42-51; the values of i and j are not negative *)
Fixpoint search (X : list Qc) (x : Qc) (fuel i j : nat) : option nat :=
  match fuel with
  | O => None
  | S fuel' => if i + 1 <? j then
      let pivot := (j + i) / 2 in do y <- aget X pivot;
      if qlt x y then search X x fuel' i pivot else search X x fuel' pivot j
    else Some i
  end.
(** findNeighbor, vl_imwbackwardmx.c:33-53 *)
Definition find_neighbor (x : Qc) (X : list Qc) : option Z :=
  do xi <- aget X 0;
  if qlt x xi then Some (-1)%Z else
  do xj <- zget X (Z.of_nat (length X) - 1);
  if negb (qlt x xj) then Some (Z.of_nat (length X) - 1)%Z else
  do i <- search X x (length X) 0 (length X - 1); Some (Z.of_nat i).

(** the test on the bounds of the grid, vl_imwbackwardmx.c:133-136 and 150-151 (210-211) *)
Definition inside (X Y : list Qc) (x y : Qc) : option bool :=
  do xmin <- aget X 0; do xmax <- zget X (Z.of_nat (length X) - 1);
  do ymin <- aget Y 0; do ymax <- zget Y (Z.of_nat (length Y) - 1);
  Some (negb (qlt x xmin) && negb (qlt xmax x) && negb (qlt y ymin) && negb (qlt ymax y)).

(** the four neighbours, zero where there is none, vl_imwbackwardmx.c:164-184 (224-244): z00, z10, z01, z11 *)
Definition corners (I : list Qc) (M N : Z) (j i : Z) : option (Qc * Qc * Qc * Qc) :=
  let pt := (j * M + i)%Z in
  do z00 <- (if (-1 <? j)%Z && (-1 <? i)%Z then zget I pt else Some 0%Qc);
  do z10 <- (if (-1 <? j)%Z && (i <? M - 1)%Z then zget I (pt + 1) else Some 0%Qc);
  do z01 <- (if (j <? N - 1)%Z && (-1 <? i)%Z then zget I (pt + 1 + (M - 1)) else Some 0%Qc);
  do z11 <- (if (j <? N - 1)%Z && (i <? M - 1)%Z then zget I (pt + 1 + (M - 1) + 1) else Some 0%Qc);
  Some (z00, z10, z01, z11).

(** the weight along one axis in the mode without derivatives, vl_imwbackwardmx.c:156-162 *)
Definition weight (X : list Qc) (j : Z) (x : Qc) : option Qc :=
  do x0 <- zget X j;
  do x1 <- (if (j <? Z.of_nat (length X) - 1)%Z then zget X (j + 1) else Some (x0 + 1)%Qc);
  Some ((x - x0) / (x1 - x0))%Qc.
(** one pixel of the mode without derivatives, vl_imwbackwardmx.c:143-192 *)
Definition warp_at (X Y I : list Qc) (x y : Qc) : option (option Qc) :=
  do ok <- inside X Y x y;
  if ok : bool then
    do j <- find_neighbor x X; do i <- find_neighbor y Y;
    do wx <- weight X j x; do wy <- weight Y i y;
    do (z00, z10, z01, z11) <- corners I (Z.of_nat (length Y)) (Z.of_nat (length X)) j i;
    Some (Some ((1 - wy) * ((1 - wx) * z00 + wx * z01) + wy * ((1 - wx) * z10 + wx * z11))%Qc)
  else Some None.
(** the loops over the pixels, vl_imwbackwardmx.c:138-195; the points and the result are read and written in the order of memory *)
Fixpoint warp (X Y I : list Qc) (pts : list (Qc * Qc)) : option (list (option Qc)) :=
  match pts with
  | [] => Some []
  | (x, y) :: pts' => do z <- warp_at X Y I x y; do zs <- warp X Y I pts'; Some (z :: zs)
  end.

(** the weight along one axis in the mode with derivatives, vl_imwbackwardmx.c:216-222 *)
Definition weight_d (X : list Qc) (j : Z) (x : Qc) : option Qc :=
  do x0 <- zget X j; do x1 <- zget X (j + 1); Some ((x - x0) / (x1 - x0))%Qc.
(** one pixel of the mode with derivatives, vl_imwbackwardmx.c:203-262: z, zx, zy *)
Definition warp_d_at (X Y I : list Qc) (x y : Qc) : option (option (Qc * Qc * Qc)) :=
  do ok <- inside X Y x y;
  if ok : bool then
    do j <- find_neighbor x X; do i <- find_neighbor y Y;
    do wx <- weight_d X j x; do wy <- weight_d Y i y;
    do (z00, z10, z01, z11) <- corners I (Z.of_nat (length Y)) (Z.of_nat (length X)) j i;
    Some (Some (((1 - wy) * ((1 - wx) * z00 + wx * z01) + wy * ((1 - wx) * z10 + wx * z11))%Qc,
                ((1 - wy) * (z01 - z00) + wy * (z11 - z10))%Qc,
                ((1 - wx) * (z10 - z00) + wx * (z11 - z01))%Qc))
  else Some None.
