(** Bins of the MATLAB toolbox: vl_binsearch.c, vl_binsum.c with vl_binsum.def, and vl_cummax.c with vl_cummax.def.
    Values are rational numbers; arrays are lists in the order of memory (column major) beside the list of their dimensions.
    [Some None] is an error raised, [None] is undefined behaviour. *)
From Coq Require Import List Arith Bool ZArith QArith Qcanon.
Import ListNotations.
From Verif Require Import Base Rat Loop.
From Verif Require Import Gauss_Model.
Local Open Scope nat_scope.

(** the loop of the bisection, vl_binsearch.c:74-78 *)
Fixpoint bisect (B : list Qc) (x : Qc) (fuel lo up : nat) : option nat :=
  match fuel with
  | O => None
  | S fuel' => if lo + 1 <? up then
      let split := (up + lo) / 2 in do b <- aget B split;
      if qlt x b then bisect B x fuel' lo split else bisect B x fuel' split up
    else Some lo
  end.
(** vl_binsearch.c:50-80 for one element; an empty B leaves the zeros of the new array *)
Definition binsearch (B : list Qc) (x : Qc) : option nat :=
  if length B =? 0 then Some 0 else
  do b0 <- aget B 0;
  if qlt x b0 then Some 0 else
  do bl <- aget B (length B - 1);
  if negb (qlt x bl) then Some (length B) else
  do lo <- bisect B x (length B) 0 (length B - 1); Some (lo + 1).

(** the mode of all dimensions, vl_binsum.def:105-131; [n] elements of B from [i] are left *)
Fixpoint binsum_all_from (X : list Qc) (B : list Z) (n i : nat) (H : list Qc) : option (option (list Qc)) :=
  match n with
  | O => Some (Some H)
  | S n' => do b <- aget B i; let j := (b - 1)%Z in
    if (j <? -1)%Z || (Z.of_nat (length H) <=? j)%Z then Some None else
    do H <- (if (0 <=? j)%Z then do x <- aget X (if 1 <? length X then i else 0); do v <- aget H (Z.to_nat j); aset H (Z.to_nat j) (v + x)%Qc else Some H);
    binsum_all_from X B n' (S i) H
  end.
(** vl_binsum.def:100-131, DIM not given *)
Definition binsum_all (H X : list Qc) (B : list Z) : option (option (list Qc)) :=
  if negb (length X =? length B) && (1 <? length X) then Some None else binsum_all_from X B (length B) 0 H.

(** the checks of the dimensions and the stride, vl_binsum.def:181-195; [Some None]: an error *)
Fixpoint strides (KX : nat) (Xdims Hdims Bdims : list nat) (d n k srd : nat) : option (option nat) :=
  match n with
  | O => Some (Some srd)
  | S n' =>
    do bad <- (if 1 <? KX then do x <- aget Xdims k; do b <- aget Bdims k; Some (negb (x =? b)) else Some false);
    if bad : bool then Some None else
    do bad <- (if negb (k =? d) then do b <- aget Bdims k; do h <- aget Hdims k; Some (negb (b =? h)) else Some false);
    if bad : bool then Some None else
    do srd <- (if k <? d then do b <- aget Bdims k; Some (srd * b) else Some srd);
    strides KX Xdims Hdims Bdims d n' (S k) srd
  end.
(** the loop of the mode of one dimension, vl_binsum.def:237-268: [off] is H_pt, [brk] and [nbrk] are B_brk and B_nbrk as indices *)
Fixpoint binsum_dim_from (X : list Qc) (B : list Z) (srd hd bd n i off brk nbrk : nat) (H : list Qc) : option (option (list Qc)) :=
  match n with
  | O => Some (Some H)
  | S n' => do b <- aget B i; let j := (b - 1)%Z in
    if (j <? -1)%Z || (Z.of_nat hd <=? j)%Z then Some None else
    do H <- (if (0 <=? j)%Z then do x <- aget X (if 1 <? length X then i else 0); do v <- aget H (off + Z.to_nat j * srd); aset H (off + Z.to_nat j * srd) (v + x)%Qc else Some H);
    let off := off + 1 in
    if S i =? brk then
      if S i =? nbrk then binsum_dim_from X B srd hd bd n' (S i) (off - srd + srd * hd) (brk + srd) (nbrk + srd * bd) H
      else binsum_dim_from X B srd hd bd n' (S i) (off - srd) (brk + srd) nbrk H
    else binsum_dim_from X B srd hd bd n' (S i) off brk nbrk H
  end.
(** vl_binsum.def:100-268 with DIM = d + 1; the numbers of dimensions are the lengths of the lists of dimensions *)
Definition binsum_dim (H : list Qc) (Hdims : list nat) (X : list Qc) (Xdims : list nat) (B : list Z) (Bdims : list nat) (d : nat) : option (option (list Qc)) :=
  let KX := length X in
  if negb (KX =? length B) && (1 <? KX) then Some None else
  let HD := length Hdims in let XD := length Xdims in let BD := length Bdims in
  if HD <=? d then Some None else
  if negb (HD =? BD) && (negb (d =? HD - 1) && (BD =? HD - 1)) then Some None else
  if negb (BD =? XD) && (1 <? KX) then Some None else
  do r <- strides KX Xdims Hdims Bdims d XD 0 1;
  match r with
  | None => Some None
  | Some srd => do hd <- aget Hdims d; do bd <- aget Bdims d; binsum_dim_from X B srd hd bd (length B) 0 0 srd (srd * bd) H
  end.

(** VL_MAX, generic.h:188 *)
Definition qmax (x y : Qc) : Qc := if qlt y x then x else y.
(** the two loops of a round, vl_cummax.def:80-89 *)
Definition copy_step (X : list Qc) (i : nat) (Y : list Qc) : option (list Qc) := do x <- aget X i; aset Y i x.
Definition op_step (X : list Qc) (stride i : nat) (Y : list Qc) : option (list Qc) :=
  do x <- aget X i; do y <- (if i <? stride then None else aget Y (i - stride)); aset Y i (qmax x y).
(** the outer loop, vl_cummax.def:73-91 *)
Fixpoint cummax_from (X : list Qc) (stride dimension fuel i : nat) (Y : list Qc) : option (list Qc) :=
  match fuel with
  | O => None
  | S fuel' => if i <? length X then
      do Y <- iter_from stride i (copy_step X) Y;
      do Y <- iter_from (stride * (dimension - 1)) (i + stride) (op_step X stride) Y;
      cummax_from X stride dimension fuel' (i + stride + stride * (dimension - 1)) Y
    else Some Y
  end.
Definition cummax_dim (X : list Qc) (stride dimension : nat) : option (list Qc) :=
  cummax_from X stride dimension (S (length X)) 0 (repeat 0%Qc (length X)).
(** the first dimension that is not one, or the last, vl_cummax.c:118 *)
Fixpoint first_dim (dims : list nat) : nat :=
  match dims with [] => 0 | [_] => 0 | a :: l => if a =? 1 then S (first_dim l) else 0 end.
(** vl_cummax.c:85-132: [dim] is DIM - 1 if given; [None]: DIM is not valid *)
Definition cummax (X : list Qc) (dims : list nat) (dim : option nat) : option (list Qc) :=
  match dim with
  | Some d => do n <- aget dims d; cummax_dim X (fold_left Nat.mul (firstn d dims) 1) n
  | None => do n <- aget dims (first_dim dims); cummax_dim X 1 n
  end.
