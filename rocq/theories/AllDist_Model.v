(** Pairwise distances and kernels of the MATLAB toolbox: toolbox/misc/vl_alldist2.c for data of class double.
    Doubles are exact rationals; the square root of the Hellinger metrics is a function [rt] given to the model.
    [None] is an access outside of an array.  The arrays are stored by columns.
    Not modelled: the integer classes (their overflows and integer divisions, and vl_fast_sqrt_ui32) and the parsing of the options. *)
From Coq Require Import List Arith Bool ZArith QArith Qcanon.
Import ListNotations.
From Verif Require Import Base Rat Loop Gauss_Model.
Local Open Scope nat_scope.

Inductive norm : Type := LINF | L2 | L1 | L0 | CHI2 | HELL | KL2 | KL1 | KCHI2 | KHELL | MIN.

(** MIN, MAX, ABS_DIFF, vl_alldist2.c:65-68 *)
Definition c_min (x y : Qc) : Qc := if negb (qlt y x) then x else y.
Definition c_max (x y : Qc) : Qc := if negb (qlt x y) then x else y.
Definition abs_diff (x y : Qc) : Qc := if negb (qlt x y) then (x - y)%Qc else (y - x)%Qc.
Definition q_eq (x y : Qc) : bool := negb (qlt x y) && negb (qlt y x).

Section Norm.
Variable rt : Qc -> Qc.

(** a division; by zero it is undefined here, though doubles give an infinity or NaN *)
Definition divide (x y : Qc) : option Qc := if q_eq y 0 then None else Some (x / y)%Qc.
(** the macros F_*, vl_alldist2.c:213-254: the new value of acc *)
Definition accumulate (n : norm) (acc x y : Qc) : option Qc :=
  match n with
  | L0 => Some (acc + if negb (q_eq x y) then 1 else 0)%Qc
  | L1 => Some (acc + abs_diff x y)%Qc
  | L2 => let tmp := abs_diff x y in Some (acc + tmp * tmp)%Qc
  | LINF => Some (c_max acc (abs_diff x y))
  | CHI2 => let meant2 := (x + y)%Qc in if negb (q_eq meant2 0) then let tmp := abs_diff x y in do r <- divide (tmp * tmp)%Qc meant2; Some (acc + r)%Qc else Some acc
  | HELL => Some (acc + (x + y - zq 2 * rt (x * y)))%Qc
  | KL2 => Some (acc + x * y)%Qc
  | KL1 => Some (acc + c_min x y)%Qc
  | MIN => Some (acc + c_min x y)%Qc
  | KCHI2 => let mean := ((x + y) / zq 2)%Qc in if negb (q_eq mean 0) then let tmp := (x * y)%Qc in do r <- divide tmp mean; Some (acc + r)%Qc else Some acc
  | KHELL => Some (acc + rt (x * y))%Qc
  end.

(** the loop over the components of two columns, vl_alldist2.c:102-110 *)
Definition column_dist (n : norm) (s1 s2 : list Qc) (L j1 j2 : nat) : option Qc :=
  iter L (fun l acc => do x <- aget s1 (L * j1 + l); do y <- aget s2 (L * j2 + l); accumulate n acc x y) 0%Qc.

(** the index of the entry copied when both matrices are the same, vl_alldist2.c:112 and 195: pt + (j1 - j2) * (N1 - 1) *)
Definition mirror (N1 j1 j2 : nat) : Z := (Z.of_nat (j2 * N1 + j1) + (Z.of_nat j1 - Z.of_nat j2) * (Z.of_nat N1 - 1))%Z.

(** the loops over the pairs of columns, vl_alldist2.c:99-116 and 140-199, for the distance [d] of two columns *)
Definition core (d : nat -> nat -> option Qc) (N1 N2 : nat) (self : bool) : option (list Qc) :=
  iter N2 (fun j2 out => iter N1 (fun j1 out =>
    do v <- (if negb self || (j2 <=? j1) then d j1 j2 else zget out (mirror N1 j1 j2));
    aset out (j2 * N1 + j1) v) out) (repeat 0%Qc (N1 * N2)).
(** CORE *)
Definition dense (n : norm) (s1 s2 : list Qc) (L N1 N2 : nat) (self : bool) : option (list Qc) := core (column_dist n s1 s2 L) N1 N2 self.

(** a sparse matrix: the values, their rows and the offsets of the columns *)
Record sparse := { pr : list Qc; ir : list nat; jc : list nat }.
(** the merge of two columns, vl_alldist2.c:152-192: [p1] and [p2] are the offsets of s1_it and s1_ir_it, s2_it and s2_ir_it *)
Fixpoint merge (n : norm) (a b : sparse) (fuel p1 p2 nz1 nz2 : nat) (acc : Qc) : option Qc :=
  match fuel with
  | O => None
  | S fuel' =>
    if (nz1 =? 0) && (nz2 =? 0) then Some acc else
    if nz2 =? 0 then do x <- aget (pr a) p1; do acc <- accumulate n acc x 0; merge n a b fuel' (S p1) p2 (nz1 - 1) nz2 acc else
    if nz1 =? 0 then do y <- aget (pr b) p2; do acc <- accumulate n acc 0 y; merge n a b fuel' p1 (S p2) nz1 (nz2 - 1) acc else
    do ir1 <- aget (ir a) p1; do ir2 <- aget (ir b) p2;
    if ir1 <? ir2 then do x <- aget (pr a) p1; do acc <- accumulate n acc x 0; merge n a b fuel' (S p1) p2 (nz1 - 1) nz2 acc else
    if ir2 <? ir1 then do y <- aget (pr b) p2; do acc <- accumulate n acc 0 y; merge n a b fuel' p1 (S p2) nz1 (nz2 - 1) acc else
    do x <- aget (pr a) p1; do y <- aget (pr b) p2; do acc <- accumulate n acc x y; merge n a b fuel' (S p1) (S p2) (nz1 - 1) (nz2 - 1) acc
  end.
(** vl_alldist2.c:142-152; the offsets of the columns do not decrease *)
Definition sparse_dist (n : norm) (a b : sparse) (j1 j2 : nat) : option Qc :=
  do a1 <- aget (jc a) (j1 + 1); do a0 <- aget (jc a) j1; do b1 <- aget (jc b) (j2 + 1); do b0 <- aget (jc b) j2;
  merge n a b (S (a1 - a0 + (b1 - b0))) a0 b0 (a1 - a0) (b1 - b0) 0%Qc.
(** CORE_SPARSE *)
Definition sparse_core (n : norm) (a b : sparse) (N1 N2 : nat) (self : bool) : option (list Qc) := core (sparse_dist n a b) N1 N2 self.

(** an argument of MATLAB: its storage and its numbers of rows and columns *)
Inductive storage := Full (v : list Qc) | Sparse (s : sparse).
Record matrix := { mat : storage; nrows : nat; ncols : nat }.
(** what mxGetData returns *)
Definition data_of (m : matrix) : list Qc := match mat m with Full v => v | Sparse s => pr s end.
(** mexFunction, vl_alldist2.c:273-418, after the parsing of the options; [Some None] is an error *)
Definition alldist2 (n : norm) (x : matrix) (oy : option matrix) : option (option (list Qc)) :=
  let N1 := ncols x in let L := nrows x in
  match oy with
  | None =>
    match mat x with
    | Sparse s => do d <- sparse_core n s s N1 N1 true; Some (Some d)
    | Full v => do d <- dense n v v L N1 N1 true; Some (Some d)
    end
  | Some y =>
    match mat x, mat y with
    | Sparse _, Full _ => Some None
    | Sparse s, Sparse t => if negb (L =? nrows y) then Some None else do d <- sparse_core n s t N1 (ncols y) false; Some (Some d)
    | Full v, _ => if negb (L =? nrows y) then Some None else do d <- dense n v (data_of y) L N1 (ncols y) false; Some (Some d)
    end
  end.
End Norm.
