(** Model of the VLAD encoding, vl/vlad.c.

    Numbers are exact rationals; the square root is an arbitrary function [root]
    and 1e-12 is [tiny].  The parallel loop over the clusters runs their iterations
    in an arbitrary order [order]: iterations write disjoint parts of the encoding
    and share nothing else. *)
From Coq Require Import List Arith ZArith Lia Bool QArith Qcanon.
From Verif Require Import Base Loop Rat Gauss_Model.
Import ListNotations.
Local Open Scope nat_scope.

Record vlad_flags := mk_flags { f_mass : bool; f_root : bool; f_components : bool; f_unnormalized : bool }.

Section Encode.
Variables (root : Qc -> Qc) (tiny : Qc).
Variables (means : list Qc) (dimension clusters : nat) (data : list Qc) (num_data : nat) (assignments : list Qc).
Variable (flags : vlad_flags).

(** x op= e for one entry of the encoding *)
Definition modify (p : nat) (g : Qc -> Qc) (enc : list Qc) : option (list Qc) :=
  do z <- aget enc p; aset enc p (g z).

(** VL_MAX, mathop.h *)
Definition qmax (a b : Qc) : Qc := if qlt b a then a else b.

(** accumulation of one data vector, vlad.c:181-188; state (clusterMass, enc) *)
Definition accumulate (cl i : nat) (s : Qc * list Qc) : option (Qc * list Qc) :=
  let '(mass, enc) := s in
  do q <- aget assignments (i * clusters + cl);
  if qlt 0 q then
    do enc <- iter dimension (fun d enc =>
      do x <- aget data (i * dimension + d);
      modify (cl * dimension + d) (fun z => z + q * x)%Qc enc) enc;
    Some ((mass + q)%Qc, enc)
  else Some (mass, enc).

(** one cluster, vlad.c:178-227 *)
Definition cluster (cl : nat) (enc : list Qc) : option (list Qc) :=
  do (mass, enc) <- iter num_data (accumulate cl) (0%Qc, enc);
  do enc <-
    (if qlt 0 mass then
       if f_mass flags then
         iter dimension (fun d enc =>
           do enc <- modify (cl * dimension + d) (fun z => z / mass)%Qc enc;
           do m <- aget means (cl * dimension + d);
           modify (cl * dimension + d) (fun z => z - m)%Qc enc) enc
       else
         iter dimension (fun d enc =>
           do m <- aget means (cl * dimension + d);
           modify (cl * dimension + d) (fun z => z - mass * m)%Qc enc) enc
     else Some enc);
  do enc <-
    (if f_root flags then
       iter dimension (fun d enc =>
         modify (cl * dimension + d) (fun z => if qlt z 0 then - root (- z) else root z)%Qc enc) enc
     else Some enc);
  if f_components flags then
    do n <- iter dimension (fun d n => do z <- aget enc (cl * dimension + d); Some (n + z * z)%Qc) 0%Qc;
    let n := qmax (root n) tiny in
    iter dimension (fun d enc => modify (cl * dimension + d) (fun z => z / n)%Qc enc) enc
  else Some enc.

Fixpoint run (order : list nat) (enc : list Qc) : option (list Qc) :=
  match order with
  | [] => Some enc
  | cl :: order => do enc <- cluster cl enc; run order enc
  end.

(** _vl_vlad_encode, vlad.c:157-242; [enc] is the output buffer before the call *)
Definition encode (order : list nat) (enc : list Qc) : option (list Qc) :=
  if negb (length enc =? dimension * clusters) then None else
  let enc := repeat 0%Qc (dimension * clusters) in
  do enc <- run order enc;
  if f_unnormalized flags then Some enc else
  do n <- iter (dimension * clusters) (fun d n => do z <- aget enc d; Some (n + z * z)%Qc) 0%Qc;
  let n := qmax (root n) tiny in
  iter (dimension * clusters) (fun d enc => modify d (fun z => z / n)%Qc enc) enc.
End Encode.
