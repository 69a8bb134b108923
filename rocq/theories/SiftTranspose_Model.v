(** SIFT descriptors in MATLAB, toolbox/sift/vl_siftdescriptor.c, and the functions of toolbox/sift/vl_sift.c and
    vl_covdet.c which transpose descriptors and test the order of frames.  Arrays of MATLAB are stored by columns, so
    the code works on the transposed image.  Exact rationals, as in SiftDescr_Model; parsing of the arguments is left
    out. *)
From Coq Require Import List Arith ZArith Bool QArith Qcanon.
Import ListNotations.
From Verif Require Import Base Loop Rat Gauss_Model Sift_Model SiftDescr_Model.
Local Open Scope nat_scope.

(** transpose_descriptor, vl_sift.c:68-85, vl_siftdescriptor.c:52-69, and flip_descriptor, vl_covdet.c:169-186 *)
Definition transpose_descriptor {A} (dst src : list A) : option (list A) :=
  iter 4 (fun j dst =>
    let jp := 4 - 1 - j in
    iter 4 (fun i dst =>
      let o := 8 * i + 4 * 8 * j in
      let op := 8 * i + 4 * 8 * jp in
      do v <- aget src o;
      do dst <- aset dst op v;
      iter_from 7 1 (fun t dst => do v <- aget src (t + o); aset dst (8 - t + op) v) dst) dst) dst.

(** korder, vl_sift.c:97-103: the third of the four numbers of two frames *)
Definition korder (a b : Qc) : Z := let x := (a - b)%Qc in if qlt x 0 then (-1)%Z else if qlt 0 x then 1%Z else 0%Z.
(** check_sorted, vl_sift.c:115-126 *)
Definition check_sorted (keys : list Qc) (nkeys : nat) : option bool :=
  do r <- iter (nkeys - 1) (fun k (s : bool) =>
    if s then
      do a <- aget keys (4 * k + 2);
      do b <- aget keys (4 * (k + 1) + 2);
      Some (negb (0 <? korder a b)%Z)
    else Some s) true;
  Some r.

Section Descr.
Variables (root fsqrt expo sine cosine : Qc -> Qc) (pi eps_d eps_f : Qc).

(** vl_siftdescriptor.c:156-159: angles of the transposed image *)
Definition transpose_angles (M N : nat) (grad : list Qc) : option (list Qc) :=
  iter (M * N) (fun k g => do a <- aget g (2 * k + 1); aset g (2 * k + 1) (pi / nq 2 - a)%Qc) grad.
(** vl_siftdescriptor.c:198-213: [rbuf] for the frame (fx, fy, s, th); buf and rbuf are not initialised, [buf0] and [rbuf0]
    are their contents before *)
Definition frame_descriptor (f : sift) (grad : list Qc) (M N : nat) (buf0 rbuf0 : list Qc) (fx fy s th : Qc) : option (list Qc) :=
  let y := (fx - 1)%Qc in
  let x := (fy - 1)%Qc in
  do buf <- raw_descriptor root fsqrt expo sine cosine pi eps_d eps_f f grad buf0 M N x y s (pi / nq 2 - th)%Qc;
  transpose_descriptor rbuf0 buf.
(** the frame given [grad], vl_siftdescriptor.c:151-213 *)
Definition siftdescriptor (f : sift) (grad : list Qc) (M N : nat) (buf0 rbuf0 : list Qc) (fx fy s th : Qc) : option (list Qc) :=
  do grad <- transpose_angles M N grad;
  frame_descriptor f grad M N buf0 rbuf0 fx fy s th.
(** vl_siftdescriptor.c:215-222: entries of class uint8 *)
Definition byte_entry (v : Qc) : Z := let x := (nq 512 * v)%Qc in trunc (if qlt x (nq 255) then x else nq 255).
End Descr.
