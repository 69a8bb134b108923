(** Model of the column convolutions and the integral image of vl/imopv.c and
    vl/imopv_sse2.c.

    Every routine is written once for all pixel types: [A] with [r0], [radd],
    [rmul], [rsub] stands for the C type T (float, double, vl_uint32 or
    vl_int32).  Images are flat arrays; a C pointer into an array is a signed
    offset [Z], and a read or write outside the array is [None]. *)
From Coq Require Import List Arith ZArith Lia Bool.
From Verif Require Import Base Loop.
Import ListNotations.
Local Open Scope Z_scope.

Section ImOp.
Context {A : Type} (r0 r1 : A) (radd rmul rsub : A -> A -> A) (ropp : A -> A).

(** ** vl_imintegral, imopv.c:1040-1068 *)

(** one step of the loop over the first row, imopv.c:1050-1053;
    the state is (temp, image pointer, integral pointer, integral array) *)
Definition integral_first (image : list A) (_ : nat) (s : A * Z * Z * list A) : option (A * Z * Z * list A) :=
  let '(temp, ip, op, out) := s in
  do v <- zget image ip;
  let temp := radd temp v in
  do out <- zset out op temp;
  Some (temp, ip + 1, op + 1, out).

(** one step of the loop over a later row, imopv.c:1063-1066 *)
Definition integral_next (image : list A) (_ : nat) (s : A * Z * Z * Z * list A) : option (A * Z * Z * Z * list A) :=
  let '(temp, ip, op, pp, out) := s in
  do v <- zget image ip;
  let temp := radd temp v in
  do q <- zget out pp;
  do out <- zset out op (radd q temp);
  Some (temp, ip + 1, op + 1, pp + 1, out).

(** one later row, imopv.c:1056-1067 *)
Definition integral_row (ostride : nat) (image : list A) (width istride : nat) (_ : nat)
    (s : Z * Z * list A) : option (Z * Z * list A) :=
  let '(ip, op, out) := s in
  let op := op + (Z.of_nat ostride - Z.of_nat width) in
  let ip := ip + (Z.of_nat istride - Z.of_nat width) in
  let pp := op - Z.of_nat ostride in
  do (_, ip, op, _, out) <- iter width (integral_next image) (r0, ip, op, pp, out);
  Some (ip, op, out).

(** vl_imintegral, imopv.c:1040-1068 *)
Definition imintegral (out : list A) (ostride : nat) (image : list A) (width height istride : nat) : option (list A) :=
  do (_, ip, op, out) <- (if (0 <? height)%nat then iter width (integral_first image) (r0, 0, 0, out)
                          else Some (r0, 0, 0, out));
  do (_, _, out) <- iter (height - 1) (integral_row ostride image width istride) (ip, op, out);
  Some out.

(** ** vl_imconvcol_v, imopv.c:118-212 and imopv_sse2.c:41-196

    The scalar and the vectorised pixel computations are the same text, once
    over T and once over VTYPE; [V] is the accumulator type, [vzero] its zero,
    [load p] the read at src + p and [mac acc v c] is acc + v * c. *)
Section Pixel.
Context {V : Type} (vzero : V) (load : Z -> option V) (mac : V -> V -> A -> V).

(** chunks A and C, imopv.c:174-178 and 192-195; state (filti, srci, acc) *)
Definition chunk_const (filt : list A) (stride : Z) (v : V) (s : Z * Z * V) : option (Z * Z * V) :=
  let '(fi, sp, acc) := s in
  do c <- zget filt fi;
  Some (fi - 1, sp + stride, mac acc v c).

(** chunk B, imopv.c:182-187; state (filti, srci, v, acc) *)
Definition chunk_image (filt : list A) (stride : Z) (s : Z * Z * V * V) : option (Z * Z * V * V) :=
  let '(fi, sp, _, acc) := s in
  do v <- load sp;
  do c <- zget filt fi;
  Some (fi - 1, sp + stride, v, mac acc v c).

(** one output pixel, imopv.c:157-195; [last] is the position of the last
    filter sample (filt after imopv.c:144) *)
Definition conv_pixel (height : nat) (stride : Z) (filt : list A) (fb fe : Z) (zeropad : bool) (x y : Z) : option V :=
  let last := fe - fb in
  let fuel := S (length filt) in
  let stop := fe - y in
  let sp := x - stop * stride in
  do (fi, sp, v, acc) <-
    (if 0 <? stop then
       do v <- (if zeropad then Some vzero else load x);
       do (fi, sp, acc) <- while fuel (fun s => last - stop <? fst (fst s)) (chunk_const filt stride v) (last, sp, vzero);
       Some (fi, sp, v, acc)
     else Some (last, sp, vzero, vzero));
  let stop := fe - Z.max fb (y - Z.of_nat height + 1) + 1 in
  do (fi, sp, v, acc) <-
    while fuel (fun s => last - stop <? fst (fst (fst s))) (chunk_image filt stride) (fi, sp, v, acc);
  let v := if zeropad then vzero else v in
  let stop := fe - fb + 1 in
  do (_, _, acc) <- while fuel (fun s => last - stop <? fst (fst s)) (chunk_const filt stride v) (fi, sp, acc);
  Some acc.
End Pixel.

(** reads of one and of [n] consecutive pixels *)
Definition load_lanes (src : list A) (n : nat) (p : Z) : option (list A) :=
  iter n (fun j l => do v <- zget src (p + Z.of_nat j); Some (l ++ [v])) [].
Definition mac_scalar (acc v c : A) : A := radd acc (rmul v c).
(** VADD(acc, VMUL(v, c)) *)
Definition mac_lanes (acc v : list A) (c : A) : list A :=
  map (fun av => radd (fst av) (rmul (snd av) c)) (combine acc v).

Section Convcol.
Variables (dstride : nat) (src : list A) (width height : nat) (stride : nat)
          (filt : list A) (fb fe : Z) (step : nat) (transp zeropad : bool).

(** dheight, imopv.c:128 *)
Definition dheight : nat := ((height - 1) / step + 1)%nat.

(** one output row of one column, imopv.c:152-202; state (dst pointer, dst) *)
Definition col_row (x : nat) (y : nat) (s : Z * list A) : option (Z * list A) :=
  let '(dp, dst) := s in
  do acc <- conv_pixel r0 (zget src) mac_scalar height (Z.of_nat stride) filt fb fe zeropad (Z.of_nat x) (Z.of_nat y);
  do dst <- zset dst dp acc;
  Some (if transp then dp + 1 else dp + Z.of_nat dstride, dst).

(** one column, imopv.c:152-209; state (x, dst pointer, dst) *)
Definition col_scalar (s : nat * Z * list A) : option (nat * Z * list A) :=
  let '(x, dp, dst) := s in
  do (dp, dst) <- for_step (S height) 0 height step (col_row x) (dp, dst);
  let dp := if transp then dp + (Z.of_nat dstride - Z.of_nat dheight)
            else dp + (1 - Z.of_nat dheight * Z.of_nat dstride) in
  Some ((x + 1)%nat, dp, dst).

(** vl_imconvcol_v without SIMD, imopv.c:146-211 *)
Definition imconvcol (dst : list A) : option (list A) :=
  do (_, _, dst) <- while (S width) (fun s => (fst (fst s) <? width)%nat) col_scalar (0%nat, 0, dst);
  Some dst.

(** [vsize] = VSIZE; [valigned p] = VALIGNED(src + p); [use_simd] =
    VALIGNED(src_stride), imopv_sse2.c:51, 74-75 *)
Variables (vsize : nat) (valigned : nat -> bool) (use_simd : bool).

(** store of the lanes, imopv_sse2.c:117-133 *)
Definition store_lane (acc : list A) (j : nat) (s : Z * list A) : option (Z * list A) :=
  let '(dp, dst) := s in
  do a <- aget acc j;
  do dst <- zset dst dp a;
  Some (if transp then dp + Z.of_nat dstride else dp + 1, dst).

(** one output row of [vsize] columns, imopv_sse2.c:78-134 *)
Definition vec_row (x : nat) (y : nat) (s : Z * list A) : option (Z * list A) :=
  let '(dp, dst) := s in
  do acc <- conv_pixel (repeat r0 vsize) (load_lanes src vsize) mac_lanes height (Z.of_nat stride)
              filt fb fe zeropad (Z.of_nat x) (Z.of_nat y);
  do (dp, dst) <- iter vsize (store_lane acc) (dp, dst);
  Some (if transp then dp + (1 - Z.of_nat vsize * Z.of_nat dstride)
        else dp + (Z.of_nat dstride - Z.of_nat vsize), dst).

(** [vsize] columns, imopv_sse2.c:78-142 *)
Definition col_vector (s : nat * Z * list A) : option (nat * Z * list A) :=
  let '(x, dp, dst) := s in
  do (dp, dst) <- for_step (S height) 0 height step (vec_row x) (dp, dst);
  let dp := if transp then dp + (Z.of_nat vsize * Z.of_nat dstride - Z.of_nat dheight)
            else dp + (Z.of_nat vsize - Z.of_nat dheight * Z.of_nat dstride) in
  Some ((x + vsize)%nat, dp, dst).

(** _vl_imconvcol_v_sse2, imopv_sse2.c:41-196 *)
Definition imconvcol_sse2 (dst : list A) : option (list A) :=
  do (_, _, dst) <- while (S width) (fun s => (fst (fst s) <? width)%nat)
    (fun s => if (fst (fst s) + vsize <? width)%nat && valigned (fst (fst s)) && use_simd
              then col_vector s else col_scalar s) (0%nat, 0, dst);
  Some dst.
End Convcol.

(** ** vl_imconvcoltri, imopv.c:509-592

    [scale] is the rounded 1/filterSize^2; "x - n*d" with the signed integer
    d = H - F - y is written with [ofZ]. *)
Fixpoint ofnat (n : nat) : A :=
  match n with O => r0 | S n => radd r1 (ofnat n) end.
Definition ofZ (z : Z) : A := if z <? 0 then ropp (ofnat (Z.to_nat (- z))) else ofnat (Z.to_nat z).

Section Tri.
Variables (dstride : nat) (image : list A) (width height stride : nat)
          (fsize : nat) (scale : A) (step : nat) (transp zeropad : bool).

(** buffer[y]: the allocation is shifted by filterSize, imopv.c:520-521 *)
Definition bget (b : list A) (y : Z) : option A := zget b (y + Z.of_nat fsize).
Definition bset (b : list A) (y : Z) (v : A) : option (list A) := zset b (y + Z.of_nat fsize) v.

(** integrate backward the column, imopv.c:542-556; state (imagei, buffer) *)
Definition tri_back (x : nat) (b : list A) : option (list A) :=
  let H := Z.of_nat height in let F := Z.of_nat fsize in
  let ip := Z.of_nat x + Z.of_nat stride * (H - 1) in
  do v <- zget image ip;
  do b <- bset b (H - 1) v;
  do (ip, b) <- zdown (H - 2) 0 (fun y '(ip, b) =>
      let ip := ip - Z.of_nat stride in
      do w <- bget b (y + 1);
      do v <- zget image ip;
      do b <- bset b y (radd w v);
      Some (ip, b)) (ip, b);
  if zeropad then
    zdown (-1) (- F) (fun y b => do w <- bget b (y + 1); bset b y w) b
  else
    zdown (-1) (- F) (fun y b => do w <- bget b (y + 1); do v <- zget image ip; bset b y (radd w v)) b.

(** compute the filter forward, imopv.c:559-570 *)
Definition tri_rect (b : list A) : option (list A) :=
  let H := Z.of_nat height in let F := Z.of_nat fsize in
  do b <- zup (- F) (H - F) (fun y b =>
      do v <- bget b y; do w <- bget b (y + F); bset b y (rsub v w)) b;
  if zeropad then Some b else
  zup (H - F) H (fun y b =>
      do v <- bget b y; do w <- bget b (H - 1); bset b y (rsub v (rmul w (ofZ (H - F - y))))) b.

(** integrate forward the column, imopv.c:573-576 *)
Definition tri_forw (b : list A) : option (list A) :=
  let H := Z.of_nat height in let F := Z.of_nat fsize in
  zup (- F + 1) H (fun y b => do v <- bget b y; do w <- bget b (y - 1); bset b y (radd v w)) b.

(** compute the filter backward, imopv.c:579-587; state (dest pointer, dest);
    the rounds are y = step*(dheight-1), ..., step, 0 *)
Definition tri_out (b : list A) (dp : Z) (dst : list A) : option (Z * list A) :=
  let st := if transp then 1 else Z.of_nat dstride in
  let dh := dheight height step in
  let dp := dp + Z.of_nat dh * st in
  do (dp, dst) <- iter dh (fun j '(dp, dst) =>
      let y := Z.of_nat step * (Z.of_nat dh - 1) - Z.of_nat j * Z.of_nat step in
      let dp := dp - st in
      do v <- bget b y;
      do w <- bget b (y - Z.of_nat fsize);
      do dst <- zset dst dp (rmul scale (rsub v w));
      Some (dp, dst)) (dp, dst);
  Some (dp + (if transp then Z.of_nat dstride else 1), dst).

(** one column, imopv.c:530-588; state (dest pointer, dest, buffer) *)
Definition tri_col (x : nat) (s : Z * list A * list A) : option (Z * list A * list A) :=
  let '(dp, dst, b) := s in
  do b <- tri_back x b;
  do b <- tri_rect b;
  do b <- tri_forw b;
  do (dp, dst) <- tri_out b dp dst;
  Some (dp, dst, b).

(** vl_imconvcoltri, imopv.c:509-592; [buffer] is the contents of the fresh
    allocation *)
Definition imconvcoltri (buffer : list A) (dst : list A) : option (list A) :=
  if (height =? 0)%nat then Some dst
  else do (_, dst, _) <- iter width tri_col (0, dst, buffer); Some dst.
End Tri.
End ImOp.
