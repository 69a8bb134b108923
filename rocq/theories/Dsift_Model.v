(** Model of dense SIFT, vl/dsift.c and vl/dsift.h.

    Pixels, kernels and descriptors are exact rationals.  The square root, the
    exponential and the direction of a gradient, as a fraction of a turn, are arbitrary
    functions; VL_EPSILON_F is [eps].  Sizes and numbers of bins are natural numbers, bounds
    and steps unbounded integers.  [junk] is the contents of fresh memory. *)
From Coq Require Import List Arith ZArith Lia Bool QArith Qcanon Qcabs.
From Verif Require Import Base Loop Rat Gauss_Model ImOp_Model.
Local Open Scope nat_scope.

(** for (v = lo ; v <= hi ; v += step) *)
Fixpoint zfor {S} (fuel : nat) (v hi step : Z) (body : Z -> S -> option S) (s : S) : option S :=
  if (v <=? hi)%Z then
    match fuel with
    | O => None
    | Datatypes.S fuel => do s <- body v s; zfor fuel (v + step) hi step body s
    end
  else Some s.
Definition frames_loop {S} (lo hi step : Z) (body : Z -> S -> option S) (s : S) : option S :=
  zfor (Z.to_nat (hi - lo + 1)) lo hi step body s.

(** the part of VlDsiftFilter set by the user, dsift.h:40-58 and 18-37 *)
Record settings := mk_settings {
  imw : nat; imh : nat; stepx : Z; stepy : Z; minx : Z; miny : Z; maxx : Z; maxy : Z;
  nbt : nat; nbx : nat; nby : nat; bsx : nat; bsy : nat; flat : bool; window : Qc }.
(** VlDsiftFilter, dsift.h:40-72; a keypoint is (x, y, norm) *)
Record filter := mk_filter {
  conf : settings; nframes : Z; dsize : Z; frames : list (Qc * Qc * Qc); descrs : list Qc;
  binalloc : Z; framealloc : Z; gradalloc : Z; grads : list (list Qc); tmp1 : list Qc; tmp2 : list Qc }.

(** vl_dsift_transpose_descriptor, dsift.h:311-326 *)
Definition transpose_descriptor (dst src : list Qc) (T X Y : nat) : option (list Qc) :=
  iter Y (fun y dst => iter X (fun x dst =>
    let offset := T * (x + y * X) in
    let offsetT := T * (y + x * Y) in
    iter T (fun t dst =>
      let tT := (Z.quot (Z.of_nat T) 4 - Z.of_nat t)%Z in
      do v <- aget src (offset + t);
      zset dst (Z.of_nat offsetT + Z.rem (tT + Z.of_nat T) (Z.of_nat T))%Z v) dst) dst) dst.

Section Dsift.
Variables (sqrt_ exp_ : Qc -> Qc) (turn : Qc -> Qc -> Qc) (eps : Qc) (junk : nat -> Qc).
Definition fresh (n : nat) : list Qc := map junk (seq 0 n).

(** _vl_dsift_update_buffers, dsift.c:348-364; [None] is a division by zero *)
Definition range (lo hi : Z) (nb bs : nat) : Z := (hi - lo - (Z.of_nat nb - 1) * Z.of_nat bs)%Z.
Definition count_frames (lo hi step : Z) (nb bs : nat) : option Z :=
  let r := range lo hi nb bs in
  if (0 <=? r)%Z then if (step =? 0)%Z then None else Some (Z.quot r step + 1)%Z else Some 0%Z.
Definition update_buffers (f : filter) : option filter :=
  let c := conf f in
  do x <- count_frames (minx c) (maxx c) (stepx c) (nbx c) (bsx c);
  do y <- count_frames (miny c) (maxy c) (stepy c) (nby c) (bsy c);
  Some (mk_filter c (x * y) (Z.of_nat (nbt c) * Z.of_nat (nbx c) * Z.of_nat (nby c)) (frames f) (descrs f)
          (binalloc f) (framealloc f) (gradalloc f) (grads f) (tmp1 f) (tmp2 f)).

(** _vl_dsift_alloc_buffers, dsift.c:376-404 *)
Definition alloc_buffers (f : filter) : option filter :=
  do f <- update_buffers f;
  let c := conf f in
  let fa := nframes f in let ba := dsize f in let ga := Z.of_nat (nbt c) in
  if negb (ba =? binalloc f)%Z || negb (ga =? gradalloc f)%Z || negb (fa =? framealloc f)%Z then
    Some (mk_filter c (nframes f) (dsize f)
            (map (fun i => (junk i, junk i, junk i)) (seq 0 (Z.to_nat fa))) (fresh (Z.to_nat (ba * fa)))
            ba fa ga (repeat (fresh (imw c * imh c)) (nbt c)) (tmp1 f) (tmp2 f))
  else Some f.

(** vl_dsift_new, dsift.c:417-454 *)
Definition new_filter (w h : nat) : option filter :=
  update_buffers (mk_filter
    (mk_settings w h 5 5 0 0 (Z.of_nat w - 1) (Z.of_nat h - 1) 8 4 4 5 5 false (zq 2))
    0 0 nil nil 0 0 0 nil (fresh (w * h)) (fresh (w * h))).
Definition with_conf (f : filter) (c : settings) : filter :=
  mk_filter c (nframes f) (dsize f) (frames f) (descrs f) (binalloc f) (framealloc f) (gradalloc f) (grads f) (tmp1 f) (tmp2 f).
(** vl_dsift_set_steps, set_bounds, set_geometry, set_flat_window, set_window_size,
    dsift.h:228-290 and 337-341 *)
Definition set_steps (f : filter) (sx sy : Z) : option filter :=
  let c := conf f in
  update_buffers (with_conf f (mk_settings (imw c) (imh c) sx sy (minx c) (miny c) (maxx c) (maxy c) (nbt c) (nbx c) (nby c) (bsx c) (bsy c) (flat c) (window c))).
Definition set_bounds (f : filter) (x1 y1 x2 y2 : Z) : option filter :=
  let c := conf f in
  update_buffers (with_conf f (mk_settings (imw c) (imh c) (stepx c) (stepy c) x1 y1 x2 y2 (nbt c) (nbx c) (nby c) (bsx c) (bsy c) (flat c) (window c))).
Definition set_geometry (f : filter) (T X Y sx sy : nat) : option filter :=
  let c := conf f in
  update_buffers (with_conf f (mk_settings (imw c) (imh c) (stepx c) (stepy c) (minx c) (miny c) (maxx c) (maxy c) T X Y sx sy (flat c) (window c))).
Definition set_window (f : filter) (fl : bool) (wi : Qc) : filter :=
  let c := conf f in
  with_conf f (mk_settings (imw c) (imh c) (stepx c) (stepy c) (minx c) (miny c) (maxx c) (maxy c) (nbt c) (nbx c) (nby c) (bsx c) (bsy c) fl wi).

(** the weight (binIndex >= 0) ? expf(-0.5F * z*z) : 1.0F with a nonnegative binIndex,
    dsift.c:254-266 and 275-285 *)
Definition gauss_weight (bs nb bin : nat) (wi : Qc) (x : Z) : Qc :=
  let delta := (nq bs * (nq bin - Q2Qc (1 # 2) * (nq nb - 1)))%Qc in
  let sigma := (nq bs * wi)%Qc in
  let z := ((zq x - delta) / sigma)%Qc in
  exp_ (- (Q2Qc (1 # 2) * z * z))%Qc.
(** _vl_dsift_new_kernel, dsift.c:252-268 *)
Definition new_kernel (bs nb bin : nat) (wi : Qc) : option (list Qc) :=
  iter (2 * bs - 1) (fun k ker =>
    let x := (- Z.of_nat bs + 1 + Z.of_nat k)%Z in
    Some (ker ++ ((1 - Qcabs (zq x) / nq bs) * gauss_weight bs nb bin wi x)%Qc :: nil)) nil.
(** _vl_dsift_get_bin_window_mean, dsift.c:275-287 *)
Definition window_mean (bs nb bin : nat) (wi : Qc) : option Qc :=
  do acc <- iter (2 * bs - 1) (fun k acc =>
    Some (acc + gauss_weight bs nb bin wi (- Z.of_nat bs + 1 + Z.of_nat k))%Qc) 0%Qc;
  Some (acc / zq (2 * Z.of_nat bs - 1))%Qc.

(** _vl_dsift_normalize_histogram on d[off .. off+n), dsift.c:299-310 *)
Definition normalize_histogram (d : list Qc) (off n : nat) : option (list Qc) :=
  do s <- iter n (fun i s => do v <- aget d (off + i); Some (s + v * v)%Qc) 0%Qc;
  let norm := (sqrt_ s + eps)%Qc in
  iter n (fun i d => do v <- aget d (off + i); aset d (off + i) (v / norm)%Qc) d.

(** the gradient at one pixel and its two entries, dsift.c:680-719 *)
Definition pixel_at (im : list Qc) (w : nat) (x y : Z) : option Qc := zget im (y * Z.of_nat w + x).
Definition grad_pixel (c : settings) (im : list Qc) (y x : nat) (g : list (list Qc)) : option (list (list Qc)) :=
  let at_ a b := pixel_at im (imw c) a b in
  let zx := Z.of_nat x in let zy := Z.of_nat y in
  do gy <- (if y =? 0 then do a <- at_ zx (zy + 1)%Z; do b <- at_ zx zy; Some (a - b)%Qc
            else if y =? imh c - 1 then do a <- at_ zx zy; do b <- at_ zx (zy - 1)%Z; Some (a - b)%Qc
            else do a <- at_ zx (zy + 1)%Z; do b <- at_ zx (zy - 1)%Z; Some (Q2Qc (1 # 2) * (a - b))%Qc);
  do gx <- (if x =? 0 then do a <- at_ (zx + 1)%Z zy; do b <- at_ zx zy; Some (a - b)%Qc
            else if x =? imw c - 1 then do a <- at_ zx zy; do b <- at_ (zx - 1)%Z zy; Some (a - b)%Qc
            else do a <- at_ (zx + 1)%Z zy; do b <- at_ (zx - 1)%Z zy; Some (Q2Qc (1 # 2) * (a - b))%Qc);
  let md := sqrt_ (gx * gx + gy * gy)%Qc in
  let nt := (turn gy gx * nq (nbt c))%Qc in
  let bint := qfloor nt in
  let rbint := (nt - zq bint)%Qc in
  if nbt c =? 0 then None else
  let t0 := Z.rem bint (Z.of_nat (nbt c)) in
  do p <- zget g t0;
  do p <- aset p (x + y * imw c) ((1 - rbint) * md)%Qc;
  do g <- zset g t0 p;
  let t1 := Z.rem (bint + 1) (Z.of_nat (nbt c)) in
  do p <- zget g t1;
  do p <- aset p (x + y * imw c) (rbint * md)%Qc;
  zset g t1 p.
(** memset of the gradient arrays, dsift.c:672-674 *)
Definition clear_grads (c : settings) (g : list (list Qc)) : option (list (list Qc)) :=
  iter (nbt c) (fun t g =>
    do p <- aget g t;
    let n := imw c * imh c in
    if n <=? length p then aset g t (repeat 0%Qc n ++ skipn n p) else None) g.
Definition gradients (c : settings) (im : list Qc) (g : list (list Qc)) : option (list (list Qc)) :=
  iter (imh c) (fun y => iter (imw c) (grad_pixel c im y)) g.

(** copying one bin of all frames from the filtered image, dsift.c:536-557 and 629-650 *)
Definition frame_size (nb bs : nat) : Z := (Z.of_nat bs * (Z.of_nat nb - 1) + 1)%Z.
Definition sample (c : settings) (ds : Z) (bint binx biny : nat) (w : Qc) (src d : list Qc) : option (list Qc) :=
  do (_, d) <- frames_loop (miny c) (maxy c - frame_size (nby c) (bsy c) + 1) (stepy c) (fun fy =>
    frames_loop (minx c) (maxx c - frame_size (nbx c) (bsx c) + 1) (stepx c) (fun fx '(dp, d) =>
      do v <- zget src ((fx + Z.of_nat (binx * bsx c)) * 1 + (fy + Z.of_nat (biny * bsy c)) * Z.of_nat (imw c));
      do d <- zset d dp (w * v)%Qc;
      Some (dp + ds, d)%Z)) (Z.of_nat (bint + binx * nbt c + biny * (nbx c * nbt c)), d);
  Some d.

(** _vl_dsift_with_gaussian_window, dsift.c:501-566; the samples are not weighted *)
Definition gaussian_window (c : settings) (ds : Z) (g : list (list Qc)) (s : list Qc * list Qc * list Qc) : option (list Qc * list Qc * list Qc) :=
  let Wx := (Z.of_nat (bsx c) - 1)%Z in let Wy := (Z.of_nat (bsy c) - 1)%Z in
  iter (nby c) (fun biny s =>
    do yker <- new_kernel (bsy c) (nby c) biny (window c);
    iter (nbx c) (fun binx s =>
      do xker <- new_kernel (bsx c) (nbx c) binx (window c);
      iter (nbt c) (fun bint '(t1, t2, d) =>
        do gr <- aget g bint;
        do t1 <- imconvcol 0%Qc Qcplus Qcmult (imh c) gr (imw c) (imh c) (imw c) yker (- Wy) Wy 1 true false t1;
        do t2 <- imconvcol 0%Qc Qcplus Qcmult (imw c) t1 (imh c) (imw c) (imh c) xker (- Wx) Wx 1 true false t2;
        do d <- sample c ds bint binx biny 1%Qc t2 d;
        Some (t1, t2, d)) s) s) s.

(** _vl_dsift_with_flat_window, dsift.c:576-655 *)
Definition tri (c : settings) (dstride : nat) (image : list Qc) (w h stride fs : nat) (dst : list Qc) : option (list Qc) :=
  imconvcoltri 0%Qc 1%Qc Qcplus Qcmult Qcminus Qcopp dstride image w h stride fs (1 / (nq fs * nq fs))%Qc 1 true false (fresh (h + fs)) dst.
Definition flat_window (c : settings) (ds : Z) (g : list (list Qc)) (s : list Qc * list Qc * list Qc) : option (list Qc * list Qc * list Qc) :=
  iter (nbt c) (fun bint '(t1, t2, d) =>
    do gr <- aget g bint;
    do t1 <- tri c (imh c) gr (imw c) (imh c) (imw c) (bsy c) t1;
    do t2 <- tri c (imw c) t1 (imh c) (imw c) (imh c) (bsx c) t2;
    do d <- iter (nby c) (fun biny d =>
      do wy <- window_mean (bsy c) (nby c) biny (window c);
      let wy := (wy * nq (bsy c))%Qc in
      iter (nbx c) (fun binx d =>
        do wx <- window_mean (bsx c) (nbx c) binx (window c);
        let wx := (wx * nq (bsx c))%Qc in
        sample c ds bint binx biny (wx * wy)%Qc t2 d) d) d;
    Some (t1, t2, d)) s.

(** one frame, dsift.c:747-770; state (frame index, descriptor offset, frames, descriptors) *)
Definition frame_step (c : settings) (ds : Z) (fx fy : Z) (s : nat * Z * list (Qc * Qc * Qc) * list Qc) : option (nat * Z * list (Qc * Qc * Qc) * list Qc) :=
  let '(k, off, fr, d) := s in
  let dx := (Q2Qc (1 # 2) * nq (bsx c) * (nq (nbx c) - 1))%Qc in
  let dy := (Q2Qc (1 # 2) * nq (bsy c) * (nq (nby c) - 1))%Qc in
  let const := zq (frame_size (nbx c) (bsx c) * frame_size (nby c) (bsy c)) in
  let n := Z.to_nat ds in let o := Z.to_nat off in
  do m <- iter n (fun i m => do v <- aget d (o + i); Some (m + v)%Qc) 0%Qc;
  do fr <- aset fr k ((zq fx + dx)%Qc, (zq fy + dy)%Qc, (m / const)%Qc);
  do d <- normalize_histogram d o n;
  do d <- iter n (fun i d => do v <- aget d (o + i); if qlt (Q2Qc (1 # 5)) v then aset d (o + i) (Q2Qc (1 # 5)) else Some d) d;
  do d <- normalize_histogram d o n;
  Some (k + 1, (off + ds)%Z, fr, d).

(** vl_dsift_process, dsift.c:664-775 *)
Definition process (f : filter) (im : list Qc) : option filter :=
  do f <- alloc_buffers f;
  let c := conf f in
  do g <- clear_grads c (grads f);
  do g <- gradients c im g;
  do (t1, t2, d) <- (if flat c then flat_window c (dsize f) g (tmp1 f, tmp2 f, descrs f)
                     else gaussian_window c (dsize f) g (tmp1 f, tmp2 f, descrs f));
  do (_, _, fr, d) <- frames_loop (miny c) (maxy c - frame_size (nby c) (bsy c) + 1) (stepy c) (fun fy =>
    frames_loop (minx c) (maxx c - frame_size (nbx c) (bsx c) + 1) (stepx c) (fun fx => frame_step c (dsize f) fx fy))
    (0, 0%Z, frames f, d);
  Some (mk_filter c (nframes f) (dsize f) fr d (binalloc f) (framealloc f) (gradalloc f) g t1 t2).
End Dsift.
