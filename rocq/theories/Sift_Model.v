(** The SIFT filter, vl/sift.c: creation, scale space and gradients, over exact rationals.

    [pow], [root], [expo] are pow, sqrt, exp and [magn], [angl] are the fast square root of
    gx*gx + gy*gy and the fast angle of the gradient, all arbitrary functions.  Levels are
    numbered from 0, so that level l has the index s = l - 1 of the C code (s_min = -1).
    Fresh memory has arbitrary contents.  [None] is an access out of bounds. *)
From Coq Require Import List Arith ZArith Bool QArith Qcanon.
Import ListNotations.
From Verif Require Import Base Loop Rat Gauss_Model ImOp_Model Quickshift_Model.
Local Open Scope nat_scope.

(** VlSiftKeypoint, sift.h:30-42 *)
Record keypoint := Keypoint { k_o : Z; k_ix : Z; k_iy : Z; k_is : Z; k_x : Qc; k_y : Qc; k_s : Qc; k_sigma : Qc }.
(** the parameters in VlSiftFilt, sift.h:50-91; s_min = -1 and s_max = S + 1 *)
Record config := Config { c_w : nat; c_h : nat; c_O : nat; c_S : nat; c_omin : Z;
  c_peak : Qc; c_edge : Qc; c_norm : Qc; c_magnif : Qc; c_window : Qc }.
(** the other fields *)
Record sift := Sift { f_cfg : config; f_ocur : Z; f_ow : nat; f_oh : nat;
  f_temp : list Qc; f_octave : list Qc; f_dog : list Qc; f_grad : list Qc; f_grado : Z;
  f_filt : list Qc; f_fsigma : Qc; f_fwidth : nat; f_keys : list keypoint }.

(** VL_SHIFT_LEFT, generic.h:197 *)
Definition shift_left (x : nat) (n : Z) : nat := Z.to_nat (Z.shiftl (Z.of_nat x) n).

Section Sift.
Variables (pow : Qc -> Qc -> Qc) (root expo : Qc -> Qc) (magn angl : Qc -> Qc -> Qc).
Definition half (x : Qc) : Qc := (x / nq 2)%Qc.

(** sigman, sigmak, sigma0, dsigma0, sift.c:906-909 *)
Definition sigman : Qc := half 1.
Definition sigmak (S : nat) : Qc := pow (nq 2) (1 / nq S).
Definition sigma0 (S : nat) : Qc := (zq 16 / zq 10 * sigmak S)%Qc.
Definition dsigma0 (S : nat) : Qc := (sigma0 S * root (1 - 1 / (sigmak S * sigmak S)))%Qc.

(** vl_sift_new with a non-negative number of octaves, sift.c:874-934; [junk] is fresh memory *)
Definition nel (c : config) : nat := shift_left (c_w c) (- c_omin c) * shift_left (c_h c) (- c_omin c).
Definition new_config (width height noctaves nlevels : nat) (o_min : Z) : config :=
  {| c_w := width; c_h := height; c_O := noctaves; c_S := nlevels; c_omin := o_min;
     c_peak := 0; c_edge := nq 10; c_norm := 0; c_magnif := nq 3; c_window := nq 2 |}.
Definition sift_new (junk : nat -> Qc) (c : config) : sift :=
  {| f_cfg := c; f_ocur := c_omin c; f_ow := 0; f_oh := 0;
     f_temp := map junk (seq 0 (nel c)); f_octave := map junk (seq 0 (nel c * (c_S c + 3)));
     f_dog := map junk (seq 0 (nel c * (c_S c + 2))); f_grad := map junk (seq 0 (nel c * 2 * (c_S c + 2)));
     f_grado := (c_omin c - 1)%Z; f_filt := []; f_fsigma := 0; f_fwidth := 0; f_keys := [] |}.

(** copy_and_upsample_rows, sift.c:738-758; the pointers are offsets *)
Definition up_row (width height : nat) (src : list Qc) (y : nat) (st : Z * Z * list Qc) : option (Z * Z * list Qc) :=
  let '(sp, dp, dst) := st in
  do a <- zget src sp;
  do (sp, dp, _, b, dst) <- iter (width - 1) (fun _ (st : Z * Z * Qc * Qc * list Qc) =>
      let '(sp, dp, a, b, dst) := st in
      do b <- zget src sp;
      do dst <- zset dst dp a;
      do dst <- zset dst (dp + Z.of_nat height) (half (a + b));
      Some ((sp + 1)%Z, (dp + 2 * Z.of_nat height)%Z, b, b, dst)) ((sp + 1)%Z, dp, a, a, dst);
  do dst <- zset dst dp b;
  do dst <- zset dst (dp + Z.of_nat height) b;
  Some (sp, (dp + 2 * Z.of_nat height + 1 - Z.of_nat width * 2 * Z.of_nat height)%Z, dst).
Definition upsample_rows (dst src : list Qc) (width height : nat) : option (list Qc) :=
  do (_, _, dst) <- iter height (up_row width height src) (0%Z, 0%Z, dst); Some dst.

(** copy_and_downsample, sift.c:835-851, for width >= 2^d; the source is another array or, at
    offset [base], the destination itself.  The loops stepping by 2^d are counted. *)
Definition downsample (dst : list Qc) (src : option (list Qc)) (base width height : nat) (d : nat) : option (list Qc) :=
  let d := 2 ^ d in
  do (_, dst) <- iter ((height + d - 1) / d) (fun y st =>
    iter (width / d) (fun x (st : nat * list Qc) =>
      let (dp, dst) := st in
      do v <- aget (match src with Some a => a | None => dst end) (base + y * d * width + x * d);
      do dst <- aset dst dp v;
      Some (dp + 1, dst)) st) (0, dst);
  Some dst.

(** the Gaussian filter, sift.c:782-799 *)
Definition filter_width (sigma : Qc) : nat := Nat.max (Z.to_nat (qceil (nq 4 * sigma))) 1.
Definition gauss_filter (sigma : Qc) : list Qc :=
  let W := filter_width sigma in
  let g := map (fun j => let d := (zq (Z.of_nat j - Z.of_nat W) / sigma)%Qc in expo (- (half 1 * (d * d)))%Qc) (seq 0 (2 * W + 1)) in
  let acc := fold_left Qcplus g 0%Qc in
  map (fun v => v / acc)%Qc g.
(** applies a function to the part of the array after [off] *)
Definition from_offset (off : nat) (k : list Qc -> option (list Qc)) (l : list Qc) : option (list Qc) :=
  if off <=? length l then do t <- k (skipn off l); Some (firstn off l ++ t) else None.
Definition convcol := @imconvcol Qc 0%Qc Qcplus Qcmult.
(** _vl_sift_smooth, sift.c:772-816, from level [src] to level [dst]; the convolution is that of C29 *)
Definition smooth (f : sift) (dst src w h : nat) (sigma : Qc) : option sift :=
  let '(filt, fsigma, fwidth) :=
    if Qc_eq_bool (f_fsigma f) sigma then (f_filt f, f_fsigma f, f_fwidth f) else (gauss_filter sigma, sigma, filter_width sigma) in
  do (temp, octave) <-
    (if fwidth =? 0 then
       do o <- from_offset (dst * (f_ow f * f_oh f)) (fun o => iter (w * h) (fun i o => do v <- aget (f_octave f) (src * (f_ow f * f_oh f) + i); aset o i v) o) (f_octave f);
       Some (f_temp f, o)
     else
       do temp <- convcol h (skipn (src * (f_ow f * f_oh f)) (f_octave f)) w h w filt (- Z.of_nat fwidth) (Z.of_nat fwidth) 1 true false (f_temp f);
       do o <- from_offset (dst * (f_ow f * f_oh f)) (convcol w temp h w h filt (- Z.of_nat fwidth) (Z.of_nat fwidth) 1 true false) (f_octave f);
       Some (temp, o));
  Some {| f_cfg := f_cfg f; f_ocur := f_ocur f; f_ow := f_ow f; f_oh := f_oh f; f_temp := temp; f_octave := octave;
          f_dog := f_dog f; f_grad := f_grad f; f_grado := f_grado f; f_filt := filt; f_fsigma := fsigma; f_fwidth := fwidth; f_keys := f_keys f |}.

(** the image at the resolution of the first octave, sift.c:1015-1038: temp and octave *)
Definition first_base (c : config) (im temp octave : list Qc) : option (list Qc * list Qc) :=
  if (c_omin c <? 0)%Z then
    do temp <- upsample_rows temp im (c_w c) (c_h c);
    do octave <- upsample_rows octave temp (c_h c) (2 * c_w c);
    iter (Z.to_nat (- c_omin c) - 1) (fun k (st : list Qc * list Qc) =>
      let (temp, octave) := st in
      do temp <- upsample_rows temp octave (c_w c * 2 ^ (k + 1)) (c_h c * 2 ^ (k + 1));
      do octave <- upsample_rows octave temp (c_w c * 2 ^ (k + 1)) (2 * (c_h c * 2 ^ (k + 1)));
      Some (temp, octave)) (temp, octave)
  else if (0 <? c_omin c)%Z then
    do octave <- downsample octave (Some im) 0 (c_w c) (c_h c) (Z.to_nat (c_omin c)); Some (temp, octave)
  else
    do octave <- iter (c_w c * c_h c) (fun i o => do v <- aget im i; aset o i v) octave; Some (temp, octave).
(** the smoothing of level s = l - 1, sift.c:1057-1061 and 1132-1136 *)
Definition level_sigma (S l : nat) : Qc := (dsigma0 S * pow (sigmak S) (zq (Z.of_nat l - 1)))%Qc.
Definition fill_levels (f : sift) : option sift :=
  iter (c_S (f_cfg f) + 2) (fun l f => smooth f (l + 1) l (f_ow f) (f_oh f) (level_sigma (c_S (f_cfg f)) (l + 1))) f.
Definition set_octave (f : sift) (ocur : Z) (temp octave : list Qc) : sift :=
  {| f_cfg := f_cfg f; f_ocur := ocur; f_ow := shift_left (c_w (f_cfg f)) (- ocur); f_oh := shift_left (c_h (f_cfg f)) (- ocur);
     f_temp := temp; f_octave := octave; f_dog := f_dog f; f_grad := f_grad f; f_grado := f_grado f;
     f_filt := f_filt f; f_fsigma := f_fsigma f; f_fwidth := f_fwidth f; f_keys := [] |}.
(** the error codes VL_ERR_OK and VL_ERR_EOF *)
Inductive code := OK | EOF.

(** vl_sift_process_first_octave, sift.c:977-1064 *)
Definition first_sa (c : config) : Qc := (sigma0 (c_S c) * pow (sigmak (c_S c)) (zq (-1)))%Qc.
Definition first_sb (c : config) : Qc := (sigman * pow (nq 2) (zq (- c_omin c)))%Qc.
Definition process_first (f : sift) (im : list Qc) : option (code * sift) :=
  let c := f_cfg f in
  if c_O c =? 0 then Some (EOF, set_octave f (c_omin c) (f_temp f) (f_octave f)) else
  do (temp, octave) <- first_base c im (f_temp f) (f_octave f);
  let f := set_octave f (c_omin c) temp octave in
  do f <- (if qlt (first_sb c) (first_sa c) then
             smooth f 0 0 (f_ow f) (f_oh f) (root (first_sa c * first_sa c - first_sb c * first_sb c))
           else Some f);
  do f <- fill_levels f;
  Some (OK, f).

(** vl_sift_process_next_octave, sift.c:1083-1139; s_best = S - 1 is level S *)
Definition next_sb (c : config) : Qc := (sigma0 (c_S c) * pow (sigmak (c_S c)) (zq (Z.of_nat (Nat.min (c_S c) (c_S c + 2)) - 1 - Z.of_nat (c_S c))))%Qc.
Definition process_next (f : sift) : option (code * sift) :=
  let c := f_cfg f in
  if (f_ocur f =? c_omin c + Z.of_nat (c_O c) - 1)%Z then Some (EOF, f) else
  do octave <- downsample (f_octave f) None (Nat.min (c_S c) (c_S c + 2) * (f_ow f * f_oh f)) (f_ow f) (f_oh f) 1;
  let f := set_octave f (f_ocur f + 1) (f_temp f) octave in
  do f <- (if qlt (next_sb c) (first_sa c) then
             smooth f 0 0 (f_ow f) (f_oh f) (root (first_sa c * first_sa c - next_sb c * next_sb c))
           else Some f);
  do f <- fill_levels f;
  Some (OK, f).

(** SAVE_BACK, sift.c:1465-1468; state (src, grad pointer, grad) *)
Definition save_back (gx gy : Qc) (st : nat * nat * list Qc) : option (nat * nat * list Qc) :=
  let '(src, gp, grad) := st in
  do grad <- aset grad gp (magn gx gy);
  do grad <- aset grad (gp + 1) (angl gx gy);
  Some (src + 1, gp + 2, grad).
(** one pixel: the differences along x and y between the pixels at the given displacements,
    halved if central; one row, sift.c:1473-1489, 1493-1509 and 1512-1528 *)
Definition difference (o : list Qc) (src plus minus : nat) (central : bool) : option Qc :=
  if minus <=? src then
    do a <- aget o (src + plus); do b <- aget o (src - minus); Some (if central then half (a - b) else (a - b)%Qc)
  else None.
Definition grad_row (o : list Qc) (w : nat) (yplus yminus : nat) (ycentral : bool) (st : nat * nat * list Qc) : option (nat * nat * list Qc) :=
  let pixel xplus xminus xcentral (st : nat * nat * list Qc) :=
    let src := fst (fst st) in
    do gx <- difference o src xplus xminus xcentral;
    do gy <- difference o src (yplus * w) (yminus * w) ycentral;
    save_back gx gy st in
  do st <- pixel 1 0 false st;
  do st <- iter (w - 2) (fun _ st => pixel 1 1 true st) st;
  pixel 0 1 false st.
(** update_gradient, sift.c:1447-1531 *)
Definition update_gradient (f : sift) : option sift :=
  if (f_grado f =? f_ocur f)%Z then Some f else
  let w := f_ow f in let h := f_oh f in
  do grad <- iter (c_S (f_cfg f)) (fun l grad =>
    let st := ((l + 1) * (w * h), 2 * (w * h) * l, grad) in
    do st <- grad_row (f_octave f) w 1 0 false st;
    do st <- iter (h - 2) (fun _ st => grad_row (f_octave f) w 1 1 true st) st;
    do (_, _, grad) <- grad_row (f_octave f) w 0 1 false st;
    Some grad) (f_grad f);
  Some {| f_cfg := f_cfg f; f_ocur := f_ocur f; f_ow := w; f_oh := h; f_temp := f_temp f; f_octave := f_octave f;
          f_dog := f_dog f; f_grad := grad; f_grado := f_ocur f; f_filt := f_filt f; f_fsigma := f_fsigma f; f_fwidth := f_fwidth f; f_keys := f_keys f |}.
End Sift.
