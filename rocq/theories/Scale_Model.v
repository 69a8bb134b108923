(** Model of the resampling routines of the scale space (vl/scalespace.c) and of
    the SIFT filter (vl/sift.c), and of the comparison of scale space
    geometries.

    [A] with [add], [half] (0.5 * x) and [quarter] (0.25 * x) stands for the
    pixel type.  Images are flat arrays, pointers into them signed offsets;
    source and destination are different arrays.  Image sizes are below 2^31. *)
From Coq Require Import List Arith ZArith Lia Bool.
From Verif Require Import Base Loop.
Import ListNotations.
Local Open Scope Z_scope.

(** ** vl_scalespacegeometry_is_equal *)

(** VlScaleSpaceGeometry, scalespace.h:31-42; [D] is the type of the doubles *)
Record geometry (D : Type) := {
  g_width : nat;
  g_height : nat;
  g_first_octave : Z;
  g_last_octave : Z;
  g_resolution : nat;
  g_first_subdivision : Z;
  g_last_subdivision : Z;
  g_base_scale : D;
  g_nominal_scale : D
}.
Arguments g_width {D}. Arguments g_height {D}. Arguments g_first_octave {D}.
Arguments g_last_octave {D}. Arguments g_resolution {D}. Arguments g_first_subdivision {D}.
Arguments g_last_subdivision {D}. Arguments g_base_scale {D}. Arguments g_nominal_scale {D}.

(** vl_scalespacegeometry_is_equal, scalespace.c:337-349; [deq] is == on
    doubles *)
Definition geometry_is_equal {D} (deq : D -> D -> bool) (a b : geometry D) : bool :=
  (g_width a =? g_width b)%nat &&
  (g_height a =? g_height b)%nat &&
  (g_first_octave a =? g_first_octave b) &&
  (g_last_octave a =? g_last_octave b) &&
  (g_resolution a =? g_resolution b)%nat &&
  (g_first_subdivision a =? g_last_subdivision b) &&
  deq (g_base_scale a) (g_base_scale b) &&
  deq (g_nominal_scale a) (g_nominal_scale b).

Section Resample.
Context {A : Type} (add : A -> A -> A) (half quarter : A -> A).

(** ** copy_and_upsample, scalespace.c:450-480 *)

(** one pixel, scalespace.c:466-477; state (source, destination, v10, v11, array) *)
Definition up_pixel (src : list A) (width : nat) (oy : Z) (x : nat)
    (s : Z * Z * A * A * list A) : option (Z * Z * A * A * list A) :=
  let '(sp, dp, v10, v11, dst) := s in
  let ox := if (x + 1 <? width)%nat then 1 else 0 in
  let v00 := v10 in
  let v01 := v11 in
  do v10 <- zget src (sp + ox);
  do v11 <- zget src (sp + (ox + oy));
  do dst <- zset dst dp v00;
  do dst <- zset dst (dp + 1) (half (add v00 v10));
  do dst <- zset dst (dp + 2 * Z.of_nat width) (half (add v00 v01));
  do dst <- zset dst (dp + (2 * Z.of_nat width + 1)) (quarter (add (add (add v00 v01) v10) v11));
  Some (sp + 1, dp + 2, v10, v11, dst).

(** one row, scalespace.c:461-479 *)
Definition up_row (src : list A) (width height : nat) (y : nat) (s : Z * Z * list A) : option (Z * Z * list A) :=
  let '(sp, dp, dst) := s in
  let oy := if (y + 1 <? height)%nat then Z.of_nat width else 0 in
  do v10 <- zget src sp;
  do v11 <- zget src (sp + oy);
  do (sp, dp, _, _, dst) <- iter width (up_pixel src width oy) (sp, dp, v10, v11, dst);
  Some (sp, dp + 2 * Z.of_nat width, dst).

(** copy_and_upsample, scalespace.c:450-480 *)
Definition copy_and_upsample (dst src : list A) (width height : nat) : option (list A) :=
  do (_, _, dst) <- iter height (up_row src width height) (0, 0, dst);
  Some dst.

(** ** copy_and_downsample, scalespace.c:497-521 and sift.c:835-850 *)

(** one pixel, scalespace.c:515-518, sift.c:845-848; state (destination, p, array) *)
Definition down_pixel (src : list A) (step : nat) (_ : nat) (s : Z * Z * list A) : option (Z * Z * list A) :=
  let '(dp, p, dst) := s in
  do v <- zget src p;
  do dst <- zset dst dp v;
  Some (dp + 1, p + Z.of_nat step, dst).

(** one row; the bound "width - (step - 1)" is signed in C, and the loop makes
    no round when it is negative, as with the truncated difference here *)
Definition down_row (src : list A) (width step : nat) (y : nat) (s : Z * list A) : option (Z * list A) :=
  let '(dp, dst) := s in
  let p := Z.of_nat y * Z.of_nat width in
  do (dp, _, dst) <- for_step (S width) 0 (width - (step - 1)) step (down_pixel src step) (dp, p, dst);
  Some (dp, dst).

(** the loops shared by both functions *)
Definition down_rows (dst src : list A) (width height step : nat) : option (list A) :=
  do (_, dst) <- for_step (S height) 0 height step (down_row src width step) (0, dst);
  Some dst.

(** memcpy of [n] elements *)
Definition copy_pixels (dst src : list A) (n : nat) : option (list A) :=
  iter n (fun i dst => do v <- aget src i; aset dst i v) dst.

(** copy_and_downsample, scalespace.c:497-521 *)
Definition copy_and_downsample (dst src : list A) (width height octaves : nat) : option (list A) :=
  let step := (2 ^ octaves)%nat in
  if (octaves =? 0)%nat then copy_pixels dst src (width * height)
  else down_rows dst src width height step.

(** copy_and_downsample, sift.c:835-850 *)
Definition sift_copy_and_downsample (dst src : list A) (width height d : nat) : option (list A) :=
  down_rows dst src width height (2 ^ d)%nat.

(** ** copy_and_upsample_rows, sift.c:737-757 *)

(** one pixel pair, sift.c:746-751; state (src, dst, a, b, array) *)
Definition rows_pixel (src : list A) (height : nat) (_ : nat) (s : Z * Z * A * A * list A) : option (Z * Z * A * A * list A) :=
  let '(sp, dp, a, _, dst) := s in
  do b <- zget src sp;
  do dst <- zset dst dp a;
  do dst <- zset dst (dp + Z.of_nat height) (half (add a b));
  Some (sp + 1, dp + Z.of_nat height + Z.of_nat height, b, b, dst).

(** one row, sift.c:744-755 *)
Definition rows_row (src : list A) (width height : nat) (_ : nat) (s : Z * Z * list A) : option (Z * Z * list A) :=
  let '(sp, dp, dst) := s in
  do a <- zget src sp;
  do (sp, dp, _, b, dst) <- iter (width - 1) (rows_pixel src height) (sp + 1, dp, a, a, dst);
  do dst <- zset dst dp b;
  do dst <- zset dst (dp + Z.of_nat height) b;
  Some (sp, dp + Z.of_nat height + Z.of_nat height + (1 - Z.of_nat width * 2 * Z.of_nat height), dst).

(** copy_and_upsample_rows, sift.c:737-757 *)
Definition copy_and_upsample_rows (dst src : list A) (width height : nat) : option (list A) :=
  do (_, _, dst) <- iter height (rows_row src width height) (0, 0, dst);
  Some dst.

(** one further doubling with octave index o = -k, sift.c:1022-1027; state
    (temp, octave) *)
Definition double_more (width height : nat) (k : nat) (s : list A * list A) : option (list A * list A) :=
  let '(temp, octave) := s in
  do temp <- copy_and_upsample_rows temp octave (width * 2 ^ k)%nat (height * 2 ^ k)%nat;
  do octave <- copy_and_upsample_rows octave temp (width * 2 ^ k)%nat (2 * (height * 2 ^ k))%nat;
  Some (temp, octave).

(** first level of the first octave of vl_sift_process_first_octave before
    smoothing, o_min = -n with n > 0, sift.c:1016-1028 *)
Definition sift_upsample (temp octave im : list A) (width height n : nat) : option (list A * list A) :=
  do temp <- copy_and_upsample_rows temp im width height;
  do octave <- copy_and_upsample_rows octave temp height (2 * width)%nat;
  iter_from (n - 1) 1 (double_more width height) (temp, octave).
End Resample.
