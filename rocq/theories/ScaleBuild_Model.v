(** The construction of a scale space, vl/scalespace.c: vl_scalespace_put_image and the functions it calls.
    Numbers are real numbers.  Images are of an arbitrary type with operations for copy_and_downsample (by a number of octaves), copy_and_upsample and vl_imsmooth_f (the same sigma along x and y), whose pixels are the subject of [Scale_Model] and [ImOp_Model].
    A level of an octave is a cell addressed by octave and subdivision, as allocated by vl_scalespace_new_with_geometry; [None] is a failed assertion of vl_scalespace_get_level, which also stands for an access outside of the array of octaves. *)
From Coq Require Import ZArith Reals Bool.
From Verif Require Import Base Loop.
Local Open Scope R_scope.

(** VlScaleSpaceGeometry without the size of the image, scalespace.h:39-50 *)
Record space_geometry := mk_space { g_first : Z; g_last : Z; g_res : Z; g_fsub : Z; g_lsub : Z; g_base : R; g_nominal : R }.

Section Build.
Context {A : Type}.
Variables (down : Z -> A -> A) (up : A -> A) (smooth : R -> A -> A).
Variable g : space_geometry.
Definition levels := Z -> Z -> A.

(** vl_scalespace_get_level, scalespace.c:386-399: the assertions, then reading and writing the level *)
Definition valid_level (o s : Z) : bool := (g_first g <=? o)%Z && (o <=? g_last g)%Z && (g_fsub g <=? s)%Z && (s <=? g_lsub g)%Z.
Definition get_level (st : levels) (o s : Z) : option A := if valid_level o s then Some (st o s) else None.
Definition set_level (st : levels) (o s : Z) (a : A) : option levels :=
  if valid_level o s then Some (fun o' s' => if (o' =? o)%Z && (s' =? s)%Z then a else st o' s') else None.
(** vl_scalespace_get_level_sigma, scalespace.c:424-428 *)
Definition level_sigma (o s : Z) : R := g_base g * Rpower 2 (IZR o + IZR s / IZR (g_res g)).
(** step of vl_scalespace_get_octave_geometry, scalespace.c:362-370 *)
Definition octave_step (o : Z) : R := Rpower 2 (IZR o).

(** _vl_scalespace_fill_octave, scalespace.c:654-672 *)
Definition fill_step (o : Z) (i : nat) (st : levels) : option levels :=
  let s := (g_fsub g + 1 + Z.of_nat i)%Z in
  let sigma := level_sigma o s in
  let previous_sigma := level_sigma o (s - 1) in
  let delta := sqrt (sigma * sigma - previous_sigma * previous_sigma) in
  do previous <- get_level st o (s - 1);
  set_level st o s (smooth (delta / octave_step o) previous).
Definition fill_octave (o : Z) (st : levels) : option levels := iter (Z.to_nat (g_lsub g - g_fsub g)) (fill_step o) st.

(** one round of the loop of _vl_scalespace_start_octave_from_image, scalespace.c:706-711 *)
Definition up_step (i : nat) (st : levels) : option levels :=
  let op := (-1 - Z.of_nat i)%Z in
  do succ <- get_level st (op + 1) (g_fsub g);
  set_level st op (g_fsub g) (up succ).
(** _vl_scalespace_start_octave_from_image, scalespace.c:685-731 *)
Definition start_from_image (image : A) (o : Z) (st : levels) : option levels :=
  if (g_first g <=? o)%Z && (o <=? g_last g)%Z then
    do st <- set_level st (Z.max 0 o) (g_fsub g) (down (Z.max 0 o) image);
    do st <- iter (Z.to_nat (- o)) up_step st;
    let sigma := level_sigma o (g_fsub g) in
    let image_sigma := g_nominal g in
    if Rlt_dec image_sigma sigma then
      let delta := sqrt (sigma * sigma - image_sigma * image_sigma) in
      do level <- get_level st o (g_fsub g);
      set_level st o (g_fsub g) (smooth (delta / octave_step o) level)
    else Some st
  else None.

(** _vl_scalespace_start_octave_from_previous_octave, scalespace.c:741-791 *)
Definition start_from_previous (o : Z) (st : levels) : option levels :=
  if (g_first g <? o)%Z && (o <=? g_last g)%Z then
    let prev_index := Z.min (g_fsub g + g_res g) (g_lsub g) in
    do prev <- get_level st (o - 1) prev_index;
    do st <- set_level st o (g_fsub g) (down 1 prev);
    let sigma := level_sigma o (g_fsub g) in
    let prev_sigma := level_sigma (o - 1) prev_index in
    if Rlt_dec prev_sigma sigma then
      let delta := sqrt (sigma * sigma - prev_sigma * prev_sigma) in
      do level <- get_level st o (g_fsub g);
      set_level st o (g_fsub g) (smooth (delta / octave_step o) level)
    else Some st
  else None.

(** vl_scalespace_put_image, scalespace.c:801-811 *)
Definition next_octave (i : nat) (st : levels) : option levels :=
  let o := (g_first g + 1 + Z.of_nat i)%Z in
  do st <- start_from_previous o st;
  fill_octave o st.
Definition put_image (image : A) (st : levels) : option levels :=
  do st <- start_from_image image (g_first g) st;
  do st <- fill_octave (g_first g) st;
  iter (Z.to_nat (g_last g - g_first g)) next_octave st.
End Build.
