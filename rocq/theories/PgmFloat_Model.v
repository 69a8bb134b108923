(** PGM images of floats, vl/pgm.c:442-464 and 516-542, on the byte variants of Pgm_Model.  Exact rationals; infinities, the initial
    extrema, are [None]. *)
From Coq Require Import List Arith ZArith Bool QArith Qcanon.
Import ListNotations.
From Verif Require Import Base Loop Rat Gauss_Model SiftDescr_Model Pgm_Model.
Local Open Scope nat_scope.

(** VL_MIN and VL_MAX, pgm.c:528-529 *)
Definition lower (m : option Qc) (d : Qc) : Qc := match m with None => d | Some m => if qlt m d then m else d end.
Definition upper (m : option Qc) (d : Qc) : Qc := match m with None => d | Some m => if qlt d m then m else d end.
(** pgm.c:521-530 *)
Definition extrema (data : list Qc) (n : nat) : option (option Qc * option Qc) :=
  iter n (fun k s => let '(mn, mx) := s in do d <- aget data k; Some (Some (lower mn d), Some (upper mx d))) (None, None).
(** pgm.c:532-536; conversions of numbers outside of 0, ..., 255 are undefined; [buffer] are the contents of the new array *)
Definition to_bytes (eps : Qc) (data : list Qc) (n : nat) (buffer : list Z) : option (list Z) :=
  do (mn, mx) <- extrema data n;
  match mn, mx with
  | Some mn, Some mx =>
    let scale := (nq 255 / (mx - mn + eps))%Qc in
    iter n (fun k buffer =>
      do d <- aget data k;
      let v := trunc ((d - mn) * scale)%Qc in
      if (v <? 0)%Z || (255 <? v)%Z then None else aset buffer k v) buffer
  | _, _ => if n =? 0 then Some buffer else None
  end.
(** vl_pgm_write_f, pgm.c:516-542: the contents of the file; the product of width and height is a signed int *)
Definition pgm_write_f (le : bool) (eps : Qc) (data : list Qc) (width height : Z) (buffer : list Z) : option (list Z) :=
  if (2 ^ 31 <=? width * height)%Z then None else
  do bytes <- to_bytes eps data (Z.to_nat (width * height)) buffer;
  pgm_write le bytes width height.
(** pgm.c:454-459; [fdata] are the contents of the new array *)
Definition to_floats (max_value : Z) (npixels : nat) (idata : list Z) (fdata : list Qc) : option (list Qc) :=
  let scale := (1 / zq max_value)%Qc in
  iter npixels (fun k fdata => do v <- aget idata k; aset fdata k (scale * zq v)%Qc) fdata.
(** vl_pgm_read_new_f, pgm.c:442-464: the error code, and the image if there is no error; [fresh n] are the contents of a new array *)
Definition pgm_read_new_f (le : bool) (f : list Z) (fresh : nat -> list Qc) : option (Z * option (pgm * list Qc)) :=
  do (err, r) <- pgm_read_new le f;
  match r with
  | Some (im, idata) =>
    let npixels := Z.to_nat (p_width im * p_height im) in
    do fdata <- to_floats (p_max im) npixels idata (fresh npixels);
    Some (0%Z, Some (im, fdata))
  | None => Some (err, None)
  end.
