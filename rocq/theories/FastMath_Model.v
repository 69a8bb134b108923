(** The fast functions of mathop.h: arc tangent, inverse square root, square root, reduction of angles and rounding down.
    Arithmetic is over the real numbers, except that the reduction of angles takes a rounding function
    and the inverse square root works on the bits of its argument, as the code does. *)
From Coq Require Import List Bool Reals ZArith.
Import ListNotations.
From Verif Require Import Base Rodrigues_Model Svd_Model.
Local Open Scope R_scope.

(** vl_fast_atan2_f and vl_fast_atan2_d, mathop.h:407-447; [eps] is VL_EPSILON_F = 2^-23 or VL_EPSILON_D = 2^-52, mathop.h:39-45.
    The constants of the float version are those nearest to 0.1821 and 0.9675; here they are exact. *)
Definition fast_atan2 (eps y x : R) : R :=
  let c3 := 1821 / 10000 in
  let c1 := 9675 / 10000 in
  let abs_y := Rabs y + eps in
  let '(r, angle) := if ltb x 0 then ((x + abs_y) / (abs_y - x), 3 * PI / 4) else ((x - abs_y) / (x + abs_y), PI / 4) in
  let angle := angle + (c3 * r * r - c1) * r in
  if ltb y 0 then - angle else angle.

(** the first loop of vl_mod_2pi_f and vl_mod_2pi_d, mathop.h:111 and 123; [rnd] rounds the results, [tau] is the constant 2 * VL_PI; [None]: more than [fuel] steps *)
Fixpoint mod_down (rnd : R -> R) (tau : R) (fuel : nat) (x : R) : option R :=
  if ltb tau x then match fuel with O => None | S n => mod_down rnd tau n (rnd (x - tau)) end else Some x.
(** the second loop, mathop.h:112 and 124 *)
Fixpoint mod_up (rnd : R -> R) (tau : R) (fuel : nat) (x : R) : option R :=
  if ltb x 0 then match fuel with O => None | S n => mod_up rnd tau n (rnd (x + tau)) end else Some x.
(** vl_mod_2pi_f and vl_mod_2pi_d, mathop.h:108-126 *)
Definition mod_2pi (rnd : R -> R) (tau : R) (fuel : nat) (x : R) : option R :=
  do y <- mod_down rnd tau fuel x; mod_up rnd tau fuel y.

(** the conversion of a number to long int, towards zero; [None]: the result does not fit and the conversion is undefined *)
Definition to_long (x : R) : option Z :=
  let n := if ltb x 0 then (- Int_part (- x))%Z else Int_part x in
  if ((- 2 ^ 63 <=? n) && (n <? 2 ^ 63))%Z then Some n else None.
(** vl_floor_f and vl_floor_d, mathop.h:133-153.  The comparison of (float) xi with x is exact: xi, a float with its fraction removed, is a float. *)
Definition fast_floor (x : R) : option Z :=
  do xi <- to_long x;
  if negb (ltb x 0) || eqb (IZR xi) x then Some xi
  else if (xi - 1 <? - 2 ^ 63)%Z then None else Some (xi - 1)%Z.

(** a floating point format: bits of the fraction, bias of the exponent, and the constant of the inverse square root, mathop.h:490 and 526 *)
Record format := Format { f_bits : Z; f_bias : Z; f_magic : Z }.
Definition single : format := Format 23 127 0x5f3759df.
Definition double : format := Format 52 1023 0x5fe6ec85e7de30da.
(** the value of the bits of a positive normal number *)
Definition value (F : format) (i : Z) : R :=
  (1 + IZR (i mod 2 ^ f_bits F) / IZR (2 ^ f_bits F)) * powerRZ 2 (i / 2 ^ f_bits F - f_bias F).
(** one of the steps of Newton, mathop.h:494-495 and 532-533 *)
Definition newton (xhalf y : R) : R := y * (15 / 10 - xhalf * y * y).
(** vl_fast_resqrt_f and vl_fast_resqrt_d, mathop.h:475-535, of the number with bits [i] *)
Definition fast_resqrt (F : format) (i : Z) : R :=
  let xhalf := 5 / 10 * value F i in
  let y0 := value F (f_magic F - Z.shiftr i 1) in
  newton xhalf (newton xhalf y0).
(** vl_fast_sqrt_f and vl_fast_sqrt_d, mathop.h:547-560.  The argument of vl_fast_sqrt_d is a float too;
    the bits passed here are those of its conversion to the format of the inverse square root. *)
Definition fast_sqrt (F : format) (i : Z) : R :=
  if ltb (value F i) (1 / 100000000) then 0 else value F i * fast_resqrt F i.
