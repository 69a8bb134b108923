(** Angles, representatives of angles, and floating point numbers. *)
From Coq Require Import Reals ZArith.
From Flocq Require Import Core.
Local Open Scope R_scope.

(** the angle of the point (x, y), in (-pi, pi] *)
Definition angle_of (x y a : R) : Prop :=
  - PI < a <= PI /\ x = sqrt (x * x + y * y) * cos a /\ y = sqrt (x * x + y * y) * sin a.
(** the same angle, up to turns of length tau *)
Definition same_angle (tau a b : R) : Prop := exists k : Z, a = b + IZR k * tau.
(** the bits of the positive normal number (1 + m / 2^bits) 2^(e - bias) *)
Definition normal (bits bias i : Z) (x : R) : Prop :=
  exists e m, (0 < e < 2 * bias + 1)%Z /\ (0 <= m < 2 ^ bits)%Z /\ i = (e * 2 ^ bits + m)%Z /\
    x = (1 + IZR m / IZR (2 ^ bits)) * powerRZ 2 (e - bias).
(** rounding to the nearest number of the two formats, ties to even (numbers too large for the format are not rounded to infinity), and the numbers nearest to 2 pi *)
Definition round_single : R -> R := round radix2 (FLT_exp (-149) 24) ZnearestE.
Definition round_double : R -> R := round radix2 (FLT_exp (-1074) 53) ZnearestE.
Definition tau_single : R := 13176795 / 2 ^ 21.
Definition tau_double : R := 884279719003555 / 2 ^ 47.
