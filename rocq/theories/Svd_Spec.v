(** Decompositions of 2 by 2 matrices. *)
From Coq Require Import Reals.
From Verif Require Import Svd_Model.
Local Open Scope R_scope.

Definition rotation (c s : R) : mat := Mat c s (- s) c.
Definition mul (A B : mat) : mat := Mat (m11 A * m11 B + m12 A * m21 B) (m21 A * m11 B + m22 A * m21 B) (m11 A * m12 B + m12 A * m22 B) (m21 A * m12 B + m22 A * m22 B).
Definition transpose (A : mat) : mat := Mat (m11 A) (m12 A) (m21 A) (m22 A).
Definition diagonal (a b : R) : mat := Mat a 0 0 b.
Definition det (A : mat) : R := m11 A * m22 A - m12 A * m21 A.
Definition is_rotation (A : mat) : Prop := exists c s, A = rotation c s /\ c * c + s * s = 1.
(** neither column nearly all of the matrix, relative to the precision: the first column is not negligible with respect to the product of the columns, nor is the determinant *)
Definition balanced (M : mat) : Prop := epsilon * Rabs (m11 M * m12 M + m21 M * m22 M) <= Rmax (m11 M * m11 M + m21 M * m21 M) (Rabs (det M)).
(** the direction of a vector *)
Definition direction (atan2 : R -> R -> R) : Prop := forall x y, x <> 0 \/ y <> 0 ->
  x = sqrt (x * x + y * y) * cos (atan2 y x) /\ y = sqrt (x * x + y * y) * sin (atan2 y x).
Definition apply (A : mat) (x y : R) : R * R := (m11 A * x + m12 A * y, m21 A * x + m22 A * y).
Definition length2 (v : R * R) : R := fst v * fst v + snd v * snd v.
(** the smallest and the largest of the lengths of the images of unit vectors *)
Definition smallest (A : mat) (m : R) : Prop := 0 <= m /\ (forall x y, x * x + y * y = 1 -> m * m <= length2 (apply A x y)) /\ (exists x y, x * x + y * y = 1 /\ length2 (apply A x y) = m * m).
Definition largest (A : mat) (m : R) : Prop := 0 <= m /\ (forall x y, x * x + y * y = 1 -> length2 (apply A x y) <= m * m) /\ (exists x y, x * x + y * y = 1 /\ length2 (apply A x y) = m * m).
Definition scaled (k : R) (A : mat) : mat := Mat (k * m11 A) (k * m21 A) (k * m12 A) (k * m22 A).
(** not singular, and not so close to singular that double precision sees it as singular *)
Definition tame (A : mat) : Prop := 0 < det A /\ m11 A * m11 A + m21 A * m21 A + m12 A * m12 A + m22 A * m22 A <= 2 ^ 52 * det A.
Definition symmetric (A : mat) : Prop := m12 A = m21 A.
(** the anisotropy of a frame is at most k *)
Definition anisotropy_within (k : R) (A : mat) : Prop := exists m n, smallest A m /\ largest A n /\ n <= k * m.
(** the shape of a frame, A A', and the second moment matrix A' N A seen through a frame A *)
Definition gram (A : mat) : mat := mul A (transpose A).
Definition seen (N A : mat) : mat := mul (mul (transpose A) N) A.
(** the upright direction *)
Definition axis (transposed : bool) : R * R := if transposed then (1, 0) else (0, 1).
