(** Scale and sampling of the levels of a scale space, stated apart from the code. *)
From Coq Require Import ZArith Reals.
Local Open Scope R_scope.

(** An image is sampled with step 2^o and smoothed by a Gaussian of variance v, in units of the pixels of the input.
    Smoothing by sigma pixels adds (sigma 2^o)^2; dropping pixels or interpolating them changes the step only. *)
Record sampled {A : Type} (down : Z -> A -> A) (up : A -> A) (smooth : R -> A -> A) (at_ : Z -> R -> A -> Prop) : Prop := {
  sampled_down : forall o v a n, (0 <= n)%Z -> at_ o v a -> at_ (o + n)%Z v (down n a);
  sampled_up : forall o v a, at_ o v a -> at_ (o - 1)%Z v (up a);
  sampled_smooth : forall o v a sigma, 0 <= sigma -> at_ o v a -> at_ o (v + (sigma * powerRZ 2 o) * (sigma * powerRZ 2 o)) (smooth sigma a) }.

(** the documented scale of a level *)
Definition nominal (base : R) (res o s : Z) : R := base * exp ((IZR o + IZR s / IZR res) * ln 2).
