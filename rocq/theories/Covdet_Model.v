(** The features of the covariant detector, vl/covdet.c, over exact rationals.

    The buffer of features is a block of memory, [None] being NULL; its size is counted in
    features.  Allocation does not fail and fresh memory holds [junk].  [None] as a result is
    an access to NULL or out of bounds.  Rounding to float is ignored.  cos and sin are arbitrary
    functions, and what is measured in the image (the orientations and scales of a frame) is an
    arbitrary function of the frame. *)
From Coq Require Import List Arith ZArith Bool QArith Qcanon Qcabs.
Import ListNotations.
From Verif Require Import Base Loop Rat Gauss_Model.
Local Open Scope nat_scope.

(** VlFrameOrientedEllipse, covdet.h:75-85 *)
Record frame := Frame { f_x : Qc; f_y : Qc; f_a11 : Qc; f_a12 : Qc; f_a21 : Qc; f_a22 : Qc }.
(** VlCovDetFeature, covdet.h:137-144 *)
Record feature := Feature { f_frame : frame; f_peak : Qc; f_edge : Qc; f_orientation : Qc; f_laplacian : Qc }.
(** the fields features, numFeatures and numFeatureBufferSize of VlCovDet, covdet.c:1471-1473 *)
Record store := Store { s_block : option (list feature); s_num : nat; s_size : nat }.

(** vl_covdet_new, covdet.c:1549-1551 *)
Definition new_store : store := Store None 0 0.
(** vl_covdet_reset, covdet.c:1619-1634: the number and the size stay *)
Definition reset (s : store) : store := Store None (s_num s) (s_size s).
(** vl_covdet_get_num_features, covdet.c:3429-3433 *)
Definition get_num (s : store) : nat := s_num s.

Section Junk.
Variable junk : nat -> feature.
(** _vl_resize_buffer, covdet.c:955-977, to a larger size *)
Definition resized (b : option (list feature)) (target : nat) : list feature :=
  match b with
  | None => map junk (seq 0 target)
  | Some l => l ++ map junk (seq (length l) (target - length l))
  end.
(** vl_covdet_append_feature, covdet.c:1657-1677 *)
Definition append (s : store) (f : feature) : option store :=
  let n := s_num s + 1 in
  let s := if s_size s <? n then Store (Some (resized (s_block s) (n + 1000))) n (n + 1000) else Store (s_block s) n (s_size s) in
  do l <- s_block s;
  do l <- aset l (n - 1) f;
  Some (Store (Some l) n (s_size s)).
(** the loops of vl_covdet_detect that store the features found, covdet.c:1949, 2001-2089 *)
Definition store_all (s : store) (found : list feature) : option store :=
  iter (length found) (fun i s => do f <- aget found i; append s f) (Store (s_block s) 0 (s_size s)).
End Junk.

(** moving the features to keep to the front, covdet.c:2131-2138, 2668-2679, 3064-3072 and 3131-3140 *)
Definition compact (keep : feature -> bool) (l : list feature) (n : nat) : option (list feature * nat) :=
  iter n (fun i (st : list feature * nat) =>
    let (l, j) := st in
    do f <- aget l i;
    if keep f then do l <- aset l j f; Some (l, j + 1) else Some (l, j)) (l, 0).

Definition no_peak (f : feature) : feature := Feature (f_frame f) 0 (f_edge f) (f_orientation f) (f_laplacian f).
Definition isz (q : Qc) : bool := Qc_eq_bool q 0.

(** whether feature [fi] removes feature [fj], covdet.c:2119-2124 *)
Definition removes (tol : Qc) (fi fj : feature) : bool :=
  let x := f_x (f_frame fi) in let y := f_y (f_frame fi) in let sigma := f_a11 (f_frame fi) in
  let dx := (f_x (f_frame fj) - x)%Qc in let dy := (f_y (f_frame fj) - y)%Qc in let sigma' := f_a11 (f_frame fj) in
  qlt sigma ((1 + tol) * sigma') && qlt sigma' ((1 + tol) * sigma) &&
  qlt (Qcabs dx) (tol * sigma) && qlt (Qcabs dy) (tol * sigma) && qlt (Qcabs (f_peak fj)) (Qcabs (f_peak fi)).
(** suppression of non-extrema, covdet.c:2101-2139; the state is the buffer and the number of features suppressed,
    [prev] being what was counted before, which stays when there is no suppression *)
Definition suppress_around (tol : Qc) (n i : nat) (st : list feature * nat) : option (list feature * nat) :=
  do fi <- aget (fst st) i;
  iter n (fun j (st : list feature * nat) =>
    let (l, cnt) := st in
    do fj <- aget l j;
    if isz (f_peak fj) then Some (l, cnt) else
    if removes tol fi fj then do l <- aset l j (no_peak fj); Some (l, cnt + 1) else Some (l, cnt)) st.
Definition suppress (tol : Qc) (prev : nat) (l : list feature) (n : nat) : option (list feature * nat * nat) :=
  if isz tol then Some (l, n, prev) else
  do (l, cnt) <- iter n (suppress_around tol n) (l, 0);
  do (l, n) <- compact (fun f => negb (isz (f_peak f))) l n;
  Some (l, n, cnt).

(** vl_covdet_drop_features_outside, covdet.c:3083-3143, for an image of [w] by [h] pixels; the minimum of
    infinity and the first corner is that corner *)
Definition qmin (a b : Qc) : Qc := if qlt a b then a else b.
Definition qmax (a b : Qc) : Qc := if qlt b a then a else b.
Definition corners (f : frame) (e : Qc) : list (Qc * Qc) :=
  map (fun b : Qc * Qc => let (bx, by_) := b in
    (f_a11 f * bx + f_a12 f * by_ + f_x f, f_a21 f * bx + f_a22 f * by_ + f_y f)%Qc) [(e, - e); (e, e); (- e, e); (- e, - e)]%Qc.
Definition bounds (l : list Qc) : Qc * Qc :=
  match l with [] => (0, 0)%Qc | a :: l => (fold_left qmin l a, fold_left qmax l a) end.
Definition frame_inside (w h : nat) (margin : Qc) (f : frame) : bool :=
  let '(x0, x1) := bounds (map fst (corners f margin)) in
  let '(y0, y1) := bounds (map snd (corners f margin)) in
  negb (qlt x0 0) && negb (qlt (zq (Z.of_nat w - 1)) x1) && negb (qlt y0 0) && negb (qlt (zq (Z.of_nat h - 1)) y1).
Definition drop_outside (w h : nat) (margin : Qc) (l : list feature) (n : nat) : option (list feature * nat) :=
  compact (fun f => frame_inside w h margin (f_frame f)) l n.

(** one pass over the stored features giving each of them all its variants: the first in its place,
    the others appended, covdet.c:2870-2907 and 3029-3062; [update] sets the fields of a variant and
    [none] those of a feature without variants *)
Section Variants.
Variable junk : nat -> feature.
Context {A : Type} (found : frame -> list A) (update : A -> feature -> feature) (none : feature -> feature).
Definition change (s : store) (i : nat) (g : feature -> feature) : option store :=
  do l <- s_block s; do f <- aget l i; do l <- aset l i (g f); Some (Store (Some l) (s_num s) (s_size s)).
Definition variants_of (i : nat) (s : store) : option store :=
  do l <- s_block s;
  do f <- aget l i;
  let vs := found (f_frame f) in
  do s <- (if length vs =? 0 then change s i none else Some s);
  iter (length vs) (fun j s =>
    do a <- aget vs j;
    if j =? 0 then change s i (update a)
    else do s <- append junk s f; change s (s_num s - 1) (update a)) s.
Definition all_variants (s : store) : option store := iter (s_num s) variants_of s.
End Variants.

(** a frame times a rotation, covdet.c:2898-2901 *)
Definition rotated (c s : Qc) (f : frame) : frame :=
  Frame (f_x f) (f_y f) (f_a11 f * c + f_a12 f * s) (- (f_a11 f) * s + f_a12 f * c)
    (f_a21 f * c + f_a22 f * s) (- (f_a21 f) * s + f_a22 f * c).
(** vl_covdet_extract_orientations, covdet.c:2869-2904; [found] gives angles and scores *)
Definition extract_orientations (junk : nat -> feature) (cosine sine : Qc -> Qc) (found : frame -> list (Qc * Qc)) (s : store) : option store :=
  all_variants junk found (fun a f => Feature (rotated (cosine (fst a)) (sine (fst a)) (f_frame f)) (f_peak f) (f_edge f) (snd a) (f_laplacian f))
    (fun f => f) s.

(** a frame times a scale, covdet.c:3056-3059 *)
Definition scaled (c : Qc) (f : frame) : frame := Frame (f_x f) (f_y f) (f_a11 f * c) (f_a12 f * c) (f_a21 f * c) (f_a22 f * c).
(** the statistics, covdet.c:3034-3035 and 3043, an array of 5 numbers *)
Definition count_scales (found : frame -> list (Qc * Qc)) (s : store) : option (list nat) :=
  do l <- (match s_block s with None => Some [] | Some l => Some l end);
  iter (s_num s) (fun i c => do f <- aget l i; let n := length (found (f_frame f)) in do v <- aget c n; aset c n (v + 1)) (repeat 0 5).
(** vl_covdet_extract_laplacian_scales, covdet.c:3028-3074; [found] gives scales and scores *)
Definition extract_scales (junk : nat -> feature) (found : frame -> list (Qc * Qc)) (s : store) : option (store * list nat) :=
  do c <- count_scales found s;
  do s <- all_variants junk found (fun a f => Feature (scaled (fst a) (f_frame f)) (f_peak f) (f_edge f) (f_orientation f) (snd a)) no_peak s;
  match s_block s with
  | None => if s_num s =? 0 then Some (s, c) else None
  | Some l => do (l, n) <- compact (fun f => negb (isz (f_peak f))) l (s_num s); Some (Store (Some l) n (s_size s), c)
  end.

(** ** vl_covdet_put_image, covdet.c:1692-1748: the geometry of the scale space *)
(** floor(log2(a / b)) for positive a and b *)
Definition floor_log2 (a b : Z) : Z :=
  let k := (Z.log2 a - Z.log2 b)%Z in
  if (if 0 <=? k then 2 ^ k * b <=? a else b <=? a * 2 ^ (- k))%Z then k else (k - 1)%Z.
Inductive method := DoG | Hessian | HessianLaplace | HarrisLaplace | MultiscaleHessian | MultiscaleHarris.
(** the last octave, covdet.c:1710-1713; the logarithm of zero has no integer part *)
Definition last_octave (w h : nat) (num first : Z) : option Z :=
  let m := (Z.min (Z.of_nat w - 1) (Z.of_nat h - 1))%Z in
  if (m <=? 0)%Z then None else
  let last := floor_log2 m 15 in
  Some (if (0 <? num)%Z then Z.min (num - first - 1) last else last).
(** the first and last subdivisions, covdet.c:1715-1724 *)
Definition subdivisions (m : method) (resolution : Z) : Z * Z :=
  match m with
  | DoG => (-1, resolution + 1)
  | Hessian => (-1, resolution)
  | _ => (0, resolution - 1)
  end%Z.
(** the subdivisions at which vl_covdet_detect looks for extrema: those strictly inside the stack of
    cornerness images, covdet.c:1951-1954 and 1103, or one by one, covdet.c:2052 *)
Definition scanned (m : method) (resolution s : Z) : bool :=
  let (a, b) := subdivisions m resolution in
  match m with
  | DoG => ((a <? s) && (s <? b - 1))%Z
  | Hessian => ((a <? s) && (s <? b))%Z
  | _ => ((a <=? s) && (s <? b))%Z
  end.
