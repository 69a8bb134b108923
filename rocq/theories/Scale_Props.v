(** C48, C49, C71-C73: scale space geometries, downsampling and upsampling. *)
From Coq Require Import List Arith ZArith Lia Bool Ring Ring_theory QArith Qcanon.
From Verif Require Import Base Loop MserSort_Proofs ImOp_Spec ImOp_Proofs Scale_Model Scale_Spec Scale_Proofs.
Import ListNotations.
Local Open Scope nat_scope.

(** C48, what holds: geometries found equal have the same image size, octaves,
    resolution and scales.  Missing: the subdivisions are compared crosswise, so
    the test is neither reflexive nor does it imply equal subdivisions. *)
Theorem C48_equal_geometries_partial : forall (D : Type) (deq : D -> D -> bool),
  (forall u v, deq u v = true <-> u = v) ->
  forall a b : geometry D, geometry_is_equal deq a b = true ->
  g_width a = g_width b /\ g_height a = g_height b /\ g_first_octave a = g_first_octave b /\
  g_last_octave a = g_last_octave b /\ g_resolution a = g_resolution b /\
  g_base_scale a = g_base_scale b /\ g_nominal_scale a = g_nominal_scale b.
Proof.
  intros D deq Hd a b E. unfold geometry_is_equal in E. rewrite !andb_true_iff in E.
  destruct E as (((((((E1 & E2) & E3) & E4) & E5) & E6) & E7) & E8).
  apply Nat.eqb_eq in E1, E2, E5. apply Z.eqb_eq in E3, E4. apply Hd in E7, E8. auto 10.
Qed.
Print Assumptions C48_equal_geometries_partial.

(** C48, refuted: a geometry with several subdivisions per octave is never equal
    to itself. *)
Theorem C48_equality_refuted : forall (D : Type) (deq : D -> D -> bool) (a : geometry D),
  g_first_subdivision a <> g_last_subdivision a -> geometry_is_equal deq a a = false.
Proof.
  intros D deq a N. unfold geometry_is_equal.
  destruct (Z.eqb_spec (g_first_subdivision a) (g_last_subdivision a)); [contradiction|].
  now rewrite !andb_false_r.
Qed.
Print Assumptions C48_equality_refuted.

(** the geometry used by covdet for a 640 x 480 image: subdivisions -1..3 *)
Example C48_ex_not_itself :
  let g := {| g_width := 640; g_height := 480; g_first_octave := -1; g_last_octave := 5; g_resolution := 3;
              g_first_subdivision := -1; g_last_subdivision := 3; g_base_scale := 2%Z; g_nominal_scale := 1%Z |} in
  geometry_is_equal Z.eqb g g = false.
Proof. reflexivity. Qed.
Example C48_ex_equal :
  let g := {| g_width := 640; g_height := 480; g_first_octave := -1; g_last_octave := 5; g_resolution := 3;
              g_first_subdivision := 0; g_last_subdivision := 0; g_base_scale := 2%Z; g_nominal_scale := 1%Z |} in
  geometry_is_equal Z.eqb g g = true.
Proof. reflexivity. Qed.

(** C49.  Downsampling by 2^d, as in the scale space and as in SIFT, writes
    floor(width/2^d) columns by ceil(height/2^d) rows, densely from the start of
    the destination; pixel (x,y) is the source pixel (x 2^d, y 2^d); no other
    cell changes. *)
Theorem C49_downsampling : forall (A : Type) (p : A) (dst src : list A) (width height d : nat),
  width * height <= length src ->
  (width / 2 ^ d) * ceil_div height (2 ^ d) <= length dst ->
  let result := filled (fun y x => x + y * (width / 2 ^ d))
    (fun y x => image_of p src width (x * 2 ^ d) (y * 2 ^ d)) (ceil_div height (2 ^ d)) (width / 2 ^ d) dst in
  (exists dst', copy_and_downsample dst src width height d = Some dst' /\ result dst') /\
  (exists dst', sift_copy_and_downsample dst src width height d = Some dst' /\ result dst').
Proof.
  intros A p dst src width height d Hs Hd result.
  assert (P : 0 < 2 ^ d) by (apply Nat.neq_0_lt_0, Nat.pow_nonzero; lia).
  assert (S : exists dst', down_rows dst src width height (2 ^ d) = Some dst' /\ result dst').
  { destruct (down_rows_ok p src dst width height (2 ^ d) Hs P Hd) as (dst' & E & L & V & U).
    exists dst'. split; [exact E|]. split; [exact L|]. split.
    - intros a b La Lb. rewrite Nat.add_comm. now apply V.
    - intros i Hi. apply U. intros a b La Lb. rewrite Nat.add_comm. now apply Hi. }
  split; [|exact S].
  unfold copy_and_downsample. destruct (Nat.eqb_spec d 0) as [->|]; [|exact S].
  unfold result, ceil_div in *. cbn [Nat.pow] in *. rewrite !Nat.sub_diag, !Nat.add_0_r, !Nat.div_1_r in *.
  destruct (copy_pixels_ok p dst src (width * height) Hs Hd) as (dst' & E & L & V & U).
  exists dst'. split; [exact E|]. split; [exact L|]. split.
  - intros a b La Lb. rewrite V by nia. unfold image_of. now rewrite !Nat.mul_1_r.
  - intros i Hi. apply U. destruct (Nat.lt_ge_cases i (width * height)) as [X|X]; [|exact X]. exfalso.
    assert (width <> 0) by nia.
    apply (Hi (i / width) (i mod width)).
    + apply Nat.div_lt_upper_bound; lia.
    + apply Nat.mod_upper_bound; auto.
    + pose proof (Nat.div_mod i width ltac:(auto)). lia.
Qed.
Print Assumptions C49_downsampling.

Example C49_ex : copy_and_downsample [0;0;0;0;0] [11;12;13;14;15; 21;22;23;24;25; 31;32;33;34;35] 5 3 1 =
  Some [11;13;31;33;0].
Proof. reflexivity. Qed.
Example C49_ex_sift : sift_copy_and_downsample [0;0;0] [11;12;13;14; 21;22;23;24; 31;32;33;34; 41;42;43;44] 4 4 2 =
  Some [11;0;0].
Proof. reflexivity. Qed.

(** C71, refuted: the documentation sizes the destination as floor(width/2^d)
    by floor(height/2^d); when 2^d does not divide the height (and the image is
    at least 2^d wide) both functions write past such a destination. *)
Theorem C71_destination_size_refuted : exists (dst src : list nat) (width height d : nat),
  length src = width * height /\ length dst = (width / 2 ^ d) * (height / 2 ^ d) /\
  copy_and_downsample dst src width height d = None /\ sift_copy_and_downsample dst src width height d = None.
Proof.
  exists [0;0], [11;12;13;14; 21;22;23;24; 31;32;33;34], 4, 3, 1. vm_compute. auto.
Qed.
Print Assumptions C71_destination_size_refuted.

(** C71, what holds: the destination suffices when 2^d divides the height *)
Theorem C71_destination_size_partial : forall (A : Type) (p : A) (dst src : list A) (width height d : nat),
  width * height <= length src -> (height mod 2 ^ d = 0) ->
  (width / 2 ^ d) * (height / 2 ^ d) <= length dst ->
  (exists dst', copy_and_downsample dst src width height d = Some dst') /\
  (exists dst', sift_copy_and_downsample dst src width height d = Some dst').
Proof.
  intros A p dst src width height d Hs M Hd.
  assert (P : 2 ^ d <> 0) by (apply Nat.pow_nonzero; lia).
  assert (C : ceil_div height (2 ^ d) = height / 2 ^ d).
  { unfold ceil_div. pose proof (Nat.div_mod height (2 ^ d) P).
    symmetry. apply (Nat.div_unique _ _ _ (2 ^ d - 1)); lia. }
  destruct (C49_downsampling A p dst src width height d Hs) as [(a & Ea & _) (b & Eb & _)]; [now rewrite C|].
  eauto.
Qed.
Print Assumptions C71_destination_size_partial.
Example C71_ex : copy_and_downsample [0;0;0;0] [11;12;13;14; 21;22;23;24; 31;32;33;34; 41;42;43;44] 4 4 1 =
  Some [11;13;31;33].
Proof. reflexivity. Qed.

(** C72.  Doubling an image, as in the scale space and as in SIFT with first
    octave -1, is linear interpolation with the border continued: over any ring
    with an element h with h + h = 1, both write the same 2 width by 2 height
    image. *)
Theorem C72_upsampling : forall (A : Type) r0 r1 radd rmul rsub ropp (h : A),
  @ring_theory A r0 r1 radd rmul rsub ropp eq -> radd h h = r1 ->
  forall (dst temp src : list A) (width height : nat), 0 < width -> 0 < height ->
  width * height <= length src -> 2 * (width * height) <= length temp -> 4 * (width * height) <= length dst ->
  let half := rmul h in
  let result := filled (fun y x => x + y * (2 * width))
    (fun y x => doubled radd half width height (image_of r0 src width) x y) (2 * height) (2 * width) dst in
  (exists dst', copy_and_upsample radd half (rmul (rmul h h)) dst src width height = Some dst' /\ result dst') /\
  (exists temp' dst', sift_upsample radd half temp dst src width height 1 = Some (temp', dst') /\ result dst').
Proof.
  intros A r0 r1 radd rmul rsub ropp h Rth Hh dst temp src W H Lw Lh Hs Ht Hd half result.
  assert (K : forall dst', filled (fun y x => y * (2 * W) + x)
    (fun y x => doubled radd half W H (image_of r0 src W) x y) (2 * H) (2 * W) dst dst' -> result dst').
  { intros dst' (L & V & U). split; [exact L|]. split.
    - intros a b La Lb. rewrite Nat.add_comm. now apply V.
    - intros i Hi. apply U. intros a b La Lb. rewrite Nat.add_comm. now apply Hi. }
  split.
  - destruct (copy_and_upsample_ok r0 r1 radd rmul rsub ropp h Rth src dst W H Hs Hd Lw) as (dst' & E & F).
    exists dst'. split; [exact E|]. apply K, F.
  - destruct (double_rows_twice r0 r1 radd rmul rsub ropp h Rth Hh temp dst src W H Lw Lh Hs Ht Hd)
      as (t & o & E1 & E2 & _ & F).
    exists t, o. split; [|apply K, F]. unfold sift_upsample, half.
    change (rmul h) with (fun x => rmul h x).
    rewrite E1. cbn [obind]. rewrite E2. reflexivity.
Qed.
Print Assumptions C72_upsampling.

Definition qh : Qc := Q2Qc (1 # 2).
Definition qi (l : list Z) : list Qc := map (fun z => Q2Qc (inject_Z z)) l.
Example C72_ex_half : (qh + qh = 1)%Qc.
Proof. apply Qc_is_canon. reflexivity. Qed.
Example C72_ex : option_map (map this) (copy_and_upsample Qcplus (Qcmult qh) (Qcmult (qh * qh)%Qc)
   (qi [9;9;9;9;9;9;9;9;9]%Z) (qi [0;4]%Z) 2 1) =
  Some (map this (qi [0;2;4;4;0;2;4;4;9]%Z)).
Proof. vm_compute. reflexivity. Qed.

(** C73, what holds: for square images SIFT doubles the image once for every
    negative octave. *)
Theorem C73_repeated_doubling_square_partial : forall (A : Type) r0 r1 radd rmul rsub ropp (h : A),
  @ring_theory A r0 r1 radd rmul rsub ropp eq -> radd h h = r1 ->
  forall (temp dst src : list A) (width n : nat), 0 < width -> 0 < n ->
  width * width <= length src -> (width * 2 ^ n) * (width * 2 ^ n) <= length temp ->
  (width * 2 ^ n) * (width * 2 ^ n) <= length dst ->
  exists temp' dst', sift_upsample radd (rmul h) temp dst src width width n = Some (temp', dst') /\
  filled (fun y x => y * (width * 2 ^ n) + x)
    (fun y x => doubled_times radd (rmul h) n width width (image_of r0 src width) x y)
    (width * 2 ^ n) (width * 2 ^ n) dst dst'.
Proof.
  intros A r0 r1 radd rmul rsub ropp h Rth Hh temp dst src W n Lw Ln Hs Ht Hd.
  exact (sift_upsample_square r0 r1 radd rmul rsub ropp h Rth Hh temp dst src W n Lw Ln Hs Ht Hd).
Qed.
Print Assumptions C73_repeated_doubling_square_partial.
Example C73_ex : option_map (fun '(_, o) => map this o) (sift_upsample Qcplus (Qcmult qh)
   (qi (repeat 0%Z 16)) (qi (repeat 0%Z 16)) (qi [5]%Z) 1 1 2) = Some (map this (qi (repeat 5%Z 16))).
Proof. vm_compute. reflexivity. Qed.

(** C73, refuted: with first octave -2 and an image that is not square, the
    second doubling exchanges width and height and the result is not the
    image doubled twice (1 by 2 image with rows 0 and 8). *)
Theorem C73_repeated_doubling_refuted : exists (src temp dst temp' dst' : list Qc) (width height n x y : nat),
  length src = width * height /\
  length temp = (width * 2 ^ n) * (height * 2 ^ n) /\ length dst = (width * 2 ^ n) * (height * 2 ^ n) /\
  x < width * 2 ^ n /\ y < height * 2 ^ n /\
  sift_upsample Qcplus (Qcmult qh) temp dst src width height n = Some (temp', dst') /\
  nth_error dst' (x + y * (width * 2 ^ n)) <>
  Some (doubled_times Qcplus (Qcmult qh) n width height (image_of 0%Qc src width) x y).
Proof.
  set (src := qi [0;8]%Z). set (buf := qi (repeat 0%Z 32)).
  destruct (sift_upsample Qcplus (Qcmult qh) buf buf src 1 2 2) as [[t o]|] eqn:E; [|vm_compute in E; discriminate].
  exists src, buf, buf, t, o, 1, 2, 2, 1, 0.
  split; [reflexivity|]. split; [reflexivity|]. split; [reflexivity|].
  split; [cbn; lia|]. split; [cbn; lia|]. split; [exact E|].
  intro X.
  assert (Y : option_map (fun '(t, o) => option_map this (nth_error o 1))
     (sift_upsample Qcplus (Qcmult qh) buf buf src 1 2 2) =
     Some (Some (this (doubled_times Qcplus (Qcmult qh) 2 1 2 (image_of 0%Qc src 1) 1 0)))).
  { rewrite E. cbn [option_map]. change (1 + 0 * (1 * 2 ^ 2)) with 1 in X. rewrite X. reflexivity. }
  vm_compute in Y. discriminate.
Qed.
Print Assumptions C73_repeated_doubling_refuted.
