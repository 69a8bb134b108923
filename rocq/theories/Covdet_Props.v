(** Properties of the features of the covariant detector. *)
From Coq Require Import List Arith ZArith Lia Bool QArith Qcanon Qcabs.
From Verif Require Import Base Loop Rat Gauss_Model Gauss_Proofs Covdet_Model Covdet_Spec Covdet_Proofs.
Import ListNotations.
Local Open Scope nat_scope.

(** ** C149: the detected features are stored, all of them and in order, whatever was stored before *)
Theorem C149_detect : forall junk s fs found, holds s fs ->
  exists s', store_all junk s found = Some s' /\ holds s' found /\ get_num s' = length found.
Proof. intros junk s fs found H. destruct (store_all_ok junk s fs found H) as (s' & E & H'). exists s'. split; [exact E|]. split; [exact H'|]. apply H'. Qed.
Print Assumptions C149_detect.
Theorem C149_append : forall junk s fs f, holds s fs -> exists s', append junk s f = Some s' /\ holds s' (fs ++ [f]).
Proof. exact append_ok. Qed.
Print Assumptions C149_append.
Theorem C149_new : holds new_store [].
Proof. split; [reflexivity|]. left. auto. Qed.
Print Assumptions C149_new.

(** the circle of radius [r] at [x], [y] with score [p] *)
Definition circle (x y r p : Z) : feature := Feature (Frame (zq x) (zq y) (zq r) 0 0 (zq r)) (zq p) 0 0 0.
Definition junk0 (_ : nat) : feature := circle 0 0 1 99.
(** what is read back: numbers as fractions *)
Definition show (f : feature) : Z * Z * Z * Z :=
  (Qnum (f_x (f_frame f)), Qnum (f_y (f_frame f)), Qnum (f_a11 (f_frame f)), Qnum (f_peak f)).
Example C149_ex : option_map (fun s => map show (firstn (s_num s) (match s_block s with Some l => l | None => [] end)))
    (do s <- store_all junk0 new_store [circle 1 1 1 5; circle 2 2 1 6; circle 3 3 1 7]; store_all junk0 s [circle 8 8 1 4; circle 9 9 1 3])
  = Some [(8, 8, 1, 4)%Z; (9, 9, 1, 3)%Z].
Proof. vm_compute. reflexivity. Qed.

(** ** C150: resetting an object neither forgets the number of features nor leaves an object that can be
    used again: any object that once stored a feature then writes the next one through NULL *)
Theorem C150_reset_refuted : forall junk s fs found, holds s fs -> 0 < s_size s -> found <> [] ->
  get_num (reset s) = length fs /\ s_block (reset s) = None /\ store_all junk (reset s) found = None.
Proof.
  intros junk s fs found [N _] Z F. split; [exact N|]. split; [reflexivity|]. unfold store_all. cbn [reset s_block s_size].
  destruct found as [|f found]; [now destruct F|]. unfold iter. cbn [length iter_from aget nth_error obind]. unfold append. cbn [s_num s_size s_block].
  destruct (Nat.ltb_spec (s_size s) (0 + 1)); [lia|]. reflexivity.
Qed.
Print Assumptions C150_reset_refuted.
(** an object that stored a feature has a block *)
Theorem C150_stored : forall junk s fs f s', holds s fs -> append junk s f = Some s' -> 0 < s_size s'.
Proof.
  intros junk s fs f s' H E. destruct (append_ok junk s fs f H) as (s2 & E2 & H2). assert (s2 = s') by congruence. subst.
  apply holds_iff in H2. destruct H2 as [_ [(_ & X & _)|(rest & _ & L)]]; [now destruct fs|]. rewrite <- L, !app_length. cbn. lia.
Qed.
Print Assumptions C150_stored.
Example C150_ex : (do s <- store_all junk0 new_store [circle 1 1 1 5]; store_all junk0 (reset s) [circle 2 2 1 6]) = None
  /\ option_map (fun s => get_num (reset s)) (store_all junk0 new_store [circle 1 1 1 5]) = Some 1.
Proof. split; vm_compute; reflexivity. Qed.

(** ** C151: suppression keeps a sublist of the features, in order and unchanged.  No kept feature is beaten
    by a kept one; one that is beaten by none is kept; one that is not kept is beaten by a feature that is kept or
    itself beaten by a later one.  The number suppressed is that of the features not kept *)
Theorem C151_suppress : forall tol prev s fs l, holds s fs -> s_block s = Some l -> tol <> 0%Qc -> Forall (fun f => f_peak f <> 0%Qc) fs ->
  exists m l' n cnt, suppress tol prev l (s_num s) = Some (l', n, cnt) /\ holds (Store (Some l') n (s_size s)) (marked m fs) /\
    length m = length fs /\ cnt = unmarked m /\
    (forall i j fi fj, nth_error fs i = Some fi -> nth_error fs j = Some fj -> nth i m false = true -> nth j m false = true -> ~ beats tol fi fj) /\
    (forall j fj, nth_error fs j = Some fj -> nth j m false = false -> exists i fi, nth_error fs i = Some fi /\ beats tol fi fj /\
       (nth i m false = true \/ exists i' fi', i < i' /\ nth_error fs i' = Some fi' /\ beats tol fi' fi)).
Proof.
  intros tol prev s fs l H B T P. apply holds_iff in H. destruct H as [N [(X & _)|(rest & B' & L)]]; [congruence|].
  assert (l = fs ++ rest) by congruence. subst l. destruct (suppress_ok tol fs rest prev T) as (rest' & E & L').
  destruct (mark_props tol fs) as (M1 & M2 & M3). set (d := Feature (Frame 0 0 0 0 0 0) 0 0 0 0) in *.
  assert (G : forall i fi, nth_error fs i = Some fi -> i < length fs /\ nth i fs d = fi).
  { intros i fi Ei. split; [apply nth_error_Some; congruence|]. now apply nth_error_nth. }
  exists (mark tol fs). eexists _, _, _. rewrite N. split; [exact E|]. split; [|split; [|split; [|split]]].
  - apply holds_iff. cbn [s_num s_block s_size]. split; [reflexivity|]. right. exists rest'. split; [reflexivity|]. now rewrite L'.
  - unfold mark. now rewrite map_length, seq_length.
  - rewrite lost_mark. unfold unmarked. rewrite (filter_ext_in _ (fun j => negb (nth j (mark tol fs) false))).
    + rewrite <- (map_length (fun j => nth j (mark tol fs) false)).
      assert (Q : forall m : list bool, filter negb m = map (fun j => nth j m false) (filter (fun j => negb (nth j m false)) (seq 0 (length m)))).
      { induction m as [|b m IH]; [reflexivity|]. cbn [length seq filter nth map]. rewrite <- seq_shift.
        assert (Fm : forall (f : nat -> bool) l, filter f (map S l) = map S (filter (fun x => f (S x)) l)).
        { intros f l. induction l as [|a l IHl]; [reflexivity|]. cbn. destruct (f (S a)); cbn; now rewrite IHl. }
        rewrite Fm. cbn [nth]. destruct b; cbn [negb map nth]; rewrite map_map; cbn [nth]; now rewrite <- IH. }
      assert (LM : length (mark tol fs) = length fs) by (unfold mark; now rewrite map_length, seq_length).
      rewrite (Q (mark tol fs)), LM. reflexivity.
    + intros j Hj. apply in_seq in Hj. assert (Z : f_peak (nth j fs d) <> 0%Qc) by (apply (proj1 (Forall_forall _ _) P), nth_In; lia).
      apply isz_false in Z. unfold d in Z. rewrite Z. now rewrite andb_true_r.
  - intros i j fi fj Ei Ej Mi Mj. destruct (G i fi Ei) as [Li <-], (G j fj Ej) as [Lj <-]. now apply M2.
  - intros j fj Ej Mj. destruct (G j fj Ej) as [Lj <-].
    destruct (M3 j Lj Mj) as (i & Li & Bi & O); [apply (proj1 (Forall_forall _ _) P), nth_In; lia|].
    exists i, (nth i fs d). split; [now apply nth_error_nth'|]. split; [exact Bi|].
    destruct O as [O|(i' & Li' & Bi')]; [now left|]. right. exists i', (nth i' fs d). split; [lia|]. split; [apply nth_error_nth'; lia|exact Bi'].
Qed.
Print Assumptions C151_suppress.
(** tolerance zero switches suppression off *)
Theorem C151_off : forall prev l n, suppress 0 prev l n = Some (l, n, prev).
Proof. reflexivity. Qed.
Print Assumptions C151_off.
Definition kept (tol : Qc) (fs : list feature) := option_map (fun r => let '(l, n, c) := r in (map show (firstn n l), c)) (suppress tol 0 fs (length fs)).
Example C151_ex : kept (Q2Qc (1 # 2)) [circle 0 0 10 3; circle 4 0 10 5; circle 40 0 10 1; circle 0 3 11 (-4)] = Some ([(4, 0, 10, 5); (40, 0, 10, 1)]%Z, 2).
Proof. vm_compute. reflexivity. Qed.

(** ** C152: what suppression keeps depends on the order of the features; a feature can be suppressed by one that is not kept *)
Theorem C152_order_refuted :
  let a := circle 0 0 10 1 in let b := circle 4 0 10 2 in let c := circle 8 0 10 3 in
  let tol := Q2Qc (1 # 2) in
  kept tol [a; b; c] = Some ((8, 0, 10, 3)%Z :: nil, 2) /\ kept tol [c; b; a] = Some ([(8, 0, 10, 3); (0, 0, 10, 1)]%Z, 1) /\ ~ beats tol c a.
Proof.
  cbv zeta. split; [vm_compute; reflexivity|split; [vm_compute; reflexivity|]]. intros X. apply removes_iff in X. vm_compute in X. discriminate.
Qed.
Print Assumptions C152_order_refuted.

(** ** C153: dropping the features outside keeps, in order, exactly those that map the square
    |u|, |v| <= margin into the image *)
Theorem C153_inside : forall w h margin f, (0 <= margin)%Qc ->
  frame_inside w h margin f = true <-> forall u v, (- margin <= u <= margin)%Qc -> (- margin <= v <= margin)%Qc -> in_image w h (maps f u v).
Proof.
  intros w h margin f M. rewrite inside_ok by assumption. split.
  - intros H u v [U1 U2] [V1 V2]. auto.
  - intros H u v U1 U2 V1 V2. apply H; auto.
Qed.
Print Assumptions C153_inside.
Theorem C153_drop : forall w h margin s fs l, holds s fs -> s_block s = Some l ->
  exists l' n, drop_outside w h margin l (s_num s) = Some (l', n) /\
    holds (Store (Some l') n (s_size s)) (filter (fun f => frame_inside w h margin (f_frame f)) fs).
Proof.
  intros w h margin s fs l H B. apply holds_iff in H. destruct H as [N [(X & _)|(rest & B' & L)]]; [congruence|].
  assert (l = fs ++ rest) by congruence. subst l. destruct (compact_ok (fun f => frame_inside w h margin (f_frame f)) fs rest) as (rest' & E & L').
  unfold drop_outside. rewrite N. eexists _, _. split; [exact E|]. apply holds_iff. cbn [s_num s_block s_size]. split; [reflexivity|]. right. exists rest'. split; [reflexivity|]. now rewrite L'.
Qed.
Print Assumptions C153_drop.
Example C153_ex : option_map (fun r => let '(l, n) := r in map show (firstn n l))
  (drop_outside 20 10 1 [circle 5 5 5 1; circle 5 5 4 2; circle 16 5 3 3; circle 16 5 4 4; circle 1 1 1 5] 5) = Some [(5, 5, 4, 2); (16, 5, 3, 3); (1, 1, 1, 5)]%Z.
Proof. vm_compute. reflexivity. Qed.

(** ** C154: extracting orientations replaces each feature by its first orientation and appends the others, after all
    features and in order.  Features without orientations stay as they are *)
Definition oriented (cosine sine : Qc -> Qc) (a : Qc * Qc) (f : feature) : feature :=
  Feature (rotated (cosine (fst a)) (sine (fst a)) (f_frame f)) (f_peak f) (f_edge f) (snd a) (f_laplacian f).
Theorem C154_orientations : forall junk cosine sine found s fs, holds s fs ->
  exists s', extract_orientations junk cosine sine found s = Some s' /\ holds s' (spread found (oriented cosine sine) (fun f => f) fs).
Proof. intros. now apply all_variants_ok. Qed.
Print Assumptions C154_orientations.
(** the frame times the rotation, which maps (u, v) to where the frame maps the rotated point; the centre
    and the ellipse A A' stay *)
Theorem C154_rotation : forall c s f, (c * c + s * s = 1)%Qc ->
  (forall u v, maps (rotated c s f) u v = maps f (c * u - s * v) (s * u + c * v))%Qc /\
  f_x (rotated c s f) = f_x f /\ f_y (rotated c s f) = f_y f /\
  let g := rotated c s f in
  (f_a11 g * f_a11 g + f_a12 g * f_a12 g = f_a11 f * f_a11 f + f_a12 f * f_a12 f /\
   f_a11 g * f_a21 g + f_a12 g * f_a22 g = f_a11 f * f_a21 f + f_a12 f * f_a22 f /\
   f_a21 g * f_a21 g + f_a22 g * f_a22 g = f_a21 f * f_a21 f + f_a22 f * f_a22 f /\
   f_a11 g * f_a22 g - f_a12 g * f_a21 g = f_a11 f * f_a22 f - f_a12 f * f_a21 f)%Qc.
Proof.
  intros c s f H. split; [|split; [reflexivity|split; [reflexivity|]]].
  - intros u v. unfold maps, rotated. cbn. f_equal; ring.
  - destruct f as [x y a b p q]. cbn. assert (E : (c * c = 1 - s * s)%Qc) by (rewrite <- H; ring). repeat split.
    + transitivity ((a * a + b * b) * (c * c + s * s))%Qc; [ring|]. rewrite H. ring.
    + transitivity ((a * p + b * q) * (c * c + s * s))%Qc; [ring|]. rewrite H. ring.
    + transitivity ((p * p + q * q) * (c * c + s * s))%Qc; [ring|]. rewrite H. ring.
    + transitivity ((a * q - b * p) * (c * c + s * s))%Qc; [ring|]. rewrite H. ring.
Qed.
Print Assumptions C154_rotation.
Definition contents (s : store) := firstn (s_num s) (match s_block s with Some l => l | None => [] end).
(** a rotation by a quarter turn for angle 1 and none for 0, two orientations for the first feature and none for the second *)
Example C154_ex :
  let cosine a := if isz a then 1%Qc else 0%Qc in let sine a := if isz a then 0%Qc else 1%Qc in
  let found f := if isz (f_x f) then [(1, zq 9); (0, zq 8)]%Qc else [] in
  option_map (fun s => map (fun f => (show f, Qnum (f_a12 (f_frame f)), Qnum (f_a21 (f_frame f)), Qnum (f_orientation f))) (contents s))
    (do s <- store_all junk0 new_store [circle 0 0 2 5; circle 3 3 2 6]; extract_orientations junk0 cosine sine found s)
  = Some [((0, 0, 0, 5), -2, 2, 9); ((3, 3, 2, 6), 0, 0, 0); ((0, 0, 2, 5), 0, 0, 8)]%Z.
Proof. vm_compute. reflexivity. Qed.

(** ** C155: extracting scales drops the features without one, replaces each other feature by its first scale and
    appends the others.  It counts the features by their number of scales *)
Definition with_scale (a : Qc * Qc) (f : feature) : feature :=
  Feature (scaled (fst a) (f_frame f)) (f_peak f) (f_edge f) (f_orientation f) (snd a).
Theorem C155_scales : forall junk found s fs, holds s fs -> Forall (fun f => length (found (f_frame f)) <= 4) fs -> Forall (fun f => f_peak f <> 0%Qc) fs ->
  exists s' counts, extract_scales junk found s = Some (s', counts) /\
    holds s' (spread found with_scale (fun f => f) (filter (fun f => negb (length (found (f_frame f)) =? 0)) fs)) /\
    length counts = 5 /\ forall k, k < 5 -> nth k counts 0 = length (filter (fun f => length (found (f_frame f)) =? k) fs).
Proof.
  intros junk found s fs H B P. assert (B' : Forall (fun f => length (found (f_frame f)) < 5) fs) by (eapply Forall_impl; [|exact B]; cbn; lia).
  destruct (extract_scales_ok junk found s fs H B' P) as (s' & E & H'). eexists _, _. split; [exact E|]. split; [|split; [reflexivity|]].
  - replace (spread found with_scale (fun f => f) (filter (fun f => negb (length (found (f_frame f)) =? 0)) fs)) with
      (spread found (fun a f => Feature (scaled (fst a) (f_frame f)) (f_peak f) (f_edge f) (f_orientation f) (snd a)) no_peak (filter (fun f => negb (length (found (f_frame f)) =? 0)) fs)); [exact H'|].
    unfold spread. f_equal. apply map_ext_in. intros f Hf. apply filter_In in Hf. destruct Hf as [_ Hf]. destruct (found (f_frame f)); [discriminate|reflexivity].
  - intros k L. destruct k as [|[|[|[|[|]]]]]; try lia; reflexivity.
Qed.
Print Assumptions C155_scales.
Theorem C155_scaled : forall c f u v, maps (scaled c f) u v = maps f (c * u) (c * v).
Proof. intros c f u v. unfold maps, scaled. cbn. f_equal; ring. Qed.
Print Assumptions C155_scaled.
Example C155_ex :
  let found f := if isz (f_x f) then [] else if isz (f_y f) then ((zq 2, zq 7) :: nil) else [(zq 2, zq 7); (zq 3, zq 8)] in
  option_map (fun r => (map show (contents (fst r)), snd r))
    (do s <- store_all junk0 new_store [circle 1 2 10 5; circle 0 0 10 6; circle 1 0 10 7]; extract_scales junk0 found s)
  = Some ([(1, 2, 20, 5); (1, 0, 20, 7); (1, 2, 30, 5)]%Z, [1; 1; 1; 0; 0]).
Proof. vm_compute. reflexivity. Qed.

(** ** C156: without a limit the last octave is the largest one whose images have more than 15 pixels per side:
    15 * 2^o <= min (w, h) - 1.  A limit can only lower it *)
Theorem C156_last : forall w h first, 1 < w -> 1 < h -> exists last, last_octave w h 0 first = Some last /\
  forall o, (o <= last <-> 15 * 2 ^ Z.max o 0 <= (Z.of_nat (Nat.min w h) - 1) * 2 ^ Z.max (- o) 0)%Z.
Proof.
  intros w h first W H. unfold last_octave. destruct (Z.leb_spec (Z.min (Z.of_nat w - 1) (Z.of_nat h - 1)) 0); [lia|]. cbn.
  eexists. split; [reflexivity|]. intros o. rewrite floor_log2_ok by lia. replace (Z.min (Z.of_nat w - 1) (Z.of_nat h - 1)) with (Z.of_nat (Nat.min w h) - 1)%Z by lia. tauto.
Qed.
Print Assumptions C156_last.
Theorem C156_limit : forall w h num first last last', last_octave w h 0 first = Some last -> last_octave w h num first = Some last' -> (last' <= last)%Z.
Proof.
  intros w h num first last last'. unfold last_octave. destruct (_ <=? 0)%Z; [discriminate|]. cbn. intros E E'. injection E as <-. injection E' as <-. destruct (0 <? num)%Z; lia.
Qed.
Print Assumptions C156_limit.
Example C156_ex : map (fun w => last_octave w 480 0 (-1)) [2; 8; 9; 16; 31; 61; 640] = map Some [-4; -2; -1; 0; 1; 2; 4]%Z.
Proof. reflexivity. Qed.

(** ** C157: the number of octaves that was set is not their number, nor a bound on it, unless the first octave
    is 0: on a large image there are num - 2 * first *)
Theorem C157_number_refuted : forall w h num first last last', (0 < num)%Z -> last_octave w h 0 first = Some last -> (num - first - 1 <= last)%Z ->
  last_octave w h num first = Some last' -> (last' - first + 1 = num - 2 * first)%Z /\ ((last' - first + 1)%Z = num <-> first = 0%Z).
Proof.
  intros w h num first last last'. unfold last_octave. destruct (_ <=? 0)%Z; [discriminate|]. change (0 <? 0)%Z with false. cbv zeta iota. intros Np E L E'. injection E as <-.
  destruct (Z.ltb_spec 0 num); [|lia]. injection E' as <-. rewrite Z.min_l by lia. lia.
Qed.
Print Assumptions C157_number_refuted.
(** three octaves from the default first octave -1 are five *)
Example C157_ex : option_map (fun last => last - -1 + 1)%Z (last_octave 640 480 3 (-1)) = Some 5%Z.
Proof. reflexivity. Qed.

(** ** C158: with the default first octave -1 an image with a side of 8 pixels or less has no octave, the last
    octave coming before the first, and with a side of one pixel the last octave is not defined *)
Theorem C158_small_refuted : forall w h, 1 <= w -> 1 <= h -> Nat.min w h <= 8 ->
  (Nat.min w h = 1 /\ last_octave w h 0 (-1) = None) \/ (exists last, last_octave w h 0 (-1) = Some last /\ (last < -1)%Z).
Proof.
  intros w h W H M. destruct (Nat.eq_dec (Nat.min w h) 1) as [E|E].
  - left. split; [assumption|]. unfold last_octave. destruct (Z.leb_spec (Z.min (Z.of_nat w - 1) (Z.of_nat h - 1)) 0); [reflexivity|lia].
  - right. destruct (C156_last w h (-1) ltac:(lia) ltac:(lia)) as (last & E1 & H1). exists last. split; [exact E1|]. apply Z.nle_gt. intros L.
    apply H1 in L. cbn in L. lia.
Qed.
Print Assumptions C158_small_refuted.
Theorem C158_enough : forall w h, 9 <= w -> 9 <= h -> exists last, last_octave w h 0 (-1) = Some last /\ (-1 <= last)%Z.
Proof. intros w h W H. destruct (C156_last w h (-1) ltac:(lia) ltac:(lia)) as (last & E1 & H1). exists last. split; [exact E1|]. apply H1. cbn. lia. Qed.
Print Assumptions C158_enough.

(** ** C159: the difference-of-Gaussian and the Hessian detectors look at every subdivision of an octave *)
Theorem C159_scanned : forall m resolution s, m = DoG \/ m = Hessian -> scanned m resolution s = true <-> (0 <= s < resolution)%Z.
Proof. intros m resolution s [-> | ->]; unfold scanned, subdivisions; rewrite andb_true_iff, !Z.ltb_lt; lia. Qed.
Print Assumptions C159_scanned.
Example C159_ex : map (scanned DoG 3) [-1; 0; 1; 2; 3]%Z = [false; true; true; true; false].
Proof. reflexivity. Qed.

(** ** C160: the other detectors never look at the last subdivision of an octave, and at nothing at all if there is one
    subdivision per octave *)
Theorem C160_scanned_refuted : forall m resolution s, m <> DoG -> m <> Hessian -> scanned m resolution s = true <-> (0 <= s < resolution - 1)%Z.
Proof. intros m resolution s A B. destruct m; try congruence; unfold scanned, subdivisions; rewrite andb_true_iff, Z.leb_le, Z.ltb_lt; lia. Qed.
Print Assumptions C160_scanned_refuted.
Theorem C160_nothing : forall m s, m <> DoG -> m <> Hessian -> scanned m 1 s = false.
Proof. intros m s A B. apply not_true_iff_false. rewrite C160_scanned_refuted by assumption. lia. Qed.
Print Assumptions C160_nothing.
Example C160_ex : map (scanned HessianLaplace 3) [-1; 0; 1; 2; 3]%Z = [false; true; true; false; false].
Proof. reflexivity. Qed.
