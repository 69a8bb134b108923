(** C172-C177: patches of the covariant detector. *)
From Coq Require Import List Arith ZArith Lia Bool QArith Qcanon.
Import ListNotations.
From Verif Require Import Base Loop Rat Gauss_Model Gauss_Proofs Covdet_Model Covdet_Spec Covdet_Proofs.
From Verif Require Import CovdetPatch_Model CovdetPatch_Spec CovdetPatch_Proofs CovdetPatch2_Proofs.
Local Open Scope nat_scope.

(** C172.  The level (o, s) used for a patch exists; its smoothing 2^(o + s / resolution), in units of the base scale, is at most the
    smoothing [q] wanted, unless that of all levels exceeds it; and there is no such level in a later octave. *)
Theorem C172_level : forall g q, (0 < q)%Qc -> 0 < g_res g -> (g_first g <= g_last g)%Z -> (-1 <= g_sub0 g <= g_sub1 g)%Z ->
  let '(o, s) := best_level g q in
  (g_first g <= o <= g_last g)%Z /\ (g_sub0 g <= s <= g_sub1 g)%Z /\
  ((exists o' s', (g_first g <= o' <= g_last g)%Z /\ (g_sub0 g <= s' <= g_sub1 g)%Z /\ level_below (g_res g) q o' s') -> level_below (g_res g) q o s) /\
  (forall o' s', (o < o' <= g_last g)%Z -> (g_sub0 g <= s' <= g_sub1 g)%Z -> ~ level_below (g_res g) q o' s').
Proof. intros g q Q R O S. apply best_level_ok; lia || assumption. Qed.
Print Assumptions C172_level.

(** the smoothing wanted: smoothing x, in units of the base scale, is at most [ratio] if and only if mapped to the patch, along both principal directions of the
    frame, it is at most sigma *)
Theorem C172_mapped : forall g sigma d1 d2 x, (0 <= sigma)%Qc -> (0 < d1)%Qc -> (0 < d2)%Qc -> (0 < g_base g)%Qc ->
  ((x <= ratio g sigma d1 d2)%Qc <-> (x * g_base g / d1 <= sigma)%Qc /\ (x * g_base g / d2 <= sigma)%Qc).
Proof.
  intros g sigma d1 d2 x SG D1 D2 B. unfold ratio. assert (NZ0 : forall d : Qc, (0 < d)%Qc -> d <> 0%Qc) by (intros d D ->; revert D; apply Qcle_not_lt; apply Qcle_refl).
  assert (P : forall d y, (0 < d)%Qc -> ((y / d <= sigma)%Qc <-> (y <= sigma * d)%Qc)).
  { intros d y D. assert (NZ : d <> 0%Qc) by auto. split; intros H.
    - replace y with (y / d * d)%Qc by (field; exact NZ). apply Qcmult_le_compat_r; [exact H|now apply Qclt_le_weak].
    - apply Qcmult_lt_0_le_reg_r with d; [exact D|]. replace (y / d * d)%Qc with y by (field; exact NZ). exact H. }
  assert (Dm : (0 < qmin d1 d2)%Qc) by (unfold qmin; destruct (qlt _ _); assumption).
  assert (NZm : qmin d1 d2 <> 0%Qc) by auto. assert (NZb : g_base g <> 0%Qc) by auto.
  replace (sigma / (1 / qmin d1 d2 * g_base g))%Qc with (sigma * qmin d1 d2 / g_base g)%Qc by (field; auto).
  assert (E : (x <= sigma * qmin d1 d2 / g_base g)%Qc <-> (x * g_base g <= sigma * qmin d1 d2)%Qc).
  { split; intros H.
    - replace (sigma * qmin d1 d2)%Qc with (sigma * qmin d1 d2 / g_base g * g_base g)%Qc by (field; exact NZb). apply Qcmult_le_compat_r; [exact H|now apply Qclt_le_weak].
    - apply Qcmult_lt_0_le_reg_r with (g_base g); [exact B|]. replace (sigma * qmin d1 d2 / g_base g * g_base g)%Qc with (sigma * qmin d1 d2)%Qc by (field; exact NZb). exact H. }
  rewrite E, !P by assumption. assert (M1 : (sigma * d1 <= sigma * d2)%Qc \/ (d2 < d1)%Qc).
  { destruct (Qclt_le_dec d2 d1) as [L|L]; [now right|left]. rewrite !(Qcmult_comm sigma). now apply Qcmult_le_compat_r. }
  unfold qmin. destruct (qlt d1 d2) eqn:L.
  - apply qlt_true in L. split; [intros H; split; [exact H|]|tauto]. destruct M1 as [M|M]; [|exfalso; qc_lra]. qc_lra.
  - assert (L' : (d2 <= d1)%Qc) by (apply Qcnot_lt_le; intros Q; apply qlt_true in Q; congruence). split; [intros H; split; [|exact H]|tauto].
    assert (sigma * d2 <= sigma * d1)%Qc by (rewrite !(Qcmult_comm sigma); now apply Qcmult_le_compat_r). qc_lra.
Qed.
Print Assumptions C172_mapped.
Example C172_ex_mapped : ratio (Geom (-1) 2 3 0 2 (zq 2)) (zq 3) (zq 8) (zq 4) = zq 6.
Proof. apply Qc_is_canon. vm_compute. reflexivity. Qed.

(** C173 is false: the level used is not the one of largest smoothing of at most [q].  The subdivision is computed as if there were one per octave. *)
Theorem C173_largest_refuted : exists g q, (0 < q)%Qc /\ 0 < g_res g /\ (g_first g <= g_last g)%Z /\ (-1 <= g_sub0 g <= g_sub1 g)%Z /\
  exists o s, (g_first g <= o <= g_last g)%Z /\ (g_sub0 g <= s <= g_sub1 g)%Z /\ level_below (g_res g) q o s /\
    let '(o', s') := best_level g q in (o' * Z.of_nat (g_res g) + s' < o * Z.of_nat (g_res g) + s)%Z.
Proof.
  exists (Geom (-1) 2 3 0 2 1), (zq 8 / zq 5)%Qc. split; [reflexivity|]. split; [cbn; lia|]. split; [cbn; lia|]. split; [cbn; lia|]. exists 0%Z, 2%Z. split; [cbn; lia|]. split; [cbn; lia|]. split; [vm_compute; discriminate|]. vm_compute. reflexivity.
Qed.
Print Assumptions C173_largest_refuted.

(** C174.  A patch whose samples do not reach the last column of the image of the level is the bilinear interpolation of that image extended by continuity,
    when it lies in the image, or padding is allowed and it is not more than two pixels away from the image. *)
Theorem C174_patch : forall junk padded level w h step f e r buf, 1 <= w -> 1 <= h -> w * h <= length level -> (0 <= e)%Qc ->
  (padded = false -> forall u v, in_patch e u v -> in_image w h (at_x f step u v, at_y f step u v)) ->
  (forall u v, in_patch e u v -> at_x f step u v <= zq (Z.of_nat w - 2))%Qc ->
  (exists u v, in_patch e u v /\ zq (-3) < at_x f step u v)%Qc -> (exists u v, in_patch e u v /\ zq (-2) < at_y f step u v)%Qc -> (exists u v, in_patch e u v /\ at_y f step u v < zq (Z.of_nat h + 1))%Qc ->
  exists b', warp junk padded level w h step f e r buf = Some (Some (patch_of (extended level w h) f step e r), b').
Proof. intros. now apply warp_extended. Qed.
Print Assumptions C174_patch.
(** C174.  If padding is allowed and the patch reaches the last column, the column before is extended instead. *)
Theorem C174_right : forall junk level w h step f e r buf, 1 <= w -> 1 <= h -> w * h <= length level -> (0 <= e)%Qc ->
  (exists u v, in_patch e u v /\ zq (Z.of_nat w - 2) < at_x f step u v)%Qc -> (exists u v, in_patch e u v /\ at_x f step u v < zq (Z.of_nat w))%Qc ->
  (exists u v, in_patch e u v /\ zq (-2) < at_y f step u v)%Qc -> (exists u v, in_patch e u v /\ at_y f step u v < zq (Z.of_nat h + 1))%Qc ->
  exists b', warp junk true level w h step f e r buf = Some (Some (patch_of (fun x y => extended level w h (Z.min x (Z.of_nat w - 2)) y) f step e r), b').
Proof. intros. now apply warp_right. Qed.
Print Assumptions C174_right.
(** C174.  A patch more than two pixels above, or below, the image is zero. *)
Theorem C174_zero : forall junk level w h step f e r buf, 1 <= w -> 1 <= h -> w * h <= length level -> (0 <= e)%Qc ->
  (forall u v, in_patch e u v -> at_y f step u v <= zq (-2))%Qc \/ (forall u v, in_patch e u v -> zq (Z.of_nat h + 1) <= at_y f step u v)%Qc ->
  exists b', warp junk true level w h step f e r buf = Some (Some (repeat 0%Qc ((2 * r + 1) * (2 * r + 1))), b').
Proof. intros. now apply warp_zero. Qed.
Print Assumptions C174_zero.
(** C174.  Without padding a patch not contained in the image is refused. *)
Theorem C174_error : forall junk level w h step f e r buf, (0 <= e)%Qc -> ~ (forall u v, in_patch e u v -> in_image w h (at_x f step u v, at_y f step u v)) ->
  warp junk false level w h step f e r buf = Some (None, buf).
Proof. intros. now apply warp_error. Qed.
Print Assumptions C174_error.

(** C175 is false: a patch contained in the image need not be its bilinear interpolation. *)
Definition img : list Qc := map zq [0; 1; 2; 3; 4;  10; 11; 12; 13; 14;  20; 21; 22; 23; 24;  30; 31; 32; 33; 34]%Z.
Definition nojunk (_ : nat) : Qc := 0%Qc.
Theorem C175_inside_refuted : exists level w h step f e r pt b, length level = w * h /\ (0 <= e)%Qc /\ (0 < step)%Qc /\
  (forall u v, in_patch e u v -> in_image w h (at_x f step u v, at_y f step u v)) /\
  warp nojunk false level w h step f e r nil = Some (Some pt, b) /\ pt <> patch_of (extended level w h) f step e r.
Proof.
  exists img, 5, 4, 1%Qc, (Frame (zq 3) (zq 2) 1 0 0 1)%Qc, 1%Qc, 1. do 2 eexists. split; [reflexivity|]. split; [discriminate|]. split; [reflexivity|]. split; [|split].
  - intros u v (U1 & U2 & V1 & V2).
    pose proof (proj1 (inside_ok 5 4 1 (Frame (zq 3) (zq 2) 1 0 0 1)%Qc ltac:(discriminate)) eq_refl u v U1 U2 V1 V2) as I. unfold maps in I. unfold at_x, at_y. cbn [f_a11 f_a12 f_a21 f_a22 f_x f_y] in *.
    unfold Qcdiv. replace (/ 1)%Qc with 1%Qc by (apply Qc_is_canon; reflexivity). rewrite !Qcmult_1_r. exact I.
  - vm_compute. reflexivity.
  - intros E. apply (f_equal (fun l => this (nth 2 l 0%Qc))) in E. vm_compute in E. discriminate.
Qed.
Print Assumptions C175_inside_refuted.

(** C176 is false: a patch left of the image is not the image extended by continuity; memory outside the buffer is written. *)
Theorem C176_left_refuted : exists level w h step f e r, length level = w * h /\ (0 <= e)%Qc /\ (0 < step)%Qc /\ 0 < r /\
  warp nojunk true level w h step f e r nil = None.
Proof. exists img, 5, 4, 1%Qc, (Frame (- zq 9) (zq 2) 1 0 0 1)%Qc, 1%Qc, 1. split; [reflexivity|]. split; [discriminate|]. split; [reflexivity|]. split; [lia|]. vm_compute. reflexivity. Qed.
Print Assumptions C176_left_refuted.

(** C177 is false: a patch above or below the image is not the image extended by continuity, while one to the side is. *)
Theorem C177_above_refuted : exists level w h step f e r b, length level = w * h /\ (0 <= e)%Qc /\ (0 < step)%Qc /\
  warp nojunk true level w h step f e r nil = Some (Some (repeat 0%Qc ((2 * r + 1) * (2 * r + 1))), b) /\ patch_of (extended level w h) f step e r <> repeat 0%Qc ((2 * r + 1) * (2 * r + 1)).
Proof.
  exists img, 5, 4, 1%Qc, (Frame (zq 3) (zq 7) 1 0 0 1)%Qc, 1%Qc, 1. eexists. split; [reflexivity|]. split; [discriminate|]. split; [reflexivity|]. split; [vm_compute; reflexivity|].
  intros E. apply (f_equal (fun l => this (nth 0 l 0%Qc))) in E. vm_compute in E. discriminate.
Qed.
Print Assumptions C177_above_refuted.

(** ** examples *)
Example C172_ex : best_level (Geom (-1) 2 3 0 2 1) (zq 3) = (1%Z, 0%Z) /\ level_below 3 (zq 3) 1 0 /\ ~ level_below 3 (zq 3) 2 0.
Proof. split; [reflexivity|]. split; [vm_compute; discriminate|]. intros C. vm_compute in C. now apply C. Qed.
(** a rotated patch half a pixel across the upper border *)
Definition turned : frame := Frame (zq 2) (zq 1) 0 (- zq 3 / zq 4) (zq 3 / zq 2) 0.
Example C174_ex : (exists u v, in_patch 1 u v /\ at_y turned 1 u v < 0)%Qc /\ (zq (-3) < at_x turned 1 0 0)%Qc /\ (zq (-2) < at_y turned 1 0 0 /\ at_y turned 1 0 0 < zq 5)%Qc /\
  option_map (fun r => option_map (map this) (fst r)) (warp nojunk true img 5 4 1 turned 1 1 nil) = Some (Some (map this (patch_of (extended img 5 4) turned 1 1 1))) /\
  map this (patch_of (extended img 5 4) turned 1 1 1) = [11 # 4; 51 # 4; 111 # 4; 2; 12; 27; 5 # 4; 45 # 4; 105 # 4]%Q.
Proof. split; [exists (- (1))%Qc, 0%Qc; split; [repeat split; discriminate|reflexivity]|]. split; [reflexivity|]. split; [split; reflexivity|]. split; vm_compute; reflexivity. Qed.
Example C174_ex_error : warp nojunk false img 5 4 1 turned 1 1 nil = Some (None, nil).
Proof. vm_compute. reflexivity. Qed.
