(** Rendering of HOG features: theorems. *)
From Coq Require Import List Arith ZArith Lia Bool QArith Qcanon.
From Verif Require Import Base Loop Rat Table Gauss_Model Gauss_Proofs Hog_Model HogRender_Model HogRender_Spec HogRender_Proofs.
Import ListNotations.
Local Open Scope nat_scope.

(** C248: a pixel of the rendered image is the sum of the glyphs of its cell, times the weights of the orientations, added to the previous value and clamped to the range of the weights and zero. *)
Theorem C248_render : forall v n G glyphs width height descriptor D Y image F extra, 0 < width -> 0 < height ->
  table 0%Qc (blocks v * n + extra) (width * height) descriptor D -> table 0%Qc (n * G) G glyphs Y -> table 0%Qc (height * G) (width * G) image F ->
  exists image' F', hog_render v n G glyphs width height descriptor image = Some image' /\ table 0%Qc (height * G) (width * G) image' F' /\
    forall x y cx cy, x < width -> y < height -> cx < G -> cy < G ->
      let w := weight v n D (x + y * width) in
      F' (y * G + cy) (x * G + cx) = clamp (least n w) (most n w) (F (y * G + cy)%nat (x * G + cx)%nat + total n (fun k => (w k * Y (k * G + cy)%nat cx)%Qc))%Qc.
Proof.
  intros v n G glyphs width height descriptor D Y image F extra W H HD HY HF.
  destruct (render_ok v n G glyphs width height descriptor D Y (ex_intro _ extra HD) HY image F W H HF) as (image' & E & T).
  exists image'. eexists. split; [exact E|]. split; [exact T|]. intros x y cx cy Lx Ly Lcx Lcy. cbv beta zeta.
  assert (DV : forall a b, b < G -> (a * G + b) / G = a /\ (a * G + b) mod G = b).
  { intros a b Lb. rewrite Nat.add_comm, Nat.div_add, Nat.mod_add, Nat.div_small, Nat.mod_small by lia. split; [lia|reflexivity]. }
  destruct (DV y cy Lcy) as [-> ->]. destruct (DV x cx Lcx) as [-> ->]. reflexivity.
Qed.
(** two orientations with crossing bars of three pixels, one cell *)
Definition ex_glyphs : list Qc := map zq [0; 0; 0; 1; 1; 1; 0; 0; 0;  0; 1; 0; 0; 1; 0; 0; 1; 0]%Z.
Example C248_ex : option_map (map this) (hog_render Uoctti 2 3 ex_glyphs 1 1 (map zq [1; 2; 0; 0; 0; 0; 9; 9; 9; 9]%Z) (repeat 0%Qc 9))
  = Some [0; 2; 0; 1; 2; 1; 0; 2; 0]%Q.
Proof. vm_compute. reflexivity. Qed.

(** C249: all pixels of the bars are inside their glyphs, and a glyph is one exactly on the bar of its orientation. *)
Theorem C249_glyphs : forall G n transposed (bars : nat -> bar), (forall o, o < n -> (- (1) <= snd (fst (bars o)) /\ snd (fst (bars o)) <= 1)%Qc) ->
  exists glyphs F, draw_glyphs G n transposed bars = Some glyphs /\ table 0%Qc (n * G) G glyphs F /\
    forall o y x, o < n -> y < G -> x < G ->
      (in_bar G transposed (bars o) x y -> F (o * G + y) x = 1%Qc) /\ (~ in_bar G transposed (bars o) x y -> F (o * G + y) x = 0%Qc).
Proof. exact glyphs_ok. Qed.
Example C249_ex : option_map (map this) (draw_glyphs 3 2 false (fun o => if o =? 0 then (true, 0%Qc, 0) else (false, (-(1))%Qc, 0)))
  = Some [0; 0; 0; 1; 1; 1; 0; 0; 0;  0; 0; 1; 0; 1; 0; 1; 0; 0]%Q.
Proof. vm_compute. reflexivity. Qed.

(** C249: coordinates are rounded to the nearest integer, halves away from zero. *)
Theorem C249_rounding : forall q z, lround q = z <->
  if qlt q 0 then (zq z - Q2Qc (1 # 2) < q /\ q <= zq z + Q2Qc (1 # 2))%Qc else (zq z - Q2Qc (1 # 2) <= q /\ q < zq z + Q2Qc (1 # 2))%Qc.
Proof.
  intros q z. destruct (qlt q 0) eqn:E.
  - unfold lround. rewrite E. split.
    + intros <-. rewrite zq_opp. pose proof (qfloor_le (- q + Q2Qc (1 # 2))). pose proof (qfloor_lt (- q + Q2Qc (1 # 2))). split; qc_lra.
    + intros [A B]. assert (X : qfloor (- q + Q2Qc (1 # 2)) = (- z)%Z) by (apply qfloor_unique; rewrite zq_opp; qc_lra). rewrite X. apply Z.opp_involutive.
  - apply lround_spec. now apply qlt_false.
Qed.
Example C249_rounding_ex : lround (Q2Qc (-5 # 2)) = (-3)%Z /\ lround (Q2Qc (5 # 2)) = 3%Z /\ lround (Q2Qc (-9 # 4)) = (-2)%Z.
Proof. repeat split. Qed.

(** C250: the buffer is not cleared: the image depends on its previous contents. *)
Theorem C250_buffer_refuted : ~ forall v n G glyphs width height descriptor image image', length image = length image' ->
  hog_render v n G glyphs width height descriptor image = hog_render v n G glyphs width height descriptor image'.
Proof.
  intro H. specialize (H Uoctti 1 1 [1%Qc] 1 1 [1%Qc; 0%Qc; 0%Qc] [0%Qc] [(-(1))%Qc] eq_refl).
  apply (f_equal (option_map (map this))) in H. vm_compute in H. discriminate.
Qed.

Print Assumptions C248_render.
Print Assumptions C249_glyphs.
Print Assumptions C249_rounding.
Print Assumptions C250_buffer_refuted.
