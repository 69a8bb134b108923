(** Properties of the SIFT filter: the Gaussian scale space and the gradients. *)
From Coq Require Import List Arith ZArith Lia Bool QArith Qcanon Lqa.
From Verif Require Import Base Loop Rat Gauss_Model Gauss_Proofs ImOp_Spec Kmeans_Spec Sift_Model Sift_Spec Sift_Proofs.
Import ListNotations.
Local Open Scope nat_scope.

Section Runs.
Variables (pow : Qc -> Qc -> Qc) (root expo : Qc -> Qc) (magn angl : Qc -> Qc -> Qc).
(** [reached c b f]: the filter [f] results from creating a filter with the parameters [c] and
    calling its functions in any order; [b] tells whether an image has been started.  The detector
    changes the differences of Gaussians and the keypoints only. *)
Inductive reached (c : config) : bool -> sift -> Prop :=
| R_new junk : reached c false (sift_new junk c)
| R_first b f im r f' : reached c b f -> length im = c_w c * c_h c -> process_first pow root expo f im = Some (r, f') -> reached c true f'
| R_next f r f' : reached c true f -> process_next pow root expo f = Some (r, f') -> reached c true f'
| R_gradient f f' : reached c true f -> 2 <= f_ow f -> 2 <= f_oh f -> update_gradient magn angl f = Some f' -> reached c true f'
| R_detect f dog keys : reached c true f -> length dog = length (f_dog f) ->
    reached c true {| f_cfg := f_cfg f; f_ocur := f_ocur f; f_ow := f_ow f; f_oh := f_oh f; f_temp := f_temp f; f_octave := f_octave f;
      f_dog := dog; f_grad := f_grad f; f_grado := f_grado f; f_filt := f_filt f; f_fsigma := f_fsigma f; f_fwidth := f_fwidth f; f_keys := keys |}.
(** k further octaves *)
Fixpoint advance (k : nat) (f : sift) : option sift :=
  match k with
  | 0 => Some f
  | S k => match advance k f with Some f => match process_next pow root expo f with Some (OK, f') => Some f' | _ => None end | None => None end
  end.

Lemma new_wf junk c : wf expo (sift_new junk c).
Proof. constructor; cbn [sift_new f_temp f_octave f_dog f_grad f_cfg f_fsigma f_fwidth f_filt]; try now rewrite map_length, seq_length. auto. Qed.
Lemma reached_inv c b f : fits c -> sane pow root (c_S c) -> reached c b f ->
  wf expo f /\ f_cfg f = c /\ (b = true -> exists k, k < c_O c /\ sized f k).
Proof.
  intros F SN R. pose proof (fits_O c F) as HO. induction R as [junk|b f im r f' R IH LI E|f r f' R IH E|f f' R IH Hw Hh E|f dog keys R IH LD].
  - split; [apply new_wf|]. split; [reflexivity|discriminate].
  - destruct IH as (WF & C & _). destruct (process_first_ok pow root expo f im) as (f2 & E2 & W2 & K2 & Z2 & _); rewrite ?C; auto.
    rewrite E in E2. injection E2 as -> ->. split; [exact W2|]. destruct K2 as (K2 & _). split; [congruence|]. intros _. exists 0. auto.
  - destruct IH as (WF & C & IH). destruct (IH eq_refl) as (k & Lk & Z). destruct (Nat.eq_dec (k + 1) (c_O c)) as [Ek|Nk].
    + rewrite (process_next_end pow root expo f k Z ltac:(now rewrite C)) in E. injection E as <- <-. eauto.
    + destruct (fits_wide c (S k) F ltac:(lia)) as [PW PH].
      destruct (process_next_ok pow root expo f k) as (f2 & E2 & W2 & K2 & Z2 & _); rewrite ?C; auto; [apply F|].
      rewrite E in E2. injection E2 as -> ->. split; [exact W2|]. destruct K2 as (K2 & _). split; [congruence|]. intros _. exists (k + 1). split; [lia|exact Z2].
  - destruct IH as (WF & C & IH). destruct (IH eq_refl) as (k & Lk & Z). pose proof Z as (Zo & Zw & Zh).
    destruct (update_ok expo magn angl f WF Hw Hh) as (f2 & E2 & W2 & _ & C2 & O2 & A2 & B2 & _).
    { rewrite Zw, Zh. apply wide_nel. }
    rewrite E in E2. injection E2 as ->. split; [exact W2|]. split; [congruence|]. intros _. exists k. split; [exact Lk|].
    unfold sized. rewrite C2, O2, A2, B2. exact Z.
  - destruct IH as (WF & C & IH). destruct WF as [A1 A2 A3 A4 A5]. split; [|split; [exact C|exact IH]].
    constructor; cbn [f_temp f_octave f_dog f_grad f_cfg f_filt f_fsigma f_fwidth]; auto. now rewrite LD.
Qed.
Lemma advance_ok c : fits c -> sane pow root (c_S c) -> forall k f, wf expo f -> f_cfg f = c -> sized f 0 -> f_keys f = [] -> k < c_O c ->
  exists f', advance k f = Some f' /\ wf expo f' /\ f_cfg f' = c /\ sized f' k /\ f_keys f' = [] /\ f_grad f' = f_grad f /\ f_grado f' = f_grado f /\ f_dog f' = f_dog f.
Proof.
  intros F SN. induction k as [|k IH]; intros f WF C Z K Lk; cbn [advance]; [exists f; tauto|].
  destruct (IH f WF C Z K ltac:(lia)) as (f1 & -> & W1 & C1 & Z1 & K1 & G1 & G2 & G3). destruct (fits_wide c (S k) F Lk) as [PW PH].
  destruct (process_next_ok pow root expo f1 k) as (f2 & -> & W2 & (A & B & D & G & H) & Z2 & _); rewrite ?C1; auto; [apply F|lia|].
  exists f2. rewrite Nat.add_1_r in Z2. rewrite A, B, D, G. tauto.
Qed.
Lemma size_wide c k : wide c k = size_at (c_w c) (c_omin c + Z.of_nat k) /\ high c k = size_at (c_h c) (c_omin c + Z.of_nat k).
Proof.
  unfold wide, high, size_at. set (o := (c_omin c + Z.of_nat k)%Z). destruct (Z.ltb_spec o 0).
  - replace (- o)%Z with (Z.of_nat (Z.to_nat (- o))) at 1 3 by lia. now rewrite !shift_up.
  - replace (- o)%Z with (- Z.of_nat (Z.to_nat o))%Z at 1 2 by lia. now rewrite !shift_down.
Qed.
Lemma levels_sig (s s' : nat -> Qc) w h B l : (forall i, s i = s' i) -> levels expo s w h B l = levels expo s' w h B l.
Proof. intros E. induction l as [|l IH]; [reflexivity|]. cbn [levels]. now rewrite E, IH. Qed.
Lemma sig_step c l : sig pow root c l = step_sigma pow root (c_S c) l.
Proof. unfold sig, level_sigma, step_sigma, dsigma0. replace (Z.of_nat (l + 1) - 1)%Z with (Z.of_nat l) by lia. reflexivity. Qed.

Lemma octave_images c first : fits c -> sane pow root (c_S c) ->
  forall f, wf expo f -> f_cfg f = c -> sized f 0 -> f_keys f = [] ->
  (forall l, l < c_S c + 3 -> same_image (wide c 0) (high c 0) (stored (f_octave f) (l * (wide c 0 * high c 0)) (wide c 0))
    (levels expo (sig pow root c) (wide c 0) (high c 0) first l)) ->
  forall k, k < c_O c -> exists f', advance k f = Some f' /\ wf expo f' /\ f_cfg f' = c /\ sized f' k /\ f_keys f' = [] /\
    forall l, l < c_S c + 3 -> same_image (wide c k) (high c k) (stored (f_octave f') (l * (wide c k * high c k)) (wide c k))
      (levels expo (sig pow root c) (wide c k) (high c k) (octaves expo (sig pow root c) (c_S c) (wide c) (high c) first k) l).
Proof.
  intros F SN f WF C Z K B. induction k as [|k IH]; intros Lk; cbn [advance]; [exists f; auto 10|].
  destruct IH as (f1 & -> & W1 & C1 & Z1 & K1 & B1); [lia|]. destruct (fits_wide c (S k) F Lk) as [PW PH].
  destruct (process_next_ok pow root expo f1 k) as (f2 & -> & W2 & (A & _ & _ & _ & D) & Z2 & O2); rewrite ?C1; auto; [apply F|lia|].
  exists f2. rewrite Nat.add_1_r in Z2. split; [reflexivity|]. split; [exact W2|]. split; [congruence|]. split; [exact Z2|]. split; [exact D|].
  intros l Ll. rewrite O2, C1. apply next_octave_same; auto; [lia|rewrite <- C1; apply W1|]. apply B1. lia.
Qed.
End Runs.

(** C114.  For every filter, whatever it was used for before, every image and every octave: after
    starting the image and advancing k times (fewer than the number of octaves), each level of the
    octave is the one of the Gaussian scale space: the first octave starts from the resampled image,
    raised to the scale 1.6; each level is the previous one smoothed; each further octave starts
    from level S of the previous one at half the resolution.  All accesses stay inside the buffers.
    The first octave is at most one doubling of the image, or the image is square (see C115). *)
Theorem C114_scale_space : forall pow root expo magn angl c b f im k,
  fits c -> sane pow root (c_S c) -> reached pow root expo magn angl c b f -> length im = c_w c * c_h c ->
  (-1 <= c_omin c)%Z \/ c_w c = c_h c -> k < c_O c ->
  let n := c_S c in
  let w k := size_at (c_w c) (c_omin c + Z.of_nat k) in let h k := size_at (c_h c) (c_omin c + Z.of_nat k) in
  exists f1 f2 base, process_first pow root expo f im = Some (OK, f1) /\ advance pow root expo k f1 = Some f2 /\
    f_ocur f2 = (c_omin c + Z.of_nat k)%Z /\ f_ow f2 = w k /\ f_oh f2 = h k /\ f_keys f2 = [] /\
    raised root expo (start_sigma pow n) (input_sigma pow (c_omin c)) (w 0) (h 0) (resampled (c_omin c) (c_w c) (c_h c) (stored im 0 (c_w c))) base /\
    forall l, l < n + 3 -> same_image (w k) (h k) (stored (f_octave f2) (l * (w k * h k)) (w k))
      (levels expo (step_sigma pow root n) (w k) (h k) (octaves expo (step_sigma pow root n) n w h base k) l).
Proof.
  intros pow root expo magn angl c b f im k F SN R LI G Lk n w h.
  destruct (reached_inv pow root expo magn angl c b f F SN R) as (WF & C & _).
  assert (EW : forall k, wide c k = w k /\ high c k = h k) by (intros; apply size_wide).
  destruct (process_first_ok pow root expo f im) as (f1 & E1 & W1 & (C1 & _ & _ & _ & K1) & Z1 & O1); rewrite ?C; auto.
  set (base := first_level pow root expo c im (resampled (c_omin c) (c_w c) (c_h c) (stored im 0 (c_w c)))).
  destruct (octave_images pow root expo c base F SN f1 W1 ltac:(congruence) Z1 K1) with (k := k) as (f2 & E2 & W2 & C2 & Z2 & K2 & B2); auto.
  { intros l Ll. rewrite O1, C. eapply same_trans; [apply first_octave_same; auto; rewrite <- C; apply WF|].
    destruct (fits_wide c 0 F (fits_O c F)). apply levels_ext; auto. apply first_level_ext; auto. now apply base_good. }
  exists f1, f2, base. split; [exact E1|]. split; [exact E2|]. unfold sized in Z2. rewrite C2 in Z2. destruct Z2 as (A1 & A2 & A3). destruct (EW k) as [E3 E4].
  split; [exact A1|]. split; [congruence|]. split; [congruence|]. split; [exact K2|]. split.
  - destruct (EW 0) as [<- <-]. unfold raised, base, first_level.
    change (first_sb pow c) with (input_sigma pow (c_omin c)). change (first_sa pow c) with (start_sigma pow n). split; intros L.
    + apply qlt_true in L. now rewrite L.
    + apply qlt_false in L. now rewrite L.
  - intros l Ll. rewrite <- E3, <- E4. intros x y Lx Ly. rewrite (B2 l Ll x y Lx Ly).
    assert (OE : octaves expo (sig pow root c) (c_S c) (wide c) (high c) base k = octaves expo (step_sigma pow root n) n w h base k).
    { clear -EW. induction k as [|k IH]; [reflexivity|]. cbn [octaves]. destruct (EW k) as [-> ->]. rewrite IH. f_equal. apply levels_sig, sig_step. }
    rewrite OE. now rewrite (levels_sig expo _ _ _ _ _ _ (sig_step pow root c)).
Qed.
Print Assumptions C114_scale_space.

(** C116.  A filter for O >= 1 octaves gives exactly O octaves for each image, then reports the end
    and changes nothing. *)
Theorem C116_octave_count : forall pow root expo magn angl c b f im,
  fits c -> sane pow root (c_S c) -> reached pow root expo magn angl c b f -> length im = c_w c * c_h c ->
  exists f1, process_first pow root expo f im = Some (OK, f1) /\
    (forall k, k < c_O c -> exists f2, advance pow root expo k f1 = Some f2) /\
    exists last, advance pow root expo (c_O c - 1) f1 = Some last /\ process_next pow root expo last = Some (EOF, last).
Proof.
  intros pow root expo magn angl c b f im F SN R LI. pose proof (fits_O c F).
  destruct (reached_inv pow root expo magn angl c b f F SN R) as (WF & C & _).
  destruct (process_first_ok pow root expo f im) as (f1 & E1 & W1 & (C1 & _ & _ & _ & K1) & Z1 & _); rewrite ?C; auto.
  exists f1. split; [exact E1|]. split.
  - intros k Lk. destruct (advance_ok pow root expo c F SN k f1 W1 ltac:(congruence) Z1 K1 Lk) as (f2 & E2 & _). eauto.
  - destruct (advance_ok pow root expo c F SN (c_O c - 1) f1 W1 ltac:(congruence) Z1 K1 ltac:(lia)) as (f2 & E2 & _ & C2 & Z2 & _).
    exists f2. split; [exact E2|]. apply (process_next_end pow root expo f2 (c_O c - 1) Z2). rewrite C2. lia.
Qed.
Print Assumptions C116_octave_count.

(** *** C52: a new image makes the filter forget the previous ones *)
Lemma octave_det pow root expo c : fits c -> sane pow root (c_S c) -> forall k f g,
  wf expo f -> wf expo g -> f_cfg f = c -> f_cfg g = c -> sized f 0 -> sized g 0 -> f_octave f = f_octave g -> k < c_O c ->
  exists f' g', advance pow root expo k f = Some f' /\ advance pow root expo k g = Some g' /\ f_octave f' = f_octave g'.
Proof.
  intros F SN k f g WF WG CF CG ZF ZG E. 
  assert (X : k < c_O c -> exists f' g', advance pow root expo k f = Some f' /\ advance pow root expo k g = Some g' /\ f_octave f' = f_octave g' /\
    wf expo f' /\ wf expo g' /\ f_cfg f' = c /\ f_cfg g' = c /\ sized f' k /\ sized g' k).
  { induction k as [|k IH]; intros Lk; [exists f, g; auto 10|]. destruct IH as (f1 & g1 & E1 & E2 & EO & W1 & W2 & C1 & C2 & Z1 & Z2); [lia|].
    destruct (fits_wide c (S k) F Lk) as [PW PH]. cbn [advance]. rewrite E1, E2.
    destruct (process_next_ok pow root expo f1 k) as (f2 & -> & W3 & (C3 & _) & Z3 & O3); rewrite ?C1; auto; [apply F|lia|].
    destruct (process_next_ok pow root expo g1 k) as (g2 & -> & W4 & (C4 & _) & Z4 & O4); rewrite ?C2; auto; [apply F|lia|].
    exists f2, g2. rewrite Nat.add_1_r in Z3, Z4. rewrite C1 in O3. rewrite C2 in O4. rewrite O3, O4, EO.
    do 3 (split; [reflexivity|]). split; [exact W3|]. split; [exact W4|]. split; [congruence|]. split; [congruence|]. split; [exact Z3|exact Z4]. }
  intros Lk. destruct (X Lk) as (f' & g' & A & B & D & _). eauto.
Qed.
(** everything a later call can see: the octave, its index and size, the keypoints, and, after a
    gradient update, the gradients of the octave *)
Definition same_view (f g : sift) : Prop :=
  f_cfg f = f_cfg g /\ f_ocur f = f_ocur g /\ f_ow f = f_ow g /\ f_oh f = f_oh g /\ f_octave f = f_octave g /\ f_keys f = f_keys g.
Definition same_gradients (f g : sift) : Prop :=
  forall i, i < 2 * (f_ow f * f_oh f) * c_S (f_cfg f) -> nth i (f_grad f) 0%Qc = nth i (f_grad g) 0%Qc.

(** C52.  Starting an image on a filter used before gives the same octaves as on a new filter, and
    advancing keeps them the same. *)
Theorem C52_octaves : forall pow root expo magn angl c b f junk im k,
  fits c -> sane pow root (c_S c) -> reached pow root expo magn angl c b f -> length im = c_w c * c_h c -> k < c_O c ->
  exists f1 g1 f2 g2, process_first pow root expo f im = Some (OK, f1) /\ process_first pow root expo (sift_new junk c) im = Some (OK, g1) /\
    advance pow root expo k f1 = Some f2 /\ advance pow root expo k g1 = Some g2 /\ same_view f2 g2.
Proof.
  intros pow root expo magn angl c b f junk im k F SN R LI Lk.
  destruct (reached_inv pow root expo magn angl c b f F SN R) as (WF & C & _).
  pose proof (new_wf expo junk c) as WG.
  destruct (process_first_ok pow root expo f im) as (f1 & E1 & W1 & (C1 & _ & _ & _ & K1) & Z1 & O1); rewrite ?C; auto.
  destruct (process_first_ok pow root expo (sift_new junk c) im) as (g1 & E2 & W2 & (C2 & _ & _ & _ & K2) & Z2 & O2); auto.
  rewrite C in *. cbn [sift_new f_cfg] in C2, O2.
  assert (EO : f_octave f1 = f_octave g1).
  { rewrite O1, O2. apply first_octave_det; auto; [rewrite <- C; apply WF|apply (wf_octave _ _ WG)]. }
  destruct (octave_det pow root expo c F SN k f1 g1) as (f2 & g2 & E3 & E4 & EO'); auto.
  destruct (advance_ok pow root expo c F SN k f1 W1 C1 Z1 K1 Lk) as (f2' & E5 & _ & C5 & Z5 & K5 & _).
  destruct (advance_ok pow root expo c F SN k g1 W2 C2 Z2 K2 Lk) as (g2' & E6 & _ & C6 & Z6 & K6 & _).
  rewrite E3 in E5. injection E5 as <-. rewrite E4 in E6. injection E6 as <-.
  exists f1, g1, f2, g2. repeat (split; [assumption|]). destruct Z5 as (A1 & A2 & A3). destruct Z6 as (B1 & B2 & B3).
  rewrite C5 in *. rewrite C6 in *. unfold same_view. do 5 (split; [congruence|]). congruence.
Qed.
Print Assumptions C52_octaves.

(** C52, gradients: the gradients used for orientations and descriptors are also the same, unless
    the octave is the one whose gradients were computed last for a previous image (see C117). *)
Theorem C52_gradients : forall pow root expo magn angl c b f junk im k,
  fits c -> sane pow root (c_S c) -> reached pow root expo magn angl c b f -> length im = c_w c * c_h c -> k < c_O c ->
  2 <= size_at (c_w c) (c_omin c + Z.of_nat k) -> 2 <= size_at (c_h c) (c_omin c + Z.of_nat k) ->
  f_grado f <> (c_omin c + Z.of_nat k)%Z ->
  forall f1 g1 f2 g2, process_first pow root expo f im = Some (OK, f1) -> process_first pow root expo (sift_new junk c) im = Some (OK, g1) ->
    advance pow root expo k f1 = Some f2 -> advance pow root expo k g1 = Some g2 ->
  exists f3 g3, update_gradient magn angl f2 = Some f3 /\ update_gradient magn angl g2 = Some g3 /\ same_view f3 g3 /\ same_gradients f3 g3 /\
    f_grado f3 = f_ocur f3 /\ f_grado g3 = f_ocur g3.
Proof.
  intros pow root expo magn angl c b f junk im k F SN R LI Lk L2 L3 NG f1 g1 f2 g2 E1 E2 E3 E4.
  destruct (C52_octaves pow root expo magn angl c b f junk im k F SN R LI Lk) as (f1' & g1' & f2' & g2' & D1 & D2 & D3 & D4 & V).
  rewrite E1 in D1. injection D1 as <-. rewrite E2 in D2. injection D2 as <-. rewrite E3 in D3. injection D3 as <-. rewrite E4 in D4. injection D4 as <-.
  destruct (reached_inv pow root expo magn angl c b f F SN R) as (WF & C & _). pose proof (new_wf expo junk c) as WG.
  destruct (process_first_ok pow root expo f im) as (f1' & X1 & W1 & (C1 & _ & _ & G1 & K1) & Z1 & _); rewrite ?C; auto.
  destruct (process_first_ok pow root expo (sift_new junk c) im) as (g1' & X2 & W2 & (C2 & _ & _ & G2 & K2) & Z2 & _); auto.
  rewrite E1 in X1. injection X1 as <-. rewrite E2 in X2. injection X2 as <-. rewrite C in C1. cbn [sift_new f_cfg f_grado] in C2, G2.
  destruct (advance_ok pow root expo c F SN k f1 W1 C1 Z1 K1 Lk) as (f2' & X3 & W3 & C3 & Z3 & K3 & _ & G3 & _).
  destruct (advance_ok pow root expo c F SN k g1 W2 C2 Z2 K2 Lk) as (g2' & X4 & W4 & C4 & Z4 & K4 & _ & G4 & _).
  rewrite E3 in X3. injection X3 as <-. rewrite E4 in X4. injection X4 as <-.
  destruct V as (V1 & V2 & V3 & V4 & V5 & V6). destruct Z3 as (A1 & A2 & A3). destruct Z4 as (B1 & B2 & B3). rewrite C3 in *. rewrite C4 in *.
  destruct (size_wide c k) as [S1 S2].
  destruct (update_ok expo magn angl f2 W3) as (f3 & U1 & _ & U2 & U3 & U4 & U5 & U6 & U7 & _ & U8 & U9); try lia; [rewrite A2, A3, C3; apply wide_nel|].
  destruct (update_ok expo magn angl g2 W4) as (g3 & Y1 & _ & Y2 & Y3 & Y4 & Y5 & Y6 & Y7 & _ & Y8 & Y9); try lia; [rewrite B2, B3, C4; apply wide_nel|].
  exists f3, g3. split; [exact U1|]. split; [exact Y1|]. split; [unfold same_view; do 5 (split; [congruence|]); congruence|]. split; [|split; congruence].
  replace (f_grado f2 =? f_ocur f2)%Z with false in U9 by (symmetry; apply Z.eqb_neq; congruence).
  replace (f_grado g2 =? f_ocur g2)%Z with false in Y9 by (symmetry; apply Z.eqb_neq; lia).
  intros i Li. rewrite U9, Y9. rewrite U5, U6, U3 in Li. pose proof (wf_grad _ _ W3) as LG. pose proof (wf_grad _ _ W4) as LG'. pose proof (wide_nel c k) as N.
  rewrite C3 in *. rewrite C4 in *. rewrite A2, A3 in *. rewrite B2, B3 in *.
  rewrite !nth_put by nia.
  replace (i <? 0 + 2 * (wide c k * high c k) * c_S c) with true by (symmetry; apply Nat.ltb_lt; lia). cbn [Nat.leb andb]. now rewrite V5.
Qed.
Print Assumptions C52_gradients.

(** C115 (refuted).  Doubling an image that is not square more than once does not give the image at
    the finer resolution: for a first octave of -2, an image of 2 by 1 pixels with the values 0 and 1,
    and every sensible pow, sqrt and exp, level -1 of the first octave is not the resampled image
    although its scale needs no smoothing.  The second call of copy_and_upsample_rows in the loop
    swaps width and height. *)
Theorem C115_enlarging_refuted : exists c im, c_omin c = (-2)%Z /\ fits c /\ length im = c_w c * c_h c /\
  forall pow root expo, sane pow root (c_S c) -> (start_sigma pow (c_S c) <= input_sigma pow (c_omin c))%Qc ->
  forall junk f, process_first pow root expo (sift_new junk c) im = Some (OK, f) ->
  ~ same_image (f_ow f) (f_oh f) (stored (f_octave f) 0 (f_ow f)) (resampled (c_omin c) (c_w c) (c_h c) (stored im 0 (c_w c))).
Proof.
  set (c := new_config 2 1 1 1 (-2)). set (im := [0%Qc; 1%Qc]).
  assert (F : fits c) by (constructor; vm_compute; lia).
  exists c, im. split; [reflexivity|]. split; [exact F|]. split; [reflexivity|].
  intros pow root expo SN L junk f E.
  destruct (process_first_ok pow root expo (sift_new junk c) im (new_wf expo junk c) F SN eq_refl) as (f' & E' & _ & (C & _) & (_ & Zw & Zh) & O).
  rewrite E in E'. injection E' as <-. cbn [sift_new f_cfg f_octave] in C, O. rewrite C in Zw, Zh.
  pose proof (first_octave_same pow root expo c im (map junk (seq 0 (nel c * (c_S c + 3)))) F eq_refl ltac:(now rewrite map_length, seq_length) 0 ltac:(cbn; lia)) as X.
  rewrite <- O in X. cbn [levels] in X. unfold first_level in X.
  assert (Q : qlt (first_sb pow c) (first_sa pow c) = false) by (apply qlt_false; exact L). rewrite Q in X. cbn [Nat.mul] in X. rewrite <- Zw, <- Zh in X.
  intros Y. assert (W8 : f_ow f = 8) by (rewrite Zw; reflexivity). assert (H4 : f_oh f = 4) by (rewrite Zh; reflexivity).
  assert (A : base_value c im (0 * f_ow f + 1) = resampled (c_omin c) (c_w c) (c_h c) (stored im 0 (c_w c)) 1 0).
  { rewrite <- Y by lia. symmetry. apply (X 1 0); lia. }
  rewrite W8 in A. apply (f_equal this) in A. 
  assert (B : Qeq_bool (this (base_value c im (0 * 8 + 1))) (this (resampled (c_omin c) (c_w c) (c_h c) (stored im 0 (c_w c)) 1 0)) = false) by (vm_compute; reflexivity).
  rewrite A in B. rewrite (proj2 (Qeq_bool_iff _ _) (Qeq_refl _)) in B. discriminate.
Qed.
Print Assumptions C115_enlarging_refuted.

(** C116 (refuted for no octaves).  A filter for zero octaves reports the end when an image is
    started, but asking for the next octave then succeeds, here for a 2 by 2 image. *)
Theorem C116_no_octaves_refuted : exists c im, c_O c = 0 /\ length im = c_w c * c_h c /\
  forall pow root expo, sane pow root (c_S c) -> forall junk, exists f f',
    process_first pow root expo (sift_new junk c) im = Some (EOF, f) /\ process_next pow root expo f = Some (OK, f').
Proof.
  set (c := new_config 2 2 0 1 0). exists c, (repeat 0%Qc 4). split; [reflexivity|]. split; [reflexivity|].
  intros pow root expo SN junk. set (f := set_octave (sift_new junk c) 0 (f_temp (sift_new junk c)) (f_octave (sift_new junk c))).
  exists f. destruct (process_next_ok pow root expo f 0) as (f' & E & _); [|vm_compute; lia|vm_compute; lia|vm_compute; lia|exact SN| |discriminate|].
  - pose proof (new_wf expo junk c) as WF. apply set_octave_wf; [exact WF|apply WF|apply WF].
  - split; [reflexivity|split; reflexivity].
  - exists f'. split; [reflexivity|exact E].
Qed.
Print Assumptions C116_no_octaves_refuted.

(** *** Gradients of the previous image *)
Lemma ksum_scale n (f : nat -> Qc) a : ksum n (fun i => (f i * a)%Qc) = (ksum n f * a)%Qc.
Proof. induction n as [|n IH]; cbn [sum]; [ring|rewrite IH; ring]. Qed.
Lemma ksum_sub n (f g : nat -> Qc) : (ksum n f - ksum n g)%Qc = ksum n (fun i => f i - g i)%Qc.
Proof. induction n as [|n IH]; cbn [sum]; [ring|rewrite <- IH; ring]. Qed.
Lemma ksum_one n (f : nat -> Qc) p : p < n -> (forall i, i < n -> i <> p -> f i = 0%Qc) -> ksum n f = f p.
Proof.
  induction n as [|n IH]; intros L Z; [lia|]. cbn [sum]. destruct (Nat.eq_dec p n) as [->|N].
  - replace (ksum n f) with 0%Qc; [ring|]. symmetry. assert (Z' : forall i, i < n -> f i = 0%Qc) by (intros; apply Z; lia).
    clear -Z'. induction n as [|n IH]; [reflexivity|]. cbn [sum]. rewrite IH by (intros; apply Z'; lia). rewrite Z' by lia. ring.
  - rewrite IH by (intros; try apply Z; lia). rewrite (Z n) by lia. ring.
Qed.
Lemma ksum_pos n (f : nat -> Qc) : 0 < n -> (forall i, (0 < f i)%Qc) -> (0 < ksum n f)%Qc.
Proof.
  intros L P. induction n as [|n IH]; [lia|]. cbn [sum]. destruct n as [|n]; [cbn [sum]; rewrite Qcplus_0_l; apply P|].
  pose proof (IH ltac:(lia)). pose proof (P (S n)). qc_lra.
Qed.
Section Two.
Variables (expo : Qc -> Qc).
Hypothesis EP : forall x, (0 < expo x)%Qc.
Lemma bell_sum_pos s : (0 < bell_sum expo s)%Qc.
Proof. apply ksum_pos; [lia|]. intros i. apply EP. Qed.
Lemma blur1_const s n v x : blur1 expo s n (fun _ => v) x = v.
Proof.
  unfold blur1. cbv zeta. assert (P : forall p, padded 0%Qc false n (fun _ => v) p = v) by (intros p; unfold padded; destruct (_ && _); [reflexivity|destruct (p <? 0)%Z; reflexivity]).
  rewrite (ksum_ext _ _ (fun i => bell expo s (Z.of_nat i - Z.of_nat (reach s)) * (v / bell_sum expo s))%Qc).
  - rewrite ksum_scale. fold (bell_sum expo s). field. apply Qc_pos_ne, bell_sum_pos.
  - intros i _. rewrite P. field. apply Qc_pos_ne, bell_sum_pos.
Qed.
Definition centre (s : Qc) : Qc := (bell expo s 0 / bell_sum expo s)%Qc.
Lemma centre_pos s : (0 < centre s)%Qc.
Proof. unfold centre. apply Qc_mul_pos; [apply EP|apply Homker_Proofs.Qcinv_pos, bell_sum_pos]. Qed.
Lemma blur1_two s line : (blur1 expo s 2 line 1 - blur1 expo s 2 line 0)%Qc = ((line 1%nat - line 0%nat) * centre s)%Qc.
Proof.
  unfold blur1. cbv zeta. rewrite ksum_sub. set (r := reach s).
  rewrite (ksum_one _ _ r) by (try lia; intros i Li N; unfold padded;
    destruct (Z.leb_spec 0 (Z.of_nat 1 - (Z.of_nat i - Z.of_nat r))), (Z.ltb_spec (Z.of_nat 1 - (Z.of_nat i - Z.of_nat r)) (Z.of_nat 2)),
      (Z.leb_spec 0 (Z.of_nat 0 - (Z.of_nat i - Z.of_nat r))), (Z.ltb_spec (Z.of_nat 0 - (Z.of_nat i - Z.of_nat r)) (Z.of_nat 2)),
      (Z.ltb_spec (Z.of_nat 1 - (Z.of_nat i - Z.of_nat r)) 0), (Z.ltb_spec (Z.of_nat 0 - (Z.of_nat i - Z.of_nat r)) 0); cbn [andb]; try lia;
    repeat match goal with |- context [Z.to_nat ?z] => first [replace (Z.to_nat z) with 0%nat by lia | replace (Z.to_nat z) with 1%nat by lia] end;
    cbn [Nat.sub]; ring).
  rewrite Z.sub_diag. change (padded 0%Qc false 2 line (Z.of_nat 1 - 0)) with (line 1%nat).
  change (padded 0%Qc false 2 line (Z.of_nat 0 - 0)) with (line 0%nat). unfold centre. ring.
Qed.
(** an image 2 by 2 whose rows are equal keeps a difference of the same sign *)
Definition steps (I : img) : Prop := (forall x, x < 2 -> I x 1 = I x 0) /\ (0 < I 1%nat 0%nat - I 0%nat 0%nat)%Qc.
Lemma steps_blur s I : steps I -> steps (blur expo s 2 2 I).
Proof.
  intros (E & P).
  assert (B : forall x y, blur expo s 2 2 I x y = blur1 expo s 2 (fun x => I x 0) x).
  { intros x y. unfold blur. apply blur1_ext; [lia|]. intros x' Lx. rewrite (blur1_ext _ _ 2 _ (fun _ => I x' 0)); [apply blur1_const|lia|].
    intros y' Ly. assert (y' = 0 \/ y' = 1) as [->| ->] by lia; auto. }
  split; [intros x _; now rewrite !B|]. rewrite !B, blur1_two. apply Qc_mul_pos; [exact P|apply centre_pos].
Qed.
End Two.
Lemma steps_same I J : same_image 2 2 I J -> steps J -> steps I.
Proof. intros S (E & P). split; [intros x Lx; rewrite !S by lia; auto|]. rewrite !S by lia. exact P. Qed.

(** C117 (refuted).  The gradients are not those of the current image: a filter for 2 by 2 images
    and one octave computes the gradients of a black image, then is given an image with a step.  The
    gradients are not computed again, so that the magnitude at the first pixel is still the one of
    the black image, and differs from that of a new filter.  This holds for every positive exp,
    sensible pow and sqrt, and magnitudes that tell a gradient along x from none. *)
Theorem C117_stale_gradients_refuted : exists c black im, fits c /\ length black = c_w c * c_h c /\ length im = c_w c * c_h c /\
  forall pow root expo magn angl junk junk', sane pow root (c_S c) -> (forall x, (0 < expo x)%Qc) -> (forall x, (0 < x)%Qc -> magn x 0%Qc <> magn 0%Qc 0%Qc) ->
  exists f1 f2 f3 f4 g1 g2, process_first pow root expo (sift_new junk c) black = Some (OK, f1) /\ update_gradient magn angl f1 = Some f2 /\
    process_first pow root expo f2 im = Some (OK, f3) /\ update_gradient magn angl f3 = Some f4 /\
    process_first pow root expo (sift_new junk' c) im = Some (OK, g1) /\ update_gradient magn angl g1 = Some g2 /\
    same_view f4 g2 /\ nth 0 (f_grad f4) 0%Qc = magn 0%Qc 0%Qc /\ nth 0 (f_grad f4) 0%Qc <> nth 0 (f_grad g2) 0%Qc.
Proof.
  set (c := new_config 2 2 1 1 0). assert (F : fits c) by (constructor; vm_compute; lia).
  set (black := repeat 0%Qc 4). set (im := [0%Qc; 1%Qc; 0%Qc; 1%Qc]).
  exists c, black, im. split; [exact F|]. split; [reflexivity|]. split; [reflexivity|].
  intros pow root expo magn angl junk junk' SN EP MG.
  assert (UP : forall f, wf expo f -> f_cfg f = c -> sized f 0 -> f_grado f <> 0%Z -> exists f', update_gradient magn angl f = Some f' /\ wf expo f' /\
     f_grado f' = 0%Z /\ f_cfg f' = c /\ same_view f' f /\ nth 0 (f_grad f') 0%Qc =
       magn (Qcminus (stored (f_octave f) 4 2 1 0) (stored (f_octave f) 4 2 0 0)) (Qcminus (stored (f_octave f) 4 2 0 1) (stored (f_octave f) 4 2 0 0))).
  { intros f WF C (Zo & Zw & Zh) NG. rewrite C in Zo, Zw, Zh. change (wide c 0) with 2 in Zw. change (high c 0) with 2 in Zh. change (c_omin c + Z.of_nat 0)%Z with 0%Z in Zo.
    destruct (update_ok expo magn angl f WF) as (f' & U1 & U0 & U2 & U3 & U4 & U5 & U6 & U7 & _ & U8 & U9); [rewrite Zw; lia|rewrite Zh; lia|rewrite Zw, Zh, C; cbn; lia|].
    exists f'. split; [exact U1|]. split; [exact U0|]. split; [congruence|]. split; [congruence|]. split; [unfold same_view; do 5 (split; [congruence|]); congruence|].
    replace (f_grado f =? f_ocur f)%Z with false in U9 by (symmetry; apply Z.eqb_neq; congruence).
    rewrite U9, Zw, Zh, C. change (c_S c) with 1. rewrite nth_put by (rewrite (wf_grad _ _ WF), C; cbn; lia). reflexivity. }
  assert (L1 : forall f im0 f', wf expo f -> f_cfg f = c -> length im0 = 4 -> process_first pow root expo f im0 = Some (OK, f') ->
     same_image 2 2 (stored (f_octave f') 4 2) (blur expo (sig pow root c 0) 2 2 (first_level pow root expo c im0 (fun x y => base_value c im0 (y * 2 + x))))).
  { intros f im0 f' WF C LI E. destruct (process_first_ok pow root expo f im0) as (f2 & E2 & _ & _ & _ & O2); rewrite ?C; auto.
    rewrite E in E2. injection E2 as <-. rewrite C in O2. rewrite O2.
    exact (first_octave_same pow root expo c im0 (f_octave f) F LI ltac:(rewrite <- C; apply WF) 1 ltac:(cbn; lia)). }
  destruct (process_first_ok pow root expo (sift_new junk c) black (new_wf expo junk c) F SN eq_refl) as (f1 & E1 & W1 & (C1 & _ & _ & G1 & _) & Z1 & _).
  cbn [sift_new f_cfg f_grado] in C1, G1.
  destruct (UP f1 W1 C1 Z1 ltac:(rewrite G1; discriminate)) as (f2 & E2 & W2 & G2 & C2 & _ & M2).
  destruct (process_first_ok pow root expo f2 im) as (f3 & E3 & W3 & (C3 & _ & A3 & G3 & K3) & Z3 & O3); rewrite ?C2; auto.
  rewrite C2 in *.
  assert (E4 : update_gradient magn angl f3 = Some f3).
  { unfold update_gradient. destruct Z3 as (Zo & _). rewrite C3 in Zo. rewrite G3, G2, Zo. reflexivity. }
  destruct (process_first_ok pow root expo (sift_new junk' c) im (new_wf expo junk' c) F SN eq_refl) as (g1 & E5 & W5 & (C5 & _ & _ & G5 & K5) & Z5 & O5).
  cbn [sift_new f_cfg f_grado f_octave] in C5, G5, O5.
  destruct (UP g1 W5 C5 Z5 ltac:(rewrite G5; discriminate)) as (g2 & E6 & W6 & G6 & C6 & V6 & M6).
  exists f1, f2, f3, f3, g1, g2. repeat (split; [assumption|]).
  assert (V : same_view f3 g2).
  { destruct V6 as (V1 & V2 & V3 & V4 & V5 & V7). destruct Z3 as (P1 & P2 & P3). destruct Z5 as (Q1 & Q2 & Q3). rewrite C3 in *. rewrite C5 in *.
    assert (f_octave f3 = f_octave g1).
    { rewrite O3, O5. apply first_octave_det; [exact F|reflexivity|rewrite (wf_octave _ _ W2), C2; reflexivity|now rewrite map_length, seq_length]. }
    unfold same_view. do 5 (split; [congruence|]). congruence. }
  split; [exact V|].
  assert (N3 : nth 0 (f_grad f3) 0%Qc = magn 0%Qc 0%Qc).
  { rewrite A3, M2. pose proof (L1 _ black f1 (new_wf expo junk c) eq_refl eq_refl E1) as S.
    assert (B0 : forall x y, x < 2 -> y < 2 -> stored (f_octave f1) 4 2 x y = 0%Qc).
    { intros x y Lx Ly. rewrite (S x y Lx Ly).
      assert (Z0 : forall s (J : img), same_image 2 2 J (fun _ _ => 0%Qc) -> forall x y, blur expo s 2 2 J x y = 0%Qc).
      { intros s J HJ x' y'. unfold blur. rewrite (blur1_ext _ _ 2 _ (fun _ => 0%Qc)); [now apply blur1_const|lia|]. intros a La.
        rewrite (blur1_ext _ _ 2 _ (fun _ => 0%Qc)); [now apply blur1_const|lia|]. intros b Lb. now apply HJ. }
      apply Z0. intros a b La Lb.
      assert (BV : same_image 2 2 (fun x y => base_value c black (y * 2 + x)) (fun _ _ => 0%Qc)).
      { intros a' b' La' Lb'. assert (a' = 0 \/ a' = 1) as [->| ->] by lia; assert (b' = 0 \/ b' = 1) as [->| ->] by lia; reflexivity. }
      unfold first_level. destruct (qlt _ _); [apply Z0; exact BV|now apply BV]. }
    rewrite !B0 by lia. f_equal; ring. }
  split; [exact N3|]. rewrite N3, M6.
  pose proof (L1 _ im g1 (new_wf expo junk' c) eq_refl eq_refl E5) as S.
  assert (ST : steps (stored (f_octave g1) 4 2)).
  { eapply steps_same; [exact S|]. apply steps_blur; [exact EP|].
    assert (B : steps (fun x y => base_value c im (y * 2 + x))).
    { split; [intros x Lx; assert (x = 0 \/ x = 1) as [->| ->] by lia; reflexivity|reflexivity]. }
    unfold first_level. destruct (qlt _ _); [now apply steps_blur|exact B]. }
  destruct ST as (R1 & R2). rewrite (R1 0) by lia.
  replace (Qcminus (stored (f_octave g1) 4 2 0 0) (stored (f_octave g1) 4 2 0 0)) with 0%Qc by ring.
  intros X. apply (MG _ R2). now symmetry.
Qed.
Print Assumptions C117_stale_gradients_refuted.

(** *** Examples *)
Definition ex_pow (a b : Qc) : Qc := (nq 3 / nq 2)%Qc.
Definition ex_root (a : Qc) : Qc := (1 / nq 4)%Qc.
Definition ex_expo (a : Qc) : Qc := (1 / (1 - a))%Qc.
Definition ex_magn (x y : Qc) : Qc := (x * x + y * y)%Qc.
Definition ex_angl (x y : Qc) : Qc := (x - y)%Qc.
Definition ex_im : list Qc := map nq [0; 9; 0; 3; 0; 0; 6; 0; 0; 0; 0; 0; 3; 0; 0; 9].
Example C114_ex_fits : fits (new_config 4 4 2 1 0) /\ fits (new_config 6 4 3 3 (-1)) /\ sane ex_pow ex_root 1.
Proof.
  split; [constructor; vm_compute; lia|]. split; [constructor; vm_compute; lia|].
  constructor; [intros; reflexivity|reflexivity|intros; reflexivity].
Qed.
(** two octaves of a 4 by 4 image and the values of two pixels *)
Example C114_ex_run :
  match process_first ex_pow ex_root ex_expo (sift_new nq (new_config 4 4 2 1 0)) ex_im with
  | Some (OK, f) => match process_next ex_pow ex_root ex_expo f with
    | Some (OK, g) => match process_next ex_pow ex_root ex_expo g with
      | Some (EOF, _) => (f_ow f =? 4) && (f_ow g =? 2) && Qc_eq_bool (nth 0 (f_octave g) 0%Qc) (nth 16 (f_octave f) 0%Qc) &&
          negb (Qc_eq_bool (nth 1 (f_octave f) 0%Qc) (nth 2 (f_octave f) 0%Qc))
      | _ => false end
    | _ => false end
  | _ => false end = true.
Proof. vm_compute. reflexivity. Qed.
(** a filter used for another image, including gradients, is reached and can be reused *)
Example C52_ex : exists f, reached ex_pow ex_root ex_expo ex_magn ex_angl (new_config 4 4 2 1 0) true f /\ f_grado f = 0%Z.
Proof.
  set (c := new_config 4 4 2 1 0).
  destruct (process_first ex_pow ex_root ex_expo (sift_new nq c) ex_im) as [[r f]|] eqn:E.
  - destruct (process_first_ok ex_pow ex_root ex_expo (sift_new nq c) ex_im (new_wf _ _ _)) as (f' & E' & W & (C & _) & (Zo & Zw & Zh) & _);
      [apply C114_ex_fits|apply C114_ex_fits|reflexivity|]. rewrite E in E'. injection E' as -> <-. cbn [sift_new f_cfg] in C. rewrite C in *.
    destruct (update_ok ex_expo ex_magn ex_angl f W) as (g & U & _ & G & _); [rewrite Zw; cbn; lia|rewrite Zh; cbn; lia|rewrite Zw, Zh, C; apply wide_nel|].
    exists g. split; [|rewrite G; exact Zo]. eapply R_gradient; [eapply R_first with (im := ex_im); [apply R_new|reflexivity|exact E]|rewrite Zw; cbn; lia|rewrite Zh; cbn; lia|exact U].
  - exfalso. destruct (process_first_ok ex_pow ex_root ex_expo (sift_new nq c) ex_im (new_wf _ _ _)) as (f' & E' & _);
      [apply C114_ex_fits|apply C114_ex_fits|reflexivity|]. congruence.
Qed.
(** C117's hypotheses are met by the example functions *)
Example C117_ex : sane ex_pow ex_root 1 /\ (forall x, (0 < ex_magn x 0)%Qc -> ex_magn x 0%Qc <> ex_magn 0%Qc 0%Qc).
Proof. split; [apply C114_ex_fits|]. intros x P E. rewrite E in P. discriminate. Qed.
