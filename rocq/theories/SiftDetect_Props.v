(** C118, C119, C52: the SIFT detector. *)
From Coq Require Import List Arith ZArith Lia Bool QArith Qcanon Qcabs Sorted.
Import ListNotations.
From Verif Require Import Base Loop Rat MserSort_Proofs Gauss_Proofs KmeansEnergy_Proofs Sift_Model Sift_Spec Sift_Proofs Sift_Props SiftDetect_Spec SiftDetect_Model SiftDetect_Proofs.
Local Open Scope nat_scope.

Lemma reached_sizes pow root expo magn angl c f : fits c -> sane pow root (c_S c) -> reached pow root expo magn angl c true f ->
  f_cfg f = c /\ f_ow f * f_oh f * (c_S c + 3) <= length (f_octave f) /\ f_ow f * f_oh f * (c_S c + 2) <= length (f_dog f).
Proof.
  intros F SN R. destruct (reached_inv pow root expo magn angl c true f F SN R) as (WF & C & H). destruct (H eq_refl) as (k & Lk & Zo & Zw & Zh).
  rewrite C in *. split; [reflexivity|]. rewrite Zw, Zh, (wf_octave _ _ WF), (wf_dog _ _ WF), C. pose proof (wide_nel c k). split; nia.
Qed.

(** C118.  On a filter with an octave, the detector does not fail.  Its candidates are exactly the
    pixels inside the octave whose difference of Gaussians is at least 0.8 of the peak threshold and
    larger than those of the 26 neighbours, or the opposite.  Each one is refined by at most four
    steps of one pixel, and the keypoints are those that pass the tests, in the same order.  The
    octave and the gradients are left as they are. *)
Theorem C118_detection : forall pow root expo magn angl c f,
  fits c -> sane pow root (c_S c) -> reached pow root expo magn angl c true f -> (0 <= c_edge c)%Qc ->
  let w := f_ow f in let h := f_oh f in let D := difference (f_octave f) w h in
  exists f' cands outs, detect pow f = Some f' /\ reached pow root expo magn angl c true f' /\
    f_octave f' = f_octave f /\ f_ocur f' = f_ocur f /\ f_ow f' = w /\ f_oh f' = h /\ f_grad f' = f_grad f /\ f_grado f' = f_grado f /\
    StronglySorted earlier cands /\
    (forall x y s, In (x, y, s) cands <-> inner w x /\ inner h y /\ (0 <= s < Z.of_nat (c_S c))%Z /\ extremum (c_peak c) D x y s) /\
    Forall2 (fun p out => let '(x, y, s) := p in
      exists x' y' b0 b1 b2, refined D w h s 4 x y x' y' (b0, b1, b2) /\ inner w x' /\ inner h y' /\
        let good := kept D (c_peak c) (c_edge c) w h (c_S c) x' y' s (b0, b1, b2) in
        let scale := pow (nq 2) (zq (f_ocur f)) in
        (good /\ out = {| k_o := f_ocur f; k_ix := x'; k_iy := y'; k_is := s; k_s := (zq s + b2)%Qc;
           k_x := ((zq x' + b0) * scale)%Qc; k_y := ((zq y' + b1) * scale)%Qc;
           k_sigma := (zq 16 / zq 10 * pow (nq 2) (1 / nq (c_S c)) * pow (nq 2) ((zq s + b2) / nq (c_S c)) * scale)%Qc |} :: nil \/
         ~ good /\ out = [])) cands outs /\
    f_keys f' = concat outs.
Proof.
  intros pow root expo magn angl c f F SN R Te w h D. destruct (reached_sizes pow root expo magn angl c f F SN R) as (C & LO & LD).
  destruct (detect_ok pow f) as (dog & keys & cands & outs & E & Ld & _ & S & H & HF & HK); rewrite ?C; auto.
  rewrite C in *. eexists _, cands, outs. split; [exact E|]. split.
  { rewrite <- C at 2. apply R_detect; auto. }
  cbn [f_octave f_ocur f_ow f_oh f_grad f_grado f_keys]. do 6 (split; [reflexivity|]). split; [exact S|]. split; [exact H|]. split; [|exact HK].
  clear - HF. induction HF as [|[[x y] s] out cands outs O HF IH]; constructor; [|exact IH].
  destruct O as (x' & y' & [[b0 b1] b2] & RR & Hx & Hy & K). exists x', y', b0, b1, b2. split; [exact RR|]. split; [exact Hx|]. split; [exact Hy|]. exact K.
Qed.
Print Assumptions C118_detection.

Lemma qabs_bounds (a b : Qc) : (Qcabs a < b)%Qc -> (- b < a /\ a < b)%Qc.
Proof.
  intros H. pose proof (Qcle_Qcabs a) as H1. pose proof (Qcle_Qcabs (- a)) as H2. rewrite Qcabs_opp in H2. split; [|now apply Qcle_lt_trans with (Qcabs a)].
  assert (X : (- a < b)%Qc) by (now apply Qcle_lt_trans with (Qcabs a)). clear - X. qc_prep. Lqa.lra.
Qed.
(** C119.  Every keypoint of the detector has the index of its octave, a pixel inside the octave and
    one of its levels; its position is less than 3/2 pixels away and in the octave, its scale is
    1.6 2^((s + 1) / S) times the size of a pixel for a level s within [-1, S + 1]. *)
Theorem C119_keypoints : forall pow root expo magn angl c f f',
  fits c -> sane pow root (c_S c) -> reached pow root expo magn angl c true f -> (0 <= c_edge c)%Qc -> detect pow f = Some f' ->
  Forall (fun k => let scale := pow (nq 2) (zq (f_ocur f)) in
    k_o k = f_ocur f /\ inner (f_ow f) (k_ix k) /\ inner (f_oh f) (k_iy k) /\ (0 <= k_is k < Z.of_nat (c_S c))%Z /\
    (0 <= k_x k /\ k_x k <= zq (Z.of_nat (f_ow f) - 1) * scale /\ 0 <= k_y k /\ k_y k <= zq (Z.of_nat (f_oh f) - 1) * scale /\
     (zq (k_ix k) - nq 3 / nq 2) * scale < k_x k /\ k_x k < (zq (k_ix k) + nq 3 / nq 2) * scale /\
     (zq (k_iy k) - nq 3 / nq 2) * scale < k_y k /\ k_y k < (zq (k_iy k) + nq 3 / nq 2) * scale /\
     zq (k_is k) - nq 3 / nq 2 < k_s k /\ k_s k < zq (k_is k) + nq 3 / nq 2 /\
     zq (-1) <= k_s k /\ k_s k <= zq (Z.of_nat (c_S c) + 1))%Qc /\
    k_sigma k = (zq 16 / zq 10 * pow (nq 2) (1 / nq (c_S c)) * pow (nq 2) (k_s k / nq (c_S c)) * scale)%Qc /\ (0 < k_sigma k)%Qc) (f_keys f').
Proof.
  intros pow root expo magn angl c f f' F SN R Te E.
  destruct (C118_detection pow root expo magn angl c f F SN R Te) as (f2 & cands & outs & E2 & _ & _ & _ & _ & _ & _ & _ & _ & HC & HF & HK).
  rewrite E in E2. injection E2 as <-. rewrite HK.
  assert (P : forall a, (0 < pow (nq 2) a)%Qc) by (intro a; apply (sane_pow _ _ _ SN); reflexivity).
  match type of HF with Forall2 ?P _ _ => match goal with |- Forall ?Q _ =>
    enough (G : forall cs os, Forall2 P cs os -> (forall p, In p cs -> In p cands) -> Forall Q (concat os)) by (eapply G; [exact HF|auto]) end end.
  clear HF HK E. clear outs. intros cs os HF. induction HF as [|[[x y] s] out cs os O HF IH]; intros Sub; cbn [concat]; [constructor|].
  apply Forall_app. split; [|apply IH; intros p Hp; apply Sub; now right]. clear IH.
  destruct O as (x' & y' & b0 & b1 & b2 & _ & Hx & Hy & [(K & ->)|(_ & ->)]); [|constructor]. constructor; [|constructor].
  cbn [k_o k_ix k_iy k_is k_s k_x k_y k_sigma]. specialize (Sub (x, y, s) ltac:(now left)). apply HC in Sub. destruct Sub as (_ & _ & Hs & _).
  split; [reflexivity|]. split; [exact Hx|]. split; [exact Hy|]. split; [exact Hs|]. unfold kept in K.
  destruct K as (_ & _ & B0 & B1 & B2 & X1 & X2 & Y1 & Y2 & S1 & S2). apply qabs_bounds in B0, B1, B2. destruct B0 as [B0 B0'], B1 as [B1 B1'], B2 as [B2 B2'].
  set (sc := pow (nq 2) (zq (f_ocur f))) in *. assert (Psc : (0 < sc)%Qc) by apply P. assert (Psc' : (0 <= sc)%Qc) by now apply Qclt_le_weak.
  assert (Sh1 : forall a b t : Qc, (- t < b)%Qc -> (a - t < a + b)%Qc) by (intros a b t L; qc_prep; Lqa.lra).
  assert (Sh2 : forall a b t : Qc, (b < t)%Qc -> (a + b < a + t)%Qc) by (intros a b t L; qc_prep; Lqa.lra).
  split; [|split; [reflexivity|]].
  - split; [now apply Qc_mult_nonneg|]. split; [now apply Qcmult_le_compat_r|]. split; [now apply Qc_mult_nonneg|]. split; [now apply Qcmult_le_compat_r|].
    do 4 (split; [apply Qcmult_lt_compat_r; auto|]). split; [auto|]. split; [auto|]. split; [exact S1|exact S2].
  - repeat apply Qc_mul_pos; auto; reflexivity.
Qed.
Print Assumptions C119_keypoints.

(** ** the keypoints depend on the octave only *)
Lemma iter_from_ext {T} (b b' : nat -> T -> option T) n : forall i s, (forall j s, i <= j < i + n -> b j s = b' j s) -> iter_from n i b s = iter_from n i b' s.
Proof.
  induction n as [|n IH]; intros i s H; cbn [iter_from]; [reflexivity|]. rewrite (H i s) by lia. destruct (b' i s); cbn [obind]; [|reflexivity].
  apply IH. intros j s' Hj. apply H. lia.
Qed.
Lemma earlier_irrefl p : ~ earlier p p. Proof. destruct p as [[x y] s]. unfold earlier. lia. Qed.
Lemma earlier_trans p q r : earlier p q -> earlier q r -> earlier p r.
Proof. destruct p as [[x y] s], q as [[x1 y1] s1], r as [[x2 y2] s2]. unfold earlier. lia. Qed.
Lemma sorted_unique l : forall l', StronglySorted earlier l -> StronglySorted earlier l' -> (forall p, In p l <-> In p l') -> l = l'.
Proof.
  induction l as [|a l IH]; intros l' Sl Sl' H.
  - destruct l' as [|b l']; [reflexivity|]. destruct (proj2 (H b) ltac:(now left)).
  - destruct l' as [|b l']; [destruct (proj1 (H a) ltac:(now left))|].
    inversion_clear Sl as [|? ? S1 F1]. inversion_clear Sl' as [|? ? S2 F2]. rewrite Forall_forall in F1, F2.
    assert (a = b).
    { destruct (proj1 (H a) ltac:(now left)) as [E|I1]; [auto|]. destruct (proj2 (H b) ltac:(now left)) as [E|I2]; [auto|].
      destruct (earlier_irrefl a). eapply earlier_trans; [apply F1; exact I2|apply F2; exact I1]. }
    subst b. f_equal. apply IH; auto. intros p. specialize (H p). cbn [In] in H. split; intro I.
    + destruct (proj1 H ltac:(now right)) as [<-|I']; [|exact I']. destruct (earlier_irrefl a). now apply F1.
    + destruct (proj2 H ltac:(now right)) as [<-|I']; [|exact I']. destruct (earlier_irrefl a). now apply F2.
Qed.
Lemma refine_same dog dog' w h n D s : sees dog w h n D -> sees dog' w h n D -> (0 <= s < Z.of_nat n)%Z ->
  forall k x y dx dy last, inner w (x + dx) -> inner h (y + dy) -> refine_loop k dog w h x y s dx dy last = refine_loop k dog' w h x y s dx dy last.
Proof.
  intros S1 S2 Hs. induction k as [|k IH]; intros x y dx dy last Hx Hy; [reflexivity|]. cbn [refine_loop].
  change (x + dx + Z.of_nat w * (y + dy) + Z.of_nat (w * h) * (s + 1))%Z with (place w h (x + dx) (y + dy) s).
  rewrite (derivatives_ok dog w h n D S1), (derivatives_ok dog' w h n D S2) by assumption. cbn [obind].
  destruct (newton_ok D (x + dx) (y + dy) s) as (b0 & b1 & b2 & ok & E & N). rewrite E. cbn [obind aget nth_error].
  destruct (_ && _); [reflexivity|]. apply IH; now apply move_ok.
Qed.
Lemma detect_same pow f g : same_view f g -> let c := f_cfg f in
  f_ow f * f_oh f * (c_S c + 3) <= length (f_octave f) -> f_ow f * f_oh f * (c_S c + 2) <= length (f_dog f) -> f_ow g * f_oh g * (c_S c + 2) <= length (f_dog g) ->
  exists f' g', detect pow f = Some f' /\ detect pow g = Some g' /\ same_view f' g'.
Proof.
  intros (V1 & V2 & V3 & V4 & V5 & V6) c LO L1 L2. unfold detect. rewrite <- V1, <- V2, <- V3, <- V4, <- V5 in *. fold c in L2 |- *.
  destruct (compute_dog_ok (f_octave f) (f_ow f) (f_oh f) (c_S c) (f_dog f) LO L1) as (d1 & E1 & _ & S1).
  destruct (compute_dog_ok (f_octave f) (f_ow f) (f_oh f) (c_S c) (f_dog g) LO L2) as (d2 & E2 & _ & S2).
  rewrite E1, E2. cbn [obind].
  destruct (candidates_ok _ _ _ _ _ S1 (c_peak c)) as (k1 & C1 & O1 & H1). destruct (candidates_ok _ _ _ _ _ S2 (c_peak c)) as (k2 & C2 & O2 & H2).
  rewrite C1, C2. cbn [obind]. assert (E : k1 = k2) by (apply sorted_unique; auto; intros [[x y] s]; rewrite H1, H2; reflexivity). subst k2.
  match goal with |- context [iter (length k1) ?b ?s0] => assert (X : exists keys, iter (length k1) b s0 = Some keys) end.
  { match goal with |- context [iter (length k1) ?b ?s0] => destruct (iter_inv (fun _ _ => True) b (length k1) s0 I) as (keys & EI & _) end; [|eauto].
    intros i keys Li _. rewrite (aget_nth k1 i (0, 0, 0)%Z) by exact Li. cbn [obind]. destruct (nth i k1 (0, 0, 0)%Z) as [[x y] s] eqn:En. cbn [fst snd].
    assert (Hin : In (x, y, s) k1) by (rewrite <- En; apply nth_In; exact Li). apply H1 in Hin. destruct Hin as (Hx & Hy & Hs & _).
    destruct (refine_ok _ _ _ _ _ S1 x y s Hx Hy Hs) as (x' & y' & b0 & b1 & b2 & ER & _). rewrite ER. cbn [obind aget nth_error]. eauto. }
  destruct X as (keys & X). rewrite X. cbn [obind].
  match goal with |- context [iter (length k1) ?b ?s0] => assert (Y : iter (length k1) b s0 = Some keys) end.
  { rewrite <- X. apply iter_from_ext. intros i ks Li. rewrite !(aget_nth k1 i (0, 0, 0)%Z) by lia. cbn [obind].
    destruct (nth i k1 (0, 0, 0)%Z) as [[x y] s] eqn:En. cbn [fst snd].
    assert (Hin : In (x, y, s) k1) by (rewrite <- En; apply nth_In; lia). apply H1 in Hin. destruct Hin as (Hx & Hy & Hs & _).
    unfold refine. rewrite (refine_same d2 d1 _ _ _ _ s S2 S1 Hs) by now rewrite Z.add_0_r. reflexivity. }
  rewrite Y. cbn [obind]. do 2 eexists. split; [reflexivity|]. split; [reflexivity|]. unfold same_view. cbn [f_cfg f_ocur f_ow f_oh f_octave f_keys]. repeat split.
Qed.

(** C52.  The keypoints of an octave do not depend on the use of the filter before the image. *)
Theorem C52_detection : forall pow root expo magn angl c b f junk im k,
  fits c -> sane pow root (c_S c) -> reached pow root expo magn angl c b f -> length im = c_w c * c_h c -> k < c_O c ->
  forall f1 g1 f2 g2, process_first pow root expo f im = Some (OK, f1) -> process_first pow root expo (sift_new junk c) im = Some (OK, g1) ->
    advance pow root expo k f1 = Some f2 -> advance pow root expo k g1 = Some g2 ->
  exists f3 g3, detect pow f2 = Some f3 /\ detect pow g2 = Some g3 /\ f_keys f3 = f_keys g3 /\ f_octave f3 = f_octave g3.
Proof.
  intros pow root expo magn angl c b f junk im k F SN R LI Lk f1 g1 f2 g2 E1 E2 E3 E4.
  destruct (C52_octaves pow root expo magn angl c b f junk im k F SN R LI Lk) as (f1' & g1' & f2' & g2' & D1 & D2 & D3 & D4 & V).
  rewrite E1 in D1. injection D1 as <-. rewrite E2 in D2. injection D2 as <-. rewrite E3 in D3. injection D3 as <-. rewrite E4 in D4. injection D4 as <-.
  assert (A : forall j a a', reached pow root expo magn angl c true a -> advance pow root expo j a = Some a' -> reached pow root expo magn angl c true a').
  { induction j as [|j IH]; intros a a' Ra Ea; cbn [advance] in Ea; [congruence|]. destruct (advance pow root expo j a) as [a1|] eqn:Ej; [|discriminate].
    destruct (process_next pow root expo a1) as [[[] a2]|] eqn:En; try discriminate. injection Ea as <-. eapply R_next; [eapply IH; eauto|exact En]. }
  assert (R2 : reached pow root expo magn angl c true f2) by (eapply A; [eapply R_first; eauto|exact E3]).
  assert (Q2 : reached pow root expo magn angl c true g2) by (eapply A; [eapply R_first; [apply R_new|exact LI|exact E2]|exact E4]).
  destruct (reached_sizes pow root expo magn angl c f2 F SN R2) as (C1 & L1 & L2). destruct (reached_sizes pow root expo magn angl c g2 F SN Q2) as (C2 & L3 & L4).
  destruct (detect_same pow f2 g2 V) as (f3 & g3 & X & Y & V'); rewrite ?C1; auto. exists f3, g3. split; [exact X|]. split; [exact Y|]. destruct V' as (_ & _ & _ & _ & V5 & V6). auto.
Qed.
Print Assumptions C52_detection.

(** *** Examples *)
(** a 5 by 5 octave whose second difference has a peak of 10 with a neighbour of 4 *)
Definition ex_f : sift :=
  let c := new_config 5 5 1 1 0 in
  let z := repeat 0%Qc 25 in let p := map nq [0;0;0;0;0; 0;0;0;0;0; 0;0;10;4;0; 0;0;0;0;0; 0;0;0;0;0] in
  {| f_cfg := c; f_ocur := 0; f_ow := 5; f_oh := 5; f_temp := z; f_octave := z ++ z ++ p ++ p; f_dog := z ++ z ++ z; f_grad := []; f_grado := 0;
     f_filt := []; f_fsigma := 0; f_fwidth := 0; f_keys := [] |}.
Example C118_ex_peak :
  match detect ex_pow ex_f with
  | Some g => match f_keys g with
    | k :: nil => (k_ix k =? 2)%Z && (k_iy k =? 2)%Z && (k_is k =? 0)%Z && Qc_eq_bool (k_x k) ((nq 2 + 1 / nq 8) * ex_pow (nq 2) 0)%Qc
    | _ => false end
  | None => false end = true.
Proof. vm_compute. reflexivity. Qed.
(** with a peak threshold of 15 the pixel is no longer an extremum *)
Example C118_ex_threshold :
  match candidates (repeat 0%Qc 25 ++ map nq [0;0;0;0;0; 0;0;0;0;0; 0;0;10;4;0; 0;0;0;0;0; 0;0;0;0;0] ++ repeat 0%Qc 25) 5 5 1 (nq 12),
        candidates (repeat 0%Qc 25 ++ map nq [0;0;0;0;0; 0;0;0;0;0; 0;0;10;4;0; 0;0;0;0;0; 0;0;0;0;0] ++ repeat 0%Qc 25) 5 5 1 (nq 13) with
  | Some ((2, 2, 0)%Z :: nil), Some nil => true | _, _ => false end = true.
Proof. vm_compute. reflexivity. Qed.
(** the hypotheses hold for a filter with an image *)
Example C119_ex : exists f, reached ex_pow ex_root ex_expo ex_magn ex_angl (new_config 4 4 2 1 0) true f /\ (0 <= c_edge (new_config 4 4 2 1 0))%Qc.
Proof. destruct C52_ex as (f & R & _). exists f. split; [exact R|]. discriminate. Qed.
