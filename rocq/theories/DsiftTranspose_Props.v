(** Properties of dense SIFT (vl/dsift.c, vl/dsift.h): transposition, thin images, examples. *)
From Coq Require Import List Arith ZArith Lia Bool QArith Qcanon Qcabs Permutation.
From Verif Require Import Base Loop MserSort_Proofs ImOp_Spec ImOp_Model ImOp_Proofs Rat Gauss_Model Gauss_Proofs Dsift_Model Dsift_Spec Dsift_Proofs DsiftWindow_Proofs DsiftRun_Proofs Dsift_Props DsiftTranspose_Proofs.
From Verif Require Homker_Proofs.
Local Open Scope nat_scope.

(** *** C39: transposing a descriptor.  Entry (t, x, y) goes to entry (T/4 - t, y, x), this is a
    permutation of the entries, and transposing again gives the descriptor back. *)
Theorem C39_transpose dst src T X Y : length src = X * Y * T -> length dst = X * Y * T ->
  exists dst', transpose_descriptor dst src T X Y = Some dst' /\ length dst' = X * Y * T /\ Permutation dst' src /\
    (forall t x y, t < T -> x < X -> y < Y -> nth (T * (y + x * Y) + (T / 4 + T - t) mod T) dst' 0%Qc = nth (T * (x + y * X) + t) src 0%Qc) /\
    forall any, length any = X * Y * T -> transpose_descriptor any dst' T Y X = Some src.
Proof.
  intros Ls Ld. destruct (transpose_ok dst src T X Y) as (d & E & L & H & _); [lia|lia|]. rewrite Ld in L. exists d. split; [exact E|]. split; [exact L|].
  assert (M : map (fun j => nth j src 0%Qc) (seq 0 (X * Y * T)) = src).
  { apply nth_ext with (d := 0%Qc) (d' := 0%Qc); rewrite map_length, seq_length; [auto|]. intros i Li.
    rewrite (nth_indep _ _ ((fun j => nth j src 0%Qc) 0)) by (now rewrite map_length, seq_length).
    rewrite (map_nth (fun j => nth j src 0%Qc)). now rewrite seq_nth. }
  split; [|split].
  - rewrite <- M. rewrite (map_ext_in _ (fun j => nth (place T X Y j) d 0%Qc)).
    2: { intros j Ij. apply in_seq in Ij. symmetry. apply H. lia. }
    assert (M' : map (fun j => nth j d 0%Qc) (seq 0 (X * Y * T)) = d).
    { apply nth_ext with (d := 0%Qc) (d' := 0%Qc); rewrite map_length, seq_length; [auto|]. intros i Li.
      rewrite (nth_indep _ _ ((fun j => nth j d 0%Qc) 0)) by (now rewrite map_length, seq_length).
      rewrite (map_nth (fun j => nth j d 0%Qc)). now rewrite seq_nth. }
    rewrite <- M' at 1. rewrite <- (map_map (place T X Y) (fun j => nth j d 0%Qc)). apply Permutation_map. symmetry. apply places.
  - intros t x y Lt Lx Ly. rewrite <- (place_at T X Y t x y Lt Lx). apply H. now apply entry_lt.
  - intros any La. destruct (transpose_ok any d T Y X) as (e & E2 & L2 & H2 & _); [rewrite L; lia|rewrite La; lia|]. rewrite E2. f_equal.
    apply nth_ext with (d := 0%Qc) (d' := 0%Qc); [lia|]. intros j Lj. rewrite L2, La in Lj. rewrite <- (place_back T X Y j Lj).
    rewrite H2 by (rewrite (Nat.mul_comm Y X); now apply place_lt). rewrite H by exact Lj. now rewrite place_back.
Qed.
Print Assumptions C39_transpose.

Example C39_ex : option_map (map this) (transpose_descriptor (repeat 0%Qc 24) (map (fun j => nq j) (seq 1 24)) 4 3 2) =
  Some (map (fun z => inject_Z z) (2 :: 1 :: 4 :: 3 :: 14 :: 13 :: 16 :: 15 :: 6 :: 5 :: 8 :: 7 :: 18 :: 17 :: 20 :: 19 :: 10 :: 9 :: 12 :: 11 :: 22 :: 21 :: 24 :: 23 :: nil)%Z).
Proof. vm_compute. reflexivity. Qed.

Lemma nth_firstn_lt (l : list Qc) n j : j < n -> nth j (firstn n l) 0%Qc = nth j l 0%Qc.
Proof. revert n j. induction l as [|a l IH]; intros [|n] [|j] L; cbn; auto; try lia. apply IH. lia. Qed.
Lemma nth_skipn_at (l : list Qc) n k : nth k (skipn n l) 0%Qc = nth (n + k) l 0%Qc.
Proof. revert n. induction l as [|a l IH]; intros [|n]; cbn; auto. now destruct k. Qed.

(** *** C86: transpose(dsift(I, x, y)) = dsift(transpose(I), y, x), as dsift.h:300-303 promises,
    for a number of orientations that four divides. *)
Theorem C86_image_transpose sqrt_ exp_ turn eps junk f g im im' f1 g1 :
  (forall gy gx, (0 <= turn gy gx)%Qc) -> reflecting turn -> sqrt_ 0%Qc = 0%Qc ->
  reachable sqrt_ exp_ turn eps junk f -> reachable sqrt_ exp_ turn eps junk g ->
  sane (conf f) -> conf g = flipped (conf f) -> nbt (conf f) mod 4 = 0 ->
  length im = imw (conf f) * imh (conf f) -> length im' = imw (conf f) * imh (conf f) ->
  (forall x y, x < imw (conf f) -> y < imh (conf f) -> nth (y + x * imh (conf f)) im' 0%Qc = nth (x + y * imw (conf f)) im 0%Qc) ->
  process sqrt_ exp_ turn eps junk f im = Some f1 -> process sqrt_ exp_ turn eps junk g im' = Some g1 ->
  let c := conf f in let L := nbx c * nby c * nbt c in
  exists NX NY, fits (minx c) (maxx c) (stepx c) (nbx c) (bsx c) NX /\ fits (miny c) (maxy c) (stepy c) (nby c) (bsy c) NY /\
    nframes f1 = Z.of_nat (NX * NY) /\ nframes g1 = Z.of_nat (NX * NY) /\
    forall kx ky, kx < NX -> ky < NY ->
      (exists x y m, nth_error (frames f1) (ky * NX + kx) = Some (x, y, m) /\ nth_error (frames g1) (kx * NY + ky) = Some (y, x, m)) /\
      forall any, length any = L ->
        transpose_descriptor any (firstn L (skipn ((ky * NX + kx) * L) (descrs f1))) (nbt c) (nbx c) (nby c) =
        Some (firstn L (skipn ((kx * NY + ky) * L) (descrs g1))).
Proof.
  intros Ht HR H0 Rf Rg S Ec H4 L1 L2 HI E1 E2 c L.
  assert (S' : sane (conf g)) by (rewrite Ec; destruct S; constructor; auto).
  assert (L2' : length im' = imw (conf g) * imh (conf g)) by (rewrite Ec; cbn [flipped imw imh]; lia).
  destruct (process_ok sqrt_ exp_ turn eps junk f im Ht (reachable_ok _ _ _ _ _ f Ht Rf) S L1) as (f' & NX & NY & Ef & _ & _ & Fx & Fy & _ & Nf & _ & Lf & Ldf & Hf & Hd).
  destruct (process_ok sqrt_ exp_ turn eps junk g im' Ht (reachable_ok _ _ _ _ _ g Ht Rg) S' L2') as (g' & MX & MY & Eg & _ & _ & Gx & Gy & _ & Ng & _ & Lg & Ldg & Hg & Hdg).
  rewrite Ef in E1. injection E1 as <-. rewrite Eg in E2. injection E2 as <-. rewrite Ec in *. cbn [flipped minx maxx stepx nbx bsx miny maxy stepy nby bsy imw imh nbt] in *.
  assert (Hc : conf f = c) by reflexivity. clearbody c. rewrite Hc in *.
  assert (MX = NY) by (eapply fits_unique; eauto). assert (MY = NX) by (eapply fits_unique; eauto). subst MX MY.
  assert (ED : D (flipped c) = L) by (unfold D; cbn [flipped nbx nby nbt]; unfold L; lia). assert (ED' : D c = L) by reflexivity. rewrite ED in *. rewrite ED' in *.
  exists NX, NY. split; [exact Fx|]. split; [exact Fy|]. split; [exact Nf|]. split; [rewrite Ng; f_equal; lia|]. intros kx ky Lx Ly.
  assert (Raw : forall j, j < L -> raw sqrt_ exp_ turn (flipped c) (img im' (imh c)) (px (flipped c) ky) (py (flipped c) kx) (place (nbt c) (nbx c) (nby c) j) = raw sqrt_ exp_ turn c (img im (imw c)) (px c kx) (py c ky) j).
  { intros j Lj. change (px (flipped c) ky) with (py c ky). change (py (flipped c) kx) with (px c kx). apply raw_flip; auto; try apply S. }
  split.
  - rewrite Hf, Hg by auto. eexists _, _, _. split; [reflexivity|]. change (center_x (flipped c) ky) with (center_y c ky). change (center_y (flipped c) kx) with (center_x c kx). do 2 f_equal.
    unfold mass. rewrite ED, ED'. cbn [flipped nbx nby bsx bsy]. rewrite (Z.mul_comm (frame_size (nby c) (bsy c))). f_equal. apply (sum_places (nbt c) (nbx c) (nby c)). exact Raw.
  - intros any La.
    assert (B1 : (ky * NX + kx) * L + L <= length (descrs f')) by (rewrite Ldf; assert (ky * NX + kx + 1 <= NX * NY) by nia; nia).
    assert (B2 : (kx * NY + ky) * L + L <= length (descrs g')) by (rewrite Ldg; assert (kx * NY + ky + 1 <= NY * NX) by nia; nia).
    assert (Row : forall l o j, j < L -> nth j (firstn L (skipn o l)) 0%Qc = nth (o + j) l 0%Qc) by (intros l o j Lj; rewrite nth_firstn_lt by exact Lj; apply nth_skipn_at).
    set (row := firstn L (skipn ((ky * NX + kx) * L) (descrs f'))). set (row' := firstn L (skipn ((kx * NY + ky) * L) (descrs g'))).
    assert (Lr : length row = L) by (unfold row; rewrite firstn_length, skipn_length; lia).
    assert (Lr' : length row' = L) by (unfold row'; rewrite firstn_length, skipn_length; lia).
    destruct (transpose_ok any row (nbt c) (nbx c) (nby c)) as (d & E & Ld & Hp & _); [fold L; lia|fold L; lia|]. rewrite E. f_equal.
    apply nth_ext with (d := 0%Qc) (d' := 0%Qc); [lia|]. intros p Lp. rewrite Ld, La in Lp.
    assert (Lp' : p < nby c * nbx c * nbt c) by (unfold L in Lp; lia).
    rewrite <- (place_back (nbt c) (nby c) (nbx c) p Lp'). set (j := place (nbt c) (nby c) (nbx c) p).
    assert (Lj : j < L) by (unfold j, L; pose proof (place_lt (nbt c) (nby c) (nbx c) p Lp'); lia).
    rewrite Hp by exact Lj. unfold row, row'. rewrite !Row; [|apply place_lt; exact Lj|exact Lj].
    rewrite Hd by auto. rewrite Hdg by (auto; apply place_lt; exact Lj). symmetry. unfold L in *. apply finish_places; [exact Raw|exact Lj].
Qed.
Print Assumptions C86_image_transpose.

(** a direction computed without trigonometry: how far around the diamond |x| + |y| = 1 *)
Definition diamond (gy gx : Qc) : Qc :=
  (Q2Qc (1 # 4) * if Qclt_le_dec gy 0 then (if Qclt_le_dec gx 0 then 1 + 1 + gy / (gx + gy) else 1 + 1 + 1 + gx / (gx - gy))
                  else (if Qclt_le_dec gx 0 then 1 + gx / (gx - gy) else gy / (gx + gy)))%Qc.
Lemma quarter_pos : (0 < Q2Qc (1 # 4))%Qc. Proof. reflexivity. Qed.
Lemma ratio_pos a b : (0 <= a)%Qc -> (0 <= b)%Qc -> (0 <= a / b)%Qc.
Proof.
  intros Ha Hb. destruct (Qcle_lt_or_eq _ _ Hb) as [P|<-].
  - unfold Qcdiv. apply Qcle_trans with (0 * / b)%Qc; [qc_lra|]. apply Qcmult_le_compat_r; [exact Ha|]. apply Qclt_le_weak. now apply Homker_Proofs.Qcinv_pos.
  - unfold Qcdiv. replace (/ 0)%Qc with 0%Qc by (now apply Qc_is_canon). qc_lra.
Qed.
Lemma ratio_neg a b : (a <= 0)%Qc -> (b <= 0)%Qc -> (0 <= a / b)%Qc.
Proof.
  intros Ha Hb. replace (a / b)%Qc with ((- a) / (- b))%Qc; [apply ratio_pos; qc_lra|].
  destruct (Qc_eq_dec b 0) as [->|N]; [unfold Qcdiv; replace (/ 0)%Qc with 0%Qc by (now apply Qc_is_canon); replace (/ - 0)%Qc with 0%Qc by (now apply Qc_is_canon); ring|].
  field. split; [exact N|]. intro E. apply N. rewrite <- (Qcopp_involutive b), E. ring.
Qed.
Lemma diamond_nonneg gy gx : (0 <= diamond gy gx)%Qc.
Proof.
  unfold diamond. assert (M : forall a, (0 <= a -> 0 <= Q2Qc (1 # 4) * a)%Qc).
  { intros a Ha. rewrite Qcmult_comm. rewrite <- (Qcmult_0_l (Q2Qc (1 # 4))). apply Qcmult_le_compat_r; [exact Ha|now apply Qclt_le_weak]. }
  apply M.
  destruct (Qclt_le_dec gy 0), (Qclt_le_dec gx 0).
  - assert (0 <= gy / (gx + gy))%Qc by (apply ratio_neg; qc_lra). qc_lra.
  - assert (0 <= gx / (gx - gy))%Qc by (apply ratio_pos; qc_lra). qc_lra.
  - assert (0 <= gx / (gx - gy))%Qc by (apply ratio_neg; qc_lra). qc_lra.
  - apply ratio_pos; qc_lra.
Qed.
Lemma diamond_reflecting : reflecting diamond.
Proof.
  intros gx gy NZ. unfold diamond. assert (Q4 : (Q2Qc (1 # 4) * (1 + 1 + 1 + 1) = 1)%Qc) by (now apply Qc_is_canon).
  set (q := Q2Qc (1 # 4)) in *.
  destruct (Qclt_le_dec gx 0), (Qclt_le_dec gy 0).
  - exists 1%Z. replace (zq 1) with (q * (1 + 1 + 1 + 1))%Qc by (now rewrite zq_1). field. repeat split; intro; qc_lra.
  - exists 1%Z. replace (zq 1) with (q * (1 + 1 + 1 + 1))%Qc by (now rewrite zq_1). field. repeat split; intro; qc_lra.
  - exists 1%Z. replace (zq 1) with (q * (1 + 1 + 1 + 1))%Qc by (now rewrite zq_1). field. repeat split; intro; qc_lra.
  - exists 0%Z. change (zq 0) with 0%Qc. field. assert ((0 < gx + gy)%Qc) by (destruct (Qcle_lt_or_eq _ _ q0); [qc_lra|]; destruct (Qcle_lt_or_eq _ _ q1); [qc_lra|]; exfalso; destruct NZ; congruence). repeat split; intro; qc_lra.
Qed.

(** an image of 5 x 4 pixels and its transpose, with a few settings *)
Definition ex_im : list Qc := map (fun z => zq z) (3 :: 1 :: 4 :: 1 :: 5 :: 9 :: 2 :: 6 :: 5 :: 3 :: 5 :: 8 :: 9 :: 7 :: 9 :: 3 :: 2 :: 3 :: 8 :: 4 :: nil)%Z.
Definition ex_im' : list Qc := map (fun i => nth (i / 4 + (i mod 4) * 5) ex_im 0%Qc) (seq 0 20).
Definition ex_exp (x : Qc) : Qc := (/ (1 - x))%Qc.
Definition ex_junk (i : nat) : Qc := nq (7 * i + 1).
Definition chain w h T X Y sx sy a b c d u v fl wi : option filter :=
  do f <- new_filter ex_junk w h; do f <- set_geometry f T X Y sx sy; do f <- set_bounds f a b c d; do f <- set_steps f u v; Some (set_window f fl wi).
Notation ex_filter fl := (chain 5 4 4 2 1 1 2 0 0 4 3 2 1 fl (1 + 1)%Qc).
Notation ex_filter' fl := (chain 4 5 4 1 2 2 1 0 0 3 4 1 2 fl (1 + 1)%Qc).
Definition ex_run (f : option filter) (im : list Qc) : option filter := do f <- f; process (fun x => x) ex_exp diamond (Q2Qc (1 # 100)) ex_junk f im.
Definition ex_row (f : option filter) (k : nat) : option (list Q) := option_map (fun f => map this (firstn 8 (skipn (k * 8) (descrs f)))) f.
Definition ex_frame (f : option filter) (k : nat) : option (Q * Q) := do f <- f; option_map (fun p => (this (fst (fst p)), this (snd (fst p)))) (nth_error (frames f) k).


Lemma chain_reachable w h T X Y sx sy a b c d u v fl wi f :
  chain w h T X Y sx sy a b c d u v fl wi = Some f ->
  reachable (fun x => x) ex_exp diamond (Q2Qc (1 # 100)) ex_junk f.
Proof.
  unfold chain. intro E. destruct (new_filter ex_junk w h) as [f1|] eqn:E1; cbn [obind] in E; [|congruence].
  destruct (set_geometry f1 T X Y sx sy) as [f2|] eqn:E2; cbn [obind] in E; [|congruence].
  destruct (set_bounds f2 a b c d) as [f3|] eqn:E3; cbn [obind] in E; [|congruence].
  destruct (set_steps f3 u v) as [f4|] eqn:E4; cbn [obind] in E; [|congruence]. assert (E5 : f = set_window f4 fl wi) by congruence. rewrite E5.
  apply reach_window. eapply reach_steps; [|exact E4]. eapply reach_bounds; [|exact E3]. eapply reach_geometry; [|exact E2]. eapply reach_new; exact E1.
Qed.
Lemma update_conf f f' : update_buffers f = Some f' -> conf f' = conf f.
Proof.
  unfold update_buffers. destruct (count_frames _ _ _ _ _); cbn [obind]; [|congruence]. destruct (count_frames _ _ _ _ _); cbn [obind]; [|congruence].
  intro E. assert (H : option_map conf (Some f') = Some (conf f)) by (rewrite <- E; reflexivity). cbn [option_map] in H. congruence.
Qed.
Lemma chain_conf w h T X Y sx sy a b c d u v fl wi f :
  chain w h T X Y sx sy a b c d u v fl wi = Some f ->
  conf f = mk_settings w h u v a b c d T X Y sx sy fl wi.
Proof.
  unfold chain. intro E. destruct (new_filter ex_junk w h) as [f1|] eqn:E1; cbn [obind] in E; [|congruence].
  destruct (set_geometry f1 T X Y sx sy) as [f2|] eqn:E2; cbn [obind] in E; [|congruence].
  destruct (set_bounds f2 a b c d) as [f3|] eqn:E3; cbn [obind] in E; [|congruence].
  destruct (set_steps f3 u v) as [f4|] eqn:E4; cbn [obind] in E; [|congruence]. assert (E5 : f = set_window f4 fl wi) by congruence. rewrite E5.
  apply update_conf in E1, E2, E3, E4. unfold set_window. rewrite E4. cbn [with_conf conf]. rewrite E3. cbn [with_conf conf]. rewrite E2. cbn [with_conf conf]. rewrite E1. reflexivity.
Qed.
Lemma ex_some fl : exists f, ex_filter fl = Some f /\ nframes f = 8%Z.
Proof.
  assert (C : option_map nframes (ex_filter fl) = Some 8%Z) by (destruct fl; vm_compute; reflexivity).
  destruct (ex_filter fl) as [f|]; cbn [option_map] in C; [|congruence]. exists f. split; [reflexivity|congruence].
Qed.
Lemma ex_some' fl : exists f, ex_filter' fl = Some f /\ nframes f = 8%Z.
Proof.
  assert (C : option_map nframes (ex_filter' fl) = Some 8%Z) by (destruct fl; vm_compute; reflexivity).
  destruct (ex_filter' fl) as [f|]; cbn [option_map] in C; [|congruence]. exists f. split; [reflexivity|congruence].
Qed.
(** both windows: the filters are reachable, their settings sane and each other's transposes *)
Example C38_ex_hypotheses fl : exists f g, ex_filter fl = Some f /\ ex_filter' fl = Some g /\ reachable (fun x => x) ex_exp diamond (Q2Qc (1 # 100)) ex_junk f /\
  reachable (fun x => x) ex_exp diamond (Q2Qc (1 # 100)) ex_junk g /\ sane (conf f) /\ conf g = flipped (conf f) /\ length ex_im = imw (conf f) * imh (conf f).
Proof.
  destruct (ex_some fl) as (f & E & _). destruct (ex_some' fl) as (g & E' & _). exists f, g. split; [exact E|]. split; [exact E'|].
  split; [exact (chain_reachable _ _ _ _ _ _ _ _ _ _ _ _ _ _ _ _ E)|]. split; [exact (chain_reachable _ _ _ _ _ _ _ _ _ _ _ _ _ _ _ _ E')|].
  pose proof (chain_conf _ _ _ _ _ _ _ _ _ _ _ _ _ _ _ _ E) as Cf. pose proof (chain_conf _ _ _ _ _ _ _ _ _ _ _ _ _ _ _ _ E') as Cg.
  rewrite Cf, Cg. split; [|split; reflexivity]. constructor; cbn [imw imh stepx stepy minx miny maxx maxy nbt nbx nby bsx bsy]; lia.
Qed.
Example C38_ex_run : option_map (fun f => (nframes f, length (frames f), length (descrs f))) (ex_run (ex_filter false) ex_im) = Some (8%Z, 8, 64) /\
  ex_frame (ex_run (ex_filter false) ex_im) 3 = Some (5 # 2, 1)%Q /\
  option_map (fun f => (nframes f, length (frames f), length (descrs f))) (ex_run (ex_filter true) ex_im) = Some (8%Z, 8, 64).
Proof. split; [|split]; vm_compute; reflexivity. Qed.
Example C86_ex_run : ex_row (ex_run (ex_filter false) ex_im) 3 = Some (
  (8627332453421840834940000 # 11234147414433616611276001) :: (19628078410072625405220000 # 11234147414433616611276001) ::
  (820186091828576668800000 # 11234147414433616611276001) :: (2460558275485730006400000 # 11234147414433616611276001) ::
  (2369426487504777043200000 # 11234147414433616611276001) :: (42207687603378364906080000 # 11234147414433616611276001) ::
  (10149802886378636276400000 # 11234147414433616611276001) :: 0%Q :: nil) /\
  ex_row (ex_run (ex_filter' false) ex_im') 5 = Some (
  (19628078410072625405220000 # 11234147414433616611276001) :: (8627332453421840834940000 # 11234147414433616611276001) ::
  (2460558275485730006400000 # 11234147414433616611276001) :: (820186091828576668800000 # 11234147414433616611276001) ::
  (42207687603378364906080000 # 11234147414433616611276001) :: (2369426487504777043200000 # 11234147414433616611276001) ::
  0%Q :: (10149802886378636276400000 # 11234147414433616611276001) :: nil).
Proof. split; vm_compute; reflexivity. Qed.

(** with six orientations the promise fails: four does not divide six *)
Notation six_filter := (chain 2 2 6 1 1 1 1 0 0 1 1 1 1 false (1 + 1)%Qc).
Definition six_im : list Qc := (0 :: 1 :: 0 :: 1 :: nil)%Qc.
Definition six_im' : list Qc := (0 :: 0 :: 1 :: 1 :: nil)%Qc.
Definition descr0 (f : option filter) : option (list Qc) := option_map (fun f => firstn 6 (descrs f)) f.
Theorem C87_six_orientations_refuted : exists d d' e, six_im' = map (fun i => nth (i / 2 + (i mod 2) * 2) six_im 0%Qc) (seq 0 4) /\
  descr0 (ex_run six_filter six_im) = Some d /\ descr0 (ex_run six_filter six_im') = Some d' /\
  transpose_descriptor d d 6 1 1 = Some e /\ map this e <> map this d'.
Proof.
  assert (X : match descr0 (ex_run six_filter six_im), descr0 (ex_run six_filter six_im') with
    | Some d, Some d' => match transpose_descriptor d d 6 1 1 with Some e => negb (Qeq_bool (nth 1 (map this e) 0%Q) (nth 1 (map this d') 0%Q)) | None => false end | _, _ => false end = true) by (vm_compute; reflexivity).
  destruct (descr0 (ex_run six_filter six_im)) as [d|]; [|congruence].
  destruct (descr0 (ex_run six_filter six_im')) as [d'|]; [|congruence].
  destruct (transpose_descriptor d d 6 1 1) as [e|] eqn:T; [|congruence].
  exists d, d', e. split; [reflexivity|]. split; [reflexivity|]. split; [reflexivity|]. split; [exact T|].
  intro Q. rewrite Q in X. rewrite (proj2 (Qeq_bool_iff _ _)) in X by apply Qeq_refl. discriminate.
Qed.
Print Assumptions C87_six_orientations_refuted.

(** *** C88: an image one pixel wide.  vl_dsift_new accepts it, but the gradient at its last
    pixel reads past the image, dsift.c:709-722. *)
Lemma iter_from_stops {S} (body : nat -> S -> option S) : forall n i k s, i <= k < i + n -> (forall s, body k s = None) -> iter_from n i body s = None.
Proof.
  induction n as [|n IH]; intros i k s L H; [lia|]. cbn [iter_from]. destruct (Nat.eq_dec i k) as [->|N]; [now rewrite H|].
  destruct (body i s); cbn [obind]; [|reflexivity]. apply (IH (i + 1)) with (k := k); [lia|exact H].
Qed.
Theorem C88_thin_image_refuted sqrt_ exp_ turn eps junk f im : imw (conf f) = 1 -> 0 < imh (conf f) -> length im = imh (conf f) ->
  process sqrt_ exp_ turn eps junk f im = None.
Proof.
  intros Hw Hh L. unfold process. destruct (alloc_buffers junk f) as [f1|] eqn:E; [|reflexivity]. cbn [obind].
  assert (Ec : conf f1 = conf f).
  { unfold alloc_buffers in E. destruct (update_buffers f) as [f0|] eqn:U; [|discriminate]. cbn [obind] in E.
    assert (U0 : conf f0 = conf f). { unfold update_buffers in U. destruct (count_frames _ _ _ _ _) in U; [|discriminate]. cbn [obind] in U. destruct (count_frames _ _ _ _ _) in U; [|discriminate]. cbn [obind] in U. now injection U as <-. }
    rewrite <- U0. match goal with H : (if ?b then _ else _) = Some _ |- _ => destruct b; injection H as <-; reflexivity end. }
  rewrite Ec. destruct (clear_grads (conf f) (grads f1)) as [g|]; [|reflexivity]. cbn [obind].
  assert (G : gradients sqrt_ turn (conf f) im g = None); [|now rewrite G].
  unfold gradients, iter. apply iter_from_stops with (k := imh (conf f) - 1); [lia|]. intro s. rewrite Hw. cbn [iter_from].
  assert (R : forall y, grad_pixel sqrt_ turn (conf f) im (imh (conf f) - 1) 0 y = None); [|now rewrite R].
  intro y. unfold grad_pixel.
  assert (P : pixel_at im (imw (conf f)) (Z.of_nat 0 + 1) (Z.of_nat (imh (conf f) - 1)) = None).
  { unfold pixel_at, zget. rewrite Hw. destruct (Z.ltb_spec (Z.of_nat (imh (conf f) - 1) * Z.of_nat 1 + (Z.of_nat 0 + 1)) 0); [reflexivity|].
    unfold aget. apply nth_error_None. lia. }
  match goal with |- obind ?m _ = None => destruct m; [|reflexivity] end. cbn [obind Nat.eqb]. rewrite P. reflexivity.
Qed.
Print Assumptions C88_thin_image_refuted.

(** such a filter, for which vl_dsift_new promised three frames *)
Definition thin (w h : nat) : option filter :=
  do f <- new_filter ex_junk w h; do f <- set_geometry f 4 1 1 1 1; set_steps f 1 1.
Example C88_ex : option_map nframes (thin 1 3) = Some 3%Z /\ ex_run (thin 1 3) (1 :: 1 :: 1 :: nil)%Qc = None /\ option_map nframes (ex_run (thin 2 3) (1 :: 1 :: 1 :: 1 :: 1 :: 1 :: nil)%Qc) = Some 6%Z.
Proof. split; [|split]; vm_compute; reflexivity. Qed.
