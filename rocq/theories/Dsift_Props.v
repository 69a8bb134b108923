(** Properties of dense SIFT (vl/dsift.c, vl/dsift.h): the grid of frames. *)
From Coq Require Import List Arith ZArith Lia Bool QArith Qcanon Qcabs.
From Verif Require Import Base Loop MserSort_Proofs ImOp_Spec ImOp_Model ImOp_Proofs Rat Gauss_Model Gauss_Proofs Dsift_Model Dsift_Spec Dsift_Proofs DsiftWindow_Proofs DsiftRun_Proofs.
Local Open Scope nat_scope.

(** settings for which dense SIFT is defined: an image of two pixels or more in each direction,
    bounds in the image, steps and geometry positive *)
Record sane (c : settings) : Prop := {
  sane_w : 2 <= imw c; sane_h : 2 <= imh c; sane_sx : (0 < stepx c)%Z; sane_sy : (0 < stepy c)%Z;
  sane_x : (0 <= minx c)%Z /\ (maxx c < Z.of_nat (imw c))%Z; sane_y : (0 <= miny c)%Z /\ (maxy c < Z.of_nat (imh c))%Z;
  sane_t : 0 < nbt c; sane_nx : 0 < nbx c; sane_ny : 0 < nby c; sane_bx : 0 < bsx c; sane_by : 0 < bsy c }.

Section Props.
Variables (sqrt_ exp_ : Qc -> Qc) (turn : Qc -> Qc -> Qc) (eps : Qc) (junk : nat -> Qc).
Notation process := (process sqrt_ exp_ turn eps junk).

(** filters got from vl_dsift_new by setting parameters and processing images *)
Inductive reachable : filter -> Prop :=
| reach_new w h f : new_filter junk w h = Some f -> reachable f
| reach_steps f sx sy f' : reachable f -> set_steps f sx sy = Some f' -> reachable f'
| reach_bounds f a b d e f' : reachable f -> set_bounds f a b d e = Some f' -> reachable f'
| reach_geometry f T X Y sx sy f' : reachable f -> set_geometry f T X Y sx sy = Some f' -> reachable f'
| reach_window f fl wi : reachable f -> reachable (set_window f fl wi)
| reach_process f im f' : reachable f -> sane (conf f) -> length im = imw (conf f) * imh (conf f) -> process f im = Some f' -> reachable f'.

(** buffers agree with the numbers recorded for them *)
Record ok (f : filter) : Prop := {
  ok_t1 : length (tmp1 f) = imw (conf f) * imh (conf f); ok_t2 : length (tmp2 f) = imw (conf f) * imh (conf f);
  ok_fr : Z.of_nat (length (frames f)) = framealloc f;
  ok_de : Z.of_nat (length (descrs f)) = (binalloc f * framealloc f)%Z;
  ok_gr : Z.of_nat (length (grads f)) = gradalloc f;
  ok_gl : forall p, In p (grads f) -> length p = imw (conf f) * imh (conf f);
  ok_n : exists x y, count_frames (minx (conf f)) (maxx (conf f)) (stepx (conf f)) (nbx (conf f)) (bsx (conf f)) = Some x /\
    count_frames (miny (conf f)) (maxy (conf f)) (stepy (conf f)) (nby (conf f)) (bsy (conf f)) = Some y /\ nframes f = (x * y)%Z;
  ok_d : dsize f = (Z.of_nat (nbt (conf f)) * Z.of_nat (nbx (conf f)) * Z.of_nat (nby (conf f)))%Z }.

Lemma update_ok f f' : length (tmp1 f) = imw (conf f) * imh (conf f) -> length (tmp2 f) = imw (conf f) * imh (conf f) ->
  Z.of_nat (length (frames f)) = framealloc f -> Z.of_nat (length (descrs f)) = (binalloc f * framealloc f)%Z -> Z.of_nat (length (grads f)) = gradalloc f ->
  (forall p, In p (grads f) -> length p = imw (conf f) * imh (conf f)) -> update_buffers f = Some f' -> ok f'.
Proof.
  intros H1 H2 H3 H4 H5 H6 E. unfold update_buffers in E.
  destruct (count_frames _ _ _ _ _) as [x|] eqn:Ex; cbn [obind] in E; [|discriminate].
  destruct (count_frames _ _ _ _ _) as [y|] eqn:Ey in E; cbn [obind] in E; [|discriminate]. injection E as <-.
  constructor; auto. cbn [conf]. exists x, y. auto.
Qed.

Lemma alloc_ok f : ok f -> sane (conf f) -> exists f', alloc_buffers junk f = Some f' /\ conf f' = conf f /\ nframes f' = nframes f /\
  nframes f' = Z.of_nat (nx (conf f) * ny (conf f)) /\ dsize f' = Z.of_nat (D (conf f)) /\
  length (tmp1 f') = imw (conf f) * imh (conf f) /\ length (tmp2 f') = imw (conf f) * imh (conf f) /\
  length (frames f') = nx (conf f) * ny (conf f) /\ length (descrs f') = nx (conf f) * ny (conf f) * D (conf f) /\ all_sized (conf f) (grads f') /\
  framealloc f' = nframes f' /\ binalloc f' = dsize f' /\ gradalloc f' = Z.of_nat (nbt (conf f)).
Proof.
  intros O S. unfold alloc_buffers, update_buffers. set (c := conf f) in *.
  rewrite (count_frames_ok _ _ _ _ _ (sane_sx c S)), (count_frames_ok _ _ _ _ _ (sane_sy c S)). cbn [obind].
  fold (nx c) (ny c).
  assert (En : nframes f = (Z.of_nat (nx c) * Z.of_nat (ny c))%Z).
  { destruct (ok_n f O) as (x & y & Ex & Ey & ->). fold c in Ex, Ey. rewrite (count_frames_ok _ _ _ _ _ (sane_sx c S)) in Ex. rewrite (count_frames_ok _ _ _ _ _ (sane_sy c S)) in Ey.
    injection Ex as <-. injection Ey as <-. reflexivity. }
  assert (ED : (Z.of_nat (nbt c) * Z.of_nat (nbx c) * Z.of_nat (nby c))%Z = Z.of_nat (D c)) by (unfold D; lia).
  cbn [conf nframes dsize binalloc gradalloc framealloc tmp1 tmp2 frames descrs grads]. rewrite ED.
  destruct (negb _ || negb _ || negb _) eqn:B.
  - eexists; split; [reflexivity|]. cbn [conf nframes dsize binalloc gradalloc framealloc tmp1 tmp2 frames descrs grads].
    split; [reflexivity|]. split; [now rewrite En|]. split; [lia|]. split; [reflexivity|]. split; [apply O|]. split; [apply O|].
    split; [rewrite map_length, seq_length; lia|]. split; [unfold fresh; rewrite map_length, seq_length; lia|]. split.
    + split; [apply repeat_length|]. intros t Lt. assert (X : t < length (repeat (fresh junk (imw c * imh c)) (nbt c))) by (now rewrite repeat_length).
      rewrite (repeat_spec _ _ _ (nth_In _ nil X)). unfold fresh. now rewrite map_length, seq_length.
    + auto.
  - apply orb_false_iff in B as [B B3]. apply orb_false_iff in B as [B1 B2]. apply negb_false_iff in B1, B2, B3. apply Z.eqb_eq in B1, B2, B3.
    eexists; split; [reflexivity|]. cbn [conf nframes dsize binalloc gradalloc framealloc tmp1 tmp2 frames descrs grads].
    split; [reflexivity|]. split; [now rewrite En|]. split; [lia|]. split; [reflexivity|]. split; [apply O|]. split; [apply O|].
    pose proof (ok_fr f O). pose proof (ok_de f O). pose proof (ok_gr f O). split; [lia|]. split; [rewrite <- B1, <- B3 in *; lia|]. split; [|auto].
    split; [lia|]. intros t Lt. apply (ok_gl f O). apply nth_In. lia.
Qed.

(** *** The whole process *)
Theorem process_ok f im : (forall gy gx, (0 <= turn gy gx)%Qc) -> ok f -> sane (conf f) -> length im = imw (conf f) * imh (conf f) ->
  let c := conf f in
  exists f' NX NY, process f im = Some f' /\ ok f' /\ conf f' = c /\
    fits (minx c) (maxx c) (stepx c) (nbx c) (bsx c) NX /\ fits (miny c) (maxy c) (stepy c) (nby c) (bsy c) NY /\
    nframes f = Z.of_nat (NX * NY) /\ nframes f' = Z.of_nat (NX * NY) /\ dsize f' = Z.of_nat (D c) /\
    length (frames f') = NX * NY /\ length (descrs f') = NX * NY * D c /\
    (forall ky kx, ky < NY -> kx < NX -> nth_error (frames f') (ky * NX + kx) =
       Some (center_x c kx, center_y c ky, mass c (raw sqrt_ exp_ turn c (img im (imw c)) (px c kx) (py c ky)))) /\
    (forall ky kx j, ky < NY -> kx < NX -> j < D c ->
       nth ((ky * NX + kx) * D c + j) (descrs f') 0%Qc = finish sqrt_ eps (D c) (raw sqrt_ exp_ turn c (img im (imw c)) (px c kx) (py c ky)) j).
Proof.
  intros Ht O S Lim c. destruct (alloc_ok f O S) as (f0 & E0 & Ec & En0 & En & Ed & L1 & L2 & Lf & Ld & Sg & A1 & A2 & A3). fold c in Ec, En, Ed, L1, L2, Lf, Ld, Sg, A3.
  unfold Dsift_Model.process. rewrite E0. cbn [obind]. rewrite Ec.
  destruct (clear_ok c im Lim (sane_w c S) (sane_h c S) (sane_t c S) (grads f0) Sg) as (g0 & Eg0 & Sg0 & Hz). rewrite Eg0. cbn [obind].
  destruct (gradients_ok sqrt_ turn c im Lim (sane_w c S) (sane_h c S) (sane_t c S) Ht g0 Sg0 Hz) as (g & Eg & Sgg & Hg). rewrite Eg. cbn [obind]. rewrite Ed.
  assert (HD : D c <> 0) by (unfold D; pose proof (sane_t c S); pose proof (sane_nx c S); pose proof (sane_ny c S); nia).
  set (I := img im (imw c)) in *.
  assert (G0 : good sqrt_ exp_ turn c I (fun _ => False) (tmp1 f0, tmp2 f0, descrs f0)) by (split; [exact L1|split; [exact L2|split; [exact Ld|intros q _ []]]]).
  assert (W : exists t1 t2 d, (if flat c then flat_window exp_ junk c (Z.of_nat (D c)) g (tmp1 f0, tmp2 f0, descrs f0) else gaussian_window exp_ c (Z.of_nat (D c)) g (tmp1 f0, tmp2 f0, descrs f0)) = Some (t1, t2, d) /\
    good sqrt_ exp_ turn c I (fun _ => True) (t1, t2, d)).
  { destruct S. destruct (flat c) eqn:Ef.
    - destruct (flat_ok sqrt_ exp_ turn junk c) with (I := I) (g := g) (s := (tmp1 f0, tmp2 f0, descrs f0)) as ([[t1 t2] d] & E & G); auto. exists t1, t2, d. auto.
    - destruct (gaussian_ok sqrt_ exp_ turn c) with (I := I) (g := g) (s := (tmp1 f0, tmp2 f0, descrs f0)) as ([[t1 t2] d] & E & G); auto. exists t1, t2, d. auto. }
  destruct W as (t1 & t2 & d & Ew & (W1 & W2 & (W3 & W4))). rewrite Ew. cbn [obind].
  destruct (frames_ok sqrt_ eps c (sane_w c S) (sane_h c S) (sane_sx c S) (sane_sy c S) (sane_t c S) (sane_nx c S) (sane_ny c S) (sane_bx c S) (sane_by c S) (frames f0) d HD Lf W3) as (k & o & fr' & d' & E & Lf' & Ld' & Hf & Hd). rewrite E. cbn [obind].
  assert (Row : forall ky kx j, ky < ny c -> kx < nx c -> j < D c -> nth ((ky * nx c + kx) * D c + j) d 0%Qc = raw sqrt_ exp_ turn c I (px c kx) (py c ky) j).
  { intros ky kx j Ly Lx Lj. assert (Lk : ky * nx c + kx < nx c * ny c) by nia. rewrite W4; [|nia|exact Logic.I]. unfold F.
    assert (Q1 : ((ky * nx c + kx) * D c + j) mod D c = j) by (rewrite Nat.add_comm, Nat.mod_add by exact HD; now apply Nat.mod_small).
    assert (Q2 : ((ky * nx c + kx) * D c + j) / D c = ky * nx c + kx) by (rewrite Nat.div_add_l by exact HD; rewrite Nat.div_small by exact Lj; lia).
    rewrite Q1, Q2. replace ((ky * nx c + kx) mod nx c) with kx by (rewrite Nat.add_comm, Nat.mod_add by lia; symmetry; now apply Nat.mod_small).
    replace ((ky * nx c + kx) / nx c) with ky by (rewrite Nat.div_add_l by lia; rewrite Nat.div_small by exact Lx; lia). reflexivity. }
  eexists _, (nx c), (ny c). split; [reflexivity|]. cbn [conf nframes dsize frames descrs]. split; [|split; [reflexivity|split; [apply nfit_fits, S|split; [apply nfit_fits, S|split; [lia|split; [exact En|split; [reflexivity|split; [exact Lf'|split; [exact Ld'|split]]]]]]]]].
  - constructor; cbn [conf nframes dsize frames descrs tmp1 tmp2 binalloc framealloc gradalloc grads]; rewrite ?A1, ?A2, ?A3, ?Ed, ?En; auto; try lia.
    + destruct Sgg as [Lg _]. lia.
    + intros p Ip. destruct (In_nth _ _ nil Ip) as (t & Lt & <-). apply Sgg. destruct Sgg as [Lg _]. lia.
    + exists (Z.of_nat (nx c)), (Z.of_nat (ny c)). split; [apply count_frames_ok, S|]. split; [apply count_frames_ok, S|]. lia.
    + unfold D. lia.
  - intros ky kx Ly Lx. rewrite Hf by auto. do 2 f_equal. unfold mass. f_equal. apply qsum_ext. intros j Lj. now apply Row.
  - intros ky kx j Ly Lx Lj. rewrite Hd by (auto; nia). apply finish_ext; [exact Lj|]. intros i Li. now apply Row.
Qed.

Lemma reachable_ok f : (forall gy gx, (0 <= turn gy gx)%Qc) -> reachable f -> ok f.
Proof.
  intros Ht. induction 1 as [w h f E|f sx sy f' R IH E|f a b d e f' R IH E|f T X Y sx sy f' R IH E|f fl wi R IH|f im f' R IH S L E].
  - apply (update_ok _ _) in E; auto; cbn [tmp1 tmp2 conf imw imh frames descrs grads]; unfold fresh; rewrite ?map_length, ?seq_length; auto. intros p [].
  - apply (update_ok _ _) in E; auto; apply IH.
  - apply (update_ok _ _) in E; auto; apply IH.
  - apply (update_ok _ _) in E; auto; apply IH.
  - destruct IH. constructor; auto.
  - destruct (process_ok f im Ht IH S L) as (f2 & NX & NY & E2 & O2 & _). congruence.
Qed.
End Props.

(** *** C38: the grid of frames.  Whatever the history of the filter, vl_dsift_process stays in
    its buffers, the number of keypoints, known before, is the number of frames computed, every
    bin is in the bounding box, and the descriptors only depend on the settings and the image. *)
Theorem C38_grid sqrt_ exp_ turn eps junk f im : (forall gy gx, (0 <= turn gy gx)%Qc) ->
  reachable sqrt_ exp_ turn eps junk f -> sane (conf f) -> length im = imw (conf f) * imh (conf f) ->
  let c := conf f in
  exists f' NX NY, process sqrt_ exp_ turn eps junk f im = Some f' /\ conf f' = c /\
    fits (minx c) (maxx c) (stepx c) (nbx c) (bsx c) NX /\ fits (miny c) (maxy c) (stepy c) (nby c) (bsy c) NY /\
    nframes f = Z.of_nat (NX * NY) /\ nframes f' = Z.of_nat (NX * NY) /\ dsize f' = Z.of_nat (nbx c * nby c * nbt c) /\
    length (frames f') = NX * NY /\ length (descrs f') = NX * NY * (nbx c * nby c * nbt c) /\
    (forall ky kx, ky < NY -> kx < NX ->
       exists cx cy, (Z.of_nat cx = minx c + Z.of_nat kx * stepx c)%Z /\ (Z.of_nat cy = miny c + Z.of_nat ky * stepy c)%Z /\
       (forall b, b < nbx c -> (minx c <= Z.of_nat (cx + b * bsx c) <= maxx c)%Z) /\ (forall b, b < nby c -> (miny c <= Z.of_nat (cy + b * bsy c) <= maxy c)%Z) /\
       let r := raw sqrt_ exp_ turn c (img im (imw c)) cx cy in
       nth_error (frames f') (ky * NX + kx) = Some ((nq cx + half * nq (bsx c) * (nq (nbx c) - 1))%Qc, (nq cy + half * nq (bsy c) * (nq (nby c) - 1))%Qc, mean_energy c r) /\
       forall j, j < nbx c * nby c * nbt c -> nth ((ky * NX + kx) * (nbx c * nby c * nbt c) + j) (descrs f') 0%Qc = finish sqrt_ eps (nbx c * nby c * nbt c) r j).
Proof.
  intros Ht R S L c. pose proof (reachable_ok _ _ _ _ _ f Ht R) as O.
  destruct (process_ok sqrt_ exp_ turn eps junk f im Ht O S L) as (f' & NX & NY & E & _ & Ec & Fx & Fy & En & En' & Ed & Lf & Ld & Hf & Hd).
  exists f', NX, NY. repeat (split; [assumption|]). intros ky kx Ly Lx. exists (px c kx), (py c ky).
  destruct S as [S1 S2 S3 S4 S5 S6 S7 S8 S9 S10 S11]. fold c in S1, S2, S3, S4, S5, S6, S7, S8, S9, S10, S11, Fx, Fy, Hf, Hd, En, En', Ed, Lf, Ld.
  assert (Ex : Z.of_nat (px c kx) = (minx c + Z.of_nat kx * stepx c)%Z) by (unfold px; nia).
  assert (Ey : Z.of_nat (py c ky) = (miny c + Z.of_nat ky * stepy c)%Z) by (unfold py; nia).
  split; [exact Ex|]. split; [exact Ey|]. split; [|split; [|split]].
  - intros b Lb. apply Fx in Lx. nia.
  - intros b Lb. apply Fy in Ly. nia.
  - rewrite Hf by auto. unfold center_x, center_y. assert (Nx : nq (px c kx) = zq (minx c + Z.of_nat kx * stepx c)) by (unfold nq; now rewrite Ex).
    assert (Ny : nq (py c ky) = zq (miny c + Z.of_nat ky * stepy c)) by (unfold nq; now rewrite Ey). rewrite Nx, Ny. do 2 f_equal. unfold mass, mean_energy, D. f_equal. unfold nq, frame_size. f_equal. nia.
  - intros j Lj. now apply Hd.
Qed.
Print Assumptions C38_grid.

(** C38.  A new filter covers the whole image, with the documented geometry, and can be processed. *)
Theorem C38_new junk w h : 2 <= w -> 2 <= h -> exists f, new_filter junk w h = Some f /\ sane (conf f) /\
  let c := conf f in imw c = w /\ imh c = h /\ (minx c = 0 /\ maxx c = Z.of_nat w - 1 /\ miny c = 0 /\ maxy c = Z.of_nat h - 1)%Z /\
  stepx c = 5%Z /\ stepy c = 5%Z /\ nbt c = 8 /\ nbx c = 4 /\ nby c = 4 /\ bsx c = 5 /\ bsy c = 5 /\ flat c = false /\ window c = zq 2.
Proof.
  intros W H. unfold new_filter, update_buffers. cbn [conf minx maxx stepx nbx bsx miny maxy stepy nby bsy nbt].
  assert (X : forall n, exists k, count_frames 0 n 5 4 5 = Some k) by (intro n; unfold count_frames; destruct (0 <=? _)%Z; eexists; reflexivity).
  destruct (X (Z.of_nat w - 1)%Z) as (a & ->). destruct (X (Z.of_nat h - 1)%Z) as (b & ->). cbn [obind]. eexists. split; [reflexivity|]. cbn [conf].
  split; [constructor; cbn; lia|]. cbn. repeat split.
Qed.
Print Assumptions C38_new.
