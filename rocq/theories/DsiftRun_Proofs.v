From Coq Require Import List Arith ZArith Lia Bool QArith Qcanon Qcabs.
From Verif Require Import Base Loop MserSort_Proofs ImOp_Spec ImOp_Model ImOp_Proofs Rat Gauss_Model Gauss_Proofs Dsift_Model Dsift_Spec Dsift_Proofs DsiftWindow_Proofs.
Local Open Scope nat_scope.

Section Run.
Variables (sqrt_ exp_ : Qc -> Qc) (turn : Qc -> Qc -> Qc) (eps : Qc) (junk : nat -> Qc).
Variable c : settings.
Notation w := (imw c).
Notation h := (imh c).
Notation T := (nbt c).
Notation X := (nbx c).
Notation Y := (nby c).
Notation nx := (nx c).
Notation ny := (ny c).
Notation px := (px c).
Notation py := (py c).
Notation D := (D c).
Hypothesis Hw : 2 <= w.
Hypothesis Hh : 2 <= h.
Hypothesis stepx_pos : (0 < stepx c)%Z.
Hypothesis stepy_pos : (0 < stepy c)%Z.
Hypothesis in_x : (0 <= minx c)%Z /\ (maxx c < Z.of_nat w)%Z.
Hypothesis in_y : (0 <= miny c)%Z /\ (maxy c < Z.of_nat h)%Z.
Hypothesis HT : 0 < T.
Hypothesis HX : 0 < X.
Hypothesis HY : 0 < Y.
Hypothesis Hbx : 0 < bsx c.
Hypothesis Hby : 0 < bsy c.

Section Windows.
Variable I : nat -> nat -> Qc.
Variable g : list (list Qc).
Hypothesis Sg : all_sized c g.
Hypothesis Hg : forall t x y, t < T -> x < w -> y < h -> gent c g t x y = energy sqrt_ turn w h T I t x y.
Definition F (j k : nat) : Qc := raw sqrt_ exp_ turn c I (px (k mod nx)) (py (k / nx)) j.

Lemma sample_ready p bint binx biny v src d : ready c F p d -> bint < T -> binx < X -> biny < Y -> length src = w * h ->
  (forall x y, x < w -> y < h -> (v * img src w x y)%Qc = response sqrt_ exp_ turn c I bint binx biny x y) ->
  exists d', sample c (Z.of_nat D) bint binx biny v src d = Some d' /\ ready c F (fun j => p j \/ (j / T / X = biny /\ j / T mod X = binx /\ j mod T = bint)) d'.
Proof.
  intros [Ld R] Lt Lx Ly Ls Hr.
  destruct (sample_ok c stepx_pos stepy_pos in_x in_y HT HX HY bint binx biny v src d Lt Lx Ly Ls Ld) as (d' & E & Ld' & H).
  exists d'. split; [exact E|]. split; [exact Ld'|]. intros q Lq P. rewrite H by exact Lq.
  destruct (base_split T X Y bint binx biny Lt Lx Ly) as (B1 & B2 & B3). fold (base c bint binx biny) in B1, B2, B3.
  destruct (Nat.eqb_spec (q mod D) (base c bint binx biny)) as [Eq|Nq].
  - assert (Q : q / D < nx * ny) by (apply Nat.div_lt_upper_bound; [intro Z; rewrite Z in Lq; lia|lia]).
    assert (Z : nx <> 0) by lia. assert (Kx : q / D mod nx < nx) by (now apply Nat.mod_upper_bound). assert (Ky : q / D / nx < ny) by (apply Nat.div_lt_upper_bound; lia).
    rewrite Hr.
    + unfold F, raw. rewrite Eq, B1, B2, B3. reflexivity.
    + now apply (px_ok c stepx_pos in_x HT HX HY).
    + now apply (py_ok c stepy_pos in_y HT HX HY).
  - apply R; [exact Lq|]. destruct P as [P|(P1 & P2 & P3)]; [exact P|]. destruct Nq. unfold base. rewrite <- P1, <- P2, <- P3.
    set (j := q mod D). pose proof (Nat.div_mod j T ltac:(lia)). pose proof (Nat.div_mod (j / T) X ltac:(lia)). nia.
Qed.

Lemma gr_ok t : t < T -> aget g t = Some (nth t g nil) /\ length (nth t g nil) = w * h /\ forall x y, x < w -> y < h -> img (nth t g nil) w x y = energy sqrt_ turn w h T I t x y.
Proof.
  intro L. destruct Sg as [Lg Ss]. split; [apply aget_nth; lia|]. split; [now apply Ss|]. intros x y Lx Ly. now apply (Hg t).
Qed.

Definition good (p : nat -> Prop) (s : list Qc * list Qc * list Qc) : Prop :=
  let '(t1, t2, d) := s in length t1 = w * h /\ length t2 = w * h /\ ready c F p d.

Lemma gaussian_ok s : flat c = false -> good (fun _ => False) s ->
  exists s', gaussian_window exp_ c (Z.of_nat D) g s = Some s' /\ good (fun _ => True) s'.
Proof.
  intros Hf Gs. unfold gaussian_window.
  match goal with |- context [iter Y ?b s] => destruct (iter_inv (fun k s => good (fun j => j / T / X < k) s) b Y s) as (s' & E & G) end.
  - destruct s as [[t1 t2] d]. destruct Gs as (L1 & L2 & R). split; [exact L1|]. split; [exact L2|]. revert R. apply ready_weaken. intros; lia.
  - intros biny s1 Ly G1. rewrite new_kernel_ok. cbn [obind].
    match goal with |- context [iter X ?b s1] => destruct (iter_inv (fun k s => good (fun j => j / T / X < biny \/ (j / T / X = biny /\ j / T mod X < k)) s) b X s1) as (s' & E & G) end.
    + destruct s1 as [[t1 t2] d]. destruct G1 as (L1 & L2 & R). split; [exact L1|]. split; [exact L2|]. revert R. apply ready_weaken. intros; lia.
    + intros binx s2 Lx G2. rewrite new_kernel_ok. cbn [obind].
      match goal with |- context [iter T ?b s2] => destruct (iter_inv (fun k s => good (fun j => j / T / X < biny \/ (j / T / X = biny /\ j / T mod X < binx) \/ (j / T / X = biny /\ j / T mod X = binx /\ j mod T < k)) s) b T s2) as (s' & E & G) end.
      * destruct s2 as [[t1 t2] d]. destruct G2 as (L1 & L2 & R). split; [exact L1|]. split; [exact L2|]. revert R. apply ready_weaken. intros; lia.
      * intros bint [[t1 t2] d] Lt (L1 & L2 & R). destruct (gr_ok bint Lt) as (E0 & Lr & Hr). rewrite E0. cbn [obind].
        destruct (two_convs w h ltac:(lia) ltac:(lia) exp_ (nth bint g nil) t1 t2 (bsx c) X binx (bsy c) Y biny (window c) Lr L1 L2 Hbx Hby) as (u1 & u2 & U1 & U2 & M1 & M2 & V).
        rewrite U1. cbn [obind]. rewrite U2. cbn [obind].
        destruct (sample_ready _ bint binx biny 1%Qc u2 d R Lt Lx Ly M2) as (d' & Ed & Rd).
        { intros x y Bx By. rewrite Qcmult_1_l, V by auto. unfold response. rewrite Hf. apply filtered_ext; [lia|]. intros a La. apply filtered_ext; [lia|]. intros b Lb. now apply Hr. }
        rewrite Ed. cbn [obind]. eexists; split; [reflexivity|]. split; [exact M1|]. split; [exact M2|]. revert Rd. apply ready_weaken. intros; lia.
      * exists s'. split; [exact E|]. destruct s' as [[t1 t2] d]. destruct G as (L1 & L2 & R). split; [exact L1|]. split; [exact L2|]. revert R. apply ready_weaken.
        intros j Lj. pose proof (Nat.mod_upper_bound j T ltac:(lia)). lia.
    + exists s'. split; [exact E|]. destruct s' as [[t1 t2] d]. destruct G as (L1 & L2 & R). split; [exact L1|]. split; [exact L2|]. revert R. apply ready_weaken.
      intros j Lj. pose proof (Nat.mod_upper_bound (j / T) X ltac:(lia)). lia.
  - exists s'. split; [exact E|]. destruct s' as [[t1 t2] d]. destruct G as (L1 & L2 & R). split; [exact L1|]. split; [exact L2|]. revert R. apply ready_weaken.
    intros j Lj _. apply Nat.div_lt_upper_bound; [lia|]. apply Nat.div_lt_upper_bound; [lia|]. unfold DsiftWindow_Proofs.D in Lj. lia.
Qed.

Lemma flat_ok s : flat c = true -> good (fun _ => False) s ->
  exists s', flat_window exp_ junk c (Z.of_nat D) g s = Some s' /\ good (fun _ => True) s'.
Proof.
  intros Hf Gs. unfold flat_window.
  match goal with |- context [iter T ?b s] => destruct (iter_inv (fun k s => good (fun j => j mod T < k) s) b T s) as (s' & E & G) end.
  - destruct s as [[t1 t2] d]. destruct Gs as (L1 & L2 & R). split; [exact L1|]. split; [exact L2|]. revert R. apply ready_weaken. intros; lia.
  - intros bint [[t1 t2] d] Lt (L1 & L2 & R). destruct (gr_ok bint Lt) as (E0 & Lr & Hr). rewrite E0. cbn [obind].
    destruct (two_tris w h ltac:(lia) ltac:(lia) c junk (nth bint g nil) t1 t2 (bsx c) (bsy c) Lr L1 L2 Hbx Hby) as (u1 & u2 & U1 & U2 & M1 & M2 & V).
    rewrite U1. cbn [obind]. rewrite U2. cbn [obind].
    match goal with |- context [iter Y ?b d] => destruct (iter_inv (fun k d => ready c F (fun j => j mod T < bint \/ (j mod T = bint /\ j / T / X < k)) d) b Y d) as (d' & E & G) end.
    + revert R. apply ready_weaken. intros; lia.
    + intros biny d1 Ly R1. rewrite window_mean_ok. cbn [obind].
      match goal with |- context [iter X ?b d1] => destruct (iter_inv (fun k d => ready c F (fun j => j mod T < bint \/ (j mod T = bint /\ j / T / X < biny) \/ (j mod T = bint /\ j / T / X = biny /\ j / T mod X < k)) d) b X d1) as (d' & E & G) end.
      * revert R1. apply ready_weaken. intros; lia.
      * intros binx d2 Lx R2. rewrite window_mean_ok. cbn [obind]. match goal with |- exists _, sample _ _ _ _ _ ?v _ _ = _ /\ _ => destruct (sample_ready _ bint binx biny v u2 d2 R2 Lt Lx Ly M2) as (d' & Ed & Rd) end.
        2:{ rewrite Ed. eexists; split; [reflexivity|]. revert Rd. apply ready_weaken. intros; lia. }
        intros x y Bx By. rewrite V by auto. unfold response. rewrite Hf. f_equal. apply smoothed_ext; [lia|]. intros a La. apply smoothed_ext; [lia|]. intros b Lb. now apply Hr.
      * exists d'. split; [exact E|]. revert G. apply ready_weaken. intros j Lj. pose proof (Nat.mod_upper_bound (j / T) X ltac:(lia)). lia.
    + rewrite E. cbn [obind]. eexists; split; [reflexivity|]. split; [exact M1|]. split; [exact M2|]. revert G. apply ready_weaken.
      intros j Lj. assert (j / T / X < Y) by (apply Nat.div_lt_upper_bound; [lia|]; apply Nat.div_lt_upper_bound; [lia|]; unfold DsiftWindow_Proofs.D in Lj; lia). lia.
  - exists s'. split; [exact E|]. destruct s' as [[t1 t2] d]. destruct G as (L1 & L2 & R). split; [exact L1|]. split; [exact L2|]. revert R. apply ready_weaken.
    intros j Lj _. apply Nat.mod_upper_bound. lia.
Qed.
End Windows.

(** *** The frames *)
Lemma seg_sum (d : list Qc) (f : Qc -> Qc) off n : off + n <= length d ->
  iter n (fun i s => do v <- aget d (off + i); Some (s + f v)%Qc) 0%Qc = Some (qsum n (fun i => f (nth (off + i) d 0%Qc))).
Proof.
  intro L. destruct (iter_inv (fun k t => t = qsum k (fun i => f (nth (off + i) d 0%Qc))) (fun i s => do v <- aget d (off + i); Some (s + f v)%Qc) n 0%Qc) as (t & E & ->); [reflexivity| |exact E].
  intros k t Lk ->. rewrite (aget_nth d _ 0%Qc) by lia. cbn [obind]. eexists; split; [reflexivity|]. rewrite Nat.add_1_r. reflexivity.
Qed.
Lemma seg_map (f : Qc -> Qc) (body : nat -> list Qc -> option (list Qc)) off n d :
  (forall i e, i < n -> off + i < length e -> body i e = Some (upd e (off + i) (f (nth (off + i) e 0%Qc))) \/ (body i e = Some e /\ f (nth (off + i) e 0%Qc) = nth (off + i) e 0%Qc)) ->
  off + n <= length d ->
  exists d', iter n body d = Some d' /\ length d' = length d /\
    forall q, nth q d' 0%Qc = if (off <=? q) && (q <? off + n) then f (nth q d 0%Qc) else nth q d 0%Qc.
Proof.
  intros Hb L. destruct (iter_inv (fun k e => length e = length d /\ forall q, nth q e 0%Qc = if (off <=? q) && (q <? off + k) then f (nth q d 0%Qc) else nth q d 0%Qc) body n d) as (d' & E & L' & H).
  - split; [reflexivity|]. intro q. destruct (Nat.leb_spec off q), (Nat.ltb_spec q (off + 0)); try lia; reflexivity.
  - intros k e Lk [Le He]. assert (Hk : nth (off + k) e 0%Qc = nth (off + k) d 0%Qc).
    { rewrite He. destruct (Nat.leb_spec off (off + k)), (Nat.ltb_spec (off + k) (off + k)); try lia; reflexivity. }
    destruct (Hb k e Lk ltac:(lia)) as [B|[B Bf]]; rewrite B; (eexists; split; [reflexivity|]).
    + rewrite upd_length. split; [exact Le|]. intro q. rewrite nth_upd by lia. destruct (Nat.eqb_spec q (off + k)) as [->|N].
      * rewrite Hk. destruct (Nat.leb_spec off (off + k)), (Nat.ltb_spec (off + k) (off + (k + 1))); try lia; reflexivity.
      * rewrite He. destruct (Nat.leb_spec off q), (Nat.ltb_spec q (off + k)), (Nat.ltb_spec q (off + (k + 1))); try lia; reflexivity.
    + split; [exact Le|]. intro q. destruct (Nat.eq_dec q (off + k)) as [->|N].
      * rewrite Hk in *. destruct (Nat.leb_spec off (off + k)), (Nat.ltb_spec (off + k) (off + (k + 1))); try lia; cbn [andb]. now rewrite Bf.
      * rewrite He. destruct (Nat.leb_spec off q), (Nat.ltb_spec q (off + k)), (Nat.ltb_spec q (off + (k + 1))); try lia; reflexivity.
  - eauto.
Qed.
Lemma normalize_ok d off n : off + n <= length d ->
  exists d', normalize_histogram sqrt_ eps d off n = Some d' /\ length d' = length d /\
    forall q, nth q d' 0%Qc = if (off <=? q) && (q <? off + n) then normalised sqrt_ eps n (fun j => nth (off + j) d 0%Qc) (q - off) else nth q d 0%Qc.
Proof.
  intro L. unfold normalize_histogram. rewrite (seg_sum d (fun v => v * v)%Qc) by exact L. cbn [obind].
  set (nr := (sqrt_ _ + eps)%Qc). destruct (seg_map (fun v => v / nr)%Qc (fun i d => do v <- aget d (off + i); aset d (off + i) (v / nr)%Qc) off n d) as (d' & E & L' & H).
  - intros i e Li Le. left. rewrite (aget_nth e _ 0%Qc) by exact Le. cbn [obind]. now apply aset_lt.
  - exact L.
  - exists d'. split; [exact E|]. split; [exact L'|]. intro q. rewrite H. destruct (Nat.leb_spec off q), (Nat.ltb_spec q (off + n)); cbn [andb]; try reflexivity.
    unfold normalised. now replace (off + (q - off)) with q by lia.
Qed.
Lemma normalised_ext n r r' j : j < n -> (forall i, i < n -> r i = r' i) -> normalised sqrt_ eps n r j = normalised sqrt_ eps n r' j.
Proof. intros Lj H. unfold normalised. rewrite H by exact Lj. do 3 f_equal. apply qsum_ext. intros i Li. now rewrite H. Qed.
Lemma finish_ext n r r' j : j < n -> (forall i, i < n -> r i = r' i) -> finish sqrt_ eps n r j = finish sqrt_ eps n r' j.
Proof. intros Lj H. unfold finish. apply normalised_ext; [exact Lj|]. intros i Li. unfold clamped. now rewrite (normalised_ext n r r') by auto. Qed.

Definition center_x (kx : nat) : Qc := (zq (minx c + Z.of_nat kx * stepx c) + half * nq (bsx c) * (nq X - 1))%Qc.
Definition center_y (ky : nat) : Qc := (zq (miny c + Z.of_nat ky * stepy c) + half * nq (bsy c) * (nq Y - 1))%Qc.
Definition mass (r : nat -> Qc) : Qc := (qsum D r / zq (frame_size X (bsx c) * frame_size Y (bsy c)))%Qc.

Lemma frame_step_ok fx fy k fr d : D <> 0 -> k < length fr -> k * D + D <= length d ->
  exists fr' d', frame_step sqrt_ eps c (Z.of_nat D) fx fy (k, Z.of_nat (k * D), fr, d) = Some (k + 1, Z.of_nat ((k + 1) * D), fr', d') /\
    length d' = length d /\
    fr' = upd fr k ((zq fx + half * nq (bsx c) * (nq X - 1))%Qc, (zq fy + half * nq (bsy c) * (nq Y - 1))%Qc, mass (fun j => nth (k * D + j) d 0%Qc)) /\
    forall q, nth q d' 0%Qc = if q / D =? k then finish sqrt_ eps D (fun j => nth (k * D + j) d 0%Qc) (q mod D) else nth q d 0%Qc.
Proof.
  intros HD Lk Ld. unfold frame_step. rewrite !Nat2Z.id.
  rewrite (seg_sum d (fun v => v)) by exact Ld. cbn [obind]. rewrite aset_lt by exact Lk. cbn [obind].
  destruct (normalize_ok d (k * D) D Ld) as (d1 & E1 & L1 & H1). rewrite E1. cbn [obind].
  destruct (seg_map (fun v => if Qclt_le_dec (Q2Qc (1 # 5)) v then Q2Qc (1 # 5) else v)
    (fun i d => do v <- aget d (k * D + i); if qlt (Q2Qc (1 # 5)) v then aset d (k * D + i) (Q2Qc (1 # 5)) else Some d) (k * D) D d1) as (d2 & E2 & L2 & H2).
  { intros i e Li Le. rewrite (aget_nth e _ 0%Qc) by exact Le. cbn [obind]. destruct (qlt _ _) eqn:Q.
    - left. apply qlt_true in Q. destruct (Qclt_le_dec _ _); [now apply aset_lt|]. exfalso. revert Q. now apply Qcle_not_lt.
    - right. split; [reflexivity|]. apply qlt_false in Q. destruct (Qclt_le_dec _ _) as [Q'|]; [|reflexivity]. exfalso. now apply Qcle_not_lt in Q. }
  { lia. }
  rewrite E2. cbn [obind]. destruct (normalize_ok d2 (k * D) D ltac:(lia)) as (d3 & E3 & L3 & H3). rewrite E3. cbn [obind].
  exists (upd fr k ((zq fx + half * nq (bsx c) * (nq X - 1))%Qc, (zq fy + half * nq (bsy c) * (nq Y - 1))%Qc, mass (fun j => nth (k * D + j) d 0%Qc))), d3.
  split; [do 2 f_equal; do 2 f_equal; lia|]. split; [lia|]. split; [reflexivity|].
  assert (Hq : forall q, (k * D <=? q) && (q <? k * D + D) = (q / D =? k)).
  { intro q. pose proof (Nat.div_mod q D HD). pose proof (Nat.mod_upper_bound q D HD). destruct (Nat.leb_spec (k * D) q), (Nat.ltb_spec q (k * D + D)), (Nat.eqb_spec (q / D) k); cbn [andb]; try reflexivity; exfalso; nia. }
  intro q. rewrite H3, H2, H1, !Hq. destruct (Nat.eqb_spec (q / D) k) as [Ek|]; [|reflexivity].
  assert (Eq : q - k * D = q mod D) by (pose proof (Nat.div_mod q D HD); nia). rewrite Eq. unfold finish.
  apply normalised_ext; [now apply Nat.mod_upper_bound|]. intros i Li.
  assert (Ei : (k * D + i) / D = k) by (rewrite Nat.add_comm, Nat.div_add, Nat.div_small by lia; lia).
  rewrite H2, H1, !Hq, Ei, Nat.eqb_refl. unfold clamped. replace (k * D + i - k * D) with i by lia. reflexivity.
Qed.

Lemma frames_ok fr d : D <> 0 -> length fr = nx * ny -> length d = nx * ny * D ->
  exists k o fr' d', frames_loop (miny c) (maxy c - frame_size Y (bsy c) + 1) (stepy c) (fun fy =>
    frames_loop (minx c) (maxx c - frame_size X (bsx c) + 1) (stepx c) (fun fx => frame_step sqrt_ eps c (Z.of_nat D) fx fy)) (0, 0%Z, fr, d) = Some (k, o, fr', d') /\
    length fr' = nx * ny /\ length d' = nx * ny * D /\
    (forall ky kx, ky < ny -> kx < nx -> nth_error fr' (ky * nx + kx) = Some (center_x kx, center_y ky, mass (fun j => nth ((ky * nx + kx) * D + j) d 0%Qc))) /\
    forall k j, k < nx * ny -> j < D -> nth (k * D + j) d' 0%Qc = finish sqrt_ eps D (fun j => nth (k * D + j) d 0%Qc) j.
Proof.
  intros HD Lf Ld. rewrite frames_loop_iter by exact stepy_pos. fold ny.
  set (val := fun k => (center_x (k mod nx), center_y (k / nx), mass (fun j => nth (k * D + j) d 0%Qc))).
  set (Inv := fun (n : nat) (s : nat * Z * list (Qc * Qc * Qc) * list Qc) => let '(k, o, e, d') := s in k = n /\ o = Z.of_nat (n * D) /\ length e = nx * ny /\ length d' = nx * ny * D /\
    (forall i, i < n -> i < nx * ny -> nth_error e i = Some (val i)) /\
    (forall q, nth q d' 0%Qc = if q / D <? n then finish sqrt_ eps D (fun j => nth (q / D * D + j) d 0%Qc) (q mod D) else nth q d 0%Qc)).
  match goal with |- context [iter ny ?b ?s] => destruct (iter_inv (fun ky => Inv (ky * nx)) b ny s) as ([[[k o] fr'] d'] & E & -> & -> & L1 & L2 & Hf & Hd) end.
  - unfold Inv. cbn [Nat.mul]. repeat split; auto. intros; lia.
  - intros ky s Lky Hs. cbv beta. rewrite frames_loop_iter by exact stepx_pos. fold nx.
    match goal with |- context [iter nx ?b ?s] => destruct (iter_inv (fun kx => Inv (ky * nx + kx)) b nx s) as (s' & E & G) end.
    + now rewrite Nat.add_0_r.
    + intros kx [[[k o] e] d1] Lkx (-> & -> & Le & Ld1 & He & Hd1). assert (K : ky * nx + kx < nx * ny) by nia.
      destruct (frame_step_ok (minx c + Z.of_nat kx * stepx c) (miny c + Z.of_nat ky * stepy c) (ky * nx + kx) e d1 HD ltac:(lia) ltac:(nia)) as (fr' & d' & E & Ld' & Ef & Hd').
      rewrite E. eexists; split; [reflexivity|]. unfold Inv. rewrite Nat.add_assoc. split; [lia|]. split; [reflexivity|]. split; [|split; [|split]].
      * rewrite Ef, upd_length. exact Le.
      * lia.
      * assert (Same : forall j, j < D -> nth ((ky * nx + kx) * D + j) d1 0%Qc = nth ((ky * nx + kx) * D + j) d 0%Qc).
        { intros j Lj. rewrite Hd1. rewrite (Nat.add_comm _ j), Nat.div_add, Nat.div_small by lia. cbn [plus]. destruct (Nat.ltb_spec (ky * nx + kx) (ky * nx + kx)); [lia|reflexivity]. }
        intros i Li Li'. rewrite Ef, nth_error_upd by lia. destruct (Nat.eqb_spec i (ky * nx + kx)) as [->|N]; cbn [andb].
        -- destruct (Nat.ltb_spec (ky * nx + kx) (length e)); [|lia]. f_equal. unfold val. rewrite (Nat.add_comm (ky * nx)), Nat.mod_add, Nat.mod_small, Nat.div_add, Nat.div_small by lia. cbn [plus].
           unfold center_x, center_y. f_equal. unfold mass. f_equal. apply qsum_ext. intros j Lj. rewrite (Nat.add_comm kx). now apply Same.
        -- apply He; lia.
      * intro q. rewrite Hd'. destruct (Nat.eqb_spec (q / D) (ky * nx + kx)) as [Ek|N].
        -- rewrite Ek. destruct (Nat.ltb_spec (ky * nx + kx) (ky * nx + kx + 1)); [|lia]. apply finish_ext; [now apply Nat.mod_upper_bound|].
           intros j Lj. rewrite Hd1. rewrite (Nat.add_comm _ j), Nat.div_add, Nat.div_small by lia. cbn [plus]. destruct (Nat.ltb_spec (ky * nx + kx) (ky * nx + kx)); [lia|reflexivity].
        -- rewrite Hd1. destruct (Nat.ltb_spec (q / D) (ky * nx + kx)), (Nat.ltb_spec (q / D) (ky * nx + kx + 1)); try lia; reflexivity.
    + exists s'. split; [exact E|]. now replace ((ky + 1) * nx) with (ky * nx + nx) by lia.
  - rewrite E. do 4 eexists. split; [reflexivity|]. split; [exact L1|]. split; [exact L2|]. split.
    + intros ky kx Lky Lkx. rewrite Hf by nia. unfold val. rewrite (Nat.add_comm (ky * nx)), Nat.mod_add, Nat.mod_small, Nat.div_add, Nat.div_small by lia. reflexivity.
    + intros k j Lk Lj. rewrite Hd. rewrite (Nat.add_comm _ j), Nat.div_add, Nat.div_small, Nat.mod_add, Nat.mod_small by lia. cbn [plus]. destruct (Nat.ltb_spec k (ny * nx)); [|nia].
      reflexivity.
Qed.
End Run.
