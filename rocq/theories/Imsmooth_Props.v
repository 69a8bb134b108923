(** Smoothing of images in MATLAB: C292-C296. *)
From Coq Require Import List Arith ZArith Lia Bool QArith Qcanon Qcabs.
Import ListNotations.
From Verif Require KmeansEnergy_Proofs CovdetPatch2_Proofs.
From Verif Require Import Base Loop Rat ImOp_Spec ImOp_Model ImOp_Proofs ImOp_Props Kmeans_Spec MserSort_Proofs Gauss_Model Gauss_Proofs Homker_Proofs Sift_Proofs Sift_Props SiftDescr_Model SiftDescr_Proofs Quickshift_Spec Quickshift_Model Quickshift_Proofs
  KdBatch_Proofs DsiftTranspose_Proofs Imsmooth_Model Imsmooth_Spec Imsmooth_Proofs.
Local Open Scope nat_scope.

Lemma out_size_ok step M : 0 < step -> 0 < M -> (Z.of_nat M < 2 ^ 64)%Z -> Z.to_nat (out_size (Z.of_nat step) (Z.of_nat M)) = (M - 1) / step + 1.
Proof.
  intros Hs HM HB. unfold out_size. rewrite (Z.mod_small (Z.of_nat M - 1)) by lia.
  replace (Z.of_nat M - 1)%Z with (Z.of_nat (M - 1)) by lia. rewrite <- Nat2Z.inj_div. assert ((M - 1) / step <= M - 1) by (apply Nat.div_le_upper_bound; nia).
  rewrite Z.mod_small by lia. lia.
Qed.
Lemma is_ceil_unique q a b : is_ceil q a -> is_ceil q b -> a = b.
Proof.
  intros [A1 A2] [B1 B2]. assert (zq a < zq b + zq 1)%Qc by (rewrite zq_1; qn). assert (zq b < zq a + zq 1)%Qc by (rewrite zq_1; qn). rewrite <- zq_plus in H, H0. apply zq_lt_inv in H, H0. lia.
Qed.
Lemma nq_pos F : 0 < F -> (0 < nq F)%Qc.
Proof. intro H. destruct F as [|F]; [lia|]. replace (S F) with (F + 1) by lia. rewrite nq_S. pose proof (KmeansEnergy_Proofs.nq_nonneg F) as P. set (x := nq F) in *. clearbody x. clear - P. qn. Qed.
Lemma pos_neq a : (0 < a)%Qc -> a <> 0%Qc.
Proof. intros P ->. discriminate. Qed.
Lemma bell_kernel expo eps junk sigma W : is_ceil (nq 4 * sigma)%Qc (Z.of_nat W) -> exists kern, make_kernel expo eps junk gaussian sigma = Some kern /\ kern_ok kern W (bell_weight expo sigma eps W).
Proof.
  intro C. unfold make_kernel. assert (E : qceil (nq 4 * sigma)%Qc = Z.of_nat W) by (apply (is_ceil_unique (nq 4 * sigma)%Qc); [apply qceil_ok|exact C]). rewrite E. destruct (Z.ltb_spec (Z.of_nat W) 0); [lia|].
  rewrite Nat2Z.id. destruct (gauss_filter_ok expo eps junk sigma W) as (f & -> & L & V). cbn [obind]. eexists. split; [reflexivity|]. split; [reflexivity|]. split; [exact L|]. intros. now apply bell_line.
Qed.
Lemma ramp_kernel expo eps junk sigma : (0 <= sigma)%Qc -> let F := Nat.max (Z.to_nat (qfloor sigma)) 1 in
  exists kern, make_kernel expo eps junk triangular sigma = Some kern /\ kern_ok kern (F - 1) (ramp_weight F).
Proof.
  intros P F. unfold make_kernel. rewrite trunc_pos by exact P. assert (0 <= qfloor sigma)%Z by (apply CovdetPatch2_Proofs.floor_ge; exact P). destruct (Z.ltb_spec (qfloor sigma) 0); [lia|]. fold F. eexists. split; [reflexivity|].
  assert (0 < F) by (unfold F; lia). split; [exact H1|]. intros. now apply ramp_line.
Qed.
Lemma imsmooth_ok expo eps junk k sigma kern W weight step zp input M N K temp :
  make_kernel expo eps junk k sigma = Some kern -> kern_ok kern W weight -> 0 < step -> 0 < M -> 0 < N -> (Z.of_nat M < 2 ^ 64)%Z -> (Z.of_nat N < 2 ^ 64)%Z ->
  ~ (step = 1 /\ (sigma < 1 / nq 100)%Qc) ->
  let oR := (M - 1) / step + 1 in let oC := (N - 1) / step + 1 in
  length input = K * (M * N) -> length temp = M * oC ->
  exists out, imsmooth expo eps junk k sigma step zp input M N K temp = Some (oR, oC, out) /\ length out = K * (oR * oC) /\
    forall c i j, c < K -> i < oR -> j < oC -> entry out oR oC c i j = both zp M N W weight (entry input M N c) (i * step) (j * step).
Proof.
  intros EK KO Hs HM HN BM BN NC oR oC LI LT. unfold imsmooth. replace (qlt sigma (1 / nq 100) && (step =? 1)) with false.
  2:{ symmetry. apply andb_false_iff. destruct (qlt sigma (1 / nq 100)) eqn:E; [|now left]. right. apply qlt_true in E. apply Nat.eqb_neq. intros ->. now apply NC. }
  rewrite !out_size_ok by assumption. fold oR oC.
  destruct (smooth_ok expo eps junk k sigma kern W weight step zp (repeat 0%Qc (oR * oC * K)) input M N K temp EK KO Hs HM HN LI ltac:(rewrite repeat_length; fold oR oC; lia) LT) as (out & E & L & V).
  fold oR oC in E, V. rewrite E. cbn [obind]. exists out. split; [reflexivity|]. split; [rewrite L, repeat_length; lia|exact V].
Qed.

(** C292.  vl_imsmooth with the Gaussian kernel, for all images of M rows, N columns and K channels: the output has
    floor((M-1)/step)+1 rows and floor((N-1)/step)+1 columns, and row i, column j of each channel is the sum around row i step, column
    j step, padded, with the normalised Gaussian weights of half width ceil(4 sigma) in both directions; the contents of fresh arrays
    do not matter.  Without subsampling and sigma below 0.01 the image is returned. *)
Theorem C292_gaussian : forall expo eps junk sigma W step zp input M N K temp, is_ceil (nq 4 * sigma)%Qc (Z.of_nat W) ->
  0 < step -> 0 < M -> 0 < N -> (Z.of_nat M < 2 ^ 64)%Z -> (Z.of_nat N < 2 ^ 64)%Z -> ~ (step = 1 /\ (sigma < 1 / nq 100)%Qc) ->
  let oR := (M - 1) / step + 1 in let oC := (N - 1) / step + 1 in
  length input = K * (M * N) -> length temp = M * oC ->
  exists out, imsmooth expo eps junk gaussian sigma step zp input M N K temp = Some (oR, oC, out) /\ length out = K * (oR * oC) /\
    forall c i j, c < K -> i < oR -> j < oC -> entry out oR oC c i j = both zp M N W (bell_weight expo sigma eps W) (entry input M N c) (i * step) (j * step).
Proof.
  intros expo eps junk sigma W step zp input M N K temp C Hs HM HN BM BN NC oR oC LI LT. destruct (bell_kernel expo eps junk sigma W C) as (kern & EK & KO).
  exact (imsmooth_ok _ _ _ _ _ _ _ _ _ _ _ _ _ _ _ EK KO Hs HM HN BM BN NC LI LT).
Qed.
Print Assumptions C292_gaussian.
Theorem C292_copy : forall expo eps junk k sigma zp input M N K temp, (sigma < 1 / nq 100)%Qc -> imsmooth expo eps junk k sigma 1 zp input M N K temp = Some (M, N, input).
Proof. intros. unfold imsmooth. rewrite (proj2 (qlt_true _ _) H). reflexivity. Qed.
Print Assumptions C292_copy.

(** C293.  The same with the triangular kernel: weights 1, ..., F, ..., 1 over F * F, where F is sigma rounded down, at least 1. *)
Theorem C293_triangular : forall expo eps junk sigma step zp input M N K temp, (0 <= sigma)%Qc ->
  0 < step -> 0 < M -> 0 < N -> (Z.of_nat M < 2 ^ 64)%Z -> (Z.of_nat N < 2 ^ 64)%Z -> ~ (step = 1 /\ (sigma < 1 / nq 100)%Qc) ->
  let F := Nat.max (Z.to_nat (qfloor sigma)) 1 in
  let oR := (M - 1) / step + 1 in let oC := (N - 1) / step + 1 in
  length input = K * (M * N) -> length temp = M * oC ->
  exists out, imsmooth expo eps junk triangular sigma step zp input M N K temp = Some (oR, oC, out) /\ length out = K * (oR * oC) /\
    forall c i j, c < K -> i < oR -> j < oC -> entry out oR oC c i j = both zp M N (F - 1) (ramp_weight F) (entry input M N c) (i * step) (j * step).
Proof.
  intros expo eps junk sigma step zp input M N K temp P Hs HM HN BM BN NC F oR oC LI LT. destruct (ramp_kernel expo eps junk sigma P) as (kern & EK & KO).
  exact (imsmooth_ok _ _ _ _ _ _ _ _ _ _ _ _ _ _ _ EK KO Hs HM HN BM BN NC LI LT).
Qed.
Print Assumptions C293_triangular.

(** ** weights *)
Lemma ramp_sum_up F : ksum F (fun i => nq (i + 1)) = (nq F * nq (F + 1) / nq 2)%Qc.
Proof.
  induction F as [|F IH]; [apply Qc_is_canon; reflexivity|]. cbn [sum]. rewrite IH. replace (S F) with (F + 1) by lia. rewrite !nq_S. replace (nq 2) with (1 + 1)%Qc by (apply Qc_is_canon; reflexivity). field. discriminate.
Qed.
Lemma ramp_total F : 0 < F -> ksum (2 * (F - 1) + 1) (ramp_weight F) = 1%Qc.
Proof.
  intro HF. assert (NF : nq F <> 0%Qc) by (apply pos_neq, nq_pos; exact HF).
  replace (2 * (F - 1) + 1) with (F + (F - 1)) by lia. rewrite (sum_app _ _ _ _ _ _ Qcrt).
  rewrite (ksum_ext F _ (fun i => (1 / (nq F * nq F) * nq (i + 1))%Qc)).
  2:{ intros i Li. unfold ramp_weight. replace (Nat.min (i + 1) (2 * F - 1 - i)) with (i + 1) by lia. unfold Qcdiv. ring. }
  rewrite (sum_scale _ _ _ _ _ _ Qcrt), ramp_sum_up. rewrite (sum_rev _ _ _ _ _ _ Qcrt).
  rewrite (ksum_ext (F - 1) _ (fun i => (1 / (nq F * nq F) * nq (i + 1))%Qc)).
  2:{ intros i Li. unfold ramp_weight. replace (Nat.min (F + (F - 1 - 1 - i) + 1) (2 * F - 1 - (F + (F - 1 - 1 - i)))) with (i + 1) by lia. unfold Qcdiv. ring. }
  rewrite (sum_scale _ _ _ _ _ _ Qcrt), ramp_sum_up. replace (F - 1 + 1) with F by lia. replace (nq (F - 1)) with (nq F - 1)%Qc by (replace F with (F - 1 + 1) at 1 by lia; rewrite nq_S; ring). rewrite nq_S. replace (nq 2) with (1 + 1)%Qc by (apply Qc_is_canon; reflexivity).
  field. split; [discriminate|exact NF].
Qed.
Lemma ramp_nonneg F i : 0 < F -> (0 <= ramp_weight F i)%Qc.
Proof. intro H. unfold ramp_weight, Qcdiv. apply KmeansEnergy_Proofs.Qc_mult_nonneg; [apply KmeansEnergy_Proofs.nq_nonneg|]. apply Qclt_le_weak, Qcinv_pos. apply Qc_mul_pos; now apply nq_pos. Qed.
Lemma bell_total expo sigma eps W : (forall a, 0 < expo a)%Qc -> ksum (2 * W + 1) (bell_weight expo sigma eps W) = 1%Qc /\ forall i, (0 <= bell_weight expo sigma eps W i)%Qc.
Proof.
  intro P. assert (T : (0 < ksum (2 * W + 1) (bell expo sigma eps W))%Qc) by (apply ksum_pos; [lia|]; intro i; apply P). split.
  - unfold bell_weight, Qcdiv. rewrite ksum_scale. apply Qcmult_inv_r. now apply pos_neq.
  - intro i. unfold bell_weight, Qcdiv. apply KmeansEnergy_Proofs.Qc_mult_nonneg; [apply Qclt_le_weak, P|apply Qclt_le_weak, Qcinv_pos, T].
Qed.
Lemma ksum_mono n (f g : nat -> Qc) : (forall i, i < n -> (f i <= g i)%Qc) -> (ksum n f <= ksum n g)%Qc.
Proof.
  induction n as [|n IH]; intro H; cbn [sum]; [apply Qcle_refl|]. apply Qcplus_le_compat; [apply IH; intros; apply H; lia|apply H; lia].
Qed.
Lemma line_between zp h W weight col y a b : 0 < h -> (forall i, (0 <= weight i)%Qc) -> ksum (2 * W + 1) weight = 1%Qc -> (zp = true -> (a <= 0 /\ 0 <= b)%Qc) -> (forall p, p < h -> (a <= col p /\ col p <= b)%Qc) ->
  (a <= line zp h W weight col y /\ line zp h W weight col y <= b)%Qc.
Proof.
  intros Hh P T Z B.
  assert (PB : forall p, (a <= padded 0 zp h col p /\ padded 0 zp h col p <= b)%Qc).
  { intro p. unfold padded. destruct (Z.leb_spec 0 p), (Z.ltb_spec p (Z.of_nat h)); cbn [andb]; try (apply B; lia); (destruct zp; [now apply Z|]); destruct (p <? 0)%Z; apply B; lia. }
  assert (EA : forall v, v = ksum (2 * W + 1) (fun i => (weight i * v)%Qc)) by (intro v; rewrite ksum_scale, T; ring).
  unfold line. split.
  - rewrite (EA a) at 1. apply ksum_mono. intros i _. rewrite !(Qcmult_comm (weight i)). apply Qcmult_le_compat_r; [apply PB|apply P].
  - rewrite (EA b). apply ksum_mono. intros i _. rewrite !(Qcmult_comm (weight i)). apply Qcmult_le_compat_r; [apply PB|apply P].
Qed.

Lemma C294_aux expo eps junk k sigma step zp input M N K temp a b : (forall x, 0 < expo x)%Qc -> (0 <= sigma)%Qc ->
  0 < step -> 0 < M -> 0 < N -> (Z.of_nat M < 2 ^ 64)%Z -> (Z.of_nat N < 2 ^ 64)%Z ->
  length input = K * (M * N) -> length temp = M * ((N - 1) / step + 1) ->
  (zp = true -> (a <= 0 /\ 0 <= b)%Qc) -> (forall c r q, c < K -> r < M -> q < N -> (a <= entry input M N c r q /\ entry input M N c r q <= b)%Qc) ->
  ~ (step = 1 /\ (sigma < 1 / nq 100)%Qc) ->
  exists oR oC out, imsmooth expo eps junk k sigma step zp input M N K temp = Some (oR, oC, out) /\ oR = (M - 1) / step + 1 /\ oC = (N - 1) / step + 1 /\ length out = K * (oR * oC) /\
    forall c i j, c < K -> i < oR -> j < oC -> (a <= entry out oR oC c i j /\ entry out oR oC c i j <= b)%Qc.
Proof.
  intros EP SP Hs HM HN BM BN LI LT Z IB NC.
  assert (G : exists kern W weight, make_kernel expo eps junk k sigma = Some kern /\ kern_ok kern W weight /\ ksum (2 * W + 1) weight = 1%Qc /\ forall i, (0 <= weight i)%Qc).
  { destruct k.
    - assert (P4 : (0 <= nq 4 * sigma)%Qc) by (apply KmeansEnergy_Proofs.Qc_mult_nonneg; [discriminate|exact SP]). pose proof (qceil_ok (nq 4 * sigma)%Qc) as C.
      assert (Q : (0 <= qceil (nq 4 * sigma))%Z) by (destruct C as [C _]; apply zq_le; apply Qcle_trans with (nq 4 * sigma)%Qc; [exact P4|exact C]).
      rewrite <- (Z2Nat.id _ Q) in C. destruct (bell_kernel expo eps junk sigma _ C) as (kern & E & KO). destruct (bell_total expo sigma eps (Z.to_nat (qceil (nq 4 * sigma))) EP) as [T P]. eauto 8.
    - destruct (ramp_kernel expo eps junk sigma SP) as (kern & E & KO). exists kern. eexists. eexists. split; [exact E|]. split; [exact KO|]. split; [apply ramp_total; lia|]. intro i. apply ramp_nonneg. lia. }
  destruct G as (kern & W & weight & EK & KO & T & P). destruct (imsmooth_ok _ _ _ _ _ _ _ _ _ zp input M N K temp EK KO Hs HM HN BM BN NC LI LT) as (out & E & L & V).
  eexists. eexists. exists out. split; [exact E|]. split; [reflexivity|]. split; [reflexivity|]. split; [exact L|]. intros c i j Lc Li Lj. rewrite V by assumption. unfold both.
  apply line_between; auto. intros r Lr. apply line_between; auto.
Qed.
(** C294.  Smoothing stays between the smallest and the largest value of the image (and zero, if padded by zeros), with both kernels; in
    particular constant images padded by continuity are returned. *)
Theorem C294_between : forall expo eps junk k sigma step zp input M N K temp a b, (forall x, 0 < expo x)%Qc -> (0 <= sigma)%Qc ->
  0 < step -> 0 < M -> 0 < N -> (Z.of_nat M < 2 ^ 64)%Z -> (Z.of_nat N < 2 ^ 64)%Z ->
  length input = K * (M * N) -> length temp = M * ((N - 1) / step + 1) ->
  (zp = true -> (a <= 0 /\ 0 <= b)%Qc) -> (forall p, p < length input -> (a <= nth p input 0 /\ nth p input 0 <= b)%Qc) ->
  exists oR oC out, imsmooth expo eps junk k sigma step zp input M N K temp = Some (oR, oC, out) /\ oR = (M - 1) / step + 1 /\ oC = (N - 1) / step + 1 /\ length out = K * (oR * oC) /\
    forall c i j, c < K -> i < oR -> j < oC -> (a <= entry out oR oC c i j /\ entry out oR oC c i j <= b)%Qc.
Proof.
  intros expo eps junk k sigma step zp input M N K temp a b EP SP Hs HM HN BM BN LI LT Z B.
  assert (IB : forall c r q, c < K -> r < M -> q < N -> (a <= entry input M N c r q /\ entry input M N c r q <= b)%Qc).
  { intros c r q Lc Lr Lq. unfold entry. apply B. rewrite LI. assert (c * (M * N) + M * N <= K * (M * N)) by nia. nia. }
  destruct (Nat.eq_dec step 1) as [E1|N1].
  - destruct (qlt sigma (1 / nq 100)) eqn:ES.
    + apply qlt_true in ES. subst step. rewrite !Nat.div_1_r. exists M, N, input. rewrite C292_copy by exact ES. split; [reflexivity|]. split; [lia|]. split; [lia|]. split; [lia|]. exact IB.
    + apply qlt_false in ES. apply C294_aux; auto. intros [_ X]. destruct (Qclt_not_le _ _ X ES).
  - apply C294_aux; auto. intros [X _]. now apply N1.
Qed.
Print Assumptions C294_between.

(** C295.  The order of the two passes does not matter: the smoothed transpose is the transpose of the smoothed image, with weights [weight] of any kernel. *)
Definition mask (zp : bool) (h : nat) (p : Z) : Qc := if zp && negb ((0 <=? p)%Z && (p <? Z.of_nat h)%Z) then 0%Qc else 1%Qc.
Lemma padded_as zp h col p : 0 < h -> padded 0%Qc zp h col p = (mask zp h p * col (clampi h p))%Qc.
Proof.
  intro Hh. unfold padded, clampi, mask. destruct (Z.leb_spec 0 p), (Z.ltb_spec p (Z.of_nat h)); cbn [andb negb]; destruct zp; cbn [andb]; try destruct (Z.ltb_spec p 0); try lia; try ring;
    match goal with |- col ?x = (1 * col ?y)%Qc => replace y with x by lia; ring end.
Qed.
Theorem C295_passes : forall zp M N W weight image r c, 0 < M -> 0 < N -> both zp M N W weight image r c = both zp N M W weight (fun q p => image p q) c r.
Proof.
  intros zp M N W weight image r c HM HN. unfold both, line.
  set (m := mask zp).
  set (n := 2 * W + 1). set (pr := fun i => (Z.of_nat r + Z.of_nat i - Z.of_nat W)%Z). set (pc := fun i => (Z.of_nat c + Z.of_nat i - Z.of_nat W)%Z).
  transitivity (ksum n (fun i => ksum n (fun j => (weight i * m M (pr i) * (weight j * m N (pc j)) * image (clampi M (pr i)) (clampi N (pc j)))%Qc))).
  - apply ksum_ext. intros i _. rewrite padded_as by exact HM. fold (m M (pr i)). rewrite Qcmult_assoc. rewrite <- (sum_scale _ _ _ _ _ _ Qcrt). apply ksum_ext. intros j _. rewrite padded_as by exact HN. fold (m N (pc j)). unfold m, pr, pc. ring.
  - rewrite (sum_swap _ _ _ _ _ _ Qcrt). apply ksum_ext. intros j _. rewrite padded_as by exact HN. fold (m N (pc j)). rewrite Qcmult_assoc. rewrite <- (sum_scale _ _ _ _ _ _ Qcrt). apply ksum_ext. intros i _. rewrite padded_as by exact HM. fold (m M (pr i)). unfold m, pr, pc. ring.
Qed.
Print Assumptions C295_passes.
Lemma C295_aux expo eps junk k sigma step zp input input' M N K temp temp' : (forall x, 0 < expo x)%Qc -> (0 <= sigma)%Qc ->
  0 < step -> 0 < M -> 0 < N -> (Z.of_nat M < 2 ^ 64)%Z -> (Z.of_nat N < 2 ^ 64)%Z ->
  length input = K * (M * N) -> length input' = K * (N * M) -> length temp = M * ((N - 1) / step + 1) -> length temp' = N * ((M - 1) / step + 1) ->
  (forall c p q, c < K -> p < M -> q < N -> entry input' N M c q p = entry input M N c p q) -> ~ (step = 1 /\ (sigma < 1 / nq 100)%Qc) ->
  exists oR oC out out', imsmooth expo eps junk k sigma step zp input M N K temp = Some (oR, oC, out) /\ imsmooth expo eps junk k sigma step zp input' N M K temp' = Some (oC, oR, out') /\
    forall c i j, c < K -> i < oR -> j < oC -> entry out' oC oR c j i = entry out oR oC c i j.
Proof.
  intros EP SP Hs HM HN BM BN LI LI' LT LT' HT NC.
  assert (G : exists kern W weight, make_kernel expo eps junk k sigma = Some kern /\ kern_ok kern W weight).
  { destruct k.
    - assert (P4 : (0 <= nq 4 * sigma)%Qc) by (apply KmeansEnergy_Proofs.Qc_mult_nonneg; [discriminate|exact SP]). pose proof (qceil_ok (nq 4 * sigma)%Qc) as C.
      assert (Q : (0 <= qceil (nq 4 * sigma))%Z) by (destruct C as [C _]; apply zq_le; apply Qcle_trans with (nq 4 * sigma)%Qc; [exact P4|exact C]).
      rewrite <- (Z2Nat.id _ Q) in C. destruct (bell_kernel expo eps junk sigma _ C) as (kern & E & KO). eauto.
    - destruct (ramp_kernel expo eps junk sigma SP) as (kern & E & KO). eauto. }
  destruct G as (kern & W & weight & EK & KO).
  destruct (imsmooth_ok _ _ _ _ _ _ _ _ _ zp input M N K temp EK KO Hs HM HN BM BN NC LI LT) as (out & E & L & V).
  destruct (imsmooth_ok _ _ _ _ _ _ _ _ _ zp input' N M K temp' EK KO Hs HN HM BN BM NC LI' LT') as (out' & E' & L' & V').
  eexists. eexists. exists out, out'. split; [exact E|]. split; [exact E'|]. intros c i j Lc Li Lj. rewrite V, V' by assumption. rewrite (C295_passes zp M N) by assumption. unfold both.
  apply line_ext; [exact HN|]. intros q Lq. apply line_ext; [exact HM|]. intros p Lp. now apply HT.
Qed.
(** the smoothed transpose *)
Theorem C295_transpose : forall expo eps junk k sigma step zp input input' M N K temp temp', (forall x, 0 < expo x)%Qc -> (0 <= sigma)%Qc ->
  0 < step -> 0 < M -> 0 < N -> (Z.of_nat M < 2 ^ 64)%Z -> (Z.of_nat N < 2 ^ 64)%Z ->
  length input = K * (M * N) -> length input' = K * (N * M) -> length temp = M * ((N - 1) / step + 1) -> length temp' = N * ((M - 1) / step + 1) ->
  (forall c p q, c < K -> p < M -> q < N -> entry input' N M c q p = entry input M N c p q) ->
  exists oR oC out out', imsmooth expo eps junk k sigma step zp input M N K temp = Some (oR, oC, out) /\ imsmooth expo eps junk k sigma step zp input' N M K temp' = Some (oC, oR, out') /\
    forall c i j, c < K -> i < oR -> j < oC -> entry out' oC oR c j i = entry out oR oC c i j.
Proof.
  intros expo eps junk k sigma step zp input input' M N K temp temp' EP SP Hs HM HN BM BN LI LI' LT LT' HT.
  destruct (Nat.eq_dec step 1) as [E1|N1]; [destruct (Qclt_le_dec sigma (1 / nq 100)) as [ES|ES]|].
  - subst step. exists M, N, input, input'. rewrite !C292_copy by exact ES. auto.
  - apply C295_aux; auto. intros [_ X]. destruct (Qclt_not_le _ _ X ES).
  - apply C295_aux; auto. intros [X _]. now apply N1.
Qed.
Print Assumptions C295_transpose.

(** C296 (refuted).  The claim: a smoothed empty image is empty.  The number of rows minus one wraps: with subsampling by [step] >= 2 the output
    would have (2^64 - 1) / step + 1 rows. *)
Theorem C296_empty_refuted : (forall step, (2 <= step < 2 ^ 64)%Z -> out_size step 0 = ((2 ^ 64 - 1) / step + 1)%Z /\ (0 < out_size step 0)%Z) /\ out_size 2 0 = (2 ^ 63)%Z.
Proof.
  split; [|reflexivity]. intros step H. unfold out_size. change ((0 - 1) mod 2 ^ 64)%Z with (2 ^ 64 - 1)%Z. assert (0 <= (2 ^ 64 - 1) / step)%Z by (apply Z.div_pos; lia).
  assert ((2 ^ 64 - 1) / step < 2 ^ 64 - 1)%Z by (apply Z.div_lt; lia). rewrite Z.mod_small by lia. lia.
Qed.
Print Assumptions C296_empty_refuted.

(** ** Examples *)
Definition ex_bell (a : Qc) : Qc := (1 / (1 + a * a))%Qc.
Lemma ex_bell_pos a : (0 < ex_bell a)%Qc.
Proof. unfold ex_bell, Qcdiv. rewrite Qcmult_1_l. apply Qcinv_pos. assert (X : (0 <= a * a)%Qc) by apply KmeansEnergy_Proofs.Qc_square_nonneg. set (u := (a * a)%Qc) in *. clearbody u. clear - X. qn. Qed.
Definition ex_image : list Qc := map (fun i => nq (i * i mod 7)) (seq 0 24).
Example C292_ex_hypotheses : is_ceil (nq 4 * (1 / nq 2))%Qc (Z.of_nat 2).
Proof. split; [discriminate|reflexivity]. Qed.
Example C292_ex : match imsmooth ex_bell 0 (nq 9) gaussian (1 / nq 2) 2 false ex_image 3 4 2 (repeat (nq 5) 6) with
  | Some (r, c, out) => (r =? 2) && (c =? 2) && forallb (fun k => forallb (fun i => forallb (fun j => Qc_eq_bool (entry out 2 2 k i j) (both false 3 4 2 (bell_weight ex_bell (1 / nq 2) 0 2) (entry ex_image 3 4 k) (i * 2) (j * 2))) (seq 0 2)) (seq 0 2)) (seq 0 2)
  | None => false end = true.
Proof. vm_compute. reflexivity. Qed.
Example C293_ex : match imsmooth ex_bell 0 (nq 9) triangular (nq 5 / nq 2) 1 true (map nq [0; 0; 0; 0; 16; 0; 0; 0; 0]) 3 3 1 (repeat (nq 5) 9) with
  | Some (r, c, out) => forallb (fun p => Qc_eq_bool (fst p) (snd p)) (combine out (map (fun n => nq n) [1; 2; 1; 2; 4; 2; 1; 2; 1])) | None => false end = true.
Proof. vm_compute. reflexivity. Qed.
Example C294_ex : match imsmooth ex_bell 0 (nq 9) gaussian 1 3 false (repeat (nq 7) 20) 4 5 1 (repeat (nq 5) 8) with
  | Some (r, c, out) => (length out =? 4) && forallb (fun v => Qc_eq_bool v (nq 7)) out | None => false end = true.
Proof. vm_compute. reflexivity. Qed.
