(** PGM images of floats: C297-C299. *)
From Coq Require Import List Arith ZArith Lia Bool QArith Qcanon Qcabs.
Import ListNotations.
From Verif Require KmeansEnergy_Proofs CovdetPatch2_Proofs.
From Verif Require Import Base Loop Rat MserSort_Proofs Gauss_Model Gauss_Proofs Homker_Proofs Sift_Proofs SiftDescr_Model SiftDescr_Proofs Pgm_Model Pgm_Proofs PgmFloat_Model PgmFloat_Spec.
Local Open Scope nat_scope.

Lemma extrema_ok data : data <> [] -> exists mn mx, extrema data (length data) = Some (Some mn, Some mx) /\ smallest data mn /\ largest data mx.
Proof.
  intro NE. unfold extrema.
  match goal with |- context [iter _ ?b ?s] => destruct (iter_inv (fun k (st : option Qc * option Qc) => match st with
    | (Some mn, Some mx) => (exists i, i < k /\ i < length data /\ nth i data 0%Qc = mn) /\ (exists i, i < k /\ i < length data /\ nth i data 0%Qc = mx) /\ forall i, i < k -> i < length data -> (mn <= nth i data 0 /\ nth i data 0 <= mx)%Qc
    | (None, None) => k = 0 | _ => False end) b (length data) s) as ([[mn|] [mx|]] & E & I) end; try contradiction.
  - reflexivity.
  - intros k [[mn|] [mx|]] Lk I; try contradiction; rewrite (aget_nth data k 0%Qc) by exact Lk; cbn [obind lower upper]; eexists; (split; [reflexivity|]); cbv beta iota; set (d := nth k data 0%Qc).
    + destruct I as ((i & Li1 & Li2 & Ei) & (j & Lj1 & Lj2 & Ej) & B).
      assert (M1 : ((if qlt mn d then mn else d) <= mn /\ (if qlt mn d then mn else d) <= d)%Qc).
      { destruct (qlt mn d) eqn:Q; [apply qlt_true in Q; split; [apply Qcle_refl|now apply Qclt_le_weak]|apply qlt_false in Q; split; [exact Q|apply Qcle_refl]]. }
      assert (M2 : (mx <= (if qlt d mx then mx else d) /\ d <= (if qlt d mx then mx else d))%Qc).
      { destruct (qlt d mx) eqn:Q; [apply qlt_true in Q; split; [apply Qcle_refl|now apply Qclt_le_weak]|apply qlt_false in Q; split; [exact Q|apply Qcle_refl]]. }
      split; [|split].
      * destruct (qlt mn d); [exists i|exists k]; repeat split; auto; lia.
      * destruct (qlt d mx); [exists j|exists k]; repeat split; auto; lia.
      * intros p Lp1 Lp2. destruct (Nat.eq_dec p k) as [->|N]; [split; [apply M1|apply M2]|]. destruct (B p ltac:(lia) Lp2) as [B1 B2]. split; [apply Qcle_trans with mn; [apply M1|exact B1]|apply Qcle_trans with mx; [exact B2|apply M2]].
    + subst k. split; [exists 0; repeat split; auto; lia|]. split; [exists 0; repeat split; auto; lia|]. intros p Lp1 Lp2. assert (p = 0) by lia. subst p. split; apply Qcle_refl.
  - rewrite E. exists mn, mx. split; [reflexivity|]. destruct I as ((i & _ & Li & <-) & (j & _ & Lj & <-) & B).
    split; (split; [now apply nth_In|]); intros d Hd; apply (In_nth _ _ 0%Qc) in Hd; destruct Hd as (p & Lp & <-); now apply B.
  - destruct data; [contradiction|discriminate].
Qed.
(** the byte of a value *)
Lemma byte_bounds eps mn mx d : (0 < eps)%Qc -> (mn <= d)%Qc -> (d <= mx)%Qc ->
  (0 <= (d - mn) * (nq 255 / (mx - mn + eps)))%Qc /\ ((d - mn) * (nq 255 / (mx - mn + eps)) < nq 255)%Qc.
Proof.
  intros P A B. assert (R : (0 < mx - mn + eps)%Qc) by qn. assert (I : (0 < nq 255 / (mx - mn + eps))%Qc) by (unfold Qcdiv; apply Qc_mul_pos; [reflexivity|now apply Qcinv_pos]). split.
  - apply KmeansEnergy_Proofs.Qc_mult_nonneg; [qn|now apply Qclt_le_weak].
  - apply Qclt_le_trans with ((mx - mn + eps) * (nq 255 / (mx - mn + eps)))%Qc; [apply Qcmult_lt_compat_r; [exact I|qn]|]. replace ((mx - mn + eps) * (nq 255 / (mx - mn + eps)))%Qc with (nq 255); [apply Qcle_refl|]. field. intro E. rewrite E in R. discriminate.
Qed.
Lemma floor_under q z : (q < zq z)%Qc -> (qfloor q < z)%Z.
Proof. intro H. destruct (Z.lt_ge_cases (qfloor q) z) as [T|T]; [exact T|]. apply zq_le in T. pose proof (Qcle_trans _ _ _ T (qfloor_le q)) as T2. destruct (Qclt_not_le _ _ H T2). Qed.
Lemma to_bytes_ok eps data buffer mn mx : (0 < eps)%Qc -> length buffer = length data -> smallest data mn -> largest data mx ->
  exists bytes, to_bytes eps data (length data) buffer = Some bytes /\ length bytes = length data /\
    forall k, k < length data -> nth k bytes 0%Z = qfloor ((nth k data 0 - mn) * (nq 255 / (mx - mn + eps)))%Qc.
Proof.
  intros P LB SM LM. assert (NE : data <> []) by (destruct SM as [I _]; intros ->; destruct I). destruct (extrema_ok data NE) as (mn' & mx' & E & SM' & LM').
  assert (mn' = mn) by (apply Qcle_antisym; [apply SM'|apply SM]; [apply SM|apply SM']). assert (mx' = mx) by (apply Qcle_antisym; [apply LM|apply LM']; [apply LM'|apply LM]). subst mn' mx'.
  unfold to_bytes. rewrite E. cbn [obind]. cbv zeta.
  match goal with |- context [iter _ ?b ?s] => destruct (iter_inv (fun k (st : list Z) => length st = length data /\ forall i, i < k -> i < length data -> nth i st 0%Z = qfloor ((nth i data 0 - mn) * (nq 255 / (mx - mn + eps)))%Qc) b (length data) s) as (r & E2 & L & V) end.
  - split; [exact LB|]. intros; lia.
  - intros k st Lk (L & V). rewrite (aget_nth data k 0%Qc) by exact Lk. cbn [obind]. cbv zeta. destruct (byte_bounds eps mn mx (nth k data 0%Qc) P) as [B1 B2]; [apply SM; now apply nth_In|apply LM; now apply nth_In|].
    rewrite trunc_pos by exact B1. set (q := ((nth k data 0 - mn) * (nq 255 / (mx - mn + eps)))%Qc) in *. assert (F1 : (0 <= qfloor q)%Z) by (apply CovdetPatch2_Proofs.floor_ge; exact B1). assert (F2 : (qfloor q < 255)%Z) by (apply floor_under; exact B2).
    destruct (Z.ltb_spec (qfloor q) 0); [lia|]. destruct (Z.ltb_spec 255 (qfloor q)); [lia|]. cbn [orb]. rewrite aset_lt by lia. eexists. split; [reflexivity|]. split; [now rewrite upd_length|].
    intros i Li1 Li2. rewrite nth_upd by lia. destruct (Nat.eqb_spec i k) as [->|N]; [reflexivity|]. apply V; lia.
  - exists r. split; [exact E2|]. split; [exact L|]. intros k Lk. now apply V.
Qed.

(** C297.  vl_pgm_write_f writes the image of bytes obtained by mapping the smallest value of the data to 0, and the range of the data (and [eps]) to
    255: smaller values get smaller or equal bytes, the smallest gets 0, and a byte gives its value back up to one 255th of the range. *)
Theorem C297_written : forall le eps data w h buffer mn mx, (0 < eps)%Qc -> (0 <= w)%Z -> (0 <= h)%Z -> (w * h < 2 ^ 31)%Z -> Z.of_nat (length data) = (w * h)%Z -> length buffer = length data ->
  smallest data mn -> largest data mx ->
  exists bytes, pgm_write_f le eps data w h buffer = pgm_write le bytes w h /\ length bytes = length data /\
    (forall k, k < length data -> (0 <= nth k bytes 0 <= 254)%Z /\ (nth k data 0%Qc = mn -> nth k bytes 0%Z = 0%Z) /\
       let v := (mn + zq (nth k bytes 0%Z) * ((mx - mn + eps) / nq 255))%Qc in (v <= nth k data 0 /\ nth k data 0 < v + (mx - mn + eps) / nq 255)%Qc) /\
    (forall i j, i < length data -> j < length data -> (nth i data 0 <= nth j data 0)%Qc -> (nth i bytes 0 <= nth j bytes 0)%Z).
Proof.
  intros le eps data w h buffer mn mx P Hw Hh HB LD LB SM LM. destruct (to_bytes_ok eps data buffer mn mx P LB SM LM) as (bytes & E & L & V). exists bytes.
  unfold pgm_write_f. destruct (Z.leb_spec (2 ^ 31) (w * h)); [lia|]. rewrite <- LD, Nat2Z.id, E. cbn [obind]. split; [reflexivity|]. split; [exact L|].
  assert (R : (0 < mx - mn + eps)%Qc) by (assert (mn <= mx)%Qc by (apply SM, LM); qn). set (s := (nq 255 / (mx - mn + eps))%Qc) in *. set (u := ((mx - mn + eps) / nq 255)%Qc).
  assert (SU : (s * u = 1)%Qc) by (unfold s, u; field; split; [discriminate|intro E0; rewrite E0 in R; discriminate]).
  assert (PS : (0 < s)%Qc) by (unfold s, Qcdiv; apply Qc_mul_pos; [reflexivity|now apply Qcinv_pos]). assert (PU : (0 < u)%Qc) by (unfold u, Qcdiv; apply Qc_mul_pos; [exact R|reflexivity]).
  split.
  - intros k Lk. rewrite V by exact Lk. set (d := nth k data 0%Qc). assert (B : (mn <= d /\ d <= mx)%Qc) by (split; [apply SM|apply LM]; now apply nth_In). destruct (byte_bounds eps mn mx d P (proj1 B) (proj2 B)) as [B1 B2]. fold s in B1, B2.
    split; [split; [apply CovdetPatch2_Proofs.floor_ge; exact B1|]; assert (qfloor ((d - mn) * s) < 255)%Z by (apply floor_under; exact B2); lia|].
    split; [intros ->; replace ((mn - mn) * s)%Qc with (zq 0) by (change (zq 0) with 0%Qc; ring); apply qfloor_unique; [apply Qcle_refl|reflexivity]|].
    cbv zeta. set (q := ((d - mn) * s)%Qc). pose proof (qfloor_le q) as F1. pose proof (qfloor_lt q) as F2. assert (Q : (mn + q * u = d)%Qc) by (unfold q; replace ((d - mn) * s * u)%Qc with ((d - mn) * (s * u))%Qc by ring; rewrite SU; ring). rewrite <- Q. split.
    + apply Qcplus_le_compat; [apply Qcle_refl|]. apply Qcmult_le_compat_r; [exact F1|now apply Qclt_le_weak].
    + replace (mn + zq (qfloor q) * u + u)%Qc with (mn + (zq (qfloor q) + 1) * u)%Qc by ring. assert (F3 : (q * u < (zq (qfloor q) + 1) * u)%Qc) by (apply Qcmult_lt_compat_r; [exact PU|exact F2]). set (x := (q * u)%Qc) in *. set (y := ((zq (qfloor q) + 1) * u)%Qc) in *. clearbody x y. clear - F3. qn.
  - intros i j Li Lj H0. rewrite !V by assumption. apply CovdetPatch2_Proofs.floor_mono. apply Qcmult_le_compat_r; [|now apply Qclt_le_weak]. set (a := nth i data 0%Qc) in *. set (b := nth j data 0%Qc) in *. clearbody a b. clear - H0. qn.
Qed.
Print Assumptions C297_written.

(** C297: from 2^31 pixels the product of the sizes is not an int and the call is undefined *)
Theorem C297_overflow : forall le eps data w h buffer, (2 ^ 31 <= w * h)%Z -> pgm_write_f le eps data w h buffer = None.
Proof. intros le eps data w h buffer H. unfold pgm_write_f. destruct (Z.leb_spec (2 ^ 31) (w * h)); [reflexivity|lia]. Qed.
Print Assumptions C297_overflow.
Example C297_ex_overflow : (2 ^ 31 <= 65536 * 32768)%Z /\ pgm_write_f true (1 / zq 8388608)%Qc [] 65536 32768 [] = None.
Proof. split; [lia|reflexivity]. Qed.

(** C298 (refuted).  The claim: the data are rescaled to 0, ..., 255, the largest value to 255.  It gets at most 254, whatever the data. *)
Theorem C298_white_refuted : forall eps data buffer bytes, (0 < eps)%Qc -> length buffer = length data -> to_bytes eps data (length data) buffer = Some bytes -> Forall (fun b => (b < 255)%Z) bytes.
Proof.
  intros eps data buffer bytes P LB E. destruct data as [|d0 data0] eqn:ED.
  { destruct buffer; [|discriminate]. cbn in E. injection E as <-. constructor. }
  rewrite <- ED in *. assert (NE : data <> []) by (rewrite ED; discriminate). clear d0 data0 ED. destruct (extrema_ok data NE) as (mn & mx & _ & SM & LM). destruct (to_bytes_ok eps data buffer mn mx P LB SM LM) as (r & E2 & L & V).
  rewrite E in E2. injection E2 as <-. apply Forall_forall. intros b Hb. apply (In_nth _ _ 0%Z) in Hb. destruct Hb as (k & Lk & <-). rewrite L in Lk. rewrite V by exact Lk. apply floor_under.
  apply (byte_bounds eps mn mx _ P); [apply SM|apply LM]; now apply nth_In.
Qed.
Print Assumptions C298_white_refuted.
(** the values 0 and 1, with the epsilon of floats *)
Example C298_ex : to_bytes (1 / zq 8388608)%Qc [0; 1]%Qc 2 [7; 7]%Z = Some [0; 254]%Z.
Proof. vm_compute. reflexivity. Qed.

(** C299.  Floats read are the bytes over the largest value, so between 0 and 1; *)
Theorem C299_floats : forall mv n idata fdata, (0 < mv)%Z -> length idata = n -> length fdata = n -> (forall v, In v idata -> (0 <= v <= mv)%Z) ->
  exists out, to_floats mv n idata fdata = Some out /\ length out = n /\ forall k, k < n -> (nth k out 0%Qc = zq (nth k idata 0%Z) / zq mv /\ 0 <= nth k out 0 /\ nth k out 0 <= 1)%Qc.
Proof.
  intros mv n idata fdata HM LI LF B. unfold to_floats.
  match goal with |- context [iter _ ?b ?s] => destruct (iter_inv (fun k (st : list Qc) => length st = n /\ forall i, i < k -> i < n -> nth i st 0%Qc = (1 / zq mv * zq (nth i idata 0%Z))%Qc) b n s) as (r & E & L & V) end.
  - split; [exact LF|]. intros; lia.
  - intros k st Lk (L & V). rewrite (aget_nth idata k 0%Z) by lia. cbn [obind]. rewrite aset_lt by lia. eexists. split; [reflexivity|]. split; [now rewrite upd_length|].
    intros i Li1 Li2. rewrite nth_upd by lia. destruct (Nat.eqb_spec i k) as [->|N]; [reflexivity|]. apply V; lia.
  - exists r. split; [exact E|]. split; [exact L|]. intros k Lk. rewrite V by assumption. destruct (B (nth k idata 0%Z)) as [B1 B2]; [apply nth_In; lia|]. apply zq_le in B1, B2. assert (PM : (0 < zq mv)%Qc) by (change 0%Qc with (zq 0); apply zq_lt; exact HM).
    assert (PI : (0 <= / zq mv)%Qc) by (apply Qclt_le_weak, Qcinv_pos, PM). split; [unfold Qcdiv; ring|]. replace (1 / zq mv * zq (nth k idata 0%Z))%Qc with (zq (nth k idata 0%Z) * / zq mv)%Qc by (unfold Qcdiv; ring). split.
    + apply KmeansEnergy_Proofs.Qc_mult_nonneg; [exact B1|exact PI].
    + replace 1%Qc with (zq mv * / zq mv)%Qc by (apply Qcmult_inv_r; intro E0; rewrite E0 in PM; discriminate). apply Qcmult_le_compat_r; [exact B2|exact PI].
Qed.
Print Assumptions C299_floats.
(** but (refuted) no image of floats is ever read, like with bytes (C58) *)
Theorem C299_read_refuted : forall le f fresh, exists err, pgm_read_new_f le f fresh = Some (err, None) /\ err <> 0%Z.
Proof.
  intros le f fresh. unfold pgm_read_new_f. destruct (read_never le f) as (err & -> & H). cbn [obind]. exists err. split; [reflexivity|]. destruct H as [->|[->| ->]]; discriminate.
Qed.
Print Assumptions C299_read_refuted.
Example C297_ex : pgm_write_f true (1 / zq 8388608)%Qc [nq 3; 1; nq 2; nq 3]%Qc 2 2 [9; 9; 9; 9]%Z = pgm_write true [254; 0; 127; 254]%Z 2 2 /\ smallest [nq 3; 1; nq 2; nq 3]%Qc 1%Qc /\ largest [nq 3; 1; nq 2; nq 3]%Qc (nq 3).
Proof.
  split; [vm_compute; reflexivity|]. split; (split; [cbn; auto|]); intros d [<-|[<-|[<-|[<-|[]]]]]; discriminate.
Qed.
Example C299_ex : match to_floats 4 3 [0; 1; 4]%Z (repeat (nq 9) 3) with Some l => forallb (fun p => Qc_eq_bool (fst p) (snd p)) (combine l [0; 1 / nq 4; 1]%Qc) | None => false end = true.
Proof. vm_compute. reflexivity. Qed.
