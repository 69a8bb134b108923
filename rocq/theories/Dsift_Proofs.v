From Coq Require Import List Arith ZArith Lia Bool QArith Qcanon Qcabs.
From Verif Require Import Base Loop MserSort_Proofs ImOp_Spec ImOp_Model ImOp_Proofs Rat Gauss_Model Gauss_Proofs Dsift_Model Dsift_Spec.
Local Open Scope nat_scope.
Notation qsum n f := (sum 0%Qc Qcplus n f).

(** *** Loops over frames *)
Lemma zfor_iter {S} (body : Z -> S -> option S) lo hi step n : (0 < step)%Z ->
  (forall k, k < n <-> (lo + Z.of_nat k * step <= hi)%Z) ->
  forall fuel k s, k <= n -> n - k <= fuel ->
  zfor fuel (lo + Z.of_nat k * step) hi step body s = iter_from (n - k) k (fun k => body (lo + Z.of_nat k * step)%Z) s.
Proof.
  intros Hs Hn. induction fuel as [|fuel IH]; intros k s Lk Lf; cbn [zfor].
  - replace (n - k) with 0 by lia. cbn [iter_from]. destruct (Z.leb_spec (lo + Z.of_nat k * step) hi) as [H|H]; [|reflexivity].
    apply Hn in H. lia.
  - destruct (Z.leb_spec (lo + Z.of_nat k * step) hi) as [H|H].
    + apply Hn in H. replace (n - k) with (Datatypes.S (n - (k + 1))) by lia. cbn [iter_from]. destruct (body _ s) as [s'|]; cbn [obind]; [|reflexivity].
      rewrite <- IH by lia. f_equal. lia.
    + replace (n - k) with 0; [reflexivity|]. destruct (Nat.eq_dec k n); [lia|]. assert (X : k < n) by lia. apply Hn in X. lia.
Qed.
Definition nfit (lo hi step : Z) (nb bs : nat) : nat :=
  let r := range lo hi nb bs in if (0 <=? r)%Z then Z.to_nat (r / step + 1) else 0.
Lemma nfit_fits lo hi step nb bs : (0 < step)%Z -> fits lo hi step nb bs (nfit lo hi step nb bs).
Proof.
  intros Hs k. unfold nfit, range. destruct (Z.leb_spec 0 (hi - lo - (Z.of_nat nb - 1) * Z.of_nat bs)) as [H|H].
  - pose proof (Z.div_pos _ step H Hs). set (r := (hi - lo - (Z.of_nat nb - 1) * Z.of_nat bs)%Z) in *.
    pose proof (Z.div_mod r step ltac:(lia)). pose proof (Z.mod_pos_bound r step Hs). split; intro L.
    + assert (Z.of_nat k <= r / step)%Z by lia. nia.
    + assert (Z.of_nat k * step <= r)%Z by lia. assert (Z.of_nat k <= r / step)%Z by (apply Z.div_le_lower_bound; lia). lia.
  - split; intro L; [lia|]. nia.
Qed.
Lemma fits_unique lo hi step nb bs n m : fits lo hi step nb bs n -> fits lo hi step nb bs m -> n = m.
Proof.
  intros H1 H2. destruct (Nat.lt_trichotomy n m) as [L|[E|L]]; [|exact E|].
  - apply H2, H1 in L. lia.
  - apply H1, H2 in L. lia.
Qed.
Lemma count_frames_ok lo hi step nb bs : (0 < step)%Z -> count_frames lo hi step nb bs = Some (Z.of_nat (nfit lo hi step nb bs)).
Proof.
  intro Hs. unfold count_frames, nfit. destruct (Z.leb_spec 0 (range lo hi nb bs)) as [H|H]; [|reflexivity].
  destruct (Z.eqb_spec step 0); [lia|]. f_equal. pose proof (Z.div_pos _ step H Hs). rewrite Z.quot_div_nonneg by lia. lia.
Qed.
Lemma frames_loop_iter {S} (body : Z -> S -> option S) lo hi step nb bs s : (0 < step)%Z ->
  frames_loop lo (hi - frame_size nb bs + 1) step body s = iter (nfit lo hi step nb bs) (fun k => body (lo + Z.of_nat k * step)%Z) s.
Proof.
  intro Hs. unfold frames_loop, iter. pose proof (nfit_fits lo hi step nb bs Hs) as F. set (n := nfit _ _ _ _ _) in *.
  assert (F' : forall k, k < n <-> (lo + Z.of_nat k * step <= hi - frame_size nb bs + 1)%Z) by (intro k; rewrite (F k); unfold frame_size; lia).
  pose proof (zfor_iter body lo _ step n Hs F' (Z.to_nat (hi - frame_size nb bs + 1 - lo + 1)) 0 s ltac:(lia)) as E.
  rewrite Nat.sub_0_r in E. replace (lo + Z.of_nat 0 * step)%Z with lo in E by lia. apply E.
  destruct n as [|n']; [lia|]. assert (X : n' < Datatypes.S n') by lia. apply F' in X. nia.
Qed.

Lemma pos_inj w x y x' y' : x < w -> x' < w -> x + y * w = x' + y' * w -> x = x' /\ y = y'.
Proof.
  intros L L' E. assert (y = y'); [|subst; lia]. destruct (Nat.lt_trichotomy y y') as [H|[H|H]]; [|exact H|]; nia.
Qed.

(** *** Gradients *)
Section Grad.
Variables (sqrt_ : Qc -> Qc) (turn : Qc -> Qc -> Qc).
Variable c : settings.
Notation w := (imw c).
Notation h := (imh c).
Notation T := (nbt c).
Variable im : list Qc.
Hypothesis Lim : length im = w * h.
Hypothesis Hw : 2 <= w.
Hypothesis Hh : 2 <= h.
Hypothesis HT : 0 < T.
Hypothesis turn_nonneg : forall gy gx, (0 <= turn gy gx)%Qc.
Definition img (im : list Qc) (w x y : nat) : Qc := nth (x + y * w) im 0%Qc.

Lemma at_ok x y x' y' : x < w -> y < h -> x' = Z.of_nat x -> y' = Z.of_nat y -> pixel_at im w x' y' = Some (img im w x y).
Proof.
  intros Lx Ly -> ->. unfold pixel_at, zget, img. rewrite <- Nat2Z.inj_mul, <- Nat2Z.inj_add. destruct (Z.ltb_spec (Z.of_nat (y * w + x)) 0); [lia|].
  rewrite Nat2Z.id, (Nat.add_comm _ x). apply aget_nth. nia.
Qed.

Definition all_sized (g : list (list Qc)) : Prop := length g = T /\ forall t, t < T -> length (nth t g nil) = w * h.
Definition gent (g : list (list Qc)) (t x y : nat) : Qc := img (nth t g nil) w x y.

Lemma set_entry g t x y v : all_sized g -> t < T -> x < w -> y < h ->
  exists g', (do p <- zget g (Z.of_nat t); do p <- aset p (x + y * w) v; zset g (Z.of_nat t) p) = Some g' /\ all_sized g' /\
    forall t' x' y', t' < T -> x' < w -> y' < h -> gent g' t' x' y' = if (t' =? t) && (x' =? x) && (y' =? y) then v else gent g t' x' y'.
Proof.
  intros [Lg Hg] Lt Lx Ly. unfold zget, zset. destruct (Z.ltb_spec (Z.of_nat t) 0); [lia|]. rewrite Nat2Z.id.
  rewrite (aget_nth g t nil) by lia. cbn [obind]. rewrite aset_lt by (rewrite Hg by exact Lt; nia). cbn [obind]. rewrite aset_lt by lia.
  eexists; split; [reflexivity|]. split.
  - split; [now rewrite upd_length|]. intros t' Lt'. rewrite nth_upd by lia. destruct (t' =? t); [rewrite upd_length|]; auto.
  - intros t' x' y' Lt' Lx' Ly'. unfold gent. rewrite nth_upd by lia. destruct (Nat.eqb_spec t' t) as [->|]; [|reflexivity]. cbn [andb].
    unfold img. rewrite nth_upd by (rewrite Hg by exact Lt; nia). destruct (Nat.eqb_spec (x' + y' * w) (x + y * w)) as [E|E].
    + destruct (pos_inj _ _ _ _ _ Lx' Lx E) as [-> ->]. now rewrite !Nat.eqb_refl.
    + destruct (Nat.eqb_spec x' x) as [->|]; [|reflexivity]. destruct (Nat.eqb_spec y' y) as [->|]; [congruence|reflexivity].
Qed.

Lemma rem_bin b : (0 <= b)%Z -> exists t, Z.rem b (Z.of_nat T) = Z.of_nat t /\ t < T /\ (b mod Z.of_nat T = Z.of_nat t)%Z.
Proof.
  intro H. pose proof (Z.mod_pos_bound b (Z.of_nat T) ltac:(lia)). exists (Z.to_nat (b mod Z.of_nat T)).
  rewrite Z.rem_mod_nonneg by lia. lia.
Qed.
Lemma qfloor_nonneg q : (0 <= q)%Qc -> (0 <= qfloor q)%Z.
Proof.
  intro H. unfold qfloor. change 0%Z with (Qround.Qfloor 0). apply Qround.Qfloor_resp_le. unfold Qcle in H. exact H.
Qed.

Lemma grad_pixel_ok g x y : all_sized g -> x < w -> y < h -> (forall t, t < T -> gent g t x y = 0%Qc) ->
  exists g', grad_pixel sqrt_ turn c im y x g = Some g' /\ all_sized g' /\
    forall t x' y', t < T -> x' < w -> y' < h ->
      gent g' t x' y' = if (x' =? x) && (y' =? y) then energy sqrt_ turn w h T (img im w) t x y else gent g t x' y'.
Proof.
  intros Sg Lx Ly Hz. unfold grad_pixel.
  match goal with |- context [obind ?e _] => assert (E1 : e = Some (diff (img im w x) h y)) end.
  { unfold diff. destruct (Nat.eqb_spec y 0) as [->|N0].
    - rewrite (at_ok x 1), (at_ok x 0) by lia. reflexivity.
    - destruct (Nat.eqb_spec y (h - 1)) as [Ey|N1].
      + rewrite (at_ok x y), (at_ok x (y - 1)) by lia. reflexivity.
      + rewrite (at_ok x (y + 1)), (at_ok x (y - 1)) by lia. reflexivity. }
  rewrite E1. clear E1. cbn [obind].
  match goal with |- context [obind ?e _] => assert (E1 : e = Some (diff (fun a => img im w a y) w x)) end.
  { unfold diff. destruct (Nat.eqb_spec x 0) as [->|N0].
    - rewrite (at_ok 1 y), (at_ok 0 y) by lia. reflexivity.
    - destruct (Nat.eqb_spec x (w - 1)) as [Ey|N1].
      + rewrite (at_ok x y), (at_ok (x - 1) y) by lia. reflexivity.
      + rewrite (at_ok (x + 1) y), (at_ok (x - 1) y) by lia. reflexivity. }
  rewrite E1. clear E1. cbn [obind]. unfold energy, orient. set (gy := diff (img im w x) h y). set (gx := diff _ w x).
  set (nt := (turn gy gx * nq T)%Qc). set (md := sqrt_ _). set (r := (nt - zq (qfloor nt))%Qc).
  destruct (Nat.eqb_spec T 0); [lia|].
  assert (Hb : (0 <= qfloor nt)%Z).
  { apply qfloor_nonneg. unfold nt. assert (0 <= nq T)%Qc by (unfold nq; rewrite <- zq_0; apply zq_le; lia).
    pose proof (Qcmult_le_compat_r 0 (turn gy gx) _ (turn_nonneg gy gx) H) as M. now rewrite Qcmult_0_l in M. }
  destruct (rem_bin _ Hb) as (t0 & -> & L0 & M0). destruct (rem_bin (qfloor nt + 1) ltac:(lia)) as (t1 & -> & L1 & M1). rewrite M0, M1.
  destruct (set_entry g t0 x y ((1 - r) * md)%Qc Sg L0 Lx Ly) as (g1 & E1 & S1 & H1).
  destruct (set_entry g1 t1 x y (r * md)%Qc S1 L1 Lx Ly) as (g2 & E2 & S2 & H2).
  exists g2. split; [|split; [exact S2|]].
  - destruct (zget g (Z.of_nat t0)) as [p|]; cbn [obind] in *; [|discriminate]. destruct (aset p _ _) as [p'|]; cbn [obind] in *; [|discriminate].
    rewrite E1. cbn [obind]. exact E2.
  - intros t x' y' Lt Lx' Ly'. rewrite H2, H1 by auto. rewrite <- !andb_assoc. destruct (Nat.eqb_spec x' x) as [->|]; [destruct (Nat.eqb_spec y' y) as [->|]|]; cbn [andb].
    + rewrite !andb_true_r. destruct (Z.eqb_spec (Z.of_nat t1) (Z.of_nat t)), (Nat.eqb_spec t t1); try lia; [reflexivity|].
      destruct (Z.eqb_spec (Z.of_nat t0) (Z.of_nat t)), (Nat.eqb_spec t t0); try lia; [reflexivity|]. now apply Hz.
    + rewrite !andb_false_r. reflexivity.
    + rewrite !andb_false_r. reflexivity.
Qed.

Lemma clear_ok g : all_sized g -> exists g', clear_grads c g = Some g' /\ all_sized g' /\ forall t x y, t < T -> x < w -> y < h -> gent g' t x y = 0%Qc.
Proof.
  intros [Lg Hg]. unfold clear_grads.
  destruct (iter_inv (fun k g' => length g' = T /\ (forall t, t < T -> length (nth t g' nil) = w * h) /\ forall t, t < k -> nth t g' nil = repeat 0%Qc (w * h))
    (fun t g => do p <- aget g t; if w * h <=? length p then aset g t (repeat 0%Qc (w * h) ++ skipn (w * h) p) else None) T g) as (g' & E & L & S & H).
  - repeat split; auto. intros; lia.
  - intros t g' Lt (L & S & H). rewrite (aget_nth g' t nil) by lia. cbn [obind]. rewrite S by exact Lt. rewrite Nat.leb_refl. rewrite aset_lt by lia.
    rewrite skipn_all2 by (rewrite S; auto). rewrite app_nil_r. eexists; split; [reflexivity|]. rewrite upd_length. split; [exact L|]. split.
    + intros t' Lt'. rewrite nth_upd by lia. destruct (t' =? t); [apply repeat_length|auto].
    + intros t' Lt'. rewrite nth_upd by lia. destruct (Nat.eqb_spec t' t); [reflexivity|]. apply H. lia.
  - exists g'. split; [exact E|]. split; [split; auto|]. intros t x y Lt Lx Ly. unfold gent, img. rewrite H by exact Lt.
    assert (X : x + y * w < length (repeat 0%Qc (w * h))) by (rewrite repeat_length; nia). exact (repeat_spec _ _ _ (nth_In _ 0%Qc X)).
Qed.

Lemma gradients_ok g : all_sized g -> (forall t x y, t < T -> x < w -> y < h -> gent g t x y = 0%Qc) ->
  exists g', gradients sqrt_ turn c im g = Some g' /\ all_sized g' /\
    forall t x y, t < T -> x < w -> y < h -> gent g' t x y = energy sqrt_ turn w h T (img im w) t x y.
Proof.
  intros Sg Hz. unfold gradients.
  destruct (iter_inv (fun k g' => all_sized g' /\ forall t x y, t < T -> x < w -> y < h ->
      gent g' t x y = if y <? k then energy sqrt_ turn w h T (img im w) t x y else 0%Qc)
    (fun y => iter w (grad_pixel sqrt_ turn c im y)) h g) as (g' & E & S & H).
  - split; [exact Sg|]. intros. now apply Hz.
  - intros k g' Lk [S H].
    destruct (iter_inv (fun j g' => all_sized g' /\ forall t x y, t < T -> x < w -> y < h ->
        gent g' t x y = if (y <? k) || ((y =? k) && (x <? j)) then energy sqrt_ turn w h T (img im w) t x y else 0%Qc)
      (grad_pixel sqrt_ turn c im k) w g') as (g2 & E2 & S2 & H2).
    + split; [exact S|]. intros t x y Lt Lx Ly. rewrite H by auto. rewrite andb_false_r, orb_false_r. reflexivity.
    + intros j g2 Lj [S2 H2]. destruct (grad_pixel_ok g2 j k S2 Lj Lk) as (g3 & E3 & S3 & H3).
      { intros t Lt. rewrite H2 by auto. rewrite !Nat.ltb_irrefl, andb_false_r. reflexivity. }
      exists g3. split; [exact E3|]. split; [exact S3|]. intros t x y Lt Lx Ly. rewrite H3, H2 by auto.
      destruct (Nat.eqb_spec x j), (Nat.eqb_spec y k), (Nat.ltb_spec y k), (Nat.ltb_spec x j), (Nat.ltb_spec x (j + 1)); subst; cbn [andb orb]; try lia; reflexivity.
    + exists g2. split; [exact E2|]. split; [exact S2|]. intros t x y Lt Lx Ly. rewrite H2 by auto.
      destruct (Nat.eqb_spec y k), (Nat.ltb_spec y k), (Nat.ltb_spec x w), (Nat.ltb_spec y (k + 1)); subst; cbn [andb orb]; try lia; reflexivity.
  - exists g'. split; [exact E|]. split; [exact S|]. intros t x y Lt Lx Ly. rewrite H by auto. destruct (Nat.ltb_spec y h); [reflexivity|lia].
Qed.
End Grad.
