(** Properties of the complete LIOP descriptor. *)
From Coq Require Import FinFun List Arith ZArith Bool Lia Lqa QArith Qcanon Permutation.
Import ListNotations.
From Verif Require Import Base Rat Liop_Model Liop_Spec LiopFull_Model LiopFull_Spec LiopFull_Proofs LiopInv_Proofs.
Local Open Scope nat_scope.

(** C233.  The descriptor of a patch is defined, no access being outside of the patch or of the buffers.  There is an order [q] of the pixels of the circular region by intensity and, for each, an order of its neighbours by interpolated intensity,
    such that the entry of the rank of p in the b-th block is the sum of the numbers of pairs of neighbours that differ by more than the threshold, over the pixels of the b-th share of [q] whose neighbours are ordered as p, divided by the norm of all, not less than 1e-12. *)
Theorem C233_descriptor side radius nn bins dir rt given patch : 3 <= side -> (0 <= radius)%Qc -> (radius <= nq (side / 2))%Qc ->
  (forall x y t, (- (1) <= fst (dir x y t) /\ fst (dir x y t) <= 1 /\ - (1) <= snd (dir x y t) /\ snd (dir x y t) <= 1)%Qc) ->
  1 <= nn -> 1 <= bins -> length patch = side * side ->
  exists desc q perm th h,
    liop side radius nn bins dir rt given patch = Some desc /\
    NoDup q /\ (forall p, In p q <-> region side radius p) /\
    (forall i j x y, i < j -> nth_error q i = Some x -> nth_error q j = Some y -> (nth x patch 0 <= nth y patch 0)%Qc) /\
    threshold_of side radius patch given th /\
    (forall i p, nth_error q i = Some p -> orders nn (around side radius dir nn patch p) (perm i)) /\
    length h = fact nn * bins /\
    (forall b p r, b < bins -> is_perm nn p -> permutation_index p nn = Some r ->
      nth_error h (b * fact nn + r) = Some (weighted_count (length q)
        (fun i => (spatial_bin bins (length q / bins) i =? b) && if list_eq_dec Nat.eq_dec (perm i) p then true else false)
        (fun i => pairs th (around side radius dir nn patch (nth i q 0))))) /\
    (let n := rt (squares (map zq h)) in let m := Q2Qc (1 # 1000000000000) in
     desc = map (fun v => zq v / (if Qclt_le_dec n m then m else n))%Qc h).
Proof. intros. apply liop_ok; assumption. Qed.
Print Assumptions C233_descriptor.

(** C234.  If the square root is accurate up to e, the squared norm of the descriptor is 1 up to e, or the descriptor is zero. *)
Theorem C234_normalised side radius nn bins dir rt given patch desc e : (0 <= e)%Qc -> (e <= Q2Qc (1 # 2))%Qc ->
  (forall x, 0 <= x -> 0 <= rt x /\ (1 - e) * x <= rt x * rt x /\ rt x * rt x <= (1 + e) * x)%Qc ->
  liop side radius nn bins dir rt given patch = Some desc ->
  Forall (fun v => v = 0%Qc) desc \/ (squares desc * (1 - e) <= 1 /\ 1 <= squares desc * (1 + e))%Qc.
Proof.
  intros E0 E1 R H. unfold liop in H. destruct (liop_histogram side radius nn bins dir given patch) as [h|]; [|discriminate].
  cbn [obind] in H. injection H as <-. rewrite normalise_norm. apply norm_ok; assumption.
Qed.
Print Assumptions C234_normalised.

(** C235.  Scaling the intensities does not change the descriptor, an absolute threshold being scaled as well; an offset neither, if the neighbours of all pixels of the region are inside of the patch. *)
Theorem C235_affine side radius nn bins dir rt given patch a b : 3 <= side -> (0 <= radius)%Qc -> (radius <= nq (side / 2))%Qc ->
  (forall x y t, (- (1) <= fst (dir x y t) /\ fst (dir x y t) <= 1 /\ - (1) <= snd (dir x y t) /\ snd (dir x y t) <= 1)%Qc) ->
  length patch = side * side -> (0 < a)%Qc ->
  (b = 0%Qc \/ forall p t, region side radius p -> t < nn ->
     let x := fst (point side radius dir p t) in let y := snd (point side radius dir p t) in (0 <= x /\ x <= nq side - 1 /\ 0 <= y /\ y <= nq side - 1)%Qc) ->
  ((given < 0)%Qc -> liop side radius nn bins dir rt given (map (fun v => a * v + b)%Qc patch) = liop side radius nn bins dir rt given patch) /\
  ((0 <= given)%Qc -> liop side radius nn bins dir rt (a * given)%Qc (map (fun v => a * v + b)%Qc patch) = liop side radius nn bins dir rt given patch).
Proof.
  intros H1 H2 H3 H4 HL Ha Hb.
  pose proof (liop_aff a b Ha side radius nn bins dir rt H1 H2 H3 H4 Hb given patch HL) as X. unfold scaled in X.
  split; intro G.
  - apply Gauss_Proofs.qlt_true in G. rewrite G in X. exact X.
  - apply Gauss_Proofs.qlt_false in G. rewrite G in X. exact X.
Qed.
Print Assumptions C235_affine.

(** the directions of four neighbours, exact for the centre and for pixels in its row and column *)
Fixpoint turn (t : nat) (p : Qc * Qc) : Qc * Qc := match t with O => p | S t => turn t (- snd p, fst p)%Qc end.
Definition quarter (x y : Z) (t : nat) : Qc * Qc := turn t (if (x =? 0)%Z && (y =? 0)%Z then (1, 0)%Qc else (zq (Z.sgn x), zq (Z.sgn y))).
Lemma turn_bound t : forall p, (- (1) <= fst p /\ fst p <= 1 /\ - (1) <= snd p /\ snd p <= 1)%Qc ->
  (- (1) <= fst (turn t p) /\ fst (turn t p) <= 1 /\ - (1) <= snd (turn t p) /\ snd (turn t p) <= 1)%Qc.
Proof.
  induction t as [|t IH]; intros p H; cbn [turn]; [exact H|]. apply IH. cbn [fst snd]. destruct H as (A & B & C & D).
  split; [qc_lra|]. split; [qc_lra|]. auto.
Qed.
Lemma quarter_bound x y t : (- (1) <= fst (quarter x y t) /\ fst (quarter x y t) <= 1 /\ - (1) <= snd (quarter x y t) /\ snd (quarter x y t) <= 1)%Qc.
Proof.
  apply turn_bound. destruct ((x =? 0)%Z && (y =? 0)%Z); [repeat split; discriminate|]. destruct x, y; repeat split; discriminate.
Qed.

(** a patch of distinct intensities *)
Definition cross : list Z := [31;32; 3;33;34;  35;36; 2;37;38;  6; 5; 4; 1;20;  39;40;11;41;42;  43;44;12;45;46]%Z.
Lemma cross_nodup : NoDup (map zq cross).
Proof.
  apply FinFun.Injective_map_NoDup; [intros x y; apply zq_inj|].
  assert (E : nodup Z.eq_dec cross = cross) by (vm_compute; reflexivity). rewrite <- E. apply NoDup_nodup.
Qed.
(** the patch turned by a quarter *)
Definition turned (l : list Qc) : list Qc := map (fun i => nth (i / 5 + (4 - i mod 5) * 5) l 0%Qc) (seq 0 25).
Definition hist := liop_histogram 5 (Q2Qc (3 # 2)) 4 1 quarter 0%Qc.
Definition show (h : option (list Z)) := option_map (fun h => filter (fun p => negb (Z.eqb (snd p) 0)) (combine (seq 0 (length h)) h)) h.

Example C233_ex_region : map (fun p => (p mod 5, p / 5)) (patch_pixels 5 (Q2Qc (3 # 2))) = [(2, 1); (1, 2); (2, 2); (3, 2); (2, 3)].
Proof. vm_compute. reflexivity. Qed.
Example C233_ex_descriptor : option_map (map this) (liop 5 (Q2Qc (3 # 2)) 4 1 quarter (fun x => x) 0%Qc (map zq cross)) =
  Some [0; 0; 0; 1 # 42; 0; 0; 0; 0; 0; 0; 0; 0; 1 # 21; 1 # 42; 0; 0; 0; 0; 0; 0; 0; 0; 1 # 42; 0]%Q.
Proof. vm_compute. reflexivity. Qed.
Example C233_ex_hypotheses : 3 <= 5 /\ (0 <= Q2Qc (3 # 2))%Qc /\ (Q2Qc (3 # 2) <= nq (5 / 2))%Qc /\ length (map zq cross) = 5 * 5 /\
  region 5 (Q2Qc (3 # 2)) 12 /\ ~ region 5 (Q2Qc (3 # 2)) 6.
Proof.
  split; [lia|]. split; [vm_compute; discriminate|]. split; [vm_compute; discriminate|]. split; [reflexivity|]. split.
  - apply pixels_iff. vm_compute. tauto.
  - intro H. apply pixels_iff in H. vm_compute in H. repeat (destruct H as [H|H]; [discriminate|]). exact H.
Qed.
(** a square root of the norms of the example: 252 up to one hundredth *)
Example C234_ex : let d := map (fun v => zq v / Q2Qc (159 # 10))%Qc [6; 12; 6; 6]%Z in
  (squares d * (1 - Q2Qc (1 # 100)) <= 1 /\ 1 <= squares d * (1 + Q2Qc (1 # 100)))%Qc.
Proof. split; vm_compute; discriminate. Qed.
Example C235_ex_scale : show (hist (map (fun v => zq 3 * zq v)%Qc cross)) = show (hist (map zq cross)) /\ show (hist (map zq cross)) = Some [(3, 6%Z); (12, 12%Z); (13, 6%Z); (22, 6%Z)].
Proof. vm_compute. auto. Qed.
(** all neighbours are inside: the centre of a patch of side three and radius one *)
Example C235_ex_inside : forall p t, region 3 1%Qc p -> t < 4 ->
  let x := fst (point 3 1%Qc quarter p t) in let y := snd (point 3 1%Qc quarter p t) in (0 <= x /\ x <= nq 3 - 1 /\ 0 <= y /\ y <= nq 3 - 1)%Qc.
Proof.
  intros p t R Ht. apply pixels_iff in R. vm_compute in R. destruct R as [<-|[]].
  destruct t as [|[|[|[|t]]]]; [..|lia]; split; [|split; [|split]| |split; [|split]| |split; [|split]| |split; [|split]]; vm_compute; discriminate.
Qed.

Lemma entry_zero rt side radius nn bins dir given patch h k d : liop_histogram side radius nn bins dir given patch = Some h ->
  liop side radius nn bins dir rt given patch = Some d -> (nth k h 0%Z = 0%Z <-> nth k d 0%Qc = 0%Qc).
Proof.
  intros E H. unfold liop in H. rewrite E in H. cbn [obind] in H. injection H as <-. rewrite normalise_norm.
  pose proof (norm_pos rt h) as NP.
  assert (X : nth k (map (fun v => zq v / norm_of rt h)%Qc h) 0%Qc = (zq (nth k h 0%Z) / norm_of rt h)%Qc).
  { replace 0%Qc with (zq 0 / norm_of rt h)%Qc at 1 by (rewrite zq_0; unfold Qcdiv; ring). apply (map_nth (fun v => zq v / norm_of rt h)%Qc). }
  rewrite X. split.
  - intros ->. rewrite zq_0. unfold Qcdiv. ring.
  - intro Z. apply zq_inj. rewrite zq_0. replace (zq (nth k h 0%Z)) with (zq (nth k h 0%Z) / norm_of rt h * norm_of rt h)%Qc; [rewrite Z; ring|].
    field. intro Y. rewrite Y in NP. discriminate NP.
Qed.

(** C236.  "Invariant to monotonic intensity changes": squaring the positive intensities keeps their order and changes the descriptor, since the neighbours are interpolated. *)
Theorem C236_monotone_refuted : exists patch : list Qc, Forall (fun v => 0 < v)%Qc patch /\ NoDup patch /\
  forall rt, exists d d', liop 5 (Q2Qc (3 # 2)) 4 1 quarter rt 0%Qc patch = Some d /\
    liop 5 (Q2Qc (3 # 2)) 4 1 quarter rt 0%Qc (map (fun v => v * v)%Qc patch) = Some d' /\ nth 23 d 0%Qc = 0%Qc /\ nth 23 d' 0%Qc <> 0%Qc.
Proof.
  exists (map zq cross). split; [|split].
  - apply Forall_forall. intros v Hv. apply in_map_iff in Hv. destruct Hv as (z & <- & Hz). rewrite <- zq_0. apply zq_lt.
    assert (F : forallb (fun z => (0 <? z)%Z) cross = true) by (vm_compute; reflexivity). rewrite forallb_forall in F. apply Z.ltb_lt. apply F. exact Hz.
  - exact cross_nodup.
  - intro rt.
    destruct (liop_histogram 5 (Q2Qc (3 # 2)) 4 1 quarter 0%Qc (map zq cross)) as [h|] eqn:E; [|vm_compute in E; discriminate].
    destruct (liop_histogram 5 (Q2Qc (3 # 2)) 4 1 quarter 0%Qc (map (fun v => v * v)%Qc (map zq cross))) as [h'|] eqn:E'; [|vm_compute in E'; discriminate].
    exists (normalise rt h), (normalise rt h').
    assert (L : liop 5 (Q2Qc (3 # 2)) 4 1 quarter rt 0%Qc (map zq cross) = Some (normalise rt h)) by (unfold liop; rewrite E; reflexivity).
    assert (L' : liop 5 (Q2Qc (3 # 2)) 4 1 quarter rt 0%Qc (map (fun v => v * v)%Qc (map zq cross)) = Some (normalise rt h')) by (unfold liop; rewrite E'; reflexivity).
    split; [exact L|]. split; [exact L'|]. rewrite <- (entry_zero _ _ _ _ _ _ _ _ _ 23 _ E L), <- (entry_zero _ _ _ _ _ _ _ _ _ 23 _ E' L').
    vm_compute in E, E'. injection E as <-. injection E' as <-. split; [reflexivity|discriminate].
Qed.
Print Assumptions C236_monotone_refuted.

(** C237.  "Invariant to image rotations": turning the patch by a quarter changes the descriptor though all intensities are distinct, since the neighbours of the centre of the patch are taken from a fixed direction. *)
Theorem C237_rotation_refuted : exists patch : list Qc, NoDup patch /\ length patch = 25 /\
  forall rt, exists d d', liop 5 (Q2Qc (3 # 2)) 4 1 quarter rt 0%Qc patch = Some d /\
    liop 5 (Q2Qc (3 # 2)) 4 1 quarter rt 0%Qc (turned patch) = Some d' /\ nth 4 d 0%Qc = 0%Qc /\ nth 4 d' 0%Qc <> 0%Qc.
Proof.
  exists (map zq cross). split; [|split; [reflexivity|]].
  - exact cross_nodup.
  - intro rt.
    destruct (liop_histogram 5 (Q2Qc (3 # 2)) 4 1 quarter 0%Qc (map zq cross)) as [h|] eqn:E; [|vm_compute in E; discriminate].
    destruct (liop_histogram 5 (Q2Qc (3 # 2)) 4 1 quarter 0%Qc (turned (map zq cross))) as [h'|] eqn:E'; [|vm_compute in E'; discriminate].
    exists (normalise rt h), (normalise rt h').
    assert (L : liop 5 (Q2Qc (3 # 2)) 4 1 quarter rt 0%Qc (map zq cross) = Some (normalise rt h)) by (unfold liop; rewrite E; reflexivity).
    assert (L' : liop 5 (Q2Qc (3 # 2)) 4 1 quarter rt 0%Qc (turned (map zq cross)) = Some (normalise rt h')) by (unfold liop; rewrite E'; reflexivity).
    split; [exact L|]. split; [exact L'|]. rewrite <- (entry_zero _ _ _ _ _ _ _ _ _ 4 _ E L), <- (entry_zero _ _ _ _ _ _ _ _ _ 4 _ E' L').
    vm_compute in E, E'. injection E as <-. injection E' as <-. split; [reflexivity|discriminate].
Qed.
Print Assumptions C237_rotation_refuted.

(** C238.  "Neighborhoods fall within the image boundaries": those of the region reach half a pixel outside of the patch, so that a constant patch has a pattern. *)
Theorem C238_margin_refuted : exists p t, region 3 (Q2Qc (1 # 2)) p /\ t < 4 /\ (nq 3 - 1 < fst (point 3 (Q2Qc (1 # 2)) quarter p t))%Qc /\
  forall rt, exists d, liop 3 (Q2Qc (1 # 2)) 4 1 quarter rt (- Q2Qc (5 # 255))%Qc (repeat 1%Qc 9) = Some d /\ nth 3 d 0%Qc <> 0%Qc.
Proof.
  exists 5, 0. split; [apply pixels_iff; vm_compute; tauto|]. split; [lia|]. split; [vm_compute; reflexivity|]. intro rt.
  destruct (liop_histogram 3 (Q2Qc (1 # 2)) 4 1 quarter (- Q2Qc (5 # 255))%Qc (repeat 1%Qc 9)) as [h|] eqn:E; [|vm_compute in E; discriminate].
  exists (normalise rt h).
  assert (L : liop 3 (Q2Qc (1 # 2)) 4 1 quarter rt (- Q2Qc (5 # 255))%Qc (repeat 1%Qc 9) = Some (normalise rt h)) by (unfold liop; rewrite E; reflexivity).
  split; [exact L|]. rewrite <- (entry_zero _ _ _ _ _ _ _ _ _ 3 _ E L). vm_compute in E. injection E as <-. discriminate.
Qed.
Print Assumptions C238_margin_refuted.

(** C239.  "The remaining pixels are incorporated into the last partition": with five pixels and seven bins the last one is empty. *)
Theorem C239_partition_refuted : forall rt, exists d, liop 3 (Q2Qc (1 # 2)) 4 7 quarter rt 0%Qc (map zq [1; 2; 3; 4; 5; 6; 7; 8; 9]%Z) = Some d /\
  length d = 24 * 7 /\ Forall (fun v => v = 0%Qc) (skipn (24 * 6) d) /\ ~ Forall (fun v => v = 0%Qc) d.
Proof.
  intro rt. set (patch := map zq [1; 2; 3; 4; 5; 6; 7; 8; 9]%Z).
  destruct (liop_histogram 3 (Q2Qc (1 # 2)) 4 7 quarter 0%Qc patch) as [h|] eqn:E; [|vm_compute in E; discriminate].
  exists (normalise rt h).
  assert (L : liop 3 (Q2Qc (1 # 2)) 4 7 quarter rt 0%Qc patch = Some (normalise rt h)) by (unfold liop; rewrite E; reflexivity).
  pose proof (fun k => entry_zero _ _ _ _ _ _ _ _ _ k _ E L) as X.
  assert (LN : length (normalise rt h) = length h) by (unfold normalise; now rewrite map_length).
  split; [exact L|]. vm_compute in E. injection E as E. split; [rewrite LN, <- E; reflexivity|]. split.
  - apply Forall_forall. intros v Hv. apply In_nth with (d := 0%Qc) in Hv. destruct Hv as (i & Li & <-).
    rewrite skipn_length, LN in Li. rewrite <- (firstn_skipn (24 * 6) (normalise rt h)) in X.
    assert (F : length (firstn (24 * 6) (normalise rt h)) = 24 * 6) by (rewrite firstn_length, LN, <- E; reflexivity).
    specialize (X (24 * 6 + i)). rewrite app_nth2 in X by lia. rewrite F in X. replace (24 * 6 + i - 24 * 6) with i in X by lia. apply X.
    rewrite <- E in Li |- *. change (length _ - 24 * 6) with 24 in Li. do 24 (destruct i as [|i]; [reflexivity|]). lia.
  - intro F. rewrite Forall_forall in F.
    assert (Y : nth 28 (normalise rt h) 0%Qc <> 0%Qc) by (rewrite <- (X 28), <- E; discriminate).
    apply Y. apply F. apply nth_In. rewrite LN, <- E. cbn. lia.
Qed.
Print Assumptions C239_partition_refuted.

(** C240.  Patches of side at most two have no region: processing them sorts nothing, which fails an assertion. *)
Theorem C240_small_refuted side radius nn bins dir rt given patch : side <= 2 -> (0 <= radius)%Qc -> (radius <= nq (side / 2))%Qc ->
  liop side radius nn bins dir rt given patch = None.
Proof.
  intros L R S. assert (N : patch_pixels side radius = []).
  { destruct (patch_pixels side radius) as [|p l] eqn:E; [reflexivity|exfalso].
    assert (H : In p (patch_pixels side radius)) by (rewrite E; now left). apply pixels_iff in H. destruct H as (x & y & Lx & Ly & _ & Z & H). cbv zeta in H.
    assert (C : (side - 1) / 2 = 0) by (destruct side as [|[|[|s]]]; reflexivity || lia). rewrite C in H.
    assert (M : side = 2) by lia. subst side. change (nq (2 / 2)) with 1%Qc in S. change (nq 0) with 0%Qc in H.
    assert (X : (1 <= (nq x - 0) * (nq x - 0) + (nq y - 0) * (nq y - 0))%Qc).
    { destruct x as [|[|x]], y as [|[|y]]; try lia; vm_compute; discriminate. }
    assert (Y : ((0 - radius + Q2Qc (6 # 10)) * (0 - radius + Q2Qc (6 # 10)) < 1)%Qc).
    { clear - R S. assert (S6 : (this (Q2Qc (6 # 10)) == 6 # 10)%Q) by apply this_Q.
      unfold Qcle, Qclt in *. rewrite this_mult, this_plus, this_minus. rewrite S6. change (this 0%Qc) with 0%Q in *. change (this 1%Qc) with 1%Q in *. nra. }
    apply (Qclt_not_le _ _ Y). eapply Qcle_trans; eassumption. }
  unfold liop, liop_histogram. rewrite N. reflexivity.
Qed.
Print Assumptions C240_small_refuted.
Example C240_ex : 1 <= 2 /\ (0 <= 0)%Qc /\ (0 <= nq (1 / 2))%Qc.
Proof. repeat split; try discriminate. lia. Qed.
