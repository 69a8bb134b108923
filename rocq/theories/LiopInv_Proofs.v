(** The LIOP descriptor of a patch whose intensities change: proofs. *)
From Coq Require Import List Arith ZArith Bool Lia Lqa QArith Qcanon Qcabs Permutation.
Import ListNotations.
From Verif Require Import Base Loop Rat Gauss_Model Gauss_Proofs Order_Spec Qsort_Model Qsort_Spec Qsort_Proofs Liop_Model Liop_Spec Liop_Proofs LiopFull_Model LiopFull_Spec LiopFull_Proofs.
Local Open Scope nat_scope.

(** ** quicksort depends only on the comparisons of the elements *)
Section Ext.
Context {A : Type} (c1 c2 : A -> A -> Z) (P : A -> Prop).
Hypothesis H : forall a b, P a -> P b -> c1 a b = c2 a b.
Lemma aswap_forall l i j l' : Forall P l -> aswap l i j = Some l' -> Forall P l'.
Proof.
  intros F E. eapply Permutation_Forall; [|exact F]. apply Permutation_sym. eapply aswap_perm. exact E.
Qed.
Lemma qs_cmp_ext l i j : Forall P l -> qs_cmp c1 l i j = qs_cmp c2 l i j.
Proof.
  intro F. unfold qs_cmp, aget. destruct (nth_error l i) as [a|] eqn:Ea; [|reflexivity]. destruct (nth_error l j) as [b|] eqn:Eb; [|reflexivity].
  cbn [obind]. rewrite Forall_forall in F. f_equal. apply H; apply F; eapply nth_error_In; eassumption.
Qed.
Lemma qs_scan_ext : forall n l i e low, Forall P l -> qs_scan c1 n l i e low = qs_scan c2 n l i e low /\ forall l' low', qs_scan c2 n l i e low = Some (l', low') -> Forall P l'.
Proof.
  induction n as [|n IH]; intros l i e low F; cbn [qs_scan].
  - split; [reflexivity|]. intros l' low' [= <- <-]. exact F.
  - rewrite qs_cmp_ext by exact F. destruct (qs_cmp c2 l i e) as [c|]; cbn [obind]; [|split; [reflexivity|discriminate]].
    destruct (c <=? 0)%Z; [|apply IH; exact F].
    destruct (aswap l low i) as [l1|] eqn:S; cbn [obind]; [|split; [reflexivity|discriminate]]. apply IH. eapply aswap_forall; eassumption.
Qed.
Lemma qs_rec_ext : forall fuel l b e, Forall P l -> qs_sort_recursive c1 fuel l b e = qs_sort_recursive c2 fuel l b e /\ forall l', qs_sort_recursive c2 fuel l b e = Some l' -> Forall P l'.
Proof.
  induction fuel as [|fuel IH]; intros l b e F; cbn [qs_sort_recursive]; [split; [reflexivity|discriminate]|].
  destruct (b <=? e); [|split; [reflexivity|discriminate]].
  destruct (aswap l ((e + b) / 2) e) as [a1|] eqn:S1; cbn [obind]; [|split; [reflexivity|discriminate]].
  assert (F1 : Forall P a1) by (eapply aswap_forall; eassumption).
  destruct (qs_scan_ext (e - b) a1 b e b F1) as [X Y]. rewrite X. destruct (qs_scan c2 (e - b) a1 b e b) as [[a2 low]|]; cbn [obind]; [|split; [reflexivity|discriminate]].
  specialize (Y a2 low eq_refl).
  destruct (aswap a2 low e) as [a3|] eqn:S3; cbn [obind]; [|split; [reflexivity|discriminate]].
  assert (F3 : Forall P a3) by (eapply aswap_forall; eassumption).
  assert (Z4 : (if b <? low then qs_sort_recursive c1 fuel a3 b (low - 1) else Some a3) = (if b <? low then qs_sort_recursive c2 fuel a3 b (low - 1) else Some a3) /\ forall a4, (if b <? low then qs_sort_recursive c2 fuel a3 b (low - 1) else Some a3) = Some a4 -> Forall P a4).
  { destruct (b <? low); [apply IH; exact F3|]. split; [reflexivity|]. intros a4 [= <-]. exact F3. }
  destruct Z4 as [Z4 W4]. rewrite Z4. destruct (if b <? low then qs_sort_recursive c2 fuel a3 b (low - 1) else Some a3) as [a4|]; cbn [obind]; [|split; [reflexivity|discriminate]].
  specialize (W4 a4 eq_refl). destruct (low <? e); [apply IH; exact W4|]. split; [reflexivity|]. intros l' [= <-]. exact W4.
Qed.
Lemma qs_sort_ext l n : Forall P l -> qs_sort c1 l n = qs_sort c2 l n.
Proof. intro F. unfold qs_sort. destruct (1 <=? n); [|reflexivity]. apply qs_rec_ext. exact F. Qed.
End Ext.

(** ** affine changes *)
Section Affine.
Variables (a b : Qc).
Hypothesis Ha : (0 < a)%Qc.
Definition aff (v : Qc) : Qc := (a * v + b)%Qc.
Lemma aff_lt u v s : qlt (aff u + a * s)%Qc (aff v) = qlt (u + s)%Qc v.
Proof.
  assert (X : (aff u + a * s = a * (u + s) + b)%Qc) by (unfold aff; ring). rewrite X. unfold aff.
  destruct (qlt (u + s)%Qc v) eqn:E; [apply qlt_true in E; apply qlt_true|apply qlt_false in E; apply qlt_false].
  - unfold Qclt in *. rewrite ?this_plus, ?this_mult in *. change (this 0%Qc) with 0%Q in Ha. rewrite ?this_plus in *. nra.
  - unfold Qcle, Qclt in *. rewrite ?this_plus, ?this_mult in *. change (this 0%Qc) with 0%Q in Ha. rewrite ?this_plus in *. nra.
Qed.
Lemma aff_lt0 u v : qlt (aff u) (aff v) = qlt u v.
Proof.
  pose proof (aff_lt u v 0%Qc) as X. replace (aff u + a * 0)%Qc with (aff u) in X by ring. now replace (u + 0)%Qc with u in X by ring.
Qed.
Lemma nth_aff V i : i < length V -> nth i (map aff V) 0%Qc = aff (nth i V 0%Qc).
Proof. intro L. rewrite (nth_indep _ 0%Qc (aff 0%Qc)) by (rewrite map_length; exact L). apply map_nth. Qed.
Lemma sort_aff V n : n = length V -> qs_sort (intensity_cmp (map aff V)) (seq 0 n) n = qs_sort (intensity_cmp V) (seq 0 n) n.
Proof.
  intro L. apply (qs_sort_ext _ _ (fun i => i < length V)).
  - intros i j Li Lj. unfold intensity_cmp. rewrite !nth_aff by assumption. now rewrite !aff_lt0.
  - apply Forall_forall. intros i Hi. apply in_seq in Hi. lia.
Qed.
Lemma iter_from_ext {S} (f g : nat -> S -> option S) : (forall i s, f i s = g i s) -> forall n k s, iter_from n k f s = iter_from n k g s.
Proof.
  intro E. induction n as [|n IH]; intros k s; cbn [iter_from]; [reflexivity|]. rewrite E. destruct (g k s); cbn [obind]; auto.
Qed.
Lemma weight_aff V nn th : weight_of nn (map aff V) (a * th)%Qc = weight_of nn V th.
Proof.
  unfold weight_of, iter. apply iter_from_ext. intros k w. apply iter_from_ext. intros t w'.
  unfold aget. rewrite !nth_error_map. destruct (nth_error V k) as [u|]; cbn [option_map obind]; [|reflexivity].
  destruct (nth_error V t) as [v|]; cbn [option_map obind]; [|reflexivity]. now rewrite !aff_lt.
Qed.

Definition ind (side : nat) (x y : Z) : Qc := if (0 <=? x)%Z && (x <? Z.of_nat side)%Z && (0 <=? y)%Z && (y <? Z.of_nat side)%Z then 1%Qc else 0%Qc.
Lemma img_aff side patch x y : length patch = side * side -> img side (map aff patch) x y = (a * img side patch x y + b * ind side x y)%Qc.
Proof.
  intro HL. unfold img, ind.
  destruct ((0 <=? x)%Z && (x <? Z.of_nat side)%Z && (0 <=? y)%Z && (y <? Z.of_nat side)%Z) eqn:E; [|ring].
  rewrite !andb_true_iff, !Z.leb_le, !Z.ltb_lt in E. rewrite nth_aff by nia. unfold aff. ring.
Qed.
(** either there is no offset or the point is inside of the patch *)
Definition inside (side : nat) (p : Qc * Qc) : Prop := (0 <= fst p /\ fst p <= nq side - 1 /\ 0 <= snd p /\ snd p <= nq side - 1)%Qc.
Lemma floor_last side x : (0 <= x)%Qc -> (x <= nq side - 1)%Qc ->
  (0 <= qfloor x)%Z /\ (qfloor x < Z.of_nat side)%Z /\ ((qfloor x + 1 < Z.of_nat side)%Z \/ (x - zq (qfloor x) = 0)%Qc).
Proof.
  intros A B. split; [apply le_floor; exact A|].
  assert (C : (qfloor x <= Z.of_nat side - 1)%Z).
  { apply zq_le_inv. rewrite zq_minus, zq_1. eapply Qcle_trans; [apply qfloor_le|exact B]. }
  split; [lia|]. destruct (Z.eq_dec (qfloor x) (Z.of_nat side - 1)) as [E|E]; [right|left; lia].
  pose proof (qfloor_le x) as F. rewrite E in *. rewrite zq_minus, zq_1 in *. fold (nq side) in *. apply Qcle_antisym; qc_lra.
Qed.
Lemma bil_aff side patch p : length patch = side * side -> b = 0%Qc \/ inside side p -> bil side (map aff patch) p = aff (bil side patch p).
Proof.
  intros HL I. unfold bil, aff. destruct p as [x y]. cbv zeta. rewrite !img_aff by exact HL.
  set (ix := qfloor x). set (iy := qfloor y). set (u := (x - zq ix)%Qc). set (v := (y - zq iy)%Qc).
  destruct I as [->|(X0 & X1 & Y0 & Y1)]; [ring|]. cbn [fst snd] in *.
  destruct (floor_last side x X0 X1) as (A & B & C). destruct (floor_last side y Y0 Y1) as (D & E & F). fold ix in A, B, C. fold iy in D, E, F. fold u in C. fold v in F.
  assert (I1 : forall i j, (0 <= i < Z.of_nat side)%Z -> (0 <= j < Z.of_nat side)%Z -> ind side i j = 1%Qc).
  { intros i j Hi Hj. unfold ind.
    replace ((0 <=? i)%Z && (i <? Z.of_nat side)%Z && (0 <=? j)%Z && (j <? Z.of_nat side)%Z) with true; [reflexivity|].
    symmetry. rewrite !andb_true_iff, !Z.leb_le, !Z.ltb_lt. lia. }
  rewrite (I1 ix iy) by lia.
  destruct C as [C|C], F as [F|F].
  - rewrite !I1 by lia. ring.
  - rewrite (I1 (ix + 1)%Z iy) by lia. rewrite F. ring.
  - rewrite (I1 ix (iy + 1)%Z) by lia. rewrite C. ring.
  - rewrite C, F. ring.
Qed.

Section Desc.
Variables (side : nat) (radius : Qc) (nn bins : nat) (dir : Z -> Z -> nat -> Qc * Qc) (rt : Qc -> Qc).
Hypothesis Hside : 3 <= side.
Hypothesis Hr : (0 <= radius)%Qc.
Hypothesis Hs : (radius <= nq (side / 2))%Qc.
Hypothesis Hd : forall x y t, (- (1) <= fst (dir x y t) /\ fst (dir x y t) <= 1 /\ - (1) <= snd (dir x y t) /\ snd (dir x y t) <= 1)%Qc.
Hypothesis Hb : b = 0%Qc \/ forall p t, region side radius p -> t < nn -> inside side (point side radius dir p t).

Lemma around_aff patch p : length patch = side * side -> region side radius p ->
  around side radius dir nn (map aff patch) p = map aff (around side radius dir nn patch p).
Proof.
  intros HL R. unfold around. rewrite map_map. apply map_ext_in. intros t Ht. apply in_seq in Ht. apply bil_aff; [exact HL|].
  destruct Hb as [Z|I]; [now left|right; apply I; auto; lia].
Qed.
Lemma pattern_aff patch th p : length patch = side * side -> p < length (patch_pixels side radius) ->
  pixel_pattern side radius nn dir (map aff patch) (a * th)%Qc p = pixel_pattern side radius nn dir patch th p.
Proof.
  intros HL Lp. unfold pixel_pattern.
  assert (E : nth_error (patch_pixels side radius) p = Some (nth p (patch_pixels side radius) 0)) by (apply nth_error_nth'; exact Lp).
  rewrite (neigh_intensities_ok side radius nn dir Hr Hs Hd (map aff patch) p _ ltac:(now rewrite map_length) E).
  rewrite (neigh_intensities_ok side radius nn dir Hr Hs Hd patch p _ HL E). cbn [obind].
  rewrite around_aff; [|exact HL|apply pixels_iff; eapply nth_error_In; exact E].
  rewrite sort_aff by (unfold around; now rewrite map_length, seq_length). now rewrite weight_aff.
Qed.
(** a relative threshold stays, an absolute one is scaled *)
Definition scaled (given : Qc) : Qc := if qlt given 0%Qc then given else (a * given)%Qc.
Lemma liop_aff given patch : length patch = side * side ->
  liop side radius nn bins dir rt (scaled given) (map aff patch) = liop side radius nn bins dir rt given patch.
Proof.
  intro HL. unfold liop, liop_histogram. rewrite !(intensities_ok side radius) by (rewrite ?map_length; exact HL). cbn [obind].
  set (px := patch_pixels side radius). set (V := map (fun p => nth p patch 0%Qc) px).
  assert (EV : map (fun p => nth p (map aff patch) 0%Qc) px = map aff V).
  { unfold V. rewrite map_map. apply map_ext_in. intros p Hp. apply nth_aff. rewrite HL. apply (region_lt side radius). now apply pixels_iff. }
  assert (LV : length px = length V) by (unfold V; now rewrite map_length).
  rewrite EV. rewrite sort_aff by exact LV.
  destruct (sort_ok V (length px) ltac:(eapply px_pos; eauto)) as (order & EO & OP & OS). rewrite EO. cbn [obind].
  assert (ET : tune side radius (scaled given) (map aff V) order = option_map (Qcmult a) (tune side radius given V order)).
  { unfold tune, scaled. destruct (qlt given 0%Qc) eqn:G.
    - rewrite G. fold px. unfold aget. destruct (nth_error order 0); cbn [obind]; [|reflexivity].
      destruct (nth_error order (length px - 1)); cbn [obind]; [|reflexivity]. rewrite !nth_error_map.
      destruct (nth_error V n0) as [u|]; cbn [option_map obind]; [|reflexivity]. destruct (nth_error V n) as [v|]; cbn [option_map obind]; [|reflexivity].
      f_equal. unfold aff. ring.
    - replace (qlt (a * given) 0)%Qc with false; [reflexivity|]. symmetry. apply qlt_false. apply qlt_false in G.
      unfold Qcle, Qclt in *. rewrite this_mult. change (this 0%Qc) with 0%Q in *. nra. }
  rewrite ET. destruct (tune side radius given V order) as [th|]; cbn [option_map obind]; [|reflexivity].
  rewrite (omap_ext (pixel_pattern side radius nn dir (map aff patch) (a * th)%Qc) (pixel_pattern side radius nn dir patch th)); [reflexivity|].
  intros p Hp. apply pattern_aff; [exact HL|]. eapply is_perm_lt; eassumption.
Qed.
End Desc.
End Affine.

(** ** the norm of the descriptor *)
Lemma squares_nonneg l : (0 <= squares l)%Qc.
Proof.
  induction l as [|v l IH]; cbn [squares fold_right]; [apply Qcle_refl|]. fold (squares l).
  unfold Qcle in *. rewrite this_plus, this_mult. change (this 0%Qc) with 0%Q in *. nra.
Qed.
Lemma squares_div l c : c <> 0%Qc -> squares (map (fun v => v / c)%Qc l) = (squares l / (c * c))%Qc.
Proof.
  intro C. induction l as [|v l IH]; cbn [map squares fold_right]; [field; exact C|]. fold (squares l). fold (squares (map (fun v => v / c)%Qc l)). rewrite IH. field. exact C.
Qed.
Lemma norm_pos rt h : (0 < norm_of rt h)%Qc.
Proof.
  assert (M : (0 < Q2Qc (1 # 1000000000000))%Qc) by reflexivity.
  unfold norm_of. destruct (Qclt_le_dec _ _) as [A|A]; [exact M|]. eapply Qclt_le_trans; eassumption.
Qed.
Lemma squares_int h : squares (map zq h) = 0%Qc /\ Forall (fun v => v = 0%Z) h \/ (1 <= squares (map zq h))%Qc.
Proof.
  induction h as [|v h IH]; cbn [map squares fold_right]; [left; auto|]. fold (squares (map zq h)).
  pose proof (squares_nonneg (map zq h)) as N.
  destruct (Z.eq_dec v 0) as [->|V].
  - destruct IH as [[E F]|G]; [left|right].
    + rewrite E. split; [rewrite zq_0; ring|]. constructor; auto.
    + rewrite zq_0. replace (0 * 0 + squares (map zq h))%Qc with (squares (map zq h)) by ring. exact G.
  - right. assert (X : (1 <= zq v * zq v)%Qc) by (rewrite <- zq_mult, <- zq_1; apply zq_le; nia). qc_lra.
Qed.
Lemma norm_ok rt e h : (0 <= e)%Qc -> (e <= Q2Qc (1 # 2))%Qc ->
  (forall x, 0 <= x -> 0 <= rt x /\ (1 - e) * x <= rt x * rt x /\ rt x * rt x <= (1 + e) * x)%Qc ->
  let d := map (fun v => zq v / norm_of rt h)%Qc h in
  Forall (fun v => v = 0%Qc) d \/ (squares d * (1 - e) <= 1 /\ 1 <= squares d * (1 + e))%Qc.
Proof.
  intros E0 E1 R d. pose proof (norm_pos rt h) as NP.
  assert (ED : d = map (fun v => v / norm_of rt h)%Qc (map zq h)) by (unfold d; now rewrite map_map).
  destruct (squares_int h) as [[S F]|S].
  - left. unfold d. apply Forall_forall. intros v Hv. apply in_map_iff in Hv. destruct Hv as (z & <- & Hz).
    rewrite Forall_forall in F. rewrite (F z Hz). rewrite zq_0. unfold Qcdiv. ring.
  - right. destruct (R (squares (map zq h)) (squares_nonneg _)) as (R0 & R1 & R2).
    assert (EN : norm_of rt h = rt (squares (map zq h))).
    { unfold norm_of. cbv zeta. destruct (Qclt_le_dec _ _) as [A|A]; [exfalso|reflexivity].
      set (r := rt (squares (map zq h))) in *. set (s := squares (map zq h)) in *. clearbody r s.
      assert (Hm : (this (Q2Qc (1 # 1000000000000)) == 1 # 1000000000000)%Q) by apply this_Q.
      assert (H2 : (this (Q2Qc (1 # 2)) == 1 # 2)%Q) by apply this_Q.
      unfold Qclt, Qcle in *. rewrite ?this_mult, ?this_minus, ?this_plus in *. rewrite ?Hm, ?H2 in *. change (this 0%Qc) with 0%Q in *. change (this 1%Qc) with 1%Q in *.
      clear - A R0 R1 E1 S. set (x := this r) in *. set (y := this s) in *. set (z := this e) in *. clearbody x y z.
      assert (B1 : ((1 # 2) <= (1 - z) * y)%Q) by nra.
      assert (B2 : (x * x <= 1 # 1000000000000)%Q) by nra. lra. }
    rewrite ED. rewrite squares_div by (intro Z; rewrite Z in NP; discriminate NP).
    rewrite EN in *. set (r := rt (squares (map zq h))) in *. set (s := squares (map zq h)) in *. clearbody r s.
    assert (P : (0 < r * r)%Qc).
    { unfold Qclt in *. rewrite this_mult. change (this 0%Qc) with 0%Q in *. nra. }
    assert (RN : (r * r)%Qc <> 0%Qc) by (intro Z; rewrite Z in P; discriminate P).
    assert (C : forall u w : Qc, (u <= w -> u / (r * r) <= w / (r * r))%Qc).
    { intros u w L. unfold Qcdiv. apply Qcmult_le_compat_r; [exact L|]. apply Qclt_le_weak.
      unfold Qclt in *. rewrite this_inv. change (this 0%Qc) with 0%Q in *. apply Qinv_lt_0_compat. exact P. }
    split.
    + replace 1%Qc with ((r * r) / (r * r))%Qc at 2 by (apply Qcmult_inv_r; exact RN).
      replace (s / (r * r) * (1 - e))%Qc with ((1 - e) * s / (r * r))%Qc by (unfold Qcdiv; ring). apply C. exact R1.
    + replace 1%Qc with ((r * r) / (r * r))%Qc at 1 by (apply Qcmult_inv_r; exact RN).
      replace (s / (r * r) * (1 + e))%Qc with ((1 + e) * s / (r * r))%Qc by (unfold Qcdiv; ring). apply C. exact R2.
Qed.
