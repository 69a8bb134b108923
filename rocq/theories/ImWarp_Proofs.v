(** Lemmas on the neighbours, weights and samples of the backward warp. *)
From Coq Require Import List Arith Bool ZArith QArith Qcanon Lia.
Import ListNotations.
From Verif Require Import Base Rat Gauss_Model Gauss_Proofs Bins_Model Bins_Proofs ImWarp_Model ImWarp_Spec.
Local Open Scope nat_scope.

Lemma search_bisect X x fuel i j : search X x fuel i j = bisect X x fuel i j.
Proof. reflexivity. Qed.
Lemma zget_nat {A} (l : list A) n : zget l (Z.of_nat n) = nth_error l n.
Proof. unfold zget, aget. destruct (Z.ltb_spec (Z.of_nat n) 0); [lia|]. now rewrite Nat2Z.id. Qed.
Lemma zget_at {A} (l : list A) z n : z = Z.of_nat n -> zget l z = nth_error l n.
Proof. intros ->. apply zget_nat. Qed.

(** the two outcomes of the search on a covered point *)
Definition found (X : list Qc) (x : Qc) (j : nat) : Prop := cell X j x \/ (S j = length X /\ nth_error X j = Some x).
Lemma find_ok X x : covered X x -> exists j, find_neighbor x X = Some (Z.of_nat j) /\ found X x j.
Proof.
  intros (a & b & A & B & L & U). unfold find_neighbor, aget. rewrite A. cbn [obind]. pose proof (nth_bnd _ _ _ A) as P.
  destruct (qlt x a) eqn:E; [apply qlt_true in E; qc_lra|]. rewrite (zget_at _ _ (length X - 1)) by lia. rewrite B. cbn [obind].
  destruct (qlt x b) eqn:F; cbn [negb].
  - apply qlt_true in F. destruct (le_lt_dec (length X) 1) as [S1|S1].
    + replace (length X - 1) with 0 in B by lia. rewrite A in B. injection B as ->. exfalso. qc_lra.
    + rewrite search_bisect. destruct (bisect_ok X x (length X) 0 (length X - 1) a b A B L F) as (r & a' & b' & -> & A' & B' & C & D); [lia|lia|lia|]. cbn [obind]. exists r. split; [reflexivity|]. left. exists a', b'. auto.
  - apply qlt_false in F. exists (length X - 1). split; [f_equal; lia|]. right. split; [lia|]. rewrite B. f_equal. apply Qcle_antisym; assumption.
Qed.
Lemma inside_true X Y x y : covered X x -> covered Y y -> inside X Y x y = Some true.
Proof.
  intros (a & b & A & B & L & U) (c & d & C & D & L' & U'). unfold inside, aget. rewrite A, C. rewrite (zget_at X _ (length X - 1)) by (pose proof (nth_bnd _ _ _ A); lia). rewrite (zget_at Y _ (length Y - 1)) by (pose proof (nth_bnd _ _ _ C); lia). rewrite B, D. cbn [obind].
  apply qlt_false in L, U, L', U'. rewrite L, U, L', U'. reflexivity.
Qed.
Lemma inside_false X Y x y : 1 <= length X -> 1 <= length Y -> ~ (covered X x /\ covered Y y) -> inside X Y x y = Some false.
Proof.
  intros P Q H. unfold inside, aget. destruct (nth_some X 0 P) as [a A]. destruct (nth_some X (length X - 1) ltac:(lia)) as [b B]. destruct (nth_some Y 0 Q) as [c C]. destruct (nth_some Y (length Y - 1) ltac:(lia)) as [d D].
  rewrite A, C, (zget_at X _ (length X - 1)), (zget_at Y _ (length Y - 1)) by lia. rewrite B, D. cbn [obind]. f_equal.
  destruct (qlt x a) eqn:E1; [reflexivity|]. destruct (qlt b x) eqn:E2; [reflexivity|]. destruct (qlt y c) eqn:E3; [reflexivity|]. destruct (qlt d y) eqn:E4; [reflexivity|]. exfalso. apply H. apply qlt_false in E1, E2, E3, E4. split; [exists a, b|exists c, d]; auto.
Qed.

(** the value of an interpolation by the weight found *)
Definition mix (X : list Qc) (j : nat) (w : Qc) (g : nat -> Qc) : Qc := if S j <? length X then ((1 - w) * g j + w * g (S j))%Qc else g j.
(** [w] is the weight of the cell j at x *)
Definition is_weight (X : list Qc) (x : Qc) (j : nat) (w : Qc) : Prop :=
  (exists a b, nth_error X j = Some a /\ nth_error X (S j) = Some b /\ (a <= x)%Qc /\ (x < b)%Qc /\ (w * (b - a) = x - a)%Qc) \/
  (S j = length X /\ nth_error X j = Some x /\ w = 0%Qc).
Lemma div_mul (a b : Qc) : (0 < b)%Qc -> (a / b * b = a)%Qc.
Proof. intros H. unfold Qcdiv. rewrite <- Qcmult_assoc, (Qcmult_comm (/ b)), Qcmult_inv_r; [ring|]. intros E. rewrite E in H. discriminate. Qed.
Lemma weight_ok X x j : found X x j -> exists w, weight X (Z.of_nat j) x = Some w /\ is_weight X x j w.
Proof.
  intros [(a & b & A & B & L & U)|[E A]]; unfold weight; rewrite zget_nat, A; cbn [obind].
  - pose proof (nth_bnd _ _ _ B). destruct (Z.ltb_spec (Z.of_nat j) (Z.of_nat (length X) - 1)); [|lia]. rewrite (zget_at X _ (S j)) by lia. rewrite B. cbn [obind]. eexists; split; [reflexivity|]. left. exists a, b. repeat split; try assumption. apply div_mul. qc_lra.
  - destruct (Z.ltb_spec (Z.of_nat j) (Z.of_nat (length X) - 1)); [lia|]. cbn [obind]. eexists; split; [reflexivity|]. right. repeat split; try assumption. replace (x - x)%Qc with 0%Qc by ring. unfold Qcdiv. ring.
Qed.
Lemma weight_d_ok X x j : cell X j x -> exists w, weight_d X (Z.of_nat j) x = Some w /\ is_weight X x j w.
Proof.
  intros (a & b & A & B & L & U); unfold weight_d; rewrite zget_nat, A; cbn [obind]. rewrite (zget_at X _ (S j)) by lia. rewrite B. cbn [obind]. eexists; split; [reflexivity|]. left. exists a, b. repeat split; try assumption. apply div_mul. qc_lra.
Qed.
Lemma mul_cancel (a b c : Qc) : (0 < c)%Qc -> (a * c = b * c)%Qc -> a = b.
Proof. intros H E. rewrite <- (Qcmult_1_r a), <- (Qcmult_1_r b). rewrite <- (Qcmult_inv_r c) by (intros Q; rewrite Q in H; discriminate). rewrite !Qcmult_assoc, E. reflexivity. Qed.
Lemma increasing_le X i j a b : increasing X -> nth_error X i = Some a -> nth_error X j = Some b -> i <= j -> (a <= b)%Qc.
Proof. intros H A B L. destruct (Nat.eq_dec i j) as [->|N]; [rewrite A in B; injection B as ->; apply Qcle_refl|]. apply Qclt_le_weak. apply (H i j); auto; lia. Qed.
(** an interpolated value is the mixture of the cell found *)
Lemma lin_mix X x j w g : increasing X -> is_weight X x j w -> lin X x g (mix X j w g).
Proof.
  intros HX [(a & b & A & B & L & U & W)|(E & A & ->)]; unfold mix.
  - right. exists j, a, b. pose proof (nth_bnd _ _ _ B). destruct (Nat.ltb_spec (S j) (length X)); [|lia]. repeat split; auto; [qc_lra|]. transitivity (g j * ((b - a) - w * (b - a)) + g (S j) * (w * (b - a)))%Qc; [ring|]. rewrite W. ring.
  - left. exists j. split; [exact A|]. destruct (Nat.ltb_spec (S j) (length X)); [lia|reflexivity].
Qed.
Lemma lin_unique X x j w g v : increasing X -> is_weight X x j w -> lin X x g v -> v = mix X j w g.
Proof.
  intros HX HW [(k & K & ->)|(k & c & d & K & K' & L & U & V)].
  - destruct HW as [(a & b & A & B & L & U & W)|(E & A & ->)]; unfold mix.
    + assert (J : k = j). { destruct (lt_eq_lt_dec k j) as [[H|H]|H]; [|exact H|]; [pose proof (HX k j x a K A H); qc_lra|pose proof (increasing_le X (S j) k b x HX B K H); qc_lra]. }
      subst k. rewrite A in K. injection K as ->. pose proof (nth_bnd _ _ _ B). destruct (Nat.ltb_spec (S j) (length X)); [|lia]. assert (Z : w = 0%Qc). { apply (mul_cancel _ _ (b - x)%Qc); [qc_lra|]. rewrite W. ring. } subst w. ring.
    + assert (J : k = j). { destruct (lt_eq_lt_dec k j) as [[H|H]|H]; [|exact H|]; [pose proof (HX k j x x K A H); qc_lra|pose proof (HX j k x x A K H); qc_lra]. }
      subst k. destruct (Nat.ltb_spec (S j) (length X)); [lia|reflexivity].
  - destruct HW as [(a & b & A & B & L' & U' & W)|(E & A & ->)]; unfold mix.
    + pose proof (nth_bnd _ _ _ B). destruct (Nat.ltb_spec (S j) (length X)); [|lia]. destruct (lt_eq_lt_dec k j) as [[H1|H1]|H1].
      * pose proof (increasing_le X (S k) j d a HX K' A H1). assert (x = a /\ d = a) as [-> ->] by (split; apply Qcle_antisym; qc_lra).
        assert (J : S k = j). { destruct (Nat.eq_dec (S k) j); [assumption|]. pose proof (HX (S k) j a a K' A ltac:(lia)). qc_lra. }
        pose proof (HX k (S k) c a K K' ltac:(lia)). assert (Z : w = 0%Qc). { apply (mul_cancel _ _ (b - a)%Qc); [qc_lra|]. rewrite W. ring. }
        assert (v = g (S k)). { apply (mul_cancel _ _ (a - c)%Qc); [qc_lra|]. rewrite V. ring. } subst. ring.
      * subst k. rewrite A in K. injection K as <-. rewrite B in K'. injection K' as <-. apply (mul_cancel _ _ (b - a)%Qc); [qc_lra|]. rewrite V. transitivity (g j * ((b - a) - w * (b - a)) + g (S j) * (w * (b - a)))%Qc; [rewrite W; ring|ring].
      * pose proof (increasing_le X (S j) k b c HX B K H1). qc_lra.
    + pose proof (nth_bnd _ _ _ K'). destruct (Nat.ltb_spec (S j) (length X)); [lia|].
      assert (d = x). { apply Qcle_antisym; [|exact U]. apply (increasing_le X (S k) j d x HX K' A). lia. } subst d.
      assert (J : S k = j). { destruct (Nat.eq_dec (S k) j); [assumption|]. pose proof (HX (S k) j x x K' A ltac:(lia)). qc_lra. }
      pose proof (HX k (S k) c x K K' ltac:(lia)). subst j. apply (mul_cancel _ _ (x - c)%Qc); [qc_lra|]. rewrite V. ring.
Qed.

(** the four samples *)
Definition or0 (b : bool) (v : Qc) : Qc := if b then v else 0%Qc.
Lemma corners_ok (X Y I : list Qc) j i : length I = length X * length Y -> j < length X -> i < length Y ->
  corners I (Z.of_nat (length Y)) (Z.of_nat (length X)) (Z.of_nat j) (Z.of_nat i) =
  Some (sample Y I i j, or0 (S i <? length Y) (sample Y I (S i) j), or0 (S j <? length X) (sample Y I i (S j)), or0 ((S j <? length X) && (S i <? length Y)) (sample Y I (S i) (S j))).
Proof.
  intros LI J K. assert (G : forall a b, a < length X -> b < length Y -> nth_error I (a * length Y + b) = Some (sample Y I b a)). { intros a b A B. apply nth_error_nth'. rewrite LI. nia. }
  unfold corners. destruct (Z.ltb_spec (-1) (Z.of_nat j)); [|lia]. destruct (Z.ltb_spec (-1) (Z.of_nat i)); [|lia]. cbn [andb].
  rewrite (zget_at I _ (j * length Y + i)), G by nia. cbn [obind]. rewrite andb_true_r.
  assert (EI : (Z.of_nat i <? Z.of_nat (length Y) - 1)%Z = (S i <? length Y)) by (destruct (Z.ltb_spec (Z.of_nat i) (Z.of_nat (length Y) - 1)), (Nat.ltb_spec (S i) (length Y)); lia).
  assert (EJ : (Z.of_nat j <? Z.of_nat (length X) - 1)%Z = (S j <? length X)) by (destruct (Z.ltb_spec (Z.of_nat j) (Z.of_nat (length X) - 1)), (Nat.ltb_spec (S j) (length X)); lia).
  rewrite EI, EJ. destruct (Nat.ltb_spec (S i) (length Y)), (Nat.ltb_spec (S j) (length X)); cbn [andb or0].
  all: try (rewrite (zget_at I _ (j * length Y + S i)), G by nia); cbn [obind]; try (rewrite (zget_at I _ (S j * length Y + i)), G by nia); cbn [obind]; try (rewrite (zget_at I _ (S j * length Y + S i)), G by nia); reflexivity.
Qed.
(** the bilinear formula of the code is the mixture of mixtures *)
Lemma formula_mix X Y I j i wx wy : j < length X -> i < length Y -> (S j = length X -> wx = 0%Qc) -> (S i = length Y -> wy = 0%Qc) ->
  ((1 - wy) * ((1 - wx) * sample Y I i j + wx * or0 (S j <? length X) (sample Y I i (S j))) + wy * ((1 - wx) * or0 (S i <? length Y) (sample Y I (S i) j) + wx * or0 ((S j <? length X) && (S i <? length Y)) (sample Y I (S i) (S j))))%Qc =
  mix Y i wy (fun i => mix X j wx (fun j => sample Y I i j)).
Proof.
  intros J K ZX ZY. unfold mix. destruct (Nat.ltb_spec (S j) (length X)), (Nat.ltb_spec (S i) (length Y)); cbn [andb or0]; try (rewrite ZX by lia); try (rewrite ZY by lia); ring.
Qed.
Lemma found_bnd X x j : found X x j -> j < length X.
Proof. intros [(a & b & A & _)|[E A]]; eapply nth_bnd; exact A. Qed.
Lemma is_weight_last X x j w : is_weight X x j w -> S j = length X -> w = 0%Qc.
Proof. intros [(a & b & _ & B & _)|(_ & _ & W)] E; [apply nth_bnd in B; lia|exact W]. Qed.
Lemma bilin_mix X Y f x y j i wx wy : increasing X -> increasing Y -> is_weight X x j wx -> is_weight Y y i wy ->
  bilin X Y f x y (mix Y i wy (fun i => mix X j wx (f i))) /\ forall v, bilin X Y f x y v -> v = mix Y i wy (fun i => mix X j wx (f i)).
Proof.
  intros HX HY WX WY. split.
  - exists (fun i => mix X j wx (f i)). split; [intros k _; now apply lin_mix|]. now apply lin_mix.
  - intros v (r & R & V). rewrite (lin_unique Y y i wy r v HY WY V). unfold mix at 1 2.
    assert (Bi : i < length Y) by (destruct WY as [(a & b & A & _)|(_ & A & _)]; eapply nth_bnd; exact A).
    rewrite (lin_unique X x j wx (f i) (r i) HX WX (R i Bi)). destruct (Nat.ltb_spec (S i) (length Y)) as [L|L]; [|reflexivity]. now rewrite (lin_unique X x j wx (f (S i)) (r (S i)) HX WX (R _ L)).
Qed.
Lemma warp_at_ok X Y I x y : increasing X -> increasing Y -> length I = length X * length Y -> covered X x -> covered Y y ->
  exists z, warp_at X Y I x y = Some (Some z) /\ bilin X Y (sample Y I) x y z /\ forall v, bilin X Y (sample Y I) x y v -> v = z.
Proof.
  intros HX HY LI CX CY. unfold warp_at. rewrite inside_true by assumption. cbn [obind]. destruct (find_ok X x CX) as (j & -> & FX). destruct (find_ok Y y CY) as (i & -> & FY). cbn [obind].
  destruct (weight_ok X x j FX) as (wx & -> & WX). destruct (weight_ok Y y i FY) as (wy & -> & WY). cbn [obind]. rewrite corners_ok by (try assumption; eapply found_bnd; eassumption). cbn [obind].
  rewrite formula_mix by (first [eapply found_bnd; eassumption|eapply is_weight_last; eassumption]). eexists; split; [reflexivity|]. now apply bilin_mix.
Qed.
(** with derivatives *)
Lemma warp_d_at_ok X Y I x y j i : increasing X -> increasing Y -> length I = length X * length Y -> covered X x -> covered Y y -> find_neighbor x X = Some (Z.of_nat j) -> find_neighbor y Y = Some (Z.of_nat i) -> cell X j x -> cell Y i y ->
  exists wx wy, is_weight X x j wx /\ is_weight Y y i wy /\
    warp_d_at X Y I x y = Some (Some (mix Y i wy (fun i => mix X j wx (sample Y I i)),
      mix Y i wy (fun i => sample Y I i (S j) - sample Y I i j)%Qc, mix X j wx (fun j => sample Y I (S i) j - sample Y I i j)%Qc)).
Proof.
  intros HX HY LI CX CY NX NY KX KY. unfold warp_d_at. rewrite inside_true by assumption. rewrite NX, NY. cbn [obind]. destruct (weight_d_ok X x j KX) as (wx & -> & WX). destruct (weight_d_ok Y y i KY) as (wy & -> & WY). cbn [obind].
  assert (BX : S j < length X) by (destruct KX as (a & b & _ & B & _); eapply nth_bnd; exact B). assert (BY : S i < length Y) by (destruct KY as (a & b & _ & B & _); eapply nth_bnd; exact B).
  rewrite corners_ok by (try assumption; lia). cbn [obind]. exists wx, wy. split; [exact WX|]. split; [exact WY|]. rewrite formula_mix by lia. apply Nat.ltb_lt in BX, BY. unfold mix. rewrite BX, BY. cbn [andb or0]. reflexivity.
Qed.
