(** C209-C211: the regions of vl_erfill. *)
From Coq Require Import List Arith Bool ZArith Lia.
Import ListNotations.
From Verif Require Import Base Mser_Model Mser_Spec MserNbr_Proofs ErFill_Model ErFill_Spec ErFill_Proofs.
Local Open Scope nat_scope.

Definition seed_of (er : Z) : nat := Z.to_nat (Z.abs er - 1).
Definition inside (im : list nat) (er : Z) : Prop := (1 <= Z.abs er <= Z.of_nat (length im))%Z.
Definition reg (dims im : list nat) (er : Z) : nat -> Prop := region dims im (er <? 0)%Z (seed_of er).

Lemma erfill_cap_ok cap dims im er : pos_dims dims -> length im = nel_of dims -> inside im er ->
  ((exists w, w < length im /\ ~ reg dims im er w) \/ length im = 1) /\ cap = length im \/ length im < cap ->
  exists T, erfill_cap cap dims im er = Some (Some (map S (seed_of er :: T))) /\ (forall q, In q (seed_of er :: T) <-> reg dims im er q) /\ NoDup T /\ (In (seed_of er) T <-> exists q, q <> seed_of er /\ reg dims im er q) /\ S (length T) <= cap.
Proof.
  intros HP HL IN C. unfold inside in IN. unfold erfill_cap. replace (Z.abs er <? 1)%Z with false by (symmetry; apply Z.ltb_ge; lia). replace (Z.of_nat (length im) <? Z.abs er)%Z with false by (symmetry; apply Z.ltb_ge; lia). cbn [orb].
  change (Z.to_nat (Z.abs er - 1)) with (seed_of er). assert (HS : seed_of er < length im) by (unfold seed_of; lia). assert (CC : 1 <= cap) by (destruct C as [[_ ->]|C]; lia).
  replace (cap <? 1) with false by (symmetry; apply Nat.ltb_ge; lia). unfold aget at 1. rewrite (nth_error_nth' im 0 HS). cbn [obind].
  destruct (fill_ok cap dims im (er <? 0)%Z (seed_of er) HP HL HS C (S (S (length im))) 0 (repeat false (length im), [seed_of er])) as (l & E & s & I1 & E1); [now apply start_ok|cbn; lia|lia|].
  rewrite E. cbn [obind]. destruct (closed_region cap dims im (er <? 0)%Z (seed_of er) HL HS l s I1 E1) as (R & T & -> & ND & TS & LC). exists T. auto.
Qed.
(** C209: the numbers listed are those of the pixels of the region *)
Theorem C209_region dims im er : pos_dims dims -> length im = nel_of dims -> inside im er -> (exists w, w < length im /\ ~ reg dims im er w) \/ length im = 1 ->
  exists l, erfill dims im er = Some (Some l) /\ forall i, In i l <-> 1 <= i /\ reg dims im er (i - 1).
Proof.
  intros HP HL IN C. destruct (erfill_cap_ok (length im) dims im er HP HL IN) as (T & E & R & _); [now left|]. exists (map S (seed_of er :: T)). split; [exact E|]. intros i. rewrite in_map_iff. split.
  - intros (q & <- & Q). split; [lia|]. replace (S q - 1) with q by lia. now apply R.
  - intros [I1 I2]. exists (i - 1). split; [lia|now apply R].
Qed.
(** C209: the first number is that of the pixel given; without it the others are listed once *)
Theorem C209_once dims im er l : pos_dims dims -> length im = nel_of dims -> erfill dims im er = Some (Some l) -> exists T, l = Z.to_nat (Z.abs er) :: T /\ NoDup T.
Proof.
  intros HP HL E. assert (IN : inside im er). { unfold erfill, erfill_cap in E. unfold inside. destruct (Z.ltb_spec (Z.abs er) 1); [discriminate|]. destruct (Z.ltb_spec (Z.of_nat (length im)) (Z.abs er)); [discriminate|]. lia. }
  destruct (erfill_cap_ok (S (length im)) dims im er HP HL IN) as (T & E2 & _ & ND & _); [right; lia|]. assert (X : erfill_cap (S (length im)) dims im er = Some (Some l)).
  { unfold erfill, erfill_cap in *. destruct (_ || _); [discriminate|]. destruct (length im <? 1) eqn:L; [discriminate|]. cbn [Nat.ltb Nat.leb]. destruct (aget im _) as [v|]; cbn [obind] in *; [|discriminate].
    destruct (fill _ (length im) dims im _ v 0 _) as [m|] eqn:F; cbn [obind] in E; [|discriminate]. rewrite (fill_mono (length im) (S (length im)) dims im _ v (Nat.le_succ_diag_r _) _ _ _ _ F). exact E. }
  rewrite X in E2. injection E2 as ->. exists (map S T). split; [cbn; f_equal; unfold seed_of, inside in *; lia|]. apply FinFun.Injective_map_NoDup; [|exact ND]. intros a b. lia.
Qed.
(** C209: other numbers are errors *)
Theorem C209_error dims im er : ~ inside im er <-> erfill dims im er = Some None.
Proof.
  unfold inside, erfill, erfill_cap. destruct (Z.ltb_spec (Z.abs er) 1); [cbn [orb]; split; [reflexivity|lia]|]. destruct (Z.ltb_spec (Z.of_nat (length im)) (Z.abs er)); [cbn [orb]; split; [reflexivity|lia]|]. cbn [orb]. split; [lia|].
  destruct (length im <? 1); [discriminate|]. destruct (aget im _); cbn [obind]; [|discriminate]. destruct (fill _ _ _ _ _ _ _ _); cbn [obind]; discriminate.
Qed.
(** C210: "every pixel is listed once" is false: the pixel given is listed twice unless it is the only one of its region *)
Theorem C210_twice_refuted dims im er l : pos_dims dims -> length im = nel_of dims -> erfill dims im er = Some (Some l) -> (exists q, q <> seed_of er /\ reg dims im er q) -> count_occ Nat.eq_dec l (Z.to_nat (Z.abs er)) = 2.
Proof.
  intros HP HL E Q. assert (IN : inside im er). { unfold erfill, erfill_cap in E. unfold inside. destruct (Z.ltb_spec (Z.abs er) 1); [discriminate|]. destruct (Z.ltb_spec (Z.of_nat (length im)) (Z.abs er)); [discriminate|]. lia. }
  destruct (erfill_cap_ok (S (length im)) dims im er HP HL IN) as (T & E2 & _ & ND & TS & _); [right; lia|]. assert (X : erfill_cap (S (length im)) dims im er = Some (Some l)).
  { unfold erfill, erfill_cap in *. destruct (_ || _); [discriminate|]. destruct (length im <? 1) eqn:L; [discriminate|]. cbn [Nat.ltb Nat.leb]. destruct (aget im _) as [v|]; cbn [obind] in *; [|discriminate].
    destruct (fill _ (length im) dims im _ v 0 _) as [m|] eqn:F; cbn [obind] in E; [|discriminate]. rewrite (fill_mono (length im) (S (length im)) dims im _ v (Nat.le_succ_diag_r _) _ _ _ _ F). exact E. }
  rewrite X in E2. injection E2 as ->. apply TS in Q. assert (SE : S (seed_of er) = Z.to_nat (Z.abs er)) by (unfold seed_of, inside in *; lia). cbn [map]. rewrite <- SE. rewrite count_occ_cons_eq by reflexivity. f_equal.
  apply NoDup_count_occ'; [apply FinFun.Injective_map_NoDup; [|exact ND]; intros a b; lia|]. now apply in_map.
Qed.
(** C211: "the region of a pixel of any image is listed" is false: when it is the whole of an image of two pixels or more, the list is written beyond its end; room for one more is enough *)
Theorem C211_overflow_refuted dims im er : pos_dims dims -> length im = nel_of dims -> inside im er -> 2 <= length im -> (forall q, q < length im -> reg dims im er q) ->
  erfill dims im er = None /\ exists l, erfill_cap (S (length im)) dims im er = Some (Some l) /\ length l = S (length im).
Proof.
  intros HP HL IN TWO ALL. destruct (erfill_cap_ok (S (length im)) dims im er HP HL IN) as (T & E2 & R & ND & TS & LC); [right; lia|].
  assert (TI : In (seed_of er) T). { apply TS. destruct (Nat.eq_dec (seed_of er) 0) as [Z0|N]; [exists 1; rewrite Z0; split; [lia|apply ALL; lia]|exists 0; split; [lia|apply ALL; lia]]. }
  assert (LT : length T = length im).
  { apply Nat.le_antisymm; [lia|]. rewrite <- (seq_length (length im) 0). apply NoDup_incl_length; [apply seq_NoDup|]. intros q Q. apply in_seq in Q. assert (X : In q (seed_of er :: T)) by (apply R, ALL; lia). destruct X as [<-|X]; auto. }
  split; [|exists (map S (seed_of er :: T)); split; [exact E2|rewrite map_length; cbn; lia]].
  destruct (erfill dims im er) as [[l|]|] eqn:E; [|exfalso; now apply C209_error in E|reflexivity]. exfalso. unfold erfill, erfill_cap in *. destruct (_ || _); [discriminate|]. destruct (Nat.ltb_spec (length im) 1); [discriminate|]. cbn [Nat.ltb Nat.leb] in E2. destruct (aget im _) as [v|]; cbn [obind] in *; [|discriminate].
  destruct (fill _ (length im) dims im _ v 0 _) as [m|] eqn:F; cbn [obind] in E; [|discriminate]. rewrite (fill_mono (length im) (S (length im)) dims im _ v (Nat.le_succ_diag_r _) _ _ _ _ F) in E2. cbn [obind] in E2. apply fill_cap in F; [|cbn; lia].
  injection E2 as E2. apply (f_equal (@length nat)) in E2. change (S (seed_of er) :: map S T) with (map S (seed_of er :: T)) in E2. rewrite !map_length in E2. cbn in E2. lia.
Qed.

Print Assumptions C209_region.
Print Assumptions C209_once.
Print Assumptions C209_error.
Print Assumptions C210_twice_refuted.
Print Assumptions C211_overflow_refuted.

Lemma region_good dims im b p q : region dims im b p q -> if b then nth p im 0 <= nth q im 0 else nth q im 0 <= nth p im 0.
Proof. destruct 1 as [L|q s R A L G]; [destruct b; lia|exact G]. Qed.
(** a 3 by 3 image with a dark column and a bright one *)
Definition ex_im : list nat := [1; 1; 1; 5; 9; 5; 7; 7; 2].
Example C209_ex_dark : erfill [3; 3] ex_im 1 = Some (Some [1; 2; 1; 3]). Proof. vm_compute. reflexivity. Qed.
Example C209_ex_bright : erfill [3; 3] ex_im (-7) = Some (Some [7; 5; 8; 7]). Proof. vm_compute. reflexivity. Qed.
Example C209_ex_lone : erfill [3; 3] ex_im (-5) = Some (Some [5]). Proof. vm_compute. reflexivity. Qed.
Example C209_ex_error : erfill [3; 3] ex_im 10 = Some None /\ erfill [3; 3] ex_im 0 = Some None. Proof. split; vm_compute; reflexivity. Qed.
Example C209_ex_hyp : pos_dims [3; 3] /\ length ex_im = nel_of [3; 3] /\ inside ex_im 1 /\ exists w, w < length ex_im /\ ~ reg [3; 3] ex_im 1 w.
Proof.
  split; [repeat constructor|]. split; [reflexivity|]. split; [unfold inside; cbn; lia|]. exists 4. split; [cbn; lia|]. intros H. apply region_good in H. cbn in H. lia.
Qed.
Example C210_ex_hyp : exists q, q <> seed_of 1 /\ reg [3; 3] ex_im 1 q.
Proof.
  exists 1. split; [cbn; lia|]. eapply region_step; [apply region_self; cbn; lia| |cbn; lia|cbn; lia]. assert (X : In 1 (nbs [3; 3] 0)) by (vm_compute; tauto). apply nbs_spec in X; [tauto|repeat constructor|cbn; lia].
Qed.
Example C211_ex : erfill [2; 1] [4; 4] 1 = None /\ erfill_cap 3 [2; 1] [4; 4] 1 = Some (Some [1; 2; 1]). Proof. split; vm_compute; reflexivity. Qed.
Example C211_ex_hyp : forall q, q < 2 -> reg [2; 1] [4; 4] 1 q.
Proof.
  intros q Q. destruct (Nat.eq_dec q 0) as [->|N]; [apply region_self; cbn; lia|]. replace q with 1 by lia. eapply region_step; [apply region_self; cbn; lia| |cbn; lia|cbn; lia]. assert (X : In 1 (nbs [2; 1] 0)) by (vm_compute; tauto). apply nbs_spec in X; [tauto|repeat constructor|cbn; lia].
Qed.
