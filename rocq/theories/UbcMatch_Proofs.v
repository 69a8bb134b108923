(** Lemmas on the matching of descriptors. *)
From Coq Require Import List Arith Bool ZArith QArith Qcanon Lia.
Import ListNotations.
From Verif Require Import Base Rat Gauss_Model Gauss_Proofs KmeansEnergy_Proofs UbcMatch_Model UbcMatch_Spec.
Local Open Scope nat_scope.

Lemma elt_iff a m : elt (Some a) m = true <-> below a m.
Proof. destruct m; cbn; [apply qlt_true|tauto]. Qed.
Lemma sqdist_nonneg x : forall y, (0 <= sqdist x y)%Qc.
Proof. induction x as [|a x IH]; destruct y; cbn; try (qc_lra). pose proof (Qc_square_nonneg (a - q)). specialize (IH y). qc_lra. Qed.
(** the early exit does not change whether the distance is below the second best, nor the distance if it is *)
Lemma accum_ok x : forall y acc m, length x = length y -> exists r, accum x y acc m = Some r /\ (below (acc + sqdist x y) m -> r = (acc + sqdist x y)%Qc) /\ (r = (acc + sqdist x y)%Qc \/ ~ below r m).
Proof.
  induction x as [|a x IH]; intros [|b y] acc m L; try discriminate; cbn [accum sqdist].
  - exists acc. split; [reflexivity|]. split; [intros; qc_lra|left; qc_lra].
  - destruct (elt (Some (acc + (a - b) * (a - b))%Qc) m) eqn:E; cbn [negb].
    + destruct (IH y (acc + (a - b) * (a - b))%Qc m ltac:(cbn in L; lia)) as (r & E1 & H1 & H2). exists r. split; [exact E1|]. replace (acc + ((a - b) * (a - b) + sqdist x y))%Qc with (acc + (a - b) * (a - b) + sqdist x y)%Qc by ring. auto.
    + assert (N : ~ below (acc + (a - b) * (a - b))%Qc m) by (intros B; apply elt_iff in B; congruence). eexists. split; [reflexivity|]. split; [|right; exact N].
      intros B. exfalso. apply N. destruct m as [v|]; [|exact I]. cbn in *. pose proof (sqdist_nonneg x y). qc_lra.
Qed.
(** the order of numbers and infinity *)
Definition ele (x y : ext) : Prop := match x, y with _, None => True | None, Some _ => False | Some a, Some b => (a <= b)%Qc end.
Section one.
  Variables (maxval : ext) (x : list Qc).
  (** the state after the descriptors [L] *)
  Definition inv (L : list (list Qc)) (s : state) : Prop :=
    match s_k s with
    | None => L = [] /\ s_best s = maxval /\ s_second s = maxval
    | Some k => exists y, nth_error L k = Some y /\ s_best s = Some (sqdist x y) /\
        (forall j z, nth_error L j = Some z -> (sqdist x y <= sqdist x z)%Qc) /\ (forall j z, j < k -> nth_error L j = Some z -> (sqdist x y < sqdist x z)%Qc) /\
        (forall j z, j <> k -> nth_error L j = Some z -> ele (s_second s) (Some (sqdist x z))) /\
        ele (s_second s) maxval /\ ele (Some (sqdist x y)) (s_second s) /\
        (s_second s = maxval \/ exists j z, j <> k /\ nth_error L j = Some z /\ s_second s = Some (sqdist x z))
    end.
  Lemma nth_snoc {A} (L : list A) y j z : nth_error (L ++ [y]) j = Some z -> nth_error L j = Some z \/ j = length L /\ z = y.
  Proof.
    intros H. destruct (lt_dec j (length L)) as [Q|Q]; [left; now rewrite nth_error_app1 in H|]. right. rewrite nth_error_app2 in H by lia. destruct (j - length L) as [|n] eqn:E; cbn in H; [injection H as <-; split; [lia|reflexivity]|destruct n; discriminate].
  Qed.
  Lemma nth_lt {A} (L : list A) j z : nth_error L j = Some z -> j < length L.
  Proof. intros H. apply nth_error_Some. congruence. Qed.
  Lemma consider_ok L s y : length x = length y -> below (sqdist x y) maxval -> inv L s -> exists s', consider x (length L) y s = Some s' /\ inv (L ++ [y]) s'.
  Proof.
    intros LY BM I. unfold consider. destruct (accum_ok x y 0 (s_second s) LY) as (r & -> & H1 & H2). cbn [obind]. eexists. split; [reflexivity|].
    replace (0 + sqdist x y)%Qc with (sqdist x y) in * by ring. set (d := sqdist x y) in *.
    assert (LAST : nth_error (L ++ [y]) (length L) = Some y) by (rewrite nth_error_app2, Nat.sub_diag by lia; reflexivity).
    destruct s as [best second k]. cbn [s_best s_second s_k] in *. unfold inv in I. cbn [s_best s_second s_k] in I. destruct k as [k|].
    - destruct I as (y0 & N0 & -> & A1 & A2 & A3 & A4 & A5 & A6). pose proof (nth_lt _ _ _ N0) as B0.
      destruct (elt (Some r) (Some (sqdist x y0))) eqn:E1.
      + apply elt_iff in E1. cbn in E1. assert (R : r = d). { destruct H2 as [->|N]; [reflexivity|]. exfalso. apply N. destruct second as [v|]; [|exact Logic.I]. cbn in A5 |- *. qc_lra. } subst r.
        unfold inv. cbn [s_best s_second s_k]. exists y. fold d. split; [exact LAST|]. split; [reflexivity|]. split; [|split; [|split; [|split; [|split]]]].
        * intros j z J. destruct (nth_snoc _ _ _ _ J) as [J'|[-> ->]]; [|unfold d; qc_lra]. specialize (A1 j z J'). qc_lra.
        * intros j z JL J. destruct (nth_snoc _ _ _ _ J) as [J'|[-> ->]]; [|lia]. specialize (A1 j z J'). qc_lra.
        * intros j z JL J. destruct (nth_snoc _ _ _ _ J) as [J'|[-> ->]]; [|congruence]. cbn. exact (A1 j z J').
        * destruct second as [v|]; [|destruct maxval; [destruct A4|exact Logic.I]]. destruct maxval; cbn in *; [qc_lra|exact Logic.I].
        * cbn. qc_lra.
        * right. exists k, y0. split; [lia|]. split; [rewrite nth_error_app1 by lia; exact N0|reflexivity].
      + assert (E1' : (sqdist x y0 <= r)%Qc). { apply Qcnot_lt_le. intros Q. assert (below r (Some (sqdist x y0))) as Q' by exact Q. apply elt_iff in Q'. congruence. }
        destruct (elt (Some r) second) eqn:E2.
        * apply elt_iff in E2. assert (R : r = d) by (destruct H2 as [->|N]; [reflexivity|contradiction]). subst r.
          unfold inv. cbn [s_best s_second s_k]. exists y0. split; [rewrite nth_error_app1 by lia; exact N0|]. split; [reflexivity|]. split; [|split; [|split; [|split; [|split]]]].
          -- intros j z J. destruct (nth_snoc _ _ _ _ J) as [J'|[-> ->]]; [exact (A1 j z J')|exact E1'].
          -- intros j z JL J. destruct (nth_snoc _ _ _ _ J) as [J'|[-> ->]]; [exact (A2 j z JL J')|lia].
          -- intros j z JL J. destruct (nth_snoc _ _ _ _ J) as [J'|[-> ->]]; [|cbn; unfold d; qc_lra]. specialize (A3 j z JL J'). destruct second as [v|]; [|destruct A3]. cbn in *. qc_lra.
          -- destruct maxval; cbn in *; [qc_lra|exact Logic.I].
          -- exact E1'.
          -- right. exists (length L), y. split; [lia|]. split; [exact LAST|reflexivity].
        * assert (NB : ~ below d second). { intros Q. specialize (H1 Q). subst r. apply elt_iff in Q. congruence. }
          assert (SD : ele second (Some d)). { destruct second as [v|]; [|apply NB; exact Logic.I]. cbn. apply Qcnot_lt_le. exact NB. }
          unfold inv. cbn [s_best s_second s_k]. exists y0. split; [rewrite nth_error_app1 by lia; exact N0|]. split; [reflexivity|]. split; [|split; [|split; [|split; [|split]]]]; auto.
          -- intros j z J. destruct (nth_snoc _ _ _ _ J) as [J'|[-> ->]]; [exact (A1 j z J')|]. fold d. destruct second as [v|]; [|destruct SD]. cbn in *. qc_lra.
          -- intros j z JL J. destruct (nth_snoc _ _ _ _ J) as [J'|[-> ->]]; [exact (A2 j z JL J')|lia].
          -- intros j z JL J. destruct (nth_snoc _ _ _ _ J) as [J'|[-> ->]]; [exact (A3 j z JL J')|exact SD].
          -- destruct A6 as [?|(j & z & J1 & J2 & J3)]; [now left|]. right. exists j, z. split; [exact J1|]. split; [rewrite nth_error_app1 by (now apply nth_lt in J2); exact J2|exact J3].
    - destruct I as (-> & -> & ->). assert (R : r = d) by now apply H1. subst r. replace (elt (Some d) maxval) with true by (symmetry; now apply elt_iff). unfold inv. cbn [s_best s_second s_k app length nth_error].
      exists y. fold d. split; [reflexivity|]. split; [reflexivity|]. split; [|split; [|split; [|split; [|split]]]].
      + intros [|j] z J; cbn in J; [injection J as <-; unfold d; qc_lra|destruct j; discriminate].
      + intros j z JL. lia.
      + intros [|j] z JL J; [congruence|destruct j; discriminate].
      + destruct maxval; cbn; [qc_lra|exact Logic.I].
      + destruct maxval; cbn in *; [qc_lra|exact Logic.I].
      + now left.
  Qed.
  Lemma scan_ok R : forall L s, (forall y, In y R -> length y = length x /\ below (sqdist x y) maxval) -> inv L s -> exists s', scan x (length L) R s = Some s' /\ inv (L ++ R) s'.
  Proof.
    induction R as [|y R IH]; intros L s H I; cbn [scan]; [rewrite app_nil_r; eauto|]. destruct (H y (or_introl eq_refl)) as [LY BY]. destruct (consider_ok L s y (eq_sym LY) BY I) as (s1 & -> & I1). cbn [obind].
    destruct (IH (L ++ [y]) s1 (fun z Z => H z (or_intror Z)) I1) as (s2 & E & I2). rewrite app_length, Nat.add_1_r in E. exists s2. rewrite <- app_assoc in I2. auto.
  Qed.
  Lemma accepted_ok thresh L s k d : inv L s -> (accepted thresh s = Some (k, d) <-> matches maxval thresh x L k d).
  Proof.
    intros I. unfold accepted, inv in *. destruct s as [best second k0]. cbn [s_k s_best s_second] in *. destruct k0 as [k0|].
    - destruct I as (y & N & -> & A1 & A2 & A3 & A4 & A5 & A6). split.
      + destruct (elt _ second) eqn:E; [|discriminate]. intros [= <- <-]. apply elt_iff in E. exists y. split; [exact N|]. split; [reflexivity|]. split; [exact A1|]. split; [exact A2|]. split.
        * intros j z J1 J2. specialize (A3 j z J1 J2). destruct second as [v|]; [|destruct A3]. cbn in *. qc_lra.
        * destruct second as [v|]; destruct maxval as [m|]; cbn in *; try exact Logic.I; [qc_lra|destruct A4].
      + intros (z & Nz & -> & B1 & B2 & B3 & B4). assert (k = k0).
        { destruct (lt_eq_lt_dec k k0) as [[Q|Q]|Q]; [|exact Q|].
          - specialize (A2 k z Q Nz). specialize (B1 k0 y N). qc_lra.
          - specialize (B2 k0 y Q N). specialize (A1 k z Nz). qc_lra. }
        subst k0. rewrite N in Nz. injection Nz as <-. replace (elt (Some (thresh * sqdist x y)%Qc) second) with true; [reflexivity|]. symmetry. apply elt_iff.
        destruct A6 as [->|(j & w & J1 & J2 & ->)]; [exact B4|]. exact (B3 j w J1 J2).
    - destruct I as (-> & -> & ->). split; [discriminate|]. intros (z & Nz & _). destruct k; discriminate.
  Qed.
End one.
Lemma compare_ok maxval thresh L2 : forall L1 k0, (forall x y, In x L1 -> In y L2 -> length y = length x /\ below (sqdist x y) maxval) ->
  exists r, compare maxval thresh k0 L1 L2 = Some r /\
    (forall k1 k2 d, In (k1, k2, d) r <-> exists i x, k1 = k0 + i /\ nth_error L1 i = Some x /\ matches maxval thresh x L2 k2 d) /\
    (forall a b p q, a < b -> nth_error r a = Some p -> nth_error r b = Some q -> fst (fst p) < fst (fst q)).
Proof.
  induction L1 as [|x L1 IH]; intros k0 H; cbn [compare].
  - exists []. split; [reflexivity|]. split; [|intros [|a] b p q _ E; discriminate]. intros k1 k2 d. split; [intros []|]. intros ([|i] & x & _ & N & _); discriminate.
  - destruct (scan_ok maxval x L2 [] (St maxval maxval None)) as (s & SC & I); [intros y Y; apply H; [now left|exact Y]|cbn; auto|]. cbn [length] in SC. rewrite SC. cbn [obind]. destruct (IH (S k0)) as (r & -> & R1 & R2); [intros x' y X Y; apply H; [now right|exact Y]|]. cbn [obind].
    eexists. split; [reflexivity|]. cbn [app] in I. pose proof (accepted_ok maxval x thresh L2 s) as A.
    assert (GT : forall p, In p r -> k0 < fst (fst p)). { intros [[k1 k2] d] P. apply R1 in P. destruct P as (i & x' & -> & _). cbn. lia. }
    assert (TL : forall k1 k2 d, In (k1, k2, d) r <-> exists i x', k1 = k0 + S i /\ nth_error L1 i = Some x' /\ matches maxval thresh x' L2 k2 d).
    { intros k1 k2 d. rewrite R1. split; intros (i & x' & E & N & M); exists i, x'; (split; [lia|auto]). }
    destruct (accepted thresh s) as [[k d0]|] eqn:E; split.
    + intros k1 k2 d. split.
      * intros [[= <- <- <-]|P]; [exists 0, x; split; [lia|]; split; [reflexivity|]; now apply A|]. apply TL in P. destruct P as (i & x' & E' & N & M). exists (S i), x'. auto.
      * intros ([|i] & x' & -> & N & M); cbn in N; [|right; apply TL; exists i, x'; auto]. injection N as <-. apply (A k2 d I) in M. rewrite Nat.add_0_r. left. congruence.
    + intros [|a] [|b] p q AB P Q; try lia; cbn in P, Q.
      * injection P as <-. apply nth_error_In in Q. cbn. now apply GT.
      * apply (R2 a b p q); auto. lia.
    + intros k1 k2 d. split.
      * intros P. apply TL in P. destruct P as (i & x' & E' & N & M). exists (S i), x'. auto.
      * intros ([|i] & x' & -> & N & M); cbn in N; [|apply TL; exists i, x'; auto]. injection N as <-. apply (A k2 d I) in M. congruence.
    + exact R2.
Qed.
