(** C32, C110-C113: quick shift. *)
From Coq Require Import List Arith ZArith Bool Lia QArith Qcanon Lqa Qround.
From Verif Require Import Base Loop MserSort_Proofs ImOp_Spec ImOp_Proofs Rat Gauss_Model Gauss_Proofs.
From Verif Require Import Kmeans_Spec Kmeans_Proofs KmeansUpdate_Proofs KmeansEnergy_Proofs SlicTiles_Spec SlicTiles_Proofs.
From Verif Require Import Quickshift_Model Quickshift_Spec Quickshift_Proofs.
Import ListNotations.
Local Open Scope nat_scope.

(** an object for images of this size *)
Definition sized (n : nat) (q : qs) : Prop := length (q_parents q) = n /\ length (q_dists q) = n /\ length (q_density q) = n.

(** *** C32: the links *)
Theorem C32_memory N1 N2 K image expo root q : length image = N1 * N2 * K -> sized (N1 * N2) q ->
  (q_medoid q = false -> (0 <= q_tau q)%Qc) ->
  exists q', process N1 N2 K image expo root q = Some q' /\ sized (N1 * N2) q' /\
    q_tau q' = q_tau q /\ q_sigma q' = q_sigma q /\ q_medoid q' = q_medoid q /\
    forall p, p < N1 * N2 -> nth p (q_parents q') 0 < N1 * N2.
Proof.
  intros LI F T. destruct (process_ok N1 N2 K image expo root LI q F T) as (q' & A & B & C & D & E & _ & G & _).
  exists q'. repeat (split; [assumption|]). exact G.
Qed.
Theorem C32_links N1 N2 K image expo root q q' p : length image = N1 * N2 * K -> sized (N1 * N2) q ->
  q_medoid q = false -> (0 <= q_tau q)%Qc -> process N1 N2 K image expo root q = Some q' -> p < N1 * N2 ->
  exists d, nth p (q_dists q') None = option_map root d /\
    linked N1 N2 K image (q_density q') (q_tau q) p (nth p (q_parents q') 0) d.
Proof.
  intros LI F M T P Hp. destruct (process_ok N1 N2 K image expo root LI q F (fun _ => T)) as (q1 & A & _ & _ & _ & _ & _ & _ & G & _).
  rewrite A in P. injection P as ->. apply G; assumption.
Qed.

Definition higher (E : list Qc) (m p : nat) : nat := length (filter (fun q => qlt (nth p E 0%Qc) (nth q E 0%Qc)) (seq 0 m)).
Lemma filter_length_le {A} (f g : A -> bool) l : (forall x, In x l -> f x = true -> g x = true) -> length (filter f l) <= length (filter g l).
Proof.
  induction l as [|a l IH]; intros H; [reflexivity|]. cbn [filter]. assert (length (filter f l) <= length (filter g l)) by (apply IH; intros; apply H; [right|]; assumption).
  destruct (f a) eqn:Fa; [rewrite (H a (or_introl eq_refl) Fa); cbn; lia|]. destruct (g a); cbn; lia.
Qed.
Lemma higher_lt E m p q : q < m -> (nth p E 0 < nth q E 0)%Qc -> higher E m q < higher E m p.
Proof.
  intros Hq L. unfold higher. assert (HS : In q (seq 0 m)) by (apply in_seq; lia). apply in_split in HS as (l1 & l2 & ->).
  rewrite !filter_app, !app_length. cbn [filter].
  assert (Q1 : qlt (nth q E 0%Qc) (nth q E 0%Qc) = false) by (apply qlt_false; apply Qcle_refl).
  assert (Q2 : qlt (nth p E 0%Qc) (nth q E 0%Qc) = true) by (apply qlt_true; exact L). rewrite Q1, Q2. cbn [length].
  assert (M : forall l, length (filter (fun r => qlt (nth q E 0%Qc) (nth r E 0%Qc)) l) <= length (filter (fun r => qlt (nth p E 0%Qc) (nth r E 0%Qc)) l)).
  { intros l. apply filter_length_le. intros r _ H. apply qlt_true in H. apply qlt_true. eapply Qclt_trans; eassumption. }
  pose proof (M l1). pose proof (M l2). lia.
Qed.
Lemma higher_bound E m p : p < m -> higher E m p < m.
Proof.
  intros Hp. unfold higher. assert (HS : In p (seq 0 m)) by (apply in_seq; lia). pose proof (seq_length m 0) as L. apply in_split in HS as (l1 & l2 & ES).
  rewrite ES in *. rewrite filter_app, app_length. cbn [filter].
  assert (Q1 : qlt (nth p E 0%Qc) (nth p E 0%Qc) = false) by (apply qlt_false; apply Qcle_refl). rewrite Q1.
  assert (M : forall f (l : list nat), length (filter f l) <= length l).
  { intros f l. induction l as [|a l IH]; [reflexivity|]. cbn [filter]. destruct (f a); cbn [length]; lia. }
  pose proof (M (fun q => qlt (nth p E 0%Qc) (nth q E 0%Qc)) l1). pose proof (M (fun q => qlt (nth p E 0%Qc) (nth q E 0%Qc)) l2). rewrite app_length in L. cbn [length] in L. lia.
Qed.

(** following the links leads to a root, through denser and denser pixels; there are no cycles *)
Theorem C32_forest N1 N2 K image expo root q q' : length image = N1 * N2 * K -> sized (N1 * N2) q ->
  q_medoid q = false -> (0 <= q_tau q)%Qc -> process N1 N2 K image expo root q = Some q' ->
  (forall p, p < N1 * N2 -> nth p (q_parents q') 0 = p /\ nth p (q_dists q') None = None \/
     nth p (q_dists q') None <> None /\ (nth p (q_density q') 0 < nth (nth p (q_parents q') 0%nat) (q_density q') 0)%Qc) /\
  (forall p, p < N1 * N2 -> exists k, k < N1 * N2 /\ climb (q_parents q') k p < N1 * N2 /\
     nth (climb (q_parents q') k p) (q_parents q') 0 = climb (q_parents q') k p).
Proof.
  intros LI F M T P.
  assert (A : forall p, p < N1 * N2 -> nth p (q_parents q') 0 = p /\ nth p (q_dists q') None = None \/
     nth p (q_dists q') None <> None /\ (nth p (q_density q') 0 < nth (nth p (q_parents q') 0%nat) (q_density q') 0)%Qc).
  { intros p Hp. destruct (C32_links N1 N2 K image expo root q q' p LI F M T P Hp) as ([d|] & ED & L).
    - right. destruct L as ((_ & L & _) & _). split; [rewrite ED; discriminate|exact L].
    - left. destruct L as [L _]. split; [exact L|exact ED]. }
  split; [exact A|]. destruct (C32_memory N1 N2 K image expo root q LI F (fun _ => T)) as (q1 & P1 & _ & _ & _ & _ & B).
  rewrite P1 in P. injection P as ->.
  assert (C : forall h p, p < N1 * N2 -> higher (q_density q') (N1 * N2) p <= h -> exists k, k <= h /\ climb (q_parents q') k p < N1 * N2 /\
     nth (climb (q_parents q') k p) (q_parents q') 0 = climb (q_parents q') k p).
  { induction h as [|h IH]; intros p Hp Hh.
    - destruct (A p Hp) as [[R _]|[_ L]]; [exists 0; cbn [climb]; repeat split; assumption || lia|].
      pose proof (higher_lt _ _ _ _ (B p Hp) L). lia.
    - destruct (A p Hp) as [[R _]|[_ L]]; [exists 0; cbn [climb]; repeat split; assumption || lia|].
      pose proof (higher_lt _ _ _ _ (B p Hp) L). destruct (IH (nth p (q_parents q') 0) (B p Hp) ltac:(lia)) as (k & K1 & K2 & K3).
      exists (S k). cbn [climb]. split; [lia|]. split; assumption. }
  intros p Hp. destruct (C _ p Hp (Nat.le_refl _)) as (k & K1 & K2). exists k. split; [|exact K2]. pose proof (higher_bound (q_density q') (N1 * N2) p Hp). lia.
Qed.

(** *** C110: densities, repeated calls, defaults *)
Theorem C110_density N1 N2 K image expo root q q' p R : length image = N1 * N2 * K -> sized (N1 * N2) q ->
  (q_medoid q = false -> (0 <= q_tau q)%Qc) -> process N1 N2 K image expo root q = Some q' -> p < N1 * N2 -> is_ceil (nq 3 * q_sigma q) R ->
  nth p (q_density q') 0%Qc = (nth p (q_density q) 0 + parzen N1 N2 K image expo (q_sigma q) R p)%Qc.
Proof.
  intros LI F T P Hp HR. rewrite (ceil_unique _ _ _ HR (qceil_ok _)).
  destruct (process_ok N1 N2 K image expo root LI q F T) as (q1 & A & _ & _ & _ & _ & D & _). rewrite A in P. injection P as ->. apply D. exact Hp.
Qed.

Fixpoint process_times (k N1 N2 K : nat) (image : list Qc) (expo root : Qc -> Qc) (q : qs) : option qs :=
  match k with 0 => Some q | S k => do q <- process N1 N2 K image expo root q; process_times k N1 N2 K image expo root q end.
Lemma process_more k N1 N2 K image expo root : forall q,
  process_times (S k) N1 N2 K image expo root q = do q <- process_times k N1 N2 K image expo root q; process N1 N2 K image expo root q.
Proof.
  induction k as [|k IH]; intros q.
  - cbn [process_times obind]. destruct (process _ _ _ _ _ _ q); reflexivity.
  - cbn [process_times]. destruct (process N1 N2 K image expo root q) as [q1|]; [|reflexivity]. cbn [obind]. rewrite <- IH. reflexivity.
Qed.
Lemma linked_unique N1 N2 K image E E' tau p a a' d d' :
  (forall q, better N1 N2 K image E tau p q <-> better N1 N2 K image E' tau p q) ->
  linked N1 N2 K image E tau p a d -> linked N1 N2 K image E' tau p a' d' -> a = a' /\ d = d'.
Proof.
  intros EB. destruct d as [d|], d' as [d'|]; cbn [linked].
  - intros (A & -> & B) (A' & -> & B'). destruct (B a' (proj2 (EB _) A')) as [X|[X Y]]; destruct (B' a (proj1 (EB _) A)) as [X'|[X' Y']].
    + exfalso. exact (Qclt_not_le _ _ X (Qclt_le_weak _ _ X')).
    + exfalso. rewrite X' in X. exact (Qclt_not_le _ _ X (Qcle_refl _)).
    + exfalso. rewrite X in X'. exact (Qclt_not_le _ _ X' (Qcle_refl _)).
    + split; [lia|rewrite X; reflexivity].
  - intros (A & _) (_ & B). exfalso. apply (B a). apply EB. exact A.
  - intros (_ & B) (A & _). exfalso. apply (B a'). apply EB. exact A.
  - intros (-> & _) (-> & _). split; reflexivity.
Qed.
Lemma list_ext {A} (d : A) l l' : length l = length l' -> (forall i, i < length l -> nth i l d = nth i l' d) -> l = l'.
Proof. intros L H. apply (nth_ext l l' d d L H). Qed.
(** processing again yields the same links; the densities pile up *)
Theorem C110_again N1 N2 K image expo root q q1 R k : length image = N1 * N2 * K -> sized (N1 * N2) q ->
  (forall p, nth p (q_density q) 0 = 0)%Qc ->
  q_medoid q = false -> (0 <= q_tau q)%Qc -> process N1 N2 K image expo root q = Some q1 -> is_ceil (nq 3 * q_sigma q) R ->
  exists q', process_times (S k) N1 N2 K image expo root q = Some q' /\ q_parents q' = q_parents q1 /\ q_dists q' = q_dists q1 /\
    forall p, p < N1 * N2 -> nth p (q_density q') 0%Qc = (nq (S k) * parzen N1 N2 K image expo (q_sigma q) R p)%Qc.
Proof.
  intros LI F Z M T P HR.
  assert (G : exists q', process_times (S k) N1 N2 K image expo root q = Some q' /\ sized (N1 * N2) q' /\ q_tau q' = q_tau q /\ q_sigma q' = q_sigma q /\ q_medoid q' = false /\
    q_parents q' = q_parents q1 /\ q_dists q' = q_dists q1 /\
    forall p, p < N1 * N2 -> nth p (q_density q') 0%Qc = (nq (S k) * parzen N1 N2 K image expo (q_sigma q) R p)%Qc).
  { induction k as [|k IH].
    - cbn [process_times]. rewrite P. exists q1. split; [reflexivity|].
      destruct (C32_memory N1 N2 K image expo root q LI F (fun _ => T)) as (q2 & P2 & F2 & T2 & S2 & M2 & _). rewrite P2 in P. injection P as ->.
      split; [exact F2|]. split; [exact T2|]. split; [exact S2|]. split; [congruence|]. split; [reflexivity|]. split; [reflexivity|].
      intros p Hp. rewrite (C110_density N1 N2 K image expo root q q1 p R LI F (fun _ => T) P2 Hp HR), Z. change (nq 1) with 1%Qc. ring.
    - destruct IH as (q2 & P2 & F2 & T2 & S2 & M2 & PA2 & DI2 & DE2). rewrite process_more, P2. cbn [obind].
      assert (T2' : (0 <= q_tau q2)%Qc) by (rewrite T2; exact T).
      destruct (C32_memory N1 N2 K image expo root q2 LI F2 (fun _ => T2')) as (q3 & P3 & F3 & T3 & S3 & M3 & _).
      exists q3. split; [exact P3|]. split; [exact F3|]. split; [congruence|]. split; [congruence|]. split; [congruence|].
      assert (DE3 : forall p, p < N1 * N2 -> nth p (q_density q3) 0%Qc = (nq (S (S k)) * parzen N1 N2 K image expo (q_sigma q) R p)%Qc).
      { intros p Hp. rewrite <- S2 in HR. rewrite (C110_density N1 N2 K image expo root q2 q3 p R LI F2 (fun _ => T2') P3 Hp HR), DE2, S2 by exact Hp.
        replace (S (S k)) with (S k + 1) by lia. rewrite Homker_Proofs.nq_S. ring. }
      assert (DE1 : forall p, p < N1 * N2 -> nth p (q_density q1) 0%Qc = parzen N1 N2 K image expo (q_sigma q) R p).
      { intros p Hp. rewrite (C110_density N1 N2 K image expo root q q1 p R LI F (fun _ => T) P Hp HR), Z. ring. }
      destruct (C32_memory N1 N2 K image expo root q LI F (fun _ => T)) as (q1' & P1 & F1 & _). rewrite P1 in P. injection P as ->.
      destruct F3 as (G1 & G2 & G3). destruct F1 as (G4 & G5 & G6).
      assert (BE : forall p r, p < N1 * N2 -> better N1 N2 K image (q_density q3) (q_tau q) p r <-> better N1 N2 K image (q_density q1) (q_tau q) p r).
      { intros p r Hp. unfold better. split; intros (X & Y & W); (split; [exact X|]); (split; [|exact W]).
        - rewrite !DE3 in Y by assumption. rewrite !DE1 by assumption. pose proof (Homker_Proofs.nq_pos (S (S k)) ltac:(lia)) as NP.
          set (a := parzen _ _ _ _ _ _ _ p) in *. set (b := parzen _ _ _ _ _ _ _ r) in *. set (c := nq (S (S k))) in *. clearbody a b c. clear -Y NP. qc_prep. nra.
        - rewrite !DE1 in Y by assumption. rewrite !DE3 by assumption. pose proof (Homker_Proofs.nq_pos (S (S k)) ltac:(lia)) as NP.
          set (a := parzen _ _ _ _ _ _ _ p) in *. set (b := parzen _ _ _ _ _ _ _ r) in *. set (c := nq (S (S k))) in *. clearbody a b c. clear -Y NP. qc_prep. nra. }
      assert (LINK : forall p, p < N1 * N2 -> nth p (q_parents q3) 0 = nth p (q_parents q1) 0 /\ nth p (q_dists q3) None = nth p (q_dists q1) None).
      { intros p Hp. destruct (C32_links N1 N2 K image expo root q2 q3 p LI F2 M2 T2' P3 Hp) as (d3 & E3 & L3).
        destruct (C32_links N1 N2 K image expo root q q1 p LI F M T P1 Hp) as (d1 & E1 & L1). rewrite T2 in L3.
        destruct (linked_unique N1 N2 K image _ _ _ p _ _ _ _ (fun r => BE p r Hp) L3 L1) as [X Y]. split; [exact X|]. rewrite E3, E1, Y. reflexivity. }
      split; [apply (list_ext 0); [congruence|]; intros i Hi; apply LINK; lia|].
      split; [apply (list_ext None); [congruence|]; intros i Hi; apply LINK; lia|]. exact DE3. }
  destruct G as (q' & G1 & _ & _ & _ & _ & G2 & G3 & G4). exists q'. split; [exact G1|]. split; [exact G2|]. split; [exact G3|exact G4].
Qed.
Lemma new_sized N1 N2 : sized (N1 * N2) (qs_new N1 N2).
Proof. unfold sized, qs_new. cbn [q_parents q_dists q_density]. rewrite !repeat_length. auto. Qed.
Lemma dist_zero N1 N2 K image p q : p < N1 * N2 -> q < N1 * N2 -> (sqdist N1 N2 K image p q <= 0)%Qc -> p = q.
Proof.
  intros Hp Hq D. destruct (dist_coords N1 N2 K image p q) as [A B].
  assert (X : forall a b, (gap false (nq a) (nq b) <= 0)%Qc -> a = b).
  { intros a b G. pose proof (gap_apart a b 0 (Qcle_refl _)) as Z. replace (0 * 0)%Qc with 0%Qc in Z by ring. specialize (Z G).
    change (qceil 0) with 0%Z in Z. unfold apart in Z. lia. }
  destruct (parts N1 N2 p Hp) as (_ & _ & ->). destruct (parts N1 N2 q Hq) as (_ & _ & ->).
  rewrite (X (p mod N1) (q mod N1)) by (eapply Qcle_trans; eassumption). rewrite (X (p / N1) (q / N1)) by (eapply Qcle_trans; eassumption). reflexivity.
Qed.
(** the default parameters: the largest whole distance of at most a fiftieth of the longer side; a third of it, at least 2, as kernel size *)
Theorem C110_defaults N1 N2 : exists t, q_tau (qs_new N1 N2) = nq t /\ 50 * t <= Nat.max N1 N2 < 50 * (t + 1) /\
  (q_sigma (qs_new N1 N2) = nq t / nq 3 \/ q_sigma (qs_new N1 N2) = nq 2)%Qc /\ (nq 2 <= q_sigma (qs_new N1 N2))%Qc /\ (nq t / nq 3 <= q_sigma (qs_new N1 N2))%Qc /\ q_medoid (qs_new N1 N2) = false.
Proof.
  exists (Nat.max N1 N2 / 50). split; [reflexivity|]. split; [pose proof (Nat.div_mod (Nat.max N1 N2) 50 ltac:(lia)); pose proof (Nat.mod_upper_bound (Nat.max N1 N2) 50 ltac:(lia)); lia|].
  unfold qs_new. cbn [q_sigma q_medoid]. destruct (qlt (nq 2) _) eqn:T; [apply qlt_true in T|apply qlt_false in T].
  - split; [now left|]. split; [now apply Qclt_le_weak|]. split; [apply Qcle_refl|reflexivity].
  - split; [now right|]. split; [apply Qcle_refl|]. split; [exact T|reflexivity].
Qed.
Print Assumptions C110_defaults.
(** with the default parameters no pixel of an image smaller than 50 by 50 is linked *)
Theorem C110_small_defaults N1 N2 K image expo root : length image = N1 * N2 * K -> N1 < 50 -> N2 < 50 ->
  exists q', process N1 N2 K image expo root (qs_new N1 N2) = Some q' /\
    forall p, p < N1 * N2 -> nth p (q_parents q') 0 = p /\ nth p (q_dists q') None = None.
Proof.
  intros LI S1 S2. assert (T0 : q_tau (qs_new N1 N2) = 0%Qc). { unfold qs_new. cbn [q_tau]. rewrite Nat.div_small by lia. reflexivity. }
  assert (T : (0 <= q_tau (qs_new N1 N2))%Qc) by (rewrite T0; apply Qcle_refl).
  destruct (C32_memory N1 N2 K image expo root (qs_new N1 N2) LI (new_sized N1 N2) (fun _ => T)) as (q' & P & _). exists q'. split; [exact P|].
  intros p Hp. destruct (C32_links N1 N2 K image expo root _ q' p LI (new_sized N1 N2) eq_refl T P Hp) as ([d|] & ED & L).
  - exfalso. destruct L as ((L1 & L2 & L3) & _). rewrite T0 in L3. replace (0 * 0)%Qc with 0%Qc in L3 by ring.
    rewrite <- (dist_zero N1 N2 K image p _ Hp L1 L3) in L2. exact (Qclt_not_le _ _ L2 (Qcle_refl _)).
  - destruct L as [L _]. split; [exact L|exact ED].
Qed.

(** *** C111: changing the kernel and processing again does not give the new densities *)
Theorem C111_new_kernel_refuted (expo root : Qc -> Qc) : expo 0%Qc <> 0%Qc ->
  exists N1 N2 K image q1 q2 sigma R, length image = N1 * N2 * K /\ process N1 N2 K image expo root (qs_new N1 N2) = Some q1 /\
    (0 < sigma)%Qc /\ process N1 N2 K image expo root (set_kernel_size q1 sigma) = Some q2 /\ is_ceil (nq 3 * sigma) R /\
    nth 0 (q_density q2) 0%Qc <> parzen N1 N2 K image expo sigma R 0.
Proof.
  intros X. assert (T0 : q_tau (qs_new 1 1) = 0%Qc) by reflexivity. assert (T : forall q, q_tau q = 0%Qc -> q_medoid q = false -> (0 <= q_tau q)%Qc) by (intros q -> _; apply Qcle_refl).
  destruct (C32_memory 1 1 1 [0%Qc] expo root (qs_new 1 1) eq_refl (new_sized 1 1) (T (qs_new 1 1) T0)) as (q1 & P1 & F1 & T1 & S1 & M1 & _).
  assert (F1' : sized 1 (set_kernel_size q1 1%Qc)) by exact F1.
  assert (T1' : q_tau (set_kernel_size q1 1%Qc) = 0%Qc) by (cbn [set_kernel_size q_tau]; rewrite T1; exact T0).
  destruct (C32_memory 1 1 1 [0%Qc] expo root (set_kernel_size q1 1%Qc) eq_refl F1' (T _ T1')) as (q2 & P2 & _).
  exists 1, 1, 1, [0%Qc], q1, q2, 1%Qc, 3%Z. split; [reflexivity|]. split; [exact P1|]. split; [reflexivity|]. split; [exact P2|].
  assert (C3 : is_ceil (nq 3 * 1) 3) by (split; [discriminate|reflexivity]).
  split; [exact C3|]. rewrite (C110_density 1 1 1 [0%Qc] expo root _ q2 0 3 eq_refl F1' (T _ T1') P2 ltac:(lia) C3).
  cbn [set_kernel_size q_density q_sigma]. intros E.
  assert (E0 : nth 0 (q_density q1) 0%Qc = 0%Qc). { clear -E. set (a := nth 0 (q_density q1) 0%Qc) in *. set (b := parzen _ _ _ _ _ _ _ _) in *. clearbody a b. replace a with (a + b - b)%Qc by ring. rewrite E. ring. }
  assert (C6 : is_ceil (nq 3 * q_sigma (qs_new 1 1)) 6) by (split; [discriminate|reflexivity]).
  rewrite (C110_density 1 1 1 [0%Qc] expo root _ q1 0 6 eq_refl (new_sized 1 1) (T (qs_new 1 1) T0) P1 ltac:(lia) C6) in E0.
  unfold parzen, wsum in E0. cbn [sum Nat.mul Nat.add] in E0. change (within 1 6 0 0) with true in E0. cbv iota in E0.
  assert (Z : (- sqdist 1 1 1 [0%Qc] 0 0 / (nq 2 * q_sigma (qs_new 1 1) * q_sigma (qs_new 1 1)))%Qc = 0%Qc).
  { apply qc_eq. vm_compute. reflexivity. }
  rewrite Z in E0. apply X. eapply eq_trans; [|exact E0]. cbn [qs_new q_density repeat Nat.mul Nat.add nth]. ring.
Qed.

(** *** C112: medoid shift *)
Theorem C112_scores N1 N2 K image expo root q q' p R : length image = N1 * N2 * K -> sized (N1 * N2) q ->
  q_medoid q = true -> process N1 N2 K image expo root q = Some q' -> p < N1 * N2 -> is_ceil (nq 3 * q_sigma q) R ->
  exists d, nth p (q_dists q') None = Some d /\
    chosen N1 N2 K image expo (q_sigma q) R (nth p (q_density q') 0%Qc) p (nth p (q_parents q') 0) d.
Proof.
  intros LI F M P Hp HR. rewrite (ceil_unique _ _ _ HR (qceil_ok _)). assert (NM : q_medoid q = false -> (0 <= q_tau q)%Qc) by congruence.
  destruct (process_ok N1 N2 K image expo root LI q F NM) as (q1 & A & _ & _ & _ & _ & _ & _ & _ & G). rewrite A in P. injection P as ->. apply G; assumption.
Qed.
Lemma dist_dot N1 N2 K image q r : (sqdist N1 N2 K image q r = dot N1 N2 K image q q + dot N1 N2 K image r r - nq 2 * dot N1 N2 K image q r)%Qc.
Proof.
  unfold sqdist, dot. set (x := feature N1 N2 image).
  replace (ksum (2 + K) (fun i => gap false (x q i) (x r i))) with
    (ksum (2 + K) (fun i => (x q i * x q i + x r i * x r i) + - nq 2 * (x q i * x r i)))%Qc.
  2:{ apply sum_ext. intros i _. unfold gap. replace (nq 2) with (1 + 1)%Qc by reflexivity. ring. }
  rewrite (sum_add _ _ _ _ _ _ Qcrt (2 + K) (fun i => x q i * x q i + x r i * x r i)%Qc (fun i => - nq 2 * (x q i * x r i))%Qc).
  rewrite (sum_add _ _ _ _ _ _ Qcrt (2 + K) (fun i => x q i * x q i)%Qc (fun i => x r i * x r i)%Qc), (sum_scale _ _ _ _ _ _ Qcrt (2 + K) (- nq 2)%Qc (fun i => x q i * x r i)%Qc). ring.
Qed.
Lemma score_spread N1 N2 K image expo sigma R p q :
  score N1 N2 K image expo sigma R (parzen N1 N2 K image expo sigma R p) p q =
  (from_origin N1 N2 K image expo sigma R p - spread N1 N2 K image expo sigma R p q)%Qc.
Proof.
  unfold score, from_origin, spread, around, parzen. set (f := fun r => expo (- sqdist N1 N2 K image p r / (nq 2 * sigma * sigma))%Qc).
  change (nq 2 * wsum N1 N2 R p (fun r => f r * dot N1 N2 K image q r) - wsum N1 N2 R p f * dot N1 N2 K image q q =
    wsum N1 N2 R p (fun r => f r * dot N1 N2 K image r r) - wsum N1 N2 R p (fun r => f r * sqdist N1 N2 K image q r))%Qc.
  rewrite (wsum_ext N1 N2 R p (fun r => f r * sqdist N1 N2 K image q r)%Qc
    (fun r => (dot N1 N2 K image q q * f r + f r * dot N1 N2 K image r r) + (- nq 2) * (f r * dot N1 N2 K image q r))%Qc).
  2:{ intros r _. rewrite dist_dot. ring. }
  rewrite (wsum_add N1 N2 R p (fun r => dot N1 N2 K image q q * f r + f r * dot N1 N2 K image r r)%Qc (fun r => (- nq 2) * (f r * dot N1 N2 K image q r))%Qc).
  rewrite (wsum_add N1 N2 R p (fun r => dot N1 N2 K image q q * f r)%Qc (fun r => f r * dot N1 N2 K image r r)%Qc).
  rewrite (wsum_scale N1 N2 R p (dot N1 N2 K image q q) f), (wsum_scale N1 N2 R p (- nq 2)%Qc (fun r => f r * dot N1 N2 K image q r)%Qc). ring.
Qed.
(** with a new object the parent is the medoid of the window, provided it is closer to the pixels of
    the window than the origin of the feature space; otherwise the pixel keeps itself *)
Theorem C112_medoid N1 N2 K image expo root q q' p R : length image = N1 * N2 * K -> sized (N1 * N2) q ->
  (forall p, nth p (q_density q) 0 = 0)%Qc ->
  q_medoid q = true -> process N1 N2 K image expo root q = Some q' -> p < N1 * N2 -> is_ceil (nq 3 * q_sigma q) R ->
  let s := spread N1 N2 K image expo (q_sigma q) R p in let o := from_origin N1 N2 K image expo (q_sigma q) R p in
  let window r := r < N1 * N2 /\ within N1 R p r = true in
  ((exists r, window r /\ (s r < o)%Qc) -> window (nth p (q_parents q') 0) /\ forall r, window r -> (s (nth p (q_parents q') 0%nat) <= s r)%Qc) /\
  ((forall r, window r -> (o <= s r)%Qc) -> nth p (q_parents q') 0 = p).
Proof.
  intros LI F Z M P Hp HR s o window. assert (NM : q_medoid q = false -> (0 <= q_tau q)%Qc) by congruence.
  destruct (C112_scores N1 N2 K image expo root q q' p R LI F M P Hp HR) as (d & _ & C).
  rewrite (C110_density N1 N2 K image expo root q q' p R LI F NM P Hp HR), Z in C.
  replace (0 + parzen N1 N2 K image expo (q_sigma q) R p)%Qc with (parzen N1 N2 K image expo (q_sigma q) R p) in C by ring.
  unfold chosen in C. setoid_rewrite score_spread in C. fold o s in C. destruct C as [(C1 & C2 & C3)|(C1 & C2 & C3 & C4 & C5)].
  - split; [|intros _; exact C1]. intros (r & (Hr & Wr) & L). exfalso. specialize (C3 r Hr Wr). fold (s r) in C3. clear -L C3. qc_lra.
  - split.
    + intros _. split; [split; assumption|]. intros r (Hr & Wr). specialize (C5 r Hr Wr). fold (s r) in C5.
      fold (s (nth p (q_parents q') 0)) in C3. rewrite C3 in C5. clear -C5. destruct C5 as [C5|[C5 _]]; [qc_lra|].
      assert (s r = s (nth p (q_parents q') 0)) as ->; [|apply Qcle_refl].
      set (a := s r) in *. set (b := s _) in *. clearbody a b. replace a with (o - (o - a))%Qc by ring. rewrite C5. ring.
    + intros A. exfalso. specialize (A _ (conj C1 C2)). fold (s (nth p (q_parents q') 0)) in C3. rewrite C3 in C4. clear -A C4. qc_lra.
Qed.

(** *** C113: the parent need not be the medoid of the window *)
Definition corner : list Qc := [1; 0; 0; 0]%Qc.
Lemma corner_dist p q d : Qeq_bool (this (sqdist 2 2 1 corner p q)) (inject_Z d) = true -> sqdist 2 2 1 corner p q = zq d.
Proof. intros E. apply Qeq_bool_eq in E. apply qc_eq. rewrite E. unfold zq. rewrite this_Q. reflexivity. Qed.
Lemma corner_around expo f : around 2 2 1 corner expo (nq 2) 6 0 f =
  (expo 0 * f 0%nat + expo (- (zq 1 / zq 4)) * f 1%nat + expo (- (zq 1 / zq 4)) * f 2%nat + expo (- (zq 3 / zq 8)) * f 3%nat)%Qc.
Proof.
  unfold around, wsum. cbn [sum Nat.mul Nat.add]. change (within 2 6 0 0) with true. change (within 2 6 0 1) with true.
  change (within 2 6 0 2) with true. change (within 2 6 0 3) with true. cbv iota.
  assert (A0 : (- sqdist 2 2 1 corner 0 0 / (nq 2 * nq 2 * nq 2))%Qc = 0%Qc) by (apply qc_eq; vm_compute; reflexivity).
  assert (A1 : (- sqdist 2 2 1 corner 0 1 / (nq 2 * nq 2 * nq 2))%Qc = (- (zq 1 / zq 4))%Qc) by (apply qc_eq; vm_compute; reflexivity).
  assert (A2 : (- sqdist 2 2 1 corner 0 2 / (nq 2 * nq 2 * nq 2))%Qc = (- (zq 1 / zq 4))%Qc) by (apply qc_eq; vm_compute; reflexivity).
  assert (A3 : (- sqdist 2 2 1 corner 0 3 / (nq 2 * nq 2 * nq 2))%Qc = (- (zq 3 / zq 8))%Qc) by (apply qc_eq; vm_compute; reflexivity).
  rewrite A0, A1, A2, A3. ring.
Qed.
(** for every function like the exponential *)
Theorem C113_medoid_refuted (expo root : Qc -> Qc) : expo 0%Qc = 1%Qc -> (expo (- (zq 3 / zq 8)) < 1)%Qc ->
  (1 < expo (- (zq 1 / zq 4)) + expo (- (zq 3 / zq 8)))%Qc ->
  exists N1 N2 K image q p R, length image = N1 * N2 * K /\ p < N1 * N2 /\
    process N1 N2 K image expo root (set_medoid (qs_new N1 N2) true) = Some q /\ is_ceil (nq 3 * q_sigma (qs_new N1 N2)) R /\
    exists r, r < N1 * N2 /\ within N1 R p r = true /\
      (spread N1 N2 K image expo (q_sigma (qs_new N1 N2)) R p r < spread N1 N2 K image expo (q_sigma (qs_new N1 N2)) R p (nth p (q_parents q) 0%nat))%Qc.
Proof.
  intros X0 X1 X2. set (q0 := set_medoid (qs_new 2 2) true). assert (F : sized (2 * 2) q0) by (apply new_sized).
  destruct (C32_memory 2 2 1 corner expo root q0 eq_refl F ltac:(discriminate)) as (q & P & _).
  assert (C6 : is_ceil (nq 3 * q_sigma q0) 6) by (split; [discriminate|reflexivity]).
  exists 2, 2, 1, corner, q, 0, 6%Z. split; [reflexivity|]. split; [lia|]. split; [exact P|]. split; [exact C6|].
  destruct (C112_medoid 2 2 1 corner expo root q0 q 0 6 eq_refl F) with (4 := ltac:(lia) : 0 < 2 * 2) as [_ KEEP]; try assumption; try reflexivity.
  { intros p. cbn. do 4 (destruct p as [|p]; [reflexivity|]). destruct p; reflexivity. }
  change (q_sigma q0) with (nq 2) in *. change (q_sigma (qs_new 2 2)) with (nq 2) in *.
  set (a := expo (- (zq 1 / zq 4))%Qc) in *. set (b := expo (- (zq 3 / zq 8))%Qc) in *.
  assert (SP : forall r, spread 2 2 1 corner expo (nq 2) 6 0 r = (sqdist 2 2 1 corner r 0 + a * sqdist 2 2 1 corner r 1 + a * sqdist 2 2 1 corner r 2 + b * sqdist 2 2 1 corner r 3)%Qc).
  { intros r. unfold spread. rewrite corner_around, X0. fold a b. ring. }
  assert (OR : from_origin 2 2 1 corner expo (nq 2) 6 0 = (1 + a + a + b * zq 2)%Qc).
  { unfold from_origin. rewrite corner_around, X0. fold a b.
    assert (D0 : dot 2 2 1 corner 0 0 = 1%Qc) by (apply qc_eq; vm_compute; reflexivity).
    assert (D1 : dot 2 2 1 corner 1 1 = 1%Qc) by (apply qc_eq; vm_compute; reflexivity).
    assert (D2 : dot 2 2 1 corner 2 2 = 1%Qc) by (apply qc_eq; vm_compute; reflexivity).
    assert (D3 : dot 2 2 1 corner 3 3 = zq 2) by (apply qc_eq; vm_compute; reflexivity). rewrite D0, D1, D2, D3. ring. }
  assert (S0 : spread 2 2 1 corner expo (nq 2) 6 0 0 = (zq 2 * a + zq 2 * a + zq 3 * b)%Qc).
  { rewrite SP, (corner_dist 0 0 0), (corner_dist 0 1 2), (corner_dist 0 2 2), (corner_dist 0 3 3) by (vm_compute; reflexivity). rewrite zq_0. ring. }
  assert (S1 : spread 2 2 1 corner expo (nq 2) 6 0 1 = (zq 2 + zq 2 * a + b)%Qc).
  { rewrite SP, (corner_dist 1 0 2), (corner_dist 1 1 0), (corner_dist 1 2 2), (corner_dist 1 3 1) by (vm_compute; reflexivity). rewrite zq_0, zq_1. ring. }
  assert (S2 : spread 2 2 1 corner expo (nq 2) 6 0 2 = (zq 2 + zq 2 * a + b)%Qc).
  { rewrite SP, (corner_dist 2 0 2), (corner_dist 2 1 2), (corner_dist 2 2 0), (corner_dist 2 3 1) by (vm_compute; reflexivity). rewrite zq_0, zq_1. ring. }
  assert (S3 : spread 2 2 1 corner expo (nq 2) 6 0 3 = (zq 3 + a + a)%Qc).
  { rewrite SP, (corner_dist 3 0 3), (corner_dist 3 1 1), (corner_dist 3 2 1), (corner_dist 3 3 0) by (vm_compute; reflexivity). rewrite zq_0, zq_1. ring. }
  assert (T2 : zq 2 = (1 + 1)%Qc) by reflexivity. assert (T3 : zq 3 = (1 + 1 + 1)%Qc) by reflexivity.
  exists 1. split; [lia|]. split; [reflexivity|]. rewrite KEEP.
  - rewrite S0, S1, T2, T3. clearbody a b. clear -X1 X2. qc_lra.
  - intros r (Hr & _). rewrite OR. destruct r as [|[|[|[|r]]]]; [| | | |lia]; rewrite ?S0, ?S1, ?S2, ?S3, ?T2, ?T3; clearbody a b; clear -X1 X2; qc_lra.
Qed.

(** *** Examples *)
(** a decreasing function in the place of exp *)
Definition hyper (x : Qc) : Qc := (/ (1 - x))%Qc.
Definition strip : list Qc := map (fun z => zq z) [0; 1; 0; 9; 9; 9]%Z.
Definition strip_qs : qs := set_max_dist (qs_new 6 1) (zq 3).
Example C32_ex_strip : length strip = 6 * 1 * 1 /\ sized (6 * 1) strip_qs /\ q_medoid strip_qs = false /\ (0 <= q_tau strip_qs)%Qc /\
  option_map q_parents (process 6 1 1 strip hyper (fun x => x) strip_qs) = Some [1; 1; 1; 4; 4; 4] /\
  option_map (fun q => map (option_map this) (q_dists q)) (process 6 1 1 strip hyper (fun x => x) strip_qs) =
    Some [Some 2; None; Some 2; Some 1; None; Some 1]%Q.
Proof. split; [reflexivity|]. split; [apply (new_sized 6 1)|]. split; [reflexivity|]. split; [discriminate|]. vm_compute. split; reflexivity. Qed.
(** twice the densities, the same links *)
Example C110_ex_twice : option_map q_parents (process_times 2 6 1 1 strip hyper (fun x => x) strip_qs) = Some [1; 1; 1; 4; 4; 4] /\
  is_ceil (nq 3 * q_sigma strip_qs) 6.
Proof. split; [vm_compute; reflexivity|]. split; [discriminate|reflexivity]. Qed.
Example C111_ex_exp : hyper 0 <> 0%Qc.
Proof. discriminate. Qed.
(** the medoids of the two halves *)
Example C112_ex_medoid : length strip = 6 * 1 * 1 /\ q_medoid (set_medoid strip_qs true) = true /\
  option_map q_parents (process 6 1 1 strip hyper (fun x => x) (set_medoid strip_qs true)) = Some [1; 1; 1; 4; 4; 4].
Proof. split; [reflexivity|]. split; [reflexivity|]. vm_compute. reflexivity. Qed.
Example C113_ex_exp : hyper 0 = 1%Qc /\ (hyper (- (zq 3 / zq 8)) < 1)%Qc /\ (1 < hyper (- (zq 1 / zq 4)) + hyper (- (zq 3 / zq 8)))%Qc.
Proof. split; [apply qc_eq; reflexivity|]. split; reflexivity. Qed.

Print Assumptions C32_memory.
Print Assumptions C32_links.
Print Assumptions C32_forest.
Print Assumptions C110_density.
Print Assumptions C110_again.
Print Assumptions C110_small_defaults.
Print Assumptions C111_new_kernel_refuted.
Print Assumptions C112_scores.
Print Assumptions C112_medoid.
Print Assumptions C113_medoid_refuted.
