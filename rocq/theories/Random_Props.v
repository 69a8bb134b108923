(** Properties C04, C05 and C06: the random number generator. *)
From Coq Require Import List NArith ZArith QArith Arith Lia Bool.
From Verif Require Import Base Random_Model Random_Spec Random_Proofs.
Import ListNotations.
Local Open Scope N_scope.

(** C04.  Starting from vl_rand_init, every sequence of calls with legal
    arguments completes (no out-of-bounds access to the state) and every
    result is in its documented interval. *)
Theorem C04_random_ranges : forall g0 ops, Forall op_ok ops ->
  exists g outs, rand_run g0 (OpInit :: ops) = Some (g, RNone :: outs) /\
    Forall2 out_ok ops outs.
Proof.
  intros g0 ops H. cbn [rand_run].
  destruct (step_ok (seeded 0) OpInit (seeded_wf 0) I) as (g1 & r & E & HW & _).
  change (rand_step g0 OpInit) with (rand_step (seeded 0) OpInit). rewrite E. cbn [obind].
  destruct (run_ok ops g1 HW H) as (g' & outs & -> & _ & HF). cbn [obind].
  cbn in E. inversion E; subst. eauto.
Qed.
Print Assumptions C04_random_ranges.

Example C04_case :
  Forall op_ok [OpUindex 10; OpInt31; OpReal3] /\
  option_map snd (rand_run (mk_rand [] 0) [OpInit; OpUindex 10; OpInt31; OpReal3])
  = Some [RNone; RNum 2; RNum 290934651; RReal (7780693469 # 8589934592)].
Proof. split; [repeat constructor; discriminate|vm_compute; reflexivity]. Qed.

(** C05.  Seeding erases history: whatever was done before with two generators
    (including nothing: arbitrary, uninitialised contents of the fixed-size word
    array and of the position), after the same seeding the same calls return the
    same results. *)
Theorem C05_seed_erases_history : forall g1 g2 s ops,
  length (r_mt g1) = 624%nat -> length (r_mt g2) = 624%nat ->
  option_map snd (rand_run g1 (OpSeed s :: ops)) = option_map snd (rand_run g2 (OpSeed s :: ops)).
Proof.
  intros g1 g2 s ops H1 H2. cbn [rand_run rand_step].
  rewrite !rand_seed_eq by auto. reflexivity.
Qed.
Print Assumptions C05_seed_erases_history.

Theorem C05_seed_by_array_erases_history : forall g1 g2 key ops,
  length (r_mt g1) = 624%nat -> length (r_mt g2) = 624%nat ->
  option_map snd (rand_run g1 (OpSeedByArray key :: ops))
  = option_map snd (rand_run g2 (OpSeedByArray key :: ops)).
Proof.
  intros g1 g2 key ops H1 H2. cbn [rand_run rand_step].
  rewrite (seed_by_array_indep g1 g2) by auto. reflexivity.
Qed.
Print Assumptions C05_seed_by_array_erases_history.

(** vl_rand_init also erases history, and an initialised but unseeded generator
    returns what one seeded with 5489 returns. *)
Theorem C05_init_default_seed : forall g1 g2 ops,
  length (r_mt g2) = 624%nat ->
  option_map snd (rand_run g1 (OpInit :: ops)) = option_map snd (rand_run g2 (OpSeed 5489 :: ops)).
Proof.
  intros g1 g2 ops H2. cbn [rand_run rand_step rand_init obind].
  rewrite rand_seed_eq by auto. cbn [obind].
  assert (K : forall ops,
     option_map snd (rand_run (mk_rand (repeat 0 mtN) (mtN + 1)) ops)
     = option_map snd (rand_run (seeded 5489) ops)).
  { clear. induction ops as [|o ops IH]; [reflexivity|].
    pose proof (uint32_default (repeat 0 mtN) (repeat_length _ _)) as E.
    assert (HL : length (r_mt (mk_rand (repeat 0 mtN) (mtN + 1))) = mtN) by apply repeat_length.
    assert (HL' : length (r_mt (seeded 5489)) = mtN) by (apply seeded_wf).
    assert (K : rand_step (mk_rand (repeat 0 mtN) (mtN + 1)) o = rand_step (seeded 5489) o).
    { revert E HL HL'. generalize (mk_rand (repeat 0 mtN) (mtN + 1)), (seeded 5489).
      intros ga gb E HL HL'.
      destruct o; cbn [rand_step];
      unfold rand_int63, rand_int31, rand_uindex, rand_real1, rand_real2, rand_real3, rand_res53;
      unfold rand_uint64;
      rewrite ?E, ?(rand_seed_eq _ _ HL), ?(rand_seed_eq _ _ HL'),
        ?(seed_by_array_indep _ _ _ HL HL'); reflexivity. }
    cbn [rand_run]. rewrite K. reflexivity. }
  specialize (K ops).
  destruct (rand_run (mk_rand _ _) ops) as [[? ?]|], (rand_run (seeded 5489) ops) as [[? ?]|];
    cbn in *; congruence.
Qed.
Print Assumptions C05_init_default_seed.

Example C05_case :
  option_map snd (rand_run (mk_rand (repeat 9 624) 77) [OpUint32; OpSeed 5489; OpUint32; OpUint32])
  = Some [RNum 38011928; RNone; RNum 3499211612; RNum 581869302].
Proof. vm_compute. reflexivity. Qed.

(** C06.  After seeding, the k-th 32-bit number is the tempering of the k-th
    word produced by the MT19937 recurrence from the published initial words,
    for every k. *)
Theorem C06_mt19937_seed : forall g s n x, length (r_mt g) = 624%nat ->
  is_mt_sequence (map (mt_seed_word s) (seq 0 624)) x ->
  exists g1 g2, rand_seed g s = Some g1 /\
    draws n g1 = Some (g2, map (fun k => mt_temper (x (624 + k)%nat)) (seq 0 n)).
Proof.
  intros g s n x HL HX. exists (seeded s).
  assert (HS : length (map (mt_seed_word s) (seq 0 624)) = 624%nat)
    by (rewrite map_length, seq_length; reflexivity).
  pose proof (mt_seq_unique _ x HS HX) as U.
  pose proof (seeded_wf s) as HW.
  pose proof (wf_at_pos (seeded s) HW (le_n _)) as HA.
  pose proof (mt_seq_recurrence _ HS) as HR.
  change (r_mt (seeded s)) with (map (mt_seed_word s) (seq 0 624)) in HA.
  destruct (draws_at _ HR n (seeded s) _ HA) as (g2 & E & HA2).
  exists g2. split; [apply rand_seed_eq; auto|]. rewrite E. do 2 f_equal.
  apply map_ext. intro k. rewrite U. cbn [r_mti seeded]. apply temper_eq.
  apply mt_seq_lt; auto. apply HW.
Qed.
Print Assumptions C06_mt19937_seed.

(** The sequence exists and is unique for any initial words, so the hypothesis
    of the theorem above is always met. *)
Theorem C06_mt_sequence_exists_unique : forall s, length s = 624%nat ->
  exists x, is_mt_sequence s x /\ forall x', is_mt_sequence s x' -> forall n, x' n = x n.
Proof.
  intros s HL. exists (mt_seq s). split; [apply mt_seq_is; auto|].
  intros x' H n. apply mt_seq_unique; auto.
Qed.
Print Assumptions C06_mt_sequence_exists_unique.

(** The same from any generator state reached by seeding with an array. *)
Theorem C06_mt19937_seed_by_array : forall g key n, length (r_mt g) = 624%nat -> key <> [] ->
  exists g1 g2, rand_seed_by_array g key = Some g1 /\ length (r_mt g1) = 624%nat /\
    forall x, is_mt_sequence (r_mt g1) x ->
    draws n g1 = Some (g2, map (fun k => mt_temper (x (624 + k)%nat)) (seq 0 n)).
Proof.
  intros g key n HL HK.
  destruct (seed_by_array_ok g key HL HK) as (g1 & E1 & HW).
  assert (Hm : r_mti g1 = mtN).
  { unfold rand_seed_by_array in E1. rewrite rand_seed_eq in E1 by auto. cbn [obind] in E1.
    destruct (key_loop1 _ _ _ _ _) as [[? ?]|]; [|discriminate]. cbn [obind] in E1.
    destruct (key_loop2 _ _ _); [|discriminate]. cbn [obind] in E1.
    destruct (aset _ _ _); [|discriminate]. inversion E1. reflexivity. }
  pose proof (proj1 (proj1 HW)) as HS.
  pose proof (mt_seq_recurrence _ HS) as HR.
  pose proof (wf_at_pos g1 HW ltac:(lia)) as HA.
  destruct (draws_at _ HR n g1 _ HA) as (g2 & E & HA2).
  exists g1, g2. split; auto. split; auto. intros x HX. rewrite E. do 2 f_equal.
  apply map_ext. intro k. rewrite (mt_seq_unique _ x HS HX). rewrite Hm. apply temper_eq.
  apply mt_seq_lt; auto. apply HW.
Qed.
Print Assumptions C06_mt19937_seed_by_array.

(** Tempering loses nothing: it is a bijection of the 32-bit words. *)
Theorem C06_temper_bijective :
  (forall y, y < 2 ^ 32 -> mt_temper y < 2 ^ 32) /\
  (forall y z, y < 2 ^ 32 -> z < 2 ^ 32 -> mt_temper y = mt_temper z -> y = z) /\
  (forall v, v < 2 ^ 32 -> exists y, y < 2 ^ 32 /\ mt_temper y = v).
Proof.
  split; [|split].
  - intros y Hy. rewrite <- temper_eq by auto. apply temper_lt; auto.
  - intros y z Hy Hz E. rewrite <- !temper_eq in E by auto.
    rewrite <- (untemper_temper y), <- (untemper_temper z), E by auto. reflexivity.
  - intros v Hv. exists (untemper v). split; [apply untemper_lt; auto|].
    rewrite <- temper_eq by (apply untemper_lt; auto). apply temper_untemper; auto.
Qed.
Print Assumptions C06_temper_bijective.

(** The reference outputs of the published implementation. *)
Example C06_case_default :
  option_map snd (draws 3 (seeded 5489)) = Some [3499211612; 581869302; 3890346734].
Proof. vm_compute. reflexivity. Qed.
