(** Proofs about the VLAD encoding. *)
From Coq Require Import List Arith ZArith Lia Bool QArith Qcanon Lqa Permutation.
From Verif Require Import Base Loop MserSort_Proofs ImOp_Spec ImOp_Proofs Rat Gauss_Model Gauss_Proofs Vlad_Model Vlad_Spec.
Import ListNotations.
Local Open Scope Qc_scope.

Lemma qlt_dec {T} (a b : Qc) (x y : T) : (if qlt a b then x else y) = (if Qclt_le_dec a b then x else y).
Proof.
  destruct (Qclt_le_dec a b) as [H|H].
  - now rewrite (proj2 (qlt_true a b) H).
  - now rewrite (proj2 (qlt_false a b) H).
Qed.

Lemma sum_nonneg n f : (forall i, (i < n)%nat -> 0 <= f i) -> 0 <= qsum n f.
Proof.
  induction n as [|n IH]; intro H; cbn [sum]; [apply Qcle_refl|].
  pose proof (IH (fun i L => H i (Nat.lt_lt_succ_r _ _ L))) as A. pose proof (H n (Nat.lt_succ_diag_r n)) as B. qc_lra.
Qed.
Lemma sum_nonneg_zero n f : (forall i, (i < n)%nat -> 0 <= f i) -> qsum n f = 0 -> forall i, (i < n)%nat -> f i = 0.
Proof.
  induction n as [|n IH]; intros H Z i L; [lia|]. cbn [sum] in Z.
  assert (H' : forall i, (i < n)%nat -> 0 <= f i) by (intros; apply H; lia).
  pose proof (sum_nonneg n f H') as A. pose proof (H n (Nat.lt_succ_diag_r n)) as B.
  destruct (Nat.eq_dec i n) as [->|N]; [qc_lra|]. apply IH; auto; [qc_lra|lia].
Qed.
Lemma sum_flat n m f : qsum (n * m) f = qsum n (fun k => qsum m (fun d => f (k * m + d)%nat)).
Proof.
  induction n as [|n IH]; [reflexivity|]. replace (S n * m)%nat with (n * m + m)%nat by lia.
  rewrite (sum_app _ _ _ _ _ _ Qcrt). cbn [sum]. rewrite IH. reflexivity.
Qed.

Fixpoint lsum (f : nat -> Qc) (l : list nat) : Qc := match l with [] => 0 | i :: l => f i + lsum f l end.
Lemma lsum_app f l l' : lsum f (l ++ l') = lsum f l + lsum f l'.
Proof. induction l; cbn; [ring|]. rewrite IHl. ring. Qed.
Lemma sum_lsum n f : qsum n f = lsum f (seq 0 n).
Proof. induction n as [|n IH]; [reflexivity|]. rewrite seq_S, lsum_app, <- IH. cbn [sum lsum Nat.add]. ring. Qed.
Lemma lsum_perm f l l' : Permutation l l' -> lsum f l = lsum f l'.
Proof. induction 1; cbn; auto; try (rewrite IHPermutation; ring); [ring|congruence]. Qed.
Lemma lsum_map f g l : lsum f (map g l) = lsum (fun i => f (g i)) l.
Proof. induction l; cbn; [reflexivity|]. now rewrite IHl. Qed.
(** a sum over data does not depend on their order *)
Lemma sum_reorder n f (sigma : list nat) : Permutation sigma (seq 0 n) ->
  qsum n (fun i => f (nth i sigma 0%nat)) = qsum n f.
Proof.
  intro P. rewrite !sum_lsum. rewrite <- (lsum_perm f _ _ P).
  assert (L : length sigma = n) by (rewrite (Permutation_length P), seq_length; reflexivity).
  rewrite <- (lsum_map f (fun i => nth i sigma 0%nat)). f_equal.
  rewrite <- L. clear. induction sigma as [|a s IH]; [reflexivity|]. cbn [length seq map nth]. f_equal.
  rewrite <- seq_shift, map_map. exact IH.
Qed.

Section Encode.
Variables (root : Qc -> Qc) (tiny : Qc).
Variables (means : list Qc) (D K : nat) (data : list Qc) (N : nat) (assignments : list Qc).
Variable (flags : vlad_flags).
Hypothesis Hm : length means = (D * K)%nat.
Hypothesis Hx : length data = (N * D)%nat.
Hypothesis Ha : length assignments = (N * K)%nat.
Definition mean_ (k d : nat) : Qc := nth (k * D + d) means 0.
Definition x_ (i d : nat) : Qc := nth (i * D + d) data 0.
Definition q_ (i k : nat) : Qc := nth (i * K + k) assignments 0.

Definition holds (enc : list Qc) (F : nat -> nat -> Qc) : Prop :=
  length enc = (D * K)%nat /\ forall k d, (k < K)%nat -> (d < D)%nat -> nth (k * D + d) enc 0 = F k d.
Definition upd2 (F : nat -> nat -> Qc) (k d : nat) (v : Qc) : nat -> nat -> Qc :=
  fun k' d' => if (k' =? k)%nat && (d' =? d)%nat then v else F k' d'.

Lemma holds_ext enc F G : holds enc F -> (forall k d, (k < K)%nat -> (d < D)%nat -> F k d = G k d) -> holds enc G.
Proof. intros [L H] E. split; [exact L|]. intros. rewrite H by auto. auto. Qed.
Lemma cell_lt k d : (k < K)%nat -> (d < D)%nat -> (k * D + d < D * K)%nat.
Proof. clear. nia. Qed.
Lemma cell_inj k d k' d' : (d < D)%nat -> (d' < D)%nat -> (k * D + d = k' * D + d')%nat -> k = k' /\ d = d'.
Proof. clear. intros. assert (k = k') by nia. subst. lia. Qed.

Lemma modify_ok enc F k d g : holds enc F -> (k < K)%nat -> (d < D)%nat ->
  exists enc', modify (k * D + d) g enc = Some enc' /\ holds enc' (upd2 F k d (g (F k d))).
Proof.
  intros [L H] Lk Ld. unfold modify. pose proof (cell_lt k d Lk Ld) as P.
  rewrite (aget_nth enc _ 0) by lia. cbn [obind]. rewrite H by auto. rewrite aset_lt by lia.
  eexists; split; [reflexivity|]. split; [rewrite upd_length; exact L|].
  intros k' d' Lk' Ld'. rewrite nth_upd by lia. unfold upd2.
  destruct (Nat.eqb_spec (k' * D + d') (k * D + d)) as [E|E].
  - apply cell_inj in E as [-> ->]; auto. now rewrite !Nat.eqb_refl.
  - rewrite H by auto. destruct (Nat.eqb_spec k' k) as [->|]; [|reflexivity].
    destruct (Nat.eqb_spec d' d) as [->|]; [|reflexivity]. destruct (E eq_refl).
Qed.

Lemma block_map cl body g enc F : (cl < K)%nat -> holds enc F ->
  (forall d enc F, (d < D)%nat -> holds enc F -> exists enc', body d enc = Some enc' /\ holds enc' (upd2 F cl d (g d (F cl d)))) ->
  exists enc', iter D body enc = Some enc' /\ holds enc' (fun k d => if (k =? cl)%nat then g d (F cl d) else F k d).
Proof.
  intros Lc Hf B.
  destruct (iter_inv (fun j enc' => holds enc' (fun k d => if (k =? cl)%nat && (d <? j)%nat then g d (F cl d) else F k d)) body D enc) as (enc' & E & Hf').
  - apply (holds_ext _ _ _ Hf). intros. now rewrite andb_false_r.
  - intros j e Lj He. destruct (B j e _ Lj He) as (e' & E & He'). exists e'. split; [exact E|].
    apply (holds_ext _ _ _ He'). intros k d Lk Ld. unfold upd2. rewrite Nat.eqb_refl, Nat.ltb_irrefl. cbn [andb].
    destruct (Nat.eqb_spec k cl) as [->|]; [|reflexivity]. cbn [andb].
    destruct (Nat.eqb_spec d j) as [->|Nd].
    + destruct (Nat.ltb_spec j (j + 1)); [reflexivity|lia].
    + destruct (Nat.ltb_spec d j), (Nat.ltb_spec d (j + 1)); auto; lia.
  - exists enc'. split; [exact E|]. apply (holds_ext _ _ _ Hf'). intros k d Lk Ld.
    destruct (Nat.ltb_spec d D); [|lia]. now rewrite andb_true_r.
Qed.

Notation wt := (weight q_).
Notation ms := (mass q_ N).

Lemma accumulate_loop cl enc F : (cl < K)%nat -> holds enc F ->
  exists enc', iter N (accumulate D K data assignments cl) (0, enc) = Some (ms cl, enc') /\
    holds enc' (fun k d => if (k =? cl)%nat then F cl d + qsum N (fun i => wt i cl * x_ i d) else F k d).
Proof.
  intros Lc Hf.
  destruct (iter_inv (fun i '(m, enc') => m = qsum i (fun i => wt i cl) /\
      holds enc' (fun k d => if (k =? cl)%nat then F cl d + qsum i (fun i => wt i cl * x_ i d) else F k d))
    (accumulate D K data assignments cl) N (0, enc)) as ([m enc'] & E & -> & Hf').
  - split; [reflexivity|]. apply (holds_ext _ _ _ Hf). intros k d _ _. cbn [sum].
    destruct (Nat.eqb_spec k cl) as [->|]; [ring|reflexivity].
  - intros i [m e] Li [-> He]. unfold accumulate.
    assert (La : (i * K + cl < length assignments)%nat) by (rewrite Ha; clear - Li Lc; nia).
    rewrite (aget_nth assignments _ 0) by exact La. cbn [obind]. fold (q_ i cl).
    rewrite qlt_dec. rewrite Nat.add_1_r. cbn [sum].
    assert (W : wt i cl = if Qclt_le_dec 0 (q_ i cl) then q_ i cl else 0) by reflexivity.
    destruct (Qclt_le_dec 0 (q_ i cl)) as [P|P].
    + destruct (block_map cl (fun d enc => do x <- aget data (i * D + d); modify (cl * D + d) (fun z => z + q_ i cl * x) enc)
        (fun d z => z + q_ i cl * x_ i d) e _ Lc He) as (e' & E & He').
      * intros d e1 F1 Ld He1. assert (Lx : (i * D + d < length data)%nat) by (rewrite Hx; clear - Li Ld; nia).
        rewrite (aget_nth data _ 0) by exact Lx. cbn [obind]. fold (x_ i d).
        destruct (modify_ok e1 F1 cl d (fun z => z + q_ i cl * x_ i d) He1 Lc Ld) as (e2 & E2 & He2). eauto.
      * rewrite E. cbn [obind]. eexists; split; [reflexivity|]. split; [now rewrite W|].
        apply (holds_ext _ _ _ He'). intros k d _ _. rewrite Nat.eqb_refl.
        destruct (k =? cl)%nat; [rewrite W; ring|reflexivity].
    + eexists; split; [reflexivity|]. split; [rewrite W; ring|].
      apply (holds_ext _ _ _ He). intros k d _ _. destruct (k =? cl)%nat; [rewrite W; ring|reflexivity].
  - exists enc'. split; [exact E|exact Hf'].
Qed.

Lemma weight_nonneg i k : 0 <= wt i k.
Proof. unfold weight. destruct (Qclt_le_dec 0 (q_ i k)) as [H|H]; [now apply Qclt_le_weak|apply Qcle_refl]. Qed.
Lemma residual_split k d : residual mean_ x_ q_ N k d = qsum N (fun i => wt i k * x_ i d) - ms k * mean_ k d.
Proof.
  unfold residual, mass. rewrite (qsum_ext _ _ (fun i => 1 * (wt i k * x_ i d) + (- mean_ k d) * wt i k)).
  - rewrite qsum_lin. ring.
  - intros i _. ring.
Qed.
Lemma massless k : ms k = 0 -> forall d, residual mean_ x_ q_ N k d = 0 /\ qsum N (fun i => wt i k * x_ i d) = 0.
Proof.
  intros Z d. assert (Z' : forall i, (i < N)%nat -> wt i k = 0) by (apply sum_nonneg_zero; [intros; apply weight_nonneg|exact Z]).
  assert (S0 : qsum N (fun i => wt i k * x_ i d) = 0).
  { rewrite (qsum_ext _ _ (fun _ => 0)); [apply (sum_zero _ _ _ _ _ _ Qcrt)|]. intros i Li. rewrite Z' by exact Li. ring. }
  split; [|exact S0]. rewrite residual_split, S0, Z. ring.
Qed.
Lemma mass_cases k : (0 < ms k /\ ms k <> 0) \/ ms k = 0.
Proof.
  pose proof (sum_nonneg N (fun i => wt i k) (fun i _ => weight_nonneg i k)) as P. fold (ms k) in P.
  destruct (Qc_eq_dec (ms k) 0) as [E|E]; [auto|]. left. split; [|exact E].
  destruct (Qcle_lt_or_eq _ _ P) as [H|H]; [exact H|]. destruct E. now symmetry.
Qed.

Notation norm_ := (normal root tiny mean_ x_ q_ D N (f_mass flags) (f_root flags) (f_components flags)).

Lemma cluster_ok cl enc F : (cl < K)%nat -> holds enc F -> (forall d, (d < D)%nat -> F cl d = 0) ->
  exists enc', cluster root tiny means D K data N assignments flags cl enc = Some enc' /\
    holds enc' (fun k d => if (k =? cl)%nat then norm_ cl d else F k d).
Proof.
  intros Lc Hf Z. unfold cluster.
  destruct (accumulate_loop cl enc F Lc Hf) as (e1 & E1 & H1). rewrite E1. cbn [obind].
  assert (Mb : forall d, (d < D)%nat -> aget means (cl * D + d) = Some (mean_ cl d)).
  { intros d Ld. apply aget_nth. rewrite Hm. now apply cell_lt. }
  (* subtraction of the means *)
  assert (S2 : exists e2, (if qlt 0 (ms cl) then
       if f_mass flags then
         iter D (fun d enc =>
           do enc <- modify (cl * D + d) (fun z => z / ms cl) enc;
           do m <- aget means (cl * D + d);
           modify (cl * D + d) (fun z => z - m) enc) e1
       else
         iter D (fun d enc =>
           do m <- aget means (cl * D + d);
           modify (cl * D + d) (fun z => z - ms cl * m) enc) e1
     else Some e1) = Some e2 /\
     holds e2 (fun k d => if (k =? cl)%nat then scaled mean_ x_ q_ N (f_mass flags) cl d else F k d)).
  { destruct (mass_cases cl) as [[P Nz]|E0].
    - rewrite (proj2 (qlt_true _ _) P). destruct (f_mass flags).
      + destruct (block_map cl (fun d enc =>
           do enc <- modify (cl * D + d) (fun z => z / ms cl) enc;
           do m <- aget means (cl * D + d);
           modify (cl * D + d) (fun z => z - m) enc) (fun d z => z / ms cl - mean_ cl d) e1 _ Lc H1) as (e2 & E2 & H2).
        * intros d e G Ld He. destruct (modify_ok e G cl d (fun z => z / ms cl) He Lc Ld) as (e' & E' & He').
          rewrite E'. cbn [obind]. rewrite Mb by exact Ld. cbn [obind].
          destruct (modify_ok e' _ cl d (fun z => z - mean_ cl d) He' Lc Ld) as (e'' & E'' & He'').
          exists e''. split; [exact E''|]. apply (holds_ext _ _ _ He''). intros k d' _ _. unfold upd2.
          rewrite !Nat.eqb_refl. cbn [andb]. destruct (_ && _); reflexivity.
        * exists e2. split; [exact E2|]. apply (holds_ext _ _ _ H2). intros k d Lk Ld. rewrite Nat.eqb_refl.
          destruct (Nat.eqb_spec k cl); [|reflexivity]. rewrite Z by exact Ld. unfold scaled.
          destruct (Qc_eq_dec (ms cl) 0); [contradiction|]. rewrite residual_split. field. exact Nz.
      + destruct (block_map cl (fun d enc =>
           do m <- aget means (cl * D + d);
           modify (cl * D + d) (fun z => z - ms cl * m) enc) (fun d z => z - ms cl * mean_ cl d) e1 _ Lc H1) as (e2 & E2 & H2).
        * intros d e G Ld He. rewrite Mb by exact Ld. cbn [obind].
          destruct (modify_ok e G cl d (fun z => z - ms cl * mean_ cl d) He Lc Ld) as (e' & E' & He'). eauto.
        * exists e2. split; [exact E2|]. apply (holds_ext _ _ _ H2). intros k d Lk Ld. rewrite Nat.eqb_refl.
          destruct (Nat.eqb_spec k cl); [|reflexivity]. rewrite Z by exact Ld. unfold scaled.
          rewrite residual_split. ring.
    - rewrite E0. cbn [qlt]. exists e1. split; [reflexivity|]. apply (holds_ext _ _ _ H1). intros k d Lk Ld.
      destruct (Nat.eqb_spec k cl); [|reflexivity]. rewrite Z by exact Ld. destruct (massless cl E0 d) as [R S0].
      rewrite S0. unfold scaled. destruct (f_mass flags); [destruct (Qc_eq_dec (ms cl) 0); [ring|contradiction]|].
      rewrite R. ring. }
  destruct S2 as (e2 & E2 & H2). rewrite E2. cbn [obind].
  assert (S3 : exists e3, (if f_root flags then
       iter D (fun d enc => modify (cl * D + d) (fun z => if qlt z 0 then - root (- z) else root z) enc) e2
     else Some e2) = Some e3 /\
     holds e3 (fun k d => if (k =? cl)%nat then rooted root mean_ x_ q_ N (f_mass flags) (f_root flags) cl d else F k d)).
  { unfold rooted. destruct (f_root flags).
    - destruct (block_map cl (fun d enc => modify (cl * D + d) (fun z => if qlt z 0 then - root (- z) else root z) enc)
        (fun d z => if qlt z 0 then - root (- z) else root z) e2 _ Lc H2) as (e3 & E3 & H3).
      + intros d e G Ld He. now apply modify_ok.
      + exists e3. split; [exact E3|]. apply (holds_ext _ _ _ H3). intros k d Lk Ld. rewrite Nat.eqb_refl.
        destruct (k =? cl)%nat; [|reflexivity]. apply qlt_dec.
    - exists e2. split; [reflexivity|exact H2]. }
  destruct S3 as (e3 & E3 & H3). rewrite E3. cbn [obind]. unfold normal.
  destruct (f_components flags); [|exists e3; split; [reflexivity|exact H3]].
  destruct (iter_inv (fun j n => n = qsum j (fun d => rooted root mean_ x_ q_ N (f_mass flags) (f_root flags) cl d * rooted root mean_ x_ q_ N (f_mass flags) (f_root flags) cl d))
    (fun d n => do z <- aget e3 (cl * D + d); Some (n + z * z)) D 0) as (n & En & ->).
  - reflexivity.
  - intros d n Ld ->. rewrite (aget_nth e3 _ 0) by (rewrite (proj1 H3); now apply cell_lt). cbn [obind].
    eexists; split; [reflexivity|]. rewrite Nat.add_1_r. cbn [sum]. rewrite (proj2 H3) by auto. now rewrite Nat.eqb_refl.
  - rewrite En. cbn [obind].
    set (nn := qmax _ _).
    destruct (block_map cl (fun d enc => modify (cl * D + d) (fun z => z / nn) enc) (fun d z => z / nn) e3 _ Lc H3) as (e4 & E4 & H4).
    + intros d e G Ld He. now apply modify_ok with (g := fun z => z / nn).
    + exists e4. split; [exact E4|]. apply (holds_ext _ _ _ H4). intros k d Lk Ld. rewrite Nat.eqb_refl.
      destruct (k =? cl)%nat; [|reflexivity]. f_equal. unfold nn, qmax, at_least. apply qlt_dec.
Qed.

Lemma run_ok order : forall enc F, holds enc F -> NoDup order -> (forall k, In k order -> (k < K)%nat) ->
  (forall k d, In k order -> (d < D)%nat -> F k d = 0) ->
  exists enc', run root tiny means D K data N assignments flags order enc = Some enc' /\
    holds enc' (fun k d => if in_dec Nat.eq_dec k order then norm_ k d else F k d).
Proof.
  induction order as [|cl order IH]; intros enc F Hf Nd B Z; cbn [run].
  - exists enc. split; [reflexivity|exact Hf].
  - inversion Nd as [|? ? Ni Nd']; subst.
    destruct (cluster_ok cl enc F (B cl (or_introl eq_refl)) Hf) as (e1 & E1 & H1).
    { intros d Ld. apply Z; [left; reflexivity|exact Ld]. }
    rewrite E1. cbn [obind].
    destruct (IH e1 _ H1 Nd') as (e2 & E2 & H2).
    + intros k I. apply B. right. exact I.
    + intros k d I Ld. destruct (Nat.eqb_spec k cl) as [->|]; [contradiction|]. apply Z; [right; exact I|exact Ld].
    + exists e2. split; [exact E2|]. apply (holds_ext _ _ _ H2). intros k d Lk Ld.
      destruct (in_dec Nat.eq_dec k (cl :: order)) as [I|I], (in_dec Nat.eq_dec k order) as [J|J]; try reflexivity.
      * destruct I as [->|I]; [now rewrite Nat.eqb_refl|contradiction].
      * destruct I. right. exact J.
      * destruct (Nat.eqb_spec k cl) as [->|]; [destruct I; left; reflexivity|reflexivity].
Qed.

Lemma encode_ok order enc : length enc = (D * K)%nat -> Permutation order (seq 0 K) ->
  exists enc', encode root tiny means D K data N assignments flags order enc = Some enc' /\
    holds enc' (encoded root tiny mean_ x_ q_ D K N (f_mass flags) (f_root flags) (f_components flags) (f_unnormalized flags)).
Proof.
  intros Le P. unfold encode. rewrite Le, Nat.eqb_refl. cbn [negb].
  destruct (run_ok order (repeat 0 (D * K)) (fun _ _ => 0)) as (e1 & E1 & H1).
  - split; [apply repeat_length|]. intros. apply nth_repeat.
  - apply (Permutation_NoDup (Permutation_sym P)), seq_NoDup.
  - intros k I. apply (Permutation_in _ P), in_seq in I. lia.
  - reflexivity.
  - rewrite E1. cbn [obind].
    assert (H1' : holds e1 norm_).
    { apply (holds_ext _ _ _ H1). intros k d Lk Ld. destruct (in_dec Nat.eq_dec k order) as [I|I]; [reflexivity|].
      destruct I. apply (Permutation_in _ (Permutation_sym P)), in_seq. lia. }
    unfold encoded. destruct (f_unnormalized flags); [exists e1; split; [reflexivity|exact H1']|].
    destruct H1' as [L1 V1].
    destruct (iter_inv (fun j n => n = qsum j (fun p => nth p e1 0 * nth p e1 0))
      (fun p n => do z <- aget e1 p; Some (n + z * z)) (D * K) 0) as (n & En & ->).
    + reflexivity.
    + intros p n Lp ->. rewrite (aget_nth e1 _ 0) by lia. cbn [obind]. eexists; split; [reflexivity|].
      rewrite Nat.add_1_r. reflexivity.
    + rewrite En. cbn [obind]. set (nn := qmax _ _).
      destruct (iter_inv (fun j e => length e = (D * K)%nat /\ forall p, (p < D * K)%nat -> nth p e 0 = if (p <? j)%nat then nth p e1 0 / nn else nth p e1 0)
        (fun d enc => modify d (fun z => z / nn) enc) (D * K) e1) as (e2 & E2 & L2 & V2).
      * split; [exact L1|]. reflexivity.
      * intros j e Lj [L V]. unfold modify. rewrite (aget_nth e _ 0) by lia. cbn [obind]. rewrite aset_lt by lia.
        eexists; split; [reflexivity|]. split; [rewrite upd_length; exact L|]. intros p Lp. rewrite nth_upd by lia.
        rewrite !V by lia. rewrite Nat.ltb_irrefl. destruct (Nat.eqb_spec p j) as [->|].
        -- destruct (Nat.ltb_spec j (j + 1)); [reflexivity|lia].
        -- destruct (Nat.ltb_spec p j), (Nat.ltb_spec p (j + 1)); auto; lia.
      * exists e2. split; [exact E2|]. split; [exact L2|]. intros k d Lk Ld. pose proof (cell_lt k d Lk Ld) as Lp.
        rewrite V2 by exact Lp. destruct (Nat.ltb_spec (k * D + d) (D * K)); [|lia]. rewrite V1 by auto. f_equal.
        unfold nn, norm, at_least, qmax. rewrite qlt_dec.
        replace (qsum (D * K) (fun p => nth p e1 0 * nth p e1 0)) with (qsum K (fun k => qsum D (fun d => norm_ k d * norm_ k d))); [reflexivity|].
        rewrite (Nat.mul_comm D K), sum_flat. apply qsum_ext. intros k' Lk'. apply qsum_ext. intros d' Ld'. now rewrite V1.
Qed.
End Encode.

(** ** the order of the data *)
Lemma scaled_ext mean (x x' : nat -> nat -> Qc) q q' N m k d :
  mass q N k = mass q' N k -> residual mean x q N k d = residual mean x' q' N k d ->
  scaled mean x q N m k d = scaled mean x' q' N m k d.
Proof. intros E1 E2. unfold scaled. rewrite E1, E2. reflexivity. Qed.

Lemma encoded_ext root tiny mean x x' q q' D K N m r c u :
  (forall k, (k < K)%nat -> mass q N k = mass q' N k) ->
  (forall k d, (k < K)%nat -> (d < D)%nat -> residual mean x q N k d = residual mean x' q' N k d) ->
  forall k d, (k < K)%nat -> (d < D)%nat ->
  encoded root tiny mean x q D K N m r c u k d = encoded root tiny mean x' q' D K N m r c u k d.
Proof.
  intros E1 E2.
  assert (R : forall k d, (k < K)%nat -> (d < D)%nat -> rooted root mean x q N m r k d = rooted root mean x' q' N m r k d).
  { intros k d Lk Ld. unfold rooted. rewrite (scaled_ext mean x x' q q' N m k d); auto. }
  assert (No : forall k d, (k < K)%nat -> (d < D)%nat -> normal root tiny mean x q D N m r c k d = normal root tiny mean x' q' D N m r c k d).
  { intros k d Lk Ld. unfold normal. rewrite (R k d Lk Ld). destruct c; [|reflexivity]. f_equal. f_equal. f_equal.
    apply qsum_ext. intros d' Ld'. now rewrite R. }
  intros k d Lk Ld. unfold encoded. rewrite (No k d Lk Ld). destruct u; [reflexivity|]. f_equal.
  unfold norm. f_equal. f_equal. apply qsum_ext. intros k' Lk'. apply qsum_ext. intros d' Ld'. now rewrite No.
Qed.

Lemma weight_ext q q' i j k : q i k = q' j k -> weight q i k = weight q' j k.
Proof. intro E. unfold weight. now rewrite E. Qed.
