(** Properties of SVM training: duality certificates, coordinate steps, factored gradient descent. *)
From Coq Require Import List Arith ZArith Lia Bool QArith Qcanon Qround Lqa.
From Verif Require Import Base Loop MserSort_Proofs ImOp_Spec ImOp_Proofs Rat Gauss_Model Gauss_Proofs Svm_Model Svm_Spec SvmLoss_Proofs Svm_Proofs SvmDual_Proofs SvmRun_Proofs SvmSgd_Proofs.
From Verif Require Homker_Proofs.
Import ListNotations.
Local Open Scope nat_scope.

(** the objective of any model (w, b) on the training set of a machine *)
Notation objective L s w b := (primal (numData s) (dim s) (datum (dim s) (data s)) (fn (labels s)) (weight_of (weights s)) (lambda s) (bmul s) (lossFn L) w b).

Theorem C53_certificate : forall L lab curv d n x y lam w b r e f m it s, predefined L lab curv ->
  let s0 := start d n x y lam w b r e f m it in usable lab curv s0 -> reach L s0 s ->
  (* the model is the dual combination of the data *)
  (forall j, j < d -> fn (model s) j = comb n (datum d x) lam (fn (alpha s)) j) /\
  bias s = comb_bias n lam b (fn (alpha s)) /\
  (* the statistics are those of the model, and the gap bounds the suboptimality *)
  exists s' st c, update_statistics L s = Some (s', st) /\ model s' = model s /\ bias s' = bias s /\ alpha s' = alpha s /\
    (forall k, k < n -> (0 < weight_of w k)%Qc -> fn (scores s') k = lin d (datum d x) b (fn (model s)) (bias s) k /\
       conjFn L (- fn (alpha s) k / weight_of w k)%Qc (fn y k) = Some (c k)) /\
    st_obj st = objective L s0 (fn (model s)) (bias s) /\ st_obj st = (st_reg st + st_loss st)%Qc /\
    st_reg st = ridge d lam (fn (model s)) (bias s) /\
    exists dl, st_dual st = Some dl /\ dl = dual n d (datum d x) (weight_of w) lam b c (fn (alpha s)) /\
    forall w' b', (dl <= objective L s0 w' b')%Qc /\ (st_obj st <= objective L s0 w' b' + (st_obj st - dl))%Qc /\
      (ridge d lam (fun j => w' j - fn (model s) j) (b' - bias s) <= objective L s0 w' b' - dl)%Qc.
Proof.
  intros L lab curv d n x y lam w b r e f m it s HL s0 U R.
  pose proof (reach_sound L lab curv HL s0 s (start_sound L lab curv HL d n x y lam w b r e f m it U) R) as S. pose proof S as (_ & Fr & W & (Cm & Cb & Ca) & F).
  destruct (sound_stats L lab curv HL s0 s S) as (s' & st & E & S' & Es & Hs & Hr & Ho & Ho' & Hd & Hw).
  destruct Fr as (F1 & F2 & F3 & F4 & F5 & F6 & F7). cbn in F1, F2, F3, F4, F5, F6, F7.
  unfold primal_of, dual_of, primal_at, distance, finite, cj, sc_lin in *. rewrite F1, F2, F3, F4, F5, F6, F7 in *.
  split; [exact Cm|]. split; [exact Cb|].
  set (c := fun k => val (conjFn L (- fn (alpha s) k / weight_of w k)%Qc (fn y k))).
  exists s', st, c. split; [exact E|]. split; [rewrite Es; reflexivity|]. split; [rewrite Es; reflexivity|]. split; [rewrite Es; reflexivity|]. split.
  { intros k Lk P. split; [apply Hs; assumption|]. unfold c. destruct (F k Lk P) as (c0 & ->). reflexivity. }
  split; [exact Ho|]. split; [exact Ho'|]. split; [exact Hr|]. eexists. split; [exact Hd|]. split.
  { unfold dual. f_equal. f_equal. unfold ridge. rewrite (dot_ext d _ (comb n (datum d x) lam (fn (alpha s))) _ (comb n (datum d x) lam (fn (alpha s)))) by auto. rewrite Cb. reflexivity. }
  intros w' b'. specialize (Hw w' b'). cbn [numData dim data labels weights lambda bmul s0 start configure new_svm].
  assert (Rn : (0 <= ridge d lam (fun j => w' j - fn (model s) j) (b' - bias s))%Qc).
  { apply ridge_nonneg, U. }
  revert Hw Rn. match goal with |- (?D + ?R <= ?P)%Qc -> _ => generalize D R P end. intros D R' P Hw Rn.
  split; [qc_lra|]. split; qc_lra.
Qed.
Print Assumptions C53_certificate.

(** training that reports convergence is within the threshold of every model *)
Theorem C53_converged : forall L lab curv d n x y lam w b r e f m it perms fuel s st, predefined L lab curv ->
  let s0 := start d n x y lam w b r e f m it in usable lab curv s0 -> orders n perms ->
  sdca_train L fuel perms s0 = Some (s, st, Converged) ->
  st_obj st = objective L s0 (fn (model s)) (bias s) /\
  forall w' b', (objective L s0 (fn (model s)) (bias s) < objective L s0 w' b' + e)%Qc.
Proof.
  intros L lab curv d n x y lam w b r e f m it perms fuel s st HL s0 U Hp E.
  pose proof (start_sound L lab curv HL d n x y lam w b r e f m it U) as S0. fold s0 in S0. pose proof S0 as (_ & Fr0 & W0 & _).
  destruct (norms_table s0 s0 W0 Fr0) as (n2 & En & Hn). unfold sdca_train in E. rewrite En in E. cbn [obind] in E.
  destruct (loop_sound L lab curv HL s0 n2 perms Hn Hp fuel 0 s0 s st Converged S0 ltac:(repeat split) E) as (s1 & S1 & Se1 & E1 & HC).
  destruct (HC eq_refl) as (dl & Edl & Hgap).
  destruct (sound_stats L lab curv HL s0 s1 S1) as (s' & st' & E' & S' & Es & _ & Hr & Ho & Ho' & Hd & Hw). assert (s' = s /\ st' = st) as (-> & ->) by (split; congruence).
  assert (dl = dual_of L s1) by congruence. subst dl.
  pose proof S1 as (_ & (F1 & F2 & F3 & F4 & F5 & F6 & F7) & _).
  assert (Em : model s = model s1) by (rewrite Es; reflexivity). assert (Eb : bias s = bias s1) by (rewrite Es; reflexivity). rewrite Em, Eb.
  assert (HO : st_obj st = objective L s0 (fn (model s1)) (bias s1)) by (rewrite Ho; unfold primal_of; rewrite F1, F2, F3, F4, F5, F6, F7; reflexivity).
  split; [exact HO|]. intros w' b'. specialize (Hw w' b'). unfold primal_at, distance in Hw. rewrite F1, F2, F3, F4, F5, F6, F7 in Hw. cbn [epsilon s0 start configure] in Hgap.
  assert (Rn : (0 <= ridge d lam (fun j => w' j - fn (model s1) j) (b' - bias s1))%Qc).
  { apply ridge_nonneg, U. }
  rewrite <- HO. revert Hw Rn Hgap. cbn [lambda dim s0 start configure new_svm].
  generalize (dual_of L s1) (ridge d lam (fun j => w' j - fn (model s1) j) (b' - bias s1))%Qc.
  match goal with |- forall q q0, (_ <= ?P)%Qc -> _ => generalize P end. intros P D R' Hw Rn Hgap. qc_lra.
Qed.
Print Assumptions C53_converged.

(** training stops after at most the maximum number of iterations *)
Theorem C53_terminates : forall L lab curv d n x y lam w b r e f m it perms, predefined L lab curv ->
  let s0 := start d n x y lam w b r e f m it in usable lab curv s0 -> orders n perms -> 0 < m ->
  exists s st stat, sdca_train L m perms s0 = Some (s, st, stat).
Proof.
  intros L lab curv d n x y lam w b r e f m it perms HL s0 U Hp Hm.
  pose proof (start_sound L lab curv HL d n x y lam w b r e f m it U) as S0. fold s0 in S0. pose proof S0 as (_ & Fr0 & W0 & _).
  destruct (norms_table s0 s0 W0 Fr0) as (n2 & En & Hn). unfold sdca_train. rewrite En. cbn [obind].
  destruct (loop_stops L lab curv HL s0 n2 perms Hn Hp m 0 s0 S0 ltac:(repeat split)) as (((s & st) & stat) & E); [exact Hm|cbn; lia|eauto].
Qed.
Print Assumptions C53_terminates.

Lemma sound_dual L lab curv s0 s : sound L lab curv s0 s ->
  dual_of L s = dual (numData s0) (dim s0) (datum (dim s0) (data s0)) (weight_of (weights s0)) (lambda s0) (bmul s0) (fun k => val (cj L s k)) (fn (alpha s)).
Proof.
  intros (_ & (F1 & F2 & F3 & F4 & F5 & F6 & F7) & _ & (Cm & Cb & _) & _). unfold dual_of, dual. rewrite F1, F2, F3, F5, F6, F7 in *.
  f_equal. f_equal. unfold ridge. rewrite Cb.
  rewrite (dot_ext _ (fn (model s)) (comb (numData s0) (datum (dim s0) (data s0)) (lambda s0) (fn (alpha s))) _ (comb (numData s0) (datum (dim s0) (data s0)) (lambda s0) (fn (alpha s)))) by auto. reflexivity.
Qed.

(** the coordinate updates of the predefined losses are optimal *)
Theorem C54_update : forall L lab curv, predefined L lab curv -> forall a B A y c, lab y -> curv A -> conjFn L (- a)%Qc y = Some c ->
  exists d c', dcaFn L a B A y = Some d /\ conjFn L (- (a + d))%Qc y = Some c' /\
  forall d' c'', conjFn L (- (a + d'))%Qc y = Some c'' ->
    (- (Q2Qc (1 # 2) * A * d' * d') - B * d' - c'' <= - (Q2Qc (1 # 2) * A * d * d) - B * d - c')%Qc.
Proof.
  intros L lab curv HL a B A y c Hy HA E. destruct (predefined_steps L lab curv HL a B A y c Hy HA E) as (d & Ed & c' & Ec & H).
  exists d, c'. split; [exact Ed|]. split; [exact Ec|]. exact H.
Qed.
Print Assumptions C54_update.

(** a step on datum i succeeds, changes one dual variable, and the dual objective does not decrease *)
Theorem C54_monotone : forall L lab curv d n x y lam w b r e f m it s i, predefined L lab curv ->
  let s0 := start d n x y lam w b r e f m it in usable lab curv s0 -> reach L s0 s -> i < n ->
  exists n2 s', norms s = Some n2 /\ sdca_step L n2 i s = Some s' /\
  (forall k, k <> i -> fn (alpha s') k = fn (alpha s) k) /\ ((weight_of w i <= 0)%Qc -> s' = s) /\
  exists s1 st s1' st' dl dl', update_statistics L s = Some (s1, st) /\ update_statistics L s' = Some (s1', st') /\
    st_dual st = Some dl /\ st_dual st' = Some dl' /\ (dl <= dl')%Qc /\
  (* no other value of the dual variable does better *)
  forall v c, (forall k, k < n -> (0 < weight_of w k)%Qc -> conjFn L (- fn (upd (alpha s) i v) k / weight_of w k)%Qc (fn y k) = Some (c k)) ->
    ((weight_of w i <= 0)%Qc -> v = fn (alpha s) i) -> (dual n d (datum d x) (weight_of w) lam b c (fn (upd (alpha s) i v)) <= dl')%Qc.
Proof.
  intros L lab curv d n x y lam w b r e f m it s i HL s0 U R Li.
  pose proof (reach_sound L lab curv HL s0 s (start_sound L lab curv HL d n x y lam w b r e f m it U) R) as S. pose proof S as (_ & Fr & W & _).
  destruct (norms_table s0 s W Fr) as (n2 & En & Hn). destruct (frame_ps _ _ Fr) as (_ & _ & _ & _ & EN). rewrite EN in Hn.
  destruct (sound_step L lab curv HL s0 s n2 i S Hn Li) as (s' & E & S' & _ & _ & D & A & O).
  destruct (sound_stats L lab curv HL s0 s S) as (s1 & st & E1 & _ & _ & _ & _ & _ & _ & D1 & _).
  destruct (sound_stats L lab curv HL s0 s' S') as (s1' & st' & E1' & _ & _ & _ & _ & _ & _ & D1' & _).
  exists n2, s'. split; [exact En|]. split; [exact E|]. split; [exact A|]. split.
  { intro P. unfold sdca_step in E. pose proof Fr as (_ & F2 & _ & _ & F5 & _). rewrite (weight_ok s i W) in E by (rewrite F2; exact Li). cbn [obind] in E.
    rewrite F5 in E. destruct (qlt 0 (weight_of (weights s0) i)) eqn:Q; [apply qlt_true in Q; cbn in Q; exfalso; qc_lra|]. cbn [obind] in E.
    destruct (Qc_eq_dec 0 0) as [_|N]; [injection E as ->; reflexivity|contradiction N; reflexivity]. }
  exists s1, st, s1', st', (dual_of L s), (dual_of L s'). do 5 (split; [assumption|]).
  intros v c Hc Hv. destruct (Qclt_le_dec 0 (weight_of w i)) as [P|P].
  - destruct (O P) as (dd & Ea & c1 & Ec1 & Hopt). cbn [weights labels s0 start configure] in Ea, Ec1, Hopt.
    assert (P0 := Homker_Proofs.qc_pos_neq _ P).
    set (cs := fun k => val (cj L s k)). set (cs' := fun k => val (cj L s' k)).
    assert (D0 : dual_of L s = dual n d (datum d x) (weight_of w) lam b cs (fn (alpha s))) by (apply (sound_dual L lab curv s0 s S)).
    assert (D0' : dual_of L s' = dual n d (datum d x) (weight_of w) lam b cs' (fn (alpha s'))) by (apply (sound_dual L lab curv s0 s' S')).
    pose proof S as (_ & (F1 & F2 & F3 & F4 & F5 & F6 & F7) & (_ & _ & _ & _ & La & _) & (Cm & Cb & _) & _).
    pose proof S' as (_ & (G1 & G2 & G3 & G4 & G5 & G6 & G7) & _). cbn in F1, F2, F3, F4, F5, F6, F7, G1, G2, G3, G4, G5, G6, G7.
    assert (Hl : (0 < lam)%Qc) by apply U.
    assert (Li' : i < length (alpha s)) by (rewrite La, F2; exact Li).
    set (d' := ((v - fn (alpha s) i) / weight_of w i)%Qc).
    assert (Ev : fn (upd (alpha s) i v) i = (fn (alpha s) i + weight_of w i * d')%Qc).
    { unfold fn at 1. rewrite nth_upd, Nat.eqb_refl by exact Li'. unfold d'. field. exact P0. }
    assert (Ek : forall k, k <> i -> fn (upd (alpha s) i v) k = fn (alpha s) k).
    { intros k N. unfold fn. rewrite nth_upd by exact Li'. destruct (Nat.eqb_spec k i); [contradiction|reflexivity]. }
    rewrite D0'. rewrite (dual_move n d (datum d x) (weight_of w) lam b cs (fn (alpha s)) cs' (fn (alpha s')) i dd Li Hl P (fun k _ => A k) Ea).
    2: { intros k Lk N Pk. unfold cs, cs', cj. rewrite F4, F5, G4, G5, (A k N). reflexivity. }
    rewrite (dual_move n d (datum d x) (weight_of w) lam b cs (fn (alpha s)) c (fn (upd (alpha s) i v)) i d' Li Hl P (fun k _ => Ek k) Ev).
    2: { intros k Lk N Pk. unfold cs, cj. rewrite F4, F5. cbn [labels weights s0 start configure new_svm]. rewrite <- (Ek k N), (Hc k Lk Pk). reflexivity. }
    assert (Ez : lin d (datum d x) b (comb n (datum d x) lam (fn (alpha s))) (comb_bias n lam b (fn (alpha s))) i = sc_lin s i).
    { unfold sc_lin, lin. rewrite F1, F3, F7. rewrite F1, F2, F3, F6 in Cm. rewrite F2, F6, F7 in Cb. rewrite <- Cb. f_equal. apply dot_ext; [reflexivity|]. intros j Lj. symmetry. apply Cm, Lj. }
    rewrite Ez. unfold norm2_of in Hopt. cbn [dim data numData lambda bmul s0 start configure new_svm] in Hopt.
    assert (Ec : conjFn L (- (fn (alpha s) i / weight_of w i + d'))%Qc (fn y i) = Some (c i)).
    { rewrite <- (Hc i Li P), Ev. f_equal. field. exact P0. }
    assert (Ecs' : cs' i = c1).
    { unfold cs', cj. rewrite G4, G5, Ea. cbn [labels weights s0 start configure new_svm] in *. replace (- (fn (alpha s) i + weight_of w i * dd) / weight_of w i)%Qc with (- (fn (alpha s) i / weight_of w i + dd))%Qc by (field; exact P0). rewrite Ec1. reflexivity. }
    rewrite Ecs'. specialize (Hopt d' (c i) Ec). cbn [labels weights s0 start configure new_svm] in Hopt.
    apply Qcplus_le_compat; [apply Qcle_refl|]. apply div_le; [apply Homker_Proofs.nq_pos; lia|]. revert Hopt.
    match goal with |- (gain ?A ?B ?u ?v <= gain ?A ?B ?u' ?v')%Qc -> _ => generalize (gain A B u v) (gain A B u' v') end. intros g1 g2 G.
    rewrite !(Qcmult_comm (weight_of w i)). apply Qcmult_le_compat_r; [|apply Qclt_le_weak; exact P]. qc_lra.
  - assert (Ev := Hv P). subst v. 
    pose proof S as (_ & (F1 & F2 & F3 & F4 & F5 & F6 & F7) & (_ & _ & _ & _ & La & _) & _). cbn in F2, F4, F5.
    assert (Ef : forall k, fn (upd (alpha s) i (fn (alpha s) i)) k = fn (alpha s) k).
    { intro k. unfold fn. rewrite nth_upd by (rewrite La, F2; exact Li). destruct (Nat.eqb_spec k i) as [->|N]; reflexivity. }
    eapply Qcle_trans; [|exact D]. rewrite (sound_dual L lab curv s0 s S). cbn [dim data numData lambda bmul weights s0 start configure new_svm].
    assert (X : dual n d (datum d x) (weight_of w) lam b c (fn (upd (alpha s) i (fn (alpha s) i))) = dual n d (datum d x) (weight_of w) lam b (fun k => val (cj L s k)) (fn (alpha s))).
    { unfold dual. f_equal; [f_equal; unfold ridge|f_equal].
      - f_equal. f_equal; [apply dot_ext; intros j Lj; unfold comb; f_equal; apply qsum_ext; intros; rewrite Ef; reflexivity|]. unfold comb_bias. rewrite (qsum_ext n _ (fn (alpha s))) by auto. reflexivity.
      - apply qsum_ext. intros k Lk. destruct (Qclt_le_dec 0 (weight_of w k)) as [Pk|Pk]; [|reflexivity]. f_equal. specialize (Hc k Lk Pk). rewrite Ef in Hc. unfold cj. rewrite F4, F5, Hc. reflexivity. }
    rewrite X. apply Qcle_refl.
Qed.
Print Assumptions C54_monotone.

(** conjugates are exact where finite, derivatives support the loss *)
Theorem C91_losses : forall L lab curv, predefined L lab curv ->
  (forall z u y c, lab y -> conjFn L u y = Some c -> (z * u - c <= lossFn L z y)%Qc) /\
  (forall u y c, lab y -> conjFn L u y = Some c -> exists z, (z * u - c)%Qc = lossFn L z y) /\
  (forall z z' y, lab y -> (lossFn L z y + derivFn L z y * (z' - z) <= lossFn L z' y)%Qc).
Proof.
  intros L lab curv H. split; [exact (predefined_fenchel _ _ _ H)|]. split; [exact (predefined_attained _ _ _ H)|exact (predefined_subgradient _ _ _ H)].
Qed.
Print Assumptions C91_losses.

(** ** Stochastic gradient descent *)
Notation plain s L f order t := (f (dim s) (datum (dim s) (data s)) (fn (labels s)) (weight_of (weights s)) (lambda s) (bmul s) (derivFn L) (blr s)
  (first_step (lambda s)) order t (fn (model s), bias s)).
Theorem C55_transparent : forall L sqrt_ s perms, sized s -> orders (numData s) perms -> 0 < maxit s ->
  (forall t, t < maxit s -> blr s <> zq (Z.of_nat t + first_step (lambda s))) ->
  let order t := nth (t mod numData s) (perms (t / numData s)) 0 in
  exists g t stat, sgd_train L sqrt_ (maxit s) perms s = Some (g, t, stat) /\ t < maxit s /\ (stat = MaxReached -> t + 1 = maxit s) /\
    factor g = 1%Qc /\ bfactor g = 1%Qc /\ machine g = with_model s (model (machine g)) (bias (machine g)) /\ length (model (machine g)) = dim s /\
    (forall j, j < dim s -> fn (model (machine g)) j = fst (plain s L plain_run order (S t)) j) /\
    bias (machine g) = snd (plain s L plain_run order (S t)) /\
    (forall k, k < numData s -> fn (sc g) k = plain s L plain_score order (S t) k /\ nth k (prev g) None = plain s L plain_previous order (S t) k).
Proof.
  intros L sqrt_ s perms W Hp Hm Hb order. assert (Hn : 0 < numData s) by apply W.
  assert (Ho : forall t, order t < numData s /\ aget (perms (t / numData s)) (t mod numData s) = Some (order t)).
  { intro t. destruct (Hp (t / numData s)) as (Hl & Hi). assert (Lt : t mod numData s < length (perms (t / numData s))) by (rewrite Hl; apply Nat.mod_upper_bound; lia).
    split; [apply Hi, nth_In, Lt|apply aget_nth, Lt]. }
  destruct (sgd_loop_ok L sqrt_ s order W (fun t => proj1 (Ho t)) perms (fun t => proj2 (Ho t)) (maxit s) 0 (mk_sgd s 1%Qc 1%Qc (repeat 0%Qc (numData s)) (repeat None (numData s))))
    as (g & t & stat & E & Lt & (Em & Lm & Hm' & Hbias & _ & _ & _ & _ & Hsc & Hpr) & F1 & F2 & HM & _).
  - unfold sgd_inv. cbn [machine factor bfactor sc prev]. destruct W as (_ & _ & _ & Lm & _). split; [destruct s; reflexivity|]. split; [exact Lm|].
    split; [intros j Lj; cbn; ring|]. split; [cbn; ring|]. split; [discriminate|]. split; [discriminate|]. rewrite !repeat_length. split; [reflexivity|]. split; [reflexivity|].
    split; intros k Lk; unfold fn; rewrite nth_repeat; reflexivity.
  - exact Hm.
  - lia.
  - exact Hb.
  - exists g, t, stat. split; [exact E|]. split; [exact Lt|]. split; [exact HM|]. split; [exact F1|]. split; [exact F2|]. split; [exact Em|]. split; [exact Lm|].
    rewrite F1 in Hm'. rewrite F2 in Hbias. split; [intros j Lj; rewrite <- (Qcmult_1_l (fn _ j)); apply Hm', Lj|]. split; [rewrite <- (Qcmult_1_l (bias _)); exact Hbias|].
    intros k Lk. split; [apply Hsc, Lk|apply Hpr, Lk].
Qed.
Print Assumptions C55_transparent.
(** small bias learning rates, such as the default 1/100, are never a problem *)
Theorem C55_small_rate : forall t lam r, (r < zq 2)%Qc -> r <> zq (Z.of_nat t + first_step lam).
Proof.
  intros t lam r H E. rewrite E in H. apply zq_lt_inv in H. unfold first_step in H. lia.
Qed.
Print Assumptions C55_small_rate.

(** ** Examples *)
Definition q (a : Z) (b : BinNums.positive) : Qc := Q2Qc (a # b).
(** three points in the plane, the last without weight *)
Definition ex : svm := start 2 3 [q 1 1; q 0 1; q (-1) 1; q 1 2; q 5 1; q 5 1] [q 1 1; q (-1) 1; q 1 1] (q 1 10) (Some [q 1 1; q 2 1; q 0 1]) (q 1 1) (q 1 100) (q 1 100) 2 30 0.
Definition turn (e : nat) : list nat := if Nat.even e then [0; 1; 2] else [2; 0; 1].
Lemma ex_orders : orders 3 turn.
Proof. intro e. unfold turn. destruct (Nat.even e); (split; [reflexivity|]); cbn; intros i H; lia. Qed.
Lemma positive_dec A : qlt 0 A = true -> positive A.
Proof. apply qlt_true. Qed.
Example C53_ex_usable : usable sign_label positive ex.
Proof.
  split; [cbn; lia|]. split; [cbn; lia|]. split; [intros w E; injection E as <-; cbn; lia|]. split; [cbn; lia|]. split; [reflexivity|].
  intros k Lk. cbn in Lk. assert (K : k = 0 \/ k = 1 \/ k = 2) by lia.
  destruct K as [->|[->| ->]]; (split; [first [left; apply Qc_is_canon; reflexivity|right; apply Qc_is_canon; reflexivity]|]); intro P;
  first [apply positive_dec; vm_compute; reflexivity|discriminate P].
Qed.
Definition summary (r : option (svm * stats * status)) : option (list Q * Q * Q * Q * bool) :=
  match r with
  | Some (s, st, stat) => Some (map this (model s), this (bias s), this (st_obj st), match st_dual st with Some d => this d | None => 0%Q end, match stat with Converged => true | _ => false end)
  | None => None
  end.
Example C53_ex_run : exists m b o dl, summary (sdca_train hinge 30 turn ex) = Some (m, b, o, dl, true) /\ (o < dl + (1 # 100))%Q /\ (0 < nth 0 m 0)%Q.
Proof. eexists _, _, _, _. split; [vm_compute; reflexivity|]. split; reflexivity. Qed.
Example C53_ex_reach : exists s, reach hinge ex s /\ fn (alpha s) 0 <> 0%Qc.
Proof.
  destruct (norms ex) as [n2|] eqn:E; [|exfalso; revert E; assert (X : match norms ex with Some _ => true | None => false end = true) by (vm_compute; reflexivity); destruct (norms ex); [discriminate|discriminate X]].
  assert (X : match norms ex with Some n2 => match sdca_step hinge n2 0 ex with Some s => negb (Qeq_bool (this (fn (alpha s) 0)) 0) | None => false end | None => false end = true) by (vm_compute; reflexivity).
  rewrite E in X. destruct (sdca_step hinge n2 0 ex) as [s|] eqn:E'; [|discriminate X]. exists s. split; [apply (reach_step hinge ex ex n2 0 s); [constructor|exact E|cbn; lia|exact E']|].
  intro Z. rewrite Z in X. discriminate X.
Qed.
Example C54_ex_update : option_map this (dcaFn hinge (q 1 2) (q 1 4) (q 2 1) (q 1 1)) = Some (3 # 8)%Q /\ option_map this (dcaFn hinge (q 1 2) (q 1 4) (q 1 1) (q 1 1)) = Some (1 # 2)%Q.
Proof. split; vm_compute; reflexivity. Qed.
Example C91_ex_losses : option_map this (conjFn hinge2 (q (-1) 1) (q 1 1)) = Some (- (3 # 4))%Q /\ this (derivFn l2 (q 1 2) (q 1 1)) = (-1)%Q.
Proof. split; vm_compute; reflexivity. Qed.
Example C55_ex_sized : sized ex /\ orders (numData ex) turn /\ 0 < maxit ex /\ forall t, t < maxit ex -> blr ex <> zq (Z.of_nat t + first_step (lambda ex)).
Proof.
  split; [repeat split; try (cbn; lia); intros w E; injection E as <-; cbn; lia|]. split; [exact ex_orders|]. split; [cbn; lia|]. intros t _. apply C55_small_rate. reflexivity.
Qed.
Example C55_ex_run : match sgd_train hinge (fun v => v) 4 turn (configure ex (weights ex) (q 1 1) (q 1 100) (q 0 1) 3 4 0) with
  Some (g, t, MaxReached) => (map this (model (machine g)), t) | _ => ([], 0) end = ([(30 # 13)%Q; (-10 # 13)%Q], 3).
Proof. vm_compute. reflexivity. Qed.

(** *** Refuted: a bias learning rate equal to t + t0 makes a factor zero and the next bias update
    divides by it.  Here lambda = 1, so that t0 = 2, and the rate is 2. *)
Theorem C89_bias_rate_refuted : exists s perms, usable sign_label positive s /\ sized s /\ orders (numData s) perms /\ 0 < maxit s /\ (0 < blr s)%Qc /\
  (forall sqrt_ fuel, sgd_train hinge sqrt_ fuel perms s = None) /\
  (* while the plain update is defined *)
  this (snd (plain s hinge plain_run (fun _ => 0) 1)) = 1%Q.
Proof.
  exists (start 1 1 [q 1 1] [q 1 1] (q 1 1) None (q 1 1) (q 2 1) (q 1 100) 1 10 0), (fun _ => [0]).
  split; [|split; [|split; [|split; [|split; [|split]]]]].
  - split; [cbn; lia|]. split; [cbn; lia|]. split; [intros w E; discriminate E|]. split; [cbn; lia|]. split; [reflexivity|].
    intros k Lk. cbn in Lk. assert (K : k = 0) by lia. subst k. split; [left; apply Qc_is_canon; reflexivity|]. intros _. apply positive_dec. vm_compute. reflexivity.
  - repeat split; try (cbn; lia). intros w E. discriminate E.
  - intro e. split; [reflexivity|]. cbn. intros i [<-|[]]. lia.
  - cbn. lia.
  - reflexivity.
  - intros sqrt_ [|fuel]; [reflexivity|]. unfold sgd_train. cbn [sgd_loop].
    match goal with |- (do i <- ?a; _) = None => change a with (Some 0) end. cbn [obind].
    match goal with |- (do g <- ?a; _) = None => assert (X : (match a with Some _ => false | None => true end) = true) by (vm_compute; reflexivity); destruct a; [discriminate X|reflexivity] end.
  - vm_compute. reflexivity.
Qed.
Print Assumptions C89_bias_rate_refuted.

(** *** Refuted: training again after vl_svm_set_lambda reports convergence far from the optimum,
    because the dual variables are kept while the model is not their combination any more *)
Definition once : svm := start 1 1 [q 1 2] [q 1 1] (q 1 1) None (q 0 1) (q 1 100) (q 1 100) 1 10 0.
Theorem C90_set_lambda_refuted : exists s1 st1 s2 st2, usable sign_label positive once /\
  sdca_train hinge 10 (fun _ => [0]) once = Some (s1, st1, Converged) /\
  sdca_train hinge 10 (fun _ => [0]) (set_lambda s1 (q 1 100)) = Some (s2, st2, Converged) /\
  exists w b, (objective hinge (set_lambda once (q 1 100)) w b + epsilon once < st_obj st2)%Qc /\
    (match st_dual st2 with Some d => objective hinge (set_lambda once (q 1 100)) w b < d | None => False end)%Qc.
Proof.
  assert (X : match sdca_train hinge 10 (fun _ => [0]) once with
    | Some (s1, _, Converged) => match sdca_train hinge 10 (fun _ => [0]) (set_lambda s1 (q 1 100)) with
      | Some (_, st2, Converged) => qlt (objective hinge (set_lambda once (q 1 100)) (fun _ => q 2 1) (q 0 1) + epsilon once)%Qc (st_obj st2) &&
          match st_dual st2 with Some d => qlt (objective hinge (set_lambda once (q 1 100)) (fun _ => q 2 1) (q 0 1)) d | None => false end
      | _ => false end
    | _ => false end = true) by (vm_compute; reflexivity).
  destruct (sdca_train hinge 10 (fun _ => [0]) once) as [((s1 & st1) & [|])|] eqn:E1; try discriminate X.
  destruct (sdca_train hinge 10 (fun _ => [0]) (set_lambda s1 (q 1 100))) as [((s2 & st2) & [|])|] eqn:E2; try discriminate X.
  apply andb_prop in X. destruct X as (X1 & X2).
  exists s1, st1, s2, st2. split.
  - split; [cbn; lia|]. split; [cbn; lia|]. split; [intros w E; discriminate E|]. split; [cbn; lia|]. split; [reflexivity|].
    intros k Lk. cbn in Lk. assert (K : k = 0) by lia. subst k. split; [left; apply Qc_is_canon; reflexivity|]. intros _. apply positive_dec. vm_compute. reflexivity.
  - split; [reflexivity|]. split; [exact E2|]. exists (fun _ => q 2 1), (q 0 1). split; [apply qlt_true; exact X1|]. destruct (st_dual st2); [apply qlt_true; exact X2|discriminate X2].
Qed.
Print Assumptions C90_set_lambda_refuted.

(** *** Refuted: the iteration number set before training has no effect on the learning rate, and
    reading it after training gives back the number set *)
Definition with_iteration (s : svm) (it : nat) : svm := configure s (weights s) (bmul s) (blr s) (epsilon s) (freq s) (maxit s) it.
Definition sgd_with (it : nat) (g : sgd) : sgd := mk_sgd (with_iteration (machine g) it) (factor g) (bfactor g) (sc g) (prev g).
Lemma step_iteration L t i it g : sgd_step L t i (sgd_with it g) = option_map (sgd_with it) (sgd_step L t i g).
Proof.
  destruct g as [s f bf sc pr]. unfold sgd_step, sgd_with. cbn [machine factor bfactor Svm_Model.sc prev].
  change (weight (with_iteration s it) i) with (weight s i). destruct (weight s i) as [p|]; [|reflexivity]. cbn [obind].
  change (inner_product (with_iteration s it) i (model (with_iteration s it))) with (inner_product s i (model s)). destruct (inner_product s i (model s)) as [ip|]; [|reflexivity]. cbn [obind].
  change (labels (with_iteration s it)) with (labels s). destruct (aget (labels s) i) as [y|]; [|reflexivity]. cbn [obind].
  destruct (aget sc i) as [old|]; [|reflexivity]. cbn [obind]. destruct (aset pr i (Some old)) as [pr'|]; [|reflexivity]. cbn [obind].
  change (bmul (with_iteration s it)) with (bmul s). change (bias (with_iteration s it)) with (bias s). change (lambda (with_iteration s it)) with (lambda s). change (blr (with_iteration s it)) with (blr s).
  change (Svm_Model.t0 (with_iteration s it)) with (Svm_Model.t0 s). change (model (with_iteration s it)) with (model s).
  destruct (aset sc i _) as [sc'|]; [|reflexivity]. cbn [obind]. destruct (div 1 _) as [rate|]; [|reflexivity]. cbn [obind].
  destruct (Qc_eq_dec _ 0); [reflexivity|]. destruct (div _ _) as [c|]; [|reflexivity]. cbn [obind].
  change (accumulate (with_iteration s it) i (model s) c) with (accumulate s i (model s) c). destruct (accumulate s i (model s) c) as [m|]; [|reflexivity]. cbn [obind].
  destruct (div _ _) as [cb|]; reflexivity.
Qed.
Lemma loop_iteration L sqrt_ fuel perms it : forall t g, sgd_loop L sqrt_ fuel perms t (sgd_with it g) =
  option_map (fun r : sgd * nat * status => let '(g, t, st) := r in (sgd_with it g, t, st)) (sgd_loop L sqrt_ fuel perms t g).
Proof.
  induction fuel as [|fuel IH]; intros t g; [reflexivity|]. cbn [sgd_loop].
  change (numData (machine (sgd_with it g))) with (numData (machine g)). destruct (aget _ _) as [i|]; [|reflexivity]. cbn [obind].
  rewrite step_iteration. destruct (sgd_step L t i g) as [g1|]; [|reflexivity]. cbn [option_map obind].
  change (diagnose (machine (sgd_with it g1)) t) with (diagnose (machine g1) t). destruct (diagnose (machine g1) t); [|apply IH].
  assert (R : realise (sgd_with it g1) = option_map (sgd_with it) (realise g1)).
  { unfold realise. change (dim (machine (sgd_with it g1))) with (dim (machine g1)). change (model (machine (sgd_with it g1))) with (model (machine g1)). change (factor (sgd_with it g1)) with (factor g1).
    destruct (iter _ _ _); reflexivity. }
  rewrite R. destruct (realise g1) as [g2|]; [|reflexivity]. cbn [option_map obind]. change (variation sqrt_ (sgd_with it g2)) with (variation sqrt_ g2).
  destruct (variation sqrt_ g2) as [v|]; [|reflexivity]. cbn [obind]. change (epsilon (machine (sgd_with it g2))) with (epsilon (machine g2)). change (maxit (machine (sgd_with it g2))) with (maxit (machine g2)).
  destruct (match v with Some v => qlt v (epsilon (machine g2)) | None => false end); [reflexivity|]. destruct (t + 1 =? maxit (machine g2)); [reflexivity|]. apply IH.
Qed.
(** for every machine, training from any iteration number is training from none *)
Theorem C92_iteration_ignored : forall L sqrt_ fuel perms s it, sgd_train L sqrt_ fuel perms (with_iteration s it) =
  option_map (fun r : sgd * nat * status => let '(g, t, st) := r in (sgd_with it g, t, st)) (sgd_train L sqrt_ fuel perms s).
Proof. intros. unfold sgd_train. rewrite <- loop_iteration. reflexivity. Qed.
Print Assumptions C92_iteration_ignored.
(** so the documented slower learning rate does not happen *)
Theorem C92_warm_start_refuted : exists s perms it, sized s /\ orders (numData s) perms /\
  forall sqrt_, exists g t stat, sgd_train hinge sqrt_ (maxit s) perms (with_iteration s it) = Some (g, t, stat) /\ t = 0 /\ iteration (machine g) = it /\
  this (fn (model (machine g)) 0) = (1 # 2)%Q /\
  this (fst (plain_run (dim s) (datum (dim s) (data s)) (fn (labels s)) (weight_of (weights s)) (lambda s) (bmul s) (derivFn hinge) (blr s)
     (first_step (lambda s) + Z.of_nat it) (fun _ => 0) 1 (fn (model s), bias s)) 0) = (1 # 102)%Q.
Proof.
  set (s := start 1 1 [q 1 1] [q 1 1] (q 1 1) None (q 0 1) (q 1 100) (q 1 100) 1 1 0).
  assert (W : sized s) by (repeat split; try (cbn; lia); intros w E; discriminate E).
  assert (Ho : orders (numData s) (fun _ => [0])) by (intro e; split; [reflexivity|]; cbn; intros i [<-|[]]; lia).
  exists s, (fun _ => [0]), 100. split; [exact W|]. split; [exact Ho|]. intro sqrt_.
  destruct (C55_transparent hinge sqrt_ s (fun _ => [0]) W Ho) as (g & t & stat & E & Lt & _ & _ & _ & Em & _ & Hm & _).
  { cbn. lia. }
  { intros t _. apply C55_small_rate. reflexivity. }
  cbn [maxit s start configure] in Lt. assert (t = 0) by lia. subst t.
  rewrite C92_iteration_ignored, E. cbn [option_map]. exists (sgd_with 100 g), 0, stat. split; [reflexivity|]. split; [reflexivity|]. split; [reflexivity|]. split.
  - change (fn (model (machine (sgd_with 100 g))) 0) with (fn (model (machine g)) 0). rewrite Hm by (cbn; lia). vm_compute. reflexivity.
  - vm_compute. reflexivity.
Qed.
Print Assumptions C92_warm_start_refuted.
