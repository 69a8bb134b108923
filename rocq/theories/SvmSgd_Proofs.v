(** Stochastic gradient descent with factored models. *)
From Coq Require Import List Arith ZArith Lia Bool QArith Qcanon Qround Lqa.
From Verif Require Import Base Loop MserSort_Proofs ImOp_Spec ImOp_Proofs Rat Gauss_Model Gauss_Proofs Svm_Model Svm_Spec SvmLoss_Proofs Svm_Proofs SvmDual_Proofs SvmRun_Proofs.
From Verif Require Homker_Proofs AibNew_Proofs.
Import ListNotations.
Local Open Scope nat_scope.

Lemma dot_factor n f g c : dot n f (fun j => c * g j)%Qc = (c * dot n f g)%Qc.
Proof. apply dot_scale_r. Qed.
Lemma mult_neq (a b : Qc) : a <> 0%Qc -> b <> 0%Qc -> (a * b)%Qc <> 0%Qc.
Proof. intros Ha Hb E. destruct (Qcmult_integral _ _ E); contradiction. Qed.

Lemma one_minus_div (v T : Qc) : T <> 0%Qc -> (1 - v / T = 0)%Qc -> v = T.
Proof.
  intros T0 E. assert (E' : (T * (1 - v / T) = T - v)%Qc) by (field; exact T0). rewrite E in E'. replace (T * 0)%Qc with 0%Qc in E' by ring. qc_lra.
Qed.

Section Sgd.
Variables (L : losses) (sqrt_ : Qc -> Qc) (s0 : svm) (order : nat -> nat).
Hypothesis W : sized s0.
Hypothesis Ho : forall t, order t < numData s0.
Notation run t := (plain_run (dim s0) (xs s0) (ys s0) (ps s0) (lambda s0) (bmul s0) (derivFn L) (blr s0) (Svm_Model.t0 s0) order t (fn (model s0), bias s0)).
Notation pscore t := (plain_score (dim s0) (xs s0) (ys s0) (ps s0) (lambda s0) (bmul s0) (derivFn L) (blr s0) (Svm_Model.t0 s0) order t (fn (model s0), bias s0)).
Notation pprev t := (plain_previous (dim s0) (xs s0) (ys s0) (ps s0) (lambda s0) (bmul s0) (derivFn L) (blr s0) (Svm_Model.t0 s0) order t (fn (model s0), bias s0)).

Definition sgd_inv (t : nat) (g : sgd) : Prop :=
  machine g = with_model s0 (model (machine g)) (bias (machine g)) /\ length (model (machine g)) = dim s0 /\
  (forall j, j < dim s0 -> (factor g * fn (model (machine g)) j)%Qc = fst (run t) j) /\ (bfactor g * bias (machine g))%Qc = snd (run t) /\
  factor g <> 0%Qc /\ bfactor g <> 0%Qc /\
  length (sc g) = numData s0 /\ length (prev g) = numData s0 /\
  (forall k, k < numData s0 -> fn (sc g) k = pscore t k) /\ (forall k, k < numData s0 -> nth k (prev g) None = pprev t k).

Lemma t0_ge : (2 <= Svm_Model.t0 s0)%Z.
Proof. unfold Svm_Model.t0. lia. Qed.

Lemma sgd_step_ok t g : sgd_inv t g -> blr s0 <> zq (Z.of_nat t + Svm_Model.t0 s0) ->
  exists g', sgd_step L t (order t) g = Some g' /\ sgd_inv (S t) g'.
Proof.
  intros (Em & Lm & Hm & Hb & Hf & Hbf & Lsc & Lp & Hsc & Hp) Hne. pose proof W as (Ld & Ll & Lw & _ & La & _ & Hn & Hlam).
  assert (L1 := Homker_Proofs.qc_pos_neq _ Hlam). set (i := order t). assert (Li : i < numData s0) by apply Ho.
  set (s := machine g) in *. 
  assert (Ws : sized s). { rewrite Em. destruct W as (B1 & B2 & B3 & B4 & B5 & B6 & B7 & B8). repeat split; cbn; assumption. }
  assert (Es : xs s = xs s0 /\ ys s = ys s0 /\ ps s = ps s0 /\ lambda s = lambda s0 /\ bmul s = bmul s0 /\ blr s = blr s0 /\ dim s = dim s0 /\ numData s = numData s0 /\ Svm_Model.t0 s = Svm_Model.t0 s0 /\ labels s = labels s0).
  { rewrite Em. repeat split. }
  destruct Es as (Ex & Ey & Ep & El & EB & Er & Ed & En & Et & Elab).
  unfold sgd_step. fold s. rewrite (weight_ok s i Ws) by (rewrite En; exact Li). cbn [obind].
  rewrite inner_ok by (rewrite ?Ed, ?En; try exact Lm; try exact Li; rewrite Em; exact Ld). cbn [obind].
  rewrite (aget_nth (labels s) i 0%Qc) by (rewrite Elab; lia). cbn [obind]. rewrite (aget_nth (sc g) i 0%Qc) by lia. cbn [obind].
  rewrite !aset_lt by lia. cbn [obind]. rewrite Ex, Ep, El, EB, Er, Ed, Et.
  set (T := zq (Z.of_nat t + Svm_Model.t0 s0)) in *.
  assert (HT : (1 < T)%Qc). { unfold T. rewrite <- zq_1. apply zq_lt. pose proof t0_ge. lia. }
  assert (T0 : T <> 0%Qc) by (apply Homker_Proofs.qc_pos_neq; qc_lra).
  rewrite (div_ok 1 (lambda s0 * T)%Qc) by (apply mult_neq; assumption). cbn [obind].
  set (rate := (1 / (lambda s0 * T))%Qc).
  (* the score of the plain run *)
  set (z := (factor g * dot (dim s0) (xs s0 i) (fn (model s)) + bfactor g * (bmul s0 * bias s))%Qc).
  destruct (run t) as (w, b) eqn:ER. cbn [fst snd] in Hm, Hb.
  assert (Hz : z = lin (dim s0) (xs s0) (bmul s0) w b i).
  { unfold z, lin. rewrite <- Hb, <- dot_factor. f_equal; [apply dot_ext; [reflexivity|exact Hm]|ring]. }
  set (gr := (vmax 0 (ps s0 i) * derivFn L z (nth i (labels s) 0))%Qc).
  assert (Hg : gr = plain_gradient (dim s0) (xs s0) (ys s0) (ps s0) (bmul s0) (derivFn L) i w b).
  { unfold gr, plain_gradient. rewrite Hz, Elab. f_equal.
    unfold vmax. destruct (Qclt_le_dec 0 (ps s0 i)) as [P|P]; destruct (qlt (ps s0 i) 0) eqn:Q; try reflexivity.
    - apply qlt_true in Q. exfalso. qc_lra.
    - apply qlt_false in Q. apply Qcle_antisym; assumption. }
  set (f' := (factor g * (1 - lambda s0 * rate))%Qc). set (bf' := (bfactor g * (1 - lambda s0 * (rate * blr s0)))%Qc).
  assert (Hr : (lambda s0 * rate = 1 / T)%Qc) by (unfold rate; field; split; assumption).
  assert (Nf : f' <> 0%Qc).
  { unfold f'. apply mult_neq; [exact Hf|]. rewrite Hr. intro E. apply one_minus_div in E; [|exact T0]. rewrite <- E in HT. qc_lra. }
  assert (Nbf : bf' <> 0%Qc).
  { unfold bf'. apply mult_neq; [exact Hbf|]. replace (lambda s0 * (rate * blr s0))%Qc with (blr s0 / T)%Qc by (unfold rate; field; split; assumption).
    intro E. apply Hne. apply one_minus_div; assumption. }
  assert (Run : run (S t) = (fun j => (1 - rate * lambda s0) * w j - rate * gr * xs s0 i j, (1 - rate * blr s0 * lambda s0) * b - rate * blr s0 * gr * bmul s0)%Qc).
  { cbn [plain_run]. rewrite ER. unfold plain_step. fold i. unfold plain_rate. fold T. fold rate. rewrite Hg. reflexivity. }
  assert (Sc : forall k, k < numData s0 -> fn (upd (sc g) i z) k = pscore (S t) k).
  { intros k Lk. unfold fn at 1. rewrite nth_upd by lia. cbn [plain_score]. fold i. rewrite ER. rewrite (Nat.eqb_sym i k). destruct (Nat.eqb_spec k i) as [->|N]; [exact Hz|apply Hsc, Lk]. }
  assert (Pr : forall k, k < numData s0 -> nth k (upd (prev g) i (Some (nth i (sc g) 0%Qc))) None = pprev (S t) k).
  { intros k Lk. rewrite nth_upd by lia. cbn [plain_previous]. fold i. rewrite (Nat.eqb_sym i k). destruct (Nat.eqb_spec k i) as [->|N]; [f_equal; apply Hsc, Li|apply Hp, Lk]. }
  destruct (Qc_eq_dec gr 0) as [G|G].
  - eexists. split; [reflexivity|]. unfold sgd_inv. cbn [machine factor bfactor sc prev]. rewrite Run. cbn [fst snd]. rewrite G.
    split; [exact Em|]. split; [exact Lm|]. split; [intros j Lj; rewrite <- (Hm j Lj); unfold f'; ring|]. split; [rewrite <- Hb; unfold bf'; ring|].
    split; [exact Nf|]. split; [exact Nbf|]. rewrite !upd_length. auto.
  - rewrite div_ok by exact Nf. cbn [obind]. rewrite accumulate_ok by (rewrite ?Ed, ?En; try exact Lm; try exact Li; rewrite Em; exact Ld). cbn [obind].
    rewrite div_ok by exact Nbf. cbn [obind]. eexists. split; [reflexivity|]. unfold sgd_inv. cbn [machine factor bfactor sc prev]. rewrite Run. cbn [fst snd].
    split; [rewrite Em; reflexivity|]. split; [cbn; rewrite shifted_length; exact Ed|]. split.
    { intros j Lj. cbn [model with_model]. rewrite shifted_nth by (rewrite Ed; exact Lj). rewrite Ex, <- (Hm j Lj). clearbody z gr.
      replace (f' * (fn (model s) j + xs s0 i j * (- gr * rate / f')))%Qc with (f' * fn (model s) j - gr * rate * xs s0 i j)%Qc by (field; exact Nf). unfold f'. ring. }
    split. { cbn [bias with_model]. rewrite <- Hb. clearbody z gr. replace (bf' * (bias s + bmul s0 * (- gr * (rate * blr s0) / bf')))%Qc with (bf' * bias s - gr * (rate * blr s0) * bmul s0)%Qc by (field; exact Nbf). unfold bf'. ring. }
    split; [exact Nf|]. split; [exact Nbf|]. rewrite !upd_length. auto.
Qed.

Lemma realise_ok t g : sgd_inv t g -> exists g', realise g = Some g' /\ sgd_inv t g' /\ factor g' = 1%Qc /\ bfactor g' = 1%Qc.
Proof.
  intros (Em & Lm & Hm & Hb & Hf & Hbf & Lsc & Lp & Hsc & Hp). unfold realise.
  assert (Ed : dim (machine g) = dim s0) by (rewrite Em; reflexivity). rewrite Ed.
  match goal with |- context [iter ?n ?b ?s] => destruct (iter_inv (fun j m => length m = dim s0 /\ forall k, k < dim s0 -> fn m k = if k <? j then (fn (model (machine g)) k * factor g)%Qc else fn (model (machine g)) k) b n s) as (m & -> & Lm' & Hm') end.
  - split; [exact Lm|]. reflexivity.
  - intros j m Lj (Lm' & H). rewrite Nat.add_1_r. rewrite (aget_nth m j 0%Qc) by lia. cbn [obind]. rewrite aset_lt by lia. eexists. split; [reflexivity|]. rewrite upd_length. split; [exact Lm'|].
    intros k Lk. unfold fn at 1. rewrite nth_upd by lia. fold (fn m j) (fn m k). rewrite !H by lia. destruct (Nat.eqb_spec k j) as [->|N].
    + rewrite Nat.ltb_irrefl. destruct (Nat.ltb_spec j (S j)); [reflexivity|lia].
    + destruct (Nat.ltb_spec k j), (Nat.ltb_spec k (S j)); try lia; reflexivity.
  - cbn [obind]. eexists. split; [reflexivity|]. split; [|split; reflexivity]. unfold sgd_inv. cbn [machine factor bfactor sc prev].
    split; [rewrite Em; reflexivity|]. split; [exact Lm'|]. split.
    { intros j Lj. cbn [model with_model]. rewrite Hm' by exact Lj. destruct (Nat.ltb_spec j (dim s0)); [|lia]. rewrite <- (Hm j Lj). ring. }
    split; [cbn [bias with_model]; rewrite <- Hb; ring|]. split; [discriminate|]. split; [discriminate|]. auto.
Qed.
Lemma variation_ok t g : sgd_inv t g -> exists v, variation sqrt_ g = Some v.
Proof.
  intros (Em & Lm & Hm & Hb & Hf & Hbf & Lsc & Lp & Hsc & Hp). unfold variation. assert (En : numData (machine g) = numData s0) by (rewrite Em; reflexivity). rewrite En.
  match goal with |- context [iter ?n ?b ?s] => destruct (iter_inv (fun _ _ => True) b n s) as (v & -> & _) end; [exact I| |cbn; eauto].
  intros j v Lj _. rewrite (aget_nth (sc g) j 0%Qc) by lia. cbn [obind]. rewrite (aget_nth (prev g) j None) by lia. cbn [obind]. eauto.
Qed.

Variable perms : nat -> list nat.
Hypothesis Hperms : forall t, aget (perms (t / numData s0)) (t mod numData s0) = Some (order t).

Lemma inv_machine t g : sgd_inv t g -> numData (machine g) = numData s0 /\ maxit (machine g) = maxit s0 /\ epsilon (machine g) = epsilon s0 /\ freq (machine g) = freq s0.
Proof. intros (Em & _). rewrite Em. repeat split. Qed.
Lemma sgd_loop_ok fuel : forall t g, sgd_inv t g -> t < maxit s0 -> maxit s0 <= t + fuel ->
  (forall u, u < maxit s0 -> blr s0 <> zq (Z.of_nat u + Svm_Model.t0 s0)) ->
  exists g' t' stat, sgd_loop L sqrt_ fuel perms t g = Some (g', t', stat) /\ t' < maxit s0 /\ sgd_inv (S t') g' /\ factor g' = 1%Qc /\ bfactor g' = 1%Qc /\
    (stat = MaxReached -> t' + 1 = maxit s0) /\
    (stat = Converged -> exists v, variation sqrt_ g' = Some (Some v) /\ (v < epsilon s0)%Qc).
Proof.
  induction fuel as [|fuel IH]; intros t g I Lt Lf Hb; [lia|]. cbn [sgd_loop]. destruct (inv_machine t g I) as (-> & _). rewrite Hperms. cbn [obind].
  destruct (sgd_step_ok t g I (Hb t Lt)) as (g1 & -> & I1). cbn [obind]. destruct (inv_machine _ g1 I1) as (_ & Em1 & _).
  destruct (diagnose (machine g1) t) eqn:D.
  2: { rewrite Nat.add_1_r. destruct (Nat.eq_dec (t + 1) (maxit s0)) as [Q|Q].
       - unfold diagnose in D. rewrite Em1, Q, Nat.eqb_refl, orb_true_r in D. discriminate D.
       - apply IH; auto; lia. }
  destruct (realise_ok _ g1 I1) as (g2 & -> & I2 & F2 & B2). cbn [obind]. destruct (variation_ok _ g2 I2) as (v & Ev). rewrite Ev. cbn [obind]. destruct (inv_machine _ g2 I2) as (_ & -> & -> & _).
  destruct (match v with Some v => qlt v (epsilon s0) | None => false end) eqn:Q.
  - exists g2, t, Converged. do 5 (split; [auto|]). split; [intro X; discriminate X|]. intros _. destruct v as [v|]; [|discriminate Q]. apply qlt_true in Q. eauto.
  - destruct (Nat.eqb_spec (t + 1) (maxit s0)) as [Q2|Q2].
    + exists g2, t, MaxReached. do 5 (split; [auto|]). split; [auto|]. intro X; discriminate X.
    + rewrite Nat.add_1_r. apply IH; auto; lia.
Qed.
End Sgd.
