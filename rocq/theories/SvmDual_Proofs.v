(** Weak duality and monotonicity of dual coordinate ascent. *)
From Coq Require Import List Arith ZArith Lia Bool QArith Qcanon Lqa.
From Verif Require Import Base Loop MserSort_Proofs ImOp_Spec ImOp_Proofs Rat Gauss_Model Gauss_Proofs Svm_Model Svm_Spec SvmLoss_Proofs Svm_Proofs.
From Verif Require Homker_Proofs AibNew_Proofs.
Import ListNotations.
Local Open Scope nat_scope.

Lemma qsum_le n f g : (forall k, k < n -> (f k <= g k)%Qc) -> (qsum n f <= qsum n g)%Qc.
Proof. induction n as [|n IH]; intro H; [apply Qcle_refl|]. cbn. apply Qcplus_le_compat; [apply IH; intros; apply H; lia|apply H; lia]. Qed.
Lemma qsum_const_r n c f : qsum n (fun i => f i * c)%Qc = (qsum n f * c)%Qc.
Proof. rewrite (Qcmult_comm (qsum n f)), <- qsum_scale. apply qsum_ext. intros. ring. Qed.
Lemma dot_scale_r n f g c : dot n f (fun j => c * g j)%Qc = (c * dot n f g)%Qc.
Proof. unfold dot. rewrite <- qsum_scale. apply qsum_ext. intros. ring. Qed.
Lemma dot_comm n f g : dot n f g = dot n g f.
Proof. unfold dot. apply qsum_ext. intros. ring. Qed.

Lemma qsum_opp n f : qsum n (fun i => - f i)%Qc = (- qsum n f)%Qc.
Proof. induction n as [|n IH]; [reflexivity|]. cbn [sum]. rewrite IH. ring. Qed.
Lemma div_le a b c : (0 < c)%Qc -> (a <= b)%Qc -> (a / c <= b / c)%Qc.
Proof.
  intros Hc H. apply Qcle_minus_iff. replace (b / c + - (a / c))%Qc with ((b - a) * / c)%Qc by (field; apply Homker_Proofs.qc_pos_neq; exact Hc).
  apply mult_nonneg; [apply -> Qcle_minus_iff; exact H|]. apply Qclt_le_weak, Homker_Proofs.Qcinv_pos, Hc.
Qed.

(** the combination of the data against any model *)
Lemma comb_dot n d x lam a w : (lam * nq n <> 0)%Qc ->
  (lam * dot d (comb n x lam a) w)%Qc = (qsum n (fun k => a k * dot d (x k) w) / nq n)%Qc.
Proof.
  intro H. assert (Hn : nq n <> 0%Qc) by (intro E; apply H; rewrite E; ring). assert (Hl : lam <> 0%Qc) by (intro E; apply H; rewrite E; ring).
  assert (E : dot d (comb n x lam a) w = (qsum n (fun k => a k * dot d (x k) w) / (lam * nq n))%Qc).
  { unfold dot, comb, Qcdiv. rewrite <- qsum_const_r.
    rewrite (qsum_ext n _ (fun k => qsum d (fun j => a k * x k j * w j * / (lam * nq n)))%Qc).
    - rewrite (sum_swap _ _ _ _ _ _ Qcrt n d (fun k j => a k * x k j * w j * / (lam * nq n))%Qc). apply qsum_ext. intros j Lj.
      rewrite <- !qsum_const_r. apply qsum_ext. intros k Lk. ring.
    - intros k Lk. rewrite <- qsum_scale, <- qsum_const_r. apply qsum_ext. intros j Lj. ring. }
  rewrite E. field. split; assumption.
Qed.

Lemma ridge_nonneg d lam w b : (0 < lam)%Qc -> (0 <= ridge d lam w b)%Qc.
Proof.
  intro Hl. unfold ridge. apply mult_nonneg.
  - apply Qclt_le_weak. unfold Qcdiv. replace 0%Qc with (0 * / zq 2)%Qc by ring. apply Qcmult_lt_compat_r; [reflexivity|exact Hl].
  - assert (D : (0 <= dot d w w)%Qc). { induction d as [|d IH]; [apply Qcle_refl|]. unfold dot in *. cbn [sum]. apply (Qcplus_le_compat 0 _ 0); [exact IH|apply q_square_nonneg]. }
    apply (Qcplus_le_compat 0 _ 0); [exact D|apply q_square_nonneg].
Qed.

(** ** Consistency: the model is the dual combination of the data *)
Definition consistent (s : svm) : Prop :=
  (forall j, j < dim s -> fn (model s) j = comb (numData s) (xs s) (lambda s) (fn (alpha s)) j) /\
  bias s = comb_bias (numData s) (lambda s) (bmul s) (fn (alpha s)) /\
  (forall k, k < numData s -> (ps s k <= 0)%Qc -> fn (alpha s) k = 0%Qc).

Section Duality.
Variables (L : losses) (lab : Qc -> Prop).
Hypothesis Hfenchel : fenchel lab (lossFn L) (conjFn L).

Definition distance (s : svm) (w : nat -> Qc) (b : Qc) : Qc :=
  ridge (dim s) (lambda s) (fun j => w j - fn (model s) j)%Qc (b - bias s)%Qc.
Definition primal_at (s : svm) (w : nat -> Qc) (b : Qc) : Qc :=
  primal (numData s) (dim s) (xs s) (ys s) (ps s) (lambda s) (bmul s) (lossFn L) w b.

Lemma ridge_diff d lam w b w' b' : ridge d lam (fun j => w' j - w j)%Qc (b' - b)%Qc =
  (ridge d lam w' b' + ridge d lam w b - lam * (dot d w w' + b * b'))%Qc.
Proof.
  unfold ridge. assert (E : dot d (fun j => w' j - w j)%Qc (fun j => w' j - w j)%Qc = (dot d w' w' + dot d w w - zq 2 * dot d w w')%Qc).
  { unfold dot. induction d as [|d IH]; cbn [sum]; [unfold zq; ring|]. rewrite IH. unfold zq. apply Qc_is_canon. qc_prep. unfold inject_Z. ring. }
  rewrite E. generalize (dot d w' w') (dot d w w) (dot d w w'). intros u v z.
  apply Qc_is_canon. qc_prep. rewrite this_div. unfold zq. rewrite this_Q. unfold inject_Z. field.
Qed.

Lemma weak_duality s w b : sized s -> consistent s -> finite L s -> (forall k, k < numData s -> lab (ys s k)) ->
  (dual_of L s + distance s w b <= primal_at s w b)%Qc.
Proof.
  intros W (Cm & Cb & Ca) F Hl. pose proof W as (Ld & Ll & Lw & Lm & La & Lsc & Hn & Hlam).
  assert (N0 : (0 < nq (numData s))%Qc) by (apply Homker_Proofs.nq_pos, Hn). assert (N1 := Homker_Proofs.qc_pos_neq _ N0). assert (L1 := Homker_Proofs.qc_pos_neq _ Hlam).
  assert (NL : (lambda s * nq (numData s) <> 0)%Qc). { intro E. destruct (Qcmult_integral _ _ E); contradiction. }
  set (z := fun k => lin (dim s) (xs s) (bmul s) w b k).
  assert (S : (qsum (numData s) (fun k => - (fn (alpha s) k * z k) + - (if Qclt_le_dec 0 (ps s k) then ps s k * val (cj L s k) else 0)) <=
    qsum (numData s) (fun k => if Qclt_le_dec 0 (ps s k) then ps s k * lossFn L (z k) (ys s k) else 0))%Qc).
  { apply qsum_le. intros k Lk. destruct (Qclt_le_dec 0 (ps s k)) as [P|P].
    - destruct (F k Lk P) as (c & Ec). rewrite Ec. cbn [val]. pose proof (Hfenchel (z k) _ _ c (Hl k Lk) Ec) as FY.
      assert (P0 := Homker_Proofs.qc_pos_neq _ P).
      assert (M : (0 <= ps s k * (lossFn L (z k) (ys s k) - (z k * (- fn (alpha s) k / ps s k) - c)))%Qc).
      { apply mult_nonneg; [apply Qclt_le_weak; exact P|]. apply -> Qcle_minus_iff. exact FY. }
      apply Qcle_minus_iff. match goal with |- (_ <= ?r)%Qc => replace r with (ps s k * (lossFn L (z k) (ys s k) - (z k * (- fn (alpha s) k / ps s k) - c)))%Qc; [exact M|] end.
      field. exact P0.
    - rewrite (Ca k Lk P). apply Qcle_minus_iff. match goal with |- (_ <= ?r)%Qc => replace r with 0%Qc by ring end. apply Qcle_refl. }
  rewrite qsum_add in S.
  assert (Sz : (qsum (numData s) (fun k => - (fn (alpha s) k * z k)) / nq (numData s) = - (lambda s * (dot (dim s) (fn (model s)) w + bias s * b)))%Qc).
  { rewrite (dot_ext _ (fn (model s)) (comb (numData s) (xs s) (lambda s) (fn (alpha s))) w w) by auto. rewrite Cb.
    rewrite (qsum_ext _ _ (fun k => -(1) * (fn (alpha s) k * dot (dim s) (xs s k) w) + (- (bmul s * b)) * fn (alpha s) k)%Qc) by (intros; unfold z, lin; ring).
    rewrite qsum_lin, Qcmult_plus_distr_r, comb_dot by exact NL. unfold comb_bias.
    generalize (qsum (numData s) (fun k => fn (alpha s) k * dot (dim s) (xs s k) w)%Qc) (qsum (numData s) (fn (alpha s))). intros u v. field. split; assumption. }
  unfold distance. rewrite ridge_diff. unfold dual_of, primal_at, primal. change (fun k => if Qclt_le_dec 0 (ps s k) then ps s k * lossFn L (lin (dim s) (xs s) (bmul s) w b k) (ys s k) else 0)%Qc with (fun k => if Qclt_le_dec 0 (ps s k) then ps s k * lossFn L (z k) (ys s k) else 0)%Qc.
  set (C := qsum (numData s) (fun k => if Qclt_le_dec 0 (ps s k) then ps s k * val (cj L s k) else 0)%Qc) in *.
  rewrite (qsum_opp _ (fun k => if Qclt_le_dec 0 (ps s k) then ps s k * val (cj L s k) else 0)%Qc) in S. fold C in S. apply (div_le _ _ (nq (numData s)) N0) in S.
  replace ((qsum (numData s) (fun k => - (fn (alpha s) k * z k)) + - C) / nq (numData s))%Qc with
    (qsum (numData s) (fun k => - (fn (alpha s) k * z k)) / nq (numData s) - C / nq (numData s))%Qc in S by (field; exact N1).
  rewrite Sz in S. revert S.
  generalize (qsum (numData s) (fun k => if Qclt_le_dec 0 (ps s k) then ps s k * lossFn L (z k) (ys s k) else 0) / nq (numData s))%Qc (C / nq (numData s))%Qc
    (ridge (dim s) (lambda s) w b) (ridge (dim s) (lambda s) (fn (model s)) (bias s)) (lambda s * (dot (dim s) (fn (model s)) w + bias s * b))%Qc.
  intros. qc_lra.
Qed.
End Duality.

(** *** one coordinate step *)
Lemma norms_ok s : sized s ->
  norms s = Some (map (fun i => (dot (dim s) (xs s i) (xs s i) + bmul s * bmul s) / (lambda s * nq (numData s)))%Qc (seq 0 (numData s))).
Proof.
  intros (Ld & Ll & Lw & Lm & La & Lsc & Hn & Hlam). unfold norms. apply AibNew_Proofs.table_loop. intros k out Lk.
  rewrite accumulate_ok by (rewrite ?repeat_length; auto). cbn [obind]. rewrite inner_ok by (rewrite ?shifted_length; auto). cbn [obind].
  assert (NL : (lambda s * nq (numData s) <> 0)%Qc). { intro E. destruct (Qcmult_integral _ _ E) as [H|H]; [exact (Homker_Proofs.qc_pos_neq _ Hlam H)|exact (nq_nonzero _ Hn H)]. }
  rewrite div_ok by exact NL. cbn [obind]. do 5 f_equal. apply dot_ext; [reflexivity|]. intros j Lj. rewrite shifted_nth by exact Lj.
  unfold fn. rewrite nth_repeat. ring.
Qed.

Section Step.
Variables (L : losses) (lab curv : Qc -> Prop).
Hypothesis Hsteps : steps_ok lab curv L.
Definition norm2_of (s : svm) (i : nat) : Qc := ((dot (dim s) (xs s i) (xs s i) + bmul s * bmul s) / (lambda s * nq (numData s)))%Qc.

Lemma qsum_upd n f g i : i < n -> (forall k, k < n -> k <> i -> f k = g k) -> qsum n f = (qsum n g + (f i - g i))%Qc.
Proof.
  revert i. induction n as [|n IH]; intros i Li H; [lia|]. cbn [sum]. destruct (Nat.eq_dec i n) as [->|N].
  - rewrite (qsum_ext n f g) by (intros k Lk; apply H; lia). ring.
  - rewrite (IH i) by (try lia; intros; apply H; lia). rewrite (H n) by lia. ring.
Qed.

Lemma step_ok s norm2 i : sized s -> consistent s -> finite L s -> i < numData s ->
  (forall k, k < numData s -> aget norm2 k = Some (norm2_of s k)) -> lab (ys s i) -> ((0 < ps s i)%Qc -> curv (ps s i * norm2_of s i)%Qc) ->
  exists s', sdca_step L norm2 i s = Some s' /\ frame s s' /\ settings s s' /\ scores s' = scores s /\ sized s' /\ consistent s' /\ finite L s' /\
    (dual_of L s <= dual_of L s')%Qc /\ (forall k, k <> i -> fn (alpha s') k = fn (alpha s) k) /\
    ((0 < ps s i)%Qc -> exists d, fn (alpha s') i = (fn (alpha s) i + ps s i * d)%Qc /\
       optimal_step (conjFn L) (fn (alpha s) i / ps s i)%Qc (ps s i * norm2_of s i)%Qc (sc_lin s i) (ys s i) d).
Proof.
  intros W C F Li Hn2 Hlab Hcurv. pose proof W as (Ld & Ll & Lw & Lm & La & Lsc & Hn & Hlam). pose proof C as (Cm & Cb & Ca).
  assert (NL : (nq (numData s) * lambda s <> 0)%Qc). { intro E. destruct (Qcmult_integral _ _ E) as [H|H]; [exact (nq_nonzero _ Hn H)|exact (Homker_Proofs.qc_pos_neq _ Hlam H)]. }
  assert (N1 := nq_nonzero _ Hn). assert (L1 := Homker_Proofs.qc_pos_neq _ Hlam).
  unfold sdca_step. rewrite (weight_ok s i W Li). cbn [obind].
  destruct (qlt 0 (ps s i)) eqn:EP.
  2: { apply qlt_false in EP. cbn [obind]. destruct (Qc_eq_dec 0 0) as [_|N]; [|contradiction N; reflexivity].
    exists s. split; [reflexivity|]. split; [apply frame_refl|]. split; [repeat split|]. split; [reflexivity|].
    split; [exact W|]. split; [exact C|]. split; [exact F|]. split; [apply Qcle_refl|]. split; [reflexivity|]. intro P. exfalso. qc_lra. }
  apply qlt_true in EP. assert (P0 := Homker_Proofs.qc_pos_neq _ EP).
  rewrite (score_ok s i W Li), (aget_nth (alpha s) i 0%Qc), (Hn2 i Li), (aget_nth (labels s) i 0%Qc) by lia. cbn [obind].
  fold (fn (alpha s) i). fold (fn (labels s) i). fold (sc_lin s i).
  assert (Oa : (- (fn (alpha s) i / ps s i) = - fn (alpha s) i / ps s i)%Qc) by (field; exact P0).
  destruct (F i Li EP) as (c0 & Ec0). pose proof Ec0 as Ec0'. unfold cj in Ec0'. rewrite <- Oa in Ec0'.
  destruct (Hsteps _ (sc_lin s i) _ _ _ Hlab (Hcurv EP) Ec0') as (d & Ed & Opt). rewrite Ed. cbn [obind].
  pose proof Opt as (c1 & Ec1 & Hopt).
  assert (G : (gain (ps s i * norm2_of s i) (sc_lin s i) 0 c0 <= gain (ps s i * norm2_of s i) (sc_lin s i) d c1)%Qc).
  { apply Hopt. replace (fn (alpha s) i / ps s i + 0)%Qc with (fn (alpha s) i / ps s i)%Qc by ring. exact Ec0'. }
  destruct (Qc_eq_dec (ps s i * d) 0) as [Z|Z].
  - exists s. split; [reflexivity|]. split; [apply frame_refl|]. split; [repeat split|]. split; [reflexivity|]. split; [exact W|]. split; [exact C|]. split; [exact F|].
    split; [apply Qcle_refl|]. split; [reflexivity|]. intros _. exists d. split; [rewrite Z; ring|exact Opt].
  - rewrite aset_lt by lia. cbn [obind]. rewrite div_ok by exact NL. cbn [obind]. rewrite accumulate_ok by auto. cbn [obind].
    set (mult := (ps s i * d / (nq (numData s) * lambda s))%Qc).
    set (al := upd (alpha s) i (fn (alpha s) i + ps s i * d)%Qc).
    set (s' := with_alpha (with_model s (shifted s i (model s) mult) (bias s + bmul s * mult)%Qc) al).
    assert (Ai : fn al i = (fn (alpha s) i + ps s i * d)%Qc) by (unfold al, fn; rewrite nth_upd, Nat.eqb_refl by lia; reflexivity).
    assert (Ak : forall k, k <> i -> fn al k = fn (alpha s) k).
    { intros k N. unfold al, fn. rewrite nth_upd by lia. destruct (Nat.eqb_spec k i); [contradiction|reflexivity]. }
    assert (W' : sized s').
    { unfold s'. repeat split; cbn; auto; [apply shifted_length|unfold al; rewrite upd_length; exact La]. }
    assert (C' : consistent s').
    { split; [|split].
      - intros j Lj. change (fn (model s') j) with (fn (shifted s i (model s) mult) j). rewrite shifted_nth by exact Lj. rewrite Cm by exact Lj. unfold comb.
        change (numData s') with (numData s). change (lambda s') with (lambda s). change (alpha s') with al. change (xs s') with (xs s).
        rewrite (qsum_upd (numData s) (fun k => fn al k * xs s k j)%Qc (fun k => fn (alpha s) k * xs s k j)%Qc i Li) by (intros k _ N; rewrite Ak by exact N; reflexivity).
        rewrite Ai. unfold mult. generalize (qsum (numData s) (fun k => fn (alpha s) k * xs s k j)%Qc). intro q. field. split; assumption.
      - change (bias s') with (bias s + bmul s * mult)%Qc. rewrite Cb. unfold comb_bias.
        change (numData s') with (numData s). change (lambda s') with (lambda s). change (alpha s') with al. change (bmul s') with (bmul s).
        rewrite (qsum_upd (numData s) (fn al) (fn (alpha s)) i Li) by (intros k _ N; apply Ak, N).
        rewrite Ai. unfold mult. generalize (qsum (numData s) (fn (alpha s))). intro q. field. split; assumption.
      - intros k Lk P. change (fn al k = 0%Qc). destruct (Nat.eq_dec k i) as [->|N]; [change (ps s i <= 0)%Qc in P; exfalso; qc_lra|]. rewrite Ak by exact N. apply Ca; assumption. }
    assert (Ci : cj L s' i = Some c1).
    { unfold cj. change (conjFn L (- fn al i / ps s i)%Qc (ys s i) = Some c1). rewrite Ai. rewrite <- Ec1. f_equal. field. exact P0. }
    assert (Ck : forall k, k <> i -> cj L s' k = cj L s k).
    { intros k N. unfold cj. change (conjFn L (- fn al k / ps s k)%Qc (ys s k) = conjFn L (- fn (alpha s) k / ps s k)%Qc (ys s k)). rewrite Ak by exact N. reflexivity. }
    assert (F' : finite L s').
    { intros k Lk P. destruct (Nat.eq_dec k i) as [->|N]; [eauto|]. rewrite Ck by exact N. apply F; assumption. }
    exists s'. split; [reflexivity|]. split; [repeat split|]. split; [repeat split|]. split; [reflexivity|]. split; [exact W'|]. split; [exact C'|]. split; [exact F'|].
    split; [|split; [exact Ak|intros _; exists d; split; [exact Ai|exact Opt]]].
    unfold dual_of. change (numData s') with (numData s). change (ps s') with (ps s).
    rewrite (qsum_upd (numData s) (fun k => if Qclt_le_dec 0 (ps s k) then ps s k * val (cj L s' k) else 0)%Qc (fun k => if Qclt_le_dec 0 (ps s k) then ps s k * val (cj L s k) else 0)%Qc i Li)
      by (intros k _ N; rewrite Ck by exact N; reflexivity).
    destruct (Qclt_le_dec 0 (ps s i)) as [_|Q]; [|exfalso; qc_lra]. rewrite Ci, Ec0. cbn [val].
    set (K := qsum (numData s) (fun k => if Qclt_le_dec 0 (ps s k) then ps s k * val (cj L s k) else 0)%Qc). clearbody K.
    assert (R : ridge (dim s') (lambda s') (fn (model s')) (bias s') =
      (ridge (dim s) (lambda s) (fn (model s)) (bias s) + (ps s i * d) * sc_lin s i / nq (numData s) + Q2Qc (1 # 2) * (ps s i * d) * (ps s i * d) * norm2_of s i / nq (numData s))%Qc).
    { change (ridge (dim s) (lambda s) (fn (shifted s i (model s) mult)) (bias s + bmul s * mult) =
        ridge (dim s) (lambda s) (fn (model s)) (bias s) + ps s i * d * sc_lin s i / nq (numData s) + Q2Qc (1 # 2) * (ps s i * d) * (ps s i * d) * norm2_of s i / nq (numData s))%Qc.
      unfold ridge, sc_lin, lin, norm2_of.
      assert (D : dot (dim s) (fn (shifted s i (model s) mult)) (fn (shifted s i (model s) mult)) =
         (dot (dim s) (fn (model s)) (fn (model s)) + zq 2 * mult * dot (dim s) (xs s i) (fn (model s)) + mult * mult * dot (dim s) (xs s i) (xs s i))%Qc).
      { rewrite (dot_ext _ (fn (shifted s i (model s) mult)) (fun j => fn (model s) j + xs s i j * mult)%Qc (fn (shifted s i (model s) mult)) (fun j => fn (model s) j + xs s i j * mult)%Qc) by (intros; apply shifted_nth; assumption).
        unfold dot. generalize (dim s) (fn (model s)) (xs s i). clear. intros n f g. induction n as [|n IH]; cbn [sum]; [ring|]. rewrite IH. replace (zq 2) with (1 + 1)%Qc by (apply Qc_is_canon; reflexivity). ring. }
      rewrite D. unfold mult. replace (Q2Qc (1 # 2)) with (1 / (1 + 1))%Qc by (apply Qc_is_canon; reflexivity). replace (zq 2) with (1 + 1)%Qc by (apply Qc_is_canon; reflexivity).
      generalize (dot (dim s) (xs s i) (xs s i)) (dot (dim s) (xs s i) (fn (model s))) (dot (dim s) (fn (model s)) (fn (model s))). intros u v q.
      field. repeat split; try assumption; intro H; apply (f_equal this) in H; discriminate H. }
    rewrite R. unfold gain in G.
    assert (M : (0 <= ps s i * (- (Q2Qc (1 # 2) * (ps s i * norm2_of s i) * d * d) - sc_lin s i * d - c1 + c0) / nq (numData s))%Qc).
    { unfold Qcdiv. apply mult_nonneg; [apply mult_nonneg; [apply Qclt_le_weak; exact EP|]|apply Qclt_le_weak, Homker_Proofs.Qcinv_pos, Homker_Proofs.nq_pos, Hn].
      apply Qcle_minus_iff in G. match type of G with (_ <= ?r)%Qc => match goal with |- (_ <= ?r')%Qc => replace r' with r by ring end end. exact G. }
    apply Qcle_minus_iff. match type of M with (_ <= ?r)%Qc => match goal with |- (_ <= ?r')%Qc => replace r' with r by (field; exact N1) end end. exact M.
Qed.
End Step.

(** moving one dual variable changes the dual objective by the gain of its one-dimensional problem *)
Lemma dual_move n d x (p : nat -> Qc) lam B c a c' a' i dd : i < n -> (0 < lam)%Qc -> (0 < p i)%Qc ->
  (forall k, k < n -> k <> i -> a' k = a k) -> a' i = (a i + p i * dd)%Qc -> (forall k, k < n -> k <> i -> (0 < p k)%Qc -> c' k = c k) ->
  let A := (p i * ((dot d (x i) (x i) + B * B) / (lam * nq n)))%Qc in
  let z := lin d x B (comb n x lam a) (comb_bias n lam B a) i in
  dual n d x p lam B c' a' = (dual n d x p lam B c a + p i * (gain A z dd (c' i) - gain A z 0 (c i)) / nq n)%Qc.
Proof.
  intros Li Hlam EP Ak Ai Ck A z. assert (Hn : 0 < n) by lia.
  assert (N1 := nq_nonzero _ Hn). assert (L1 := Homker_Proofs.qc_pos_neq _ Hlam). assert (P0 := Homker_Proofs.qc_pos_neq _ EP).
  unfold dual. rewrite (qsum_upd n (fun k => if Qclt_le_dec 0 (p k) then p k * c' k else 0)%Qc (fun k => if Qclt_le_dec 0 (p k) then p k * c k else 0)%Qc i Li)
    by (intros k Lk N; destruct (Qclt_le_dec 0 (p k)); [rewrite Ck by assumption|]; reflexivity).
  destruct (Qclt_le_dec 0 (p i)) as [_|Q]; [|exfalso; qc_lra].
  set (K := qsum n (fun k => if Qclt_le_dec 0 (p k) then p k * c k else 0)%Qc). clearbody K.
  set (mult := (p i * dd / (nq n * lam))%Qc).
  assert (Ec : forall j, comb n x lam a' j = (comb n x lam a j + x i j * mult)%Qc).
  { intro j. unfold comb. rewrite (qsum_upd n (fun k => a' k * x k j)%Qc (fun k => a k * x k j)%Qc i Li) by (intros k Lk N; rewrite Ak by assumption; reflexivity).
    rewrite Ai. unfold mult. generalize (qsum n (fun k => a k * x k j)%Qc). intro q. field. split; assumption. }
  assert (Eb : comb_bias n lam B a' = (comb_bias n lam B a + B * mult)%Qc).
  { unfold comb_bias. rewrite (qsum_upd n a' a i Li) by (intros k Lk N; apply Ak; assumption). rewrite Ai. unfold mult. generalize (qsum n a). intro q. field. split; assumption. }
  assert (R : ridge d lam (comb n x lam a') (comb_bias n lam B a') =
    (ridge d lam (comb n x lam a) (comb_bias n lam B a) + (p i * dd) * z / nq n + Q2Qc (1 # 2) * (p i * dd) * (p i * dd) * ((dot d (x i) (x i) + B * B) / (lam * nq n)) / nq n)%Qc).
  { unfold z. rewrite Eb. unfold ridge, lin. set (w := comb n x lam a). set (b := comb_bias n lam B a). clearbody b.
    assert (D : dot d (comb n x lam a') (comb n x lam a') = (dot d w w + zq 2 * mult * dot d (x i) w + mult * mult * dot d (x i) (x i))%Qc).
    { rewrite (dot_ext _ (comb n x lam a') (fun j => w j + x i j * mult)%Qc (comb n x lam a') (fun j => w j + x i j * mult)%Qc) by (intros; apply Ec).
      unfold dot. generalize d w (x i) mult. clear. intros m f g mult. induction m as [|m IH]; cbn [sum]; [ring|]. rewrite IH. replace (zq 2) with (1 + 1)%Qc by (apply Qc_is_canon; reflexivity). ring. }
    rewrite D. unfold mult. replace (Q2Qc (1 # 2)) with (1 / (1 + 1))%Qc by (apply Qc_is_canon; reflexivity). replace (zq 2) with (1 + 1)%Qc by (apply Qc_is_canon; reflexivity).
    generalize (dot d (x i) (x i)) (dot d (x i) w) (dot d w w). intros u v q.
    field. repeat split; try assumption; intro H; apply (f_equal this) in H; discriminate H. }
  rewrite R. unfold gain, A. generalize ((dot d (x i) (x i) + B * B) / (lam * nq n))%Qc (ridge d lam (comb n x lam a) (comb_bias n lam B a)). intros u v. field. exact N1.
Qed.
