(** Proofs about SVM training by dual coordinate ascent. *)
From Coq Require Import List Arith ZArith Lia Bool QArith Qcanon Lqa.
From Verif Require Import Base Loop MserSort_Proofs ImOp_Spec ImOp_Proofs Rat Gauss_Model Gauss_Proofs Svm_Model Svm_Spec SvmLoss_Proofs.
From Verif Require Homker_Proofs AibNew_Proofs.
Import ListNotations.
Local Open Scope nat_scope.

Notation xs s := (datum (dim s) (data s)).
Notation ys s := (fn (labels s)).
Notation ps s := (weight_of (weights s)).

(** the arrays have room for the data *)
Definition sized (s : svm) : Prop :=
  dim s * numData s <= length (data s) /\ numData s <= length (labels s) /\
  (forall w, weights s = Some w -> numData s <= length w) /\
  length (model s) = dim s /\ length (alpha s) = numData s /\ length (scores s) = numData s /\ 0 < numData s /\ (0 < lambda s)%Qc.
(** the training problem is the same *)
Definition frame (s s' : svm) : Prop :=
  dim s' = dim s /\ numData s' = numData s /\ data s' = data s /\ labels s' = labels s /\ weights s' = weights s /\ lambda s' = lambda s /\ bmul s' = bmul s.
(** and so are the settings of the solver *)
Definition settings (s s' : svm) : Prop := freq s' = freq s /\ maxit s' = maxit s /\ epsilon s' = epsilon s /\ blr s' = blr s.
Lemma frame_refl s : frame s s. Proof. repeat split. Qed.
Lemma frame_trans a b c : frame a b -> frame b c -> frame a c.
Proof. intros (A1 & A2 & A3 & A4 & A5 & A6 & A7) (B1 & B2 & B3 & B4 & B5 & B6 & B7). repeat split; etransitivity; eassumption. Qed.

Lemma data_index d n k j (l : list Qc) : d * n <= length l -> k < n -> j < d -> d * k + j < length l.
Proof. intros. nia. Qed.

Lemma dot_ext n f f' g g' : (forall j, j < n -> f j = f' j) -> (forall j, j < n -> g j = g' j) -> dot n f g = dot n f' g'.
Proof. intros Hf Hg. unfold dot. apply qsum_ext. intros j Lj. rewrite Hf, Hg by exact Lj. reflexivity. Qed.

Lemma inner_ok s k m : dim s * numData s <= length (data s) -> k < numData s -> length m = dim s ->
  inner_product s k m = Some (dot (dim s) (xs s k) (fn m)).
Proof.
  intros Ld Lk Lm. unfold inner_product.
  match goal with |- iter ?n ?b ?s0 = _ => destruct (iter_inv (fun j acc => acc = dot j (xs s k) (fn m)) b n s0) as (r & -> & ->) end; [reflexivity| |reflexivity].
  intros j acc Lj ->. rewrite Nat.add_1_r. assert (Li : dim s * k + j < length (data s)) by (apply (data_index _ (numData s)); assumption).
  rewrite (aget_nth _ _ 0%Qc Li). cbn [obind]. rewrite (aget_nth m j 0%Qc) by lia. eexists. split; reflexivity.
Qed.

Definition shifted (s : svm) (k : nat) (m : list Qc) (c : Qc) : list Qc := map (fun j => fn m j + xs s k j * c)%Qc (seq 0 (dim s)).
Lemma shifted_length s k m c : length (shifted s k m c) = dim s.
Proof. unfold shifted. rewrite map_length, seq_length. reflexivity. Qed.
Lemma shifted_nth s k m c j : j < dim s -> fn (shifted s k m c) j = (fn m j + xs s k j * c)%Qc.
Proof. intro L. unfold shifted, fn. rewrite (AibNew_Proofs.nth_map_seq (fun j => nth j m 0 + xs s k j * c)%Qc); auto. Qed.
Lemma accumulate_ok s k m c : dim s * numData s <= length (data s) -> k < numData s -> length m = dim s ->
  accumulate s k m c = Some (shifted s k m c).
Proof.
  intros Ld Lk Lm. unfold accumulate.
  match goal with |- iter ?n ?b ?s0 = _ => destruct (iter_inv (fun j out => length out = dim s /\ forall i, i < dim s -> fn out i = if i <? j then (fn m i + xs s k i * c)%Qc else fn m i) b n s0) as (r & -> & Lr & Hr) end.
  - split; [exact Lm|]. intros i Li. reflexivity.
  - intros j out Lj (Lo & Ho). rewrite Nat.add_1_r. assert (Li : dim s * k + j < length (data s)) by (apply (data_index _ (numData s)); assumption).
    rewrite (aget_nth _ _ 0%Qc Li). cbn [obind]. rewrite (aget_nth out j 0%Qc) by lia. cbn [obind]. rewrite aset_lt by lia.
    eexists. split; [reflexivity|]. rewrite upd_length. split; [exact Lo|]. intros i Hi. unfold fn. rewrite nth_upd by lia.
    fold (fn out j). fold (fn out i). rewrite !Ho by lia. destruct (Nat.eqb_spec i j) as [->|N].
    + rewrite Nat.ltb_irrefl. destruct (Nat.ltb_spec j (S j)); [reflexivity|lia].
    + destruct (Nat.ltb_spec i j), (Nat.ltb_spec i (S j)); try lia; reflexivity.
  - f_equal. apply (nth_ext _ _ 0%Qc 0%Qc); [rewrite shifted_length; lia|]. intros i Li. fold (fn r i). fold (fn (shifted s k m c) i).
    rewrite shifted_nth, Hr by lia. destruct (Nat.ltb_spec i (dim s)); [reflexivity|lia].
Qed.
Lemma weight_ok s k : sized s -> k < numData s -> weight s k = Some (ps s k).
Proof.
  intros (_ & _ & Hw & _) Lk. unfold weight, weight_of. destruct (weights s) as [w|]; [|reflexivity]. apply aget_nth. specialize (Hw w eq_refl). lia.
Qed.
Lemma score_ok s k : sized s -> k < numData s -> score s k = Some (lin (dim s) (xs s) (bmul s) (fn (model s)) (bias s) k).
Proof.
  intros (Ld & _ & _ & Lm & _) Lk. unfold score. rewrite inner_ok by assumption. cbn. unfold lin. f_equal. f_equal. ring.
Qed.

(** *** statistics *)
Section Stats.
Variable L : losses.
Definition counted (s : svm) (k : nat) : bool := qlt 0 (ps s k).
Definition cj (s : svm) (k : nat) : option Qc := conjFn L (- (fn (alpha s) k) / ps s k)%Qc (ys s k).
Definition val (o : option Qc) : Qc := match o with Some c => c | None => 0%Qc end.
Definition finite (s : svm) : Prop := forall k, k < numData s -> (0 < ps s k)%Qc -> exists c, cj s k = Some c.
Definition sc_lin (s : svm) (k : nat) : Qc := lin (dim s) (xs s) (bmul s) (fn (model s)) (bias s) k.
Definition primal_of (s : svm) : Qc := primal (numData s) (dim s) (xs s) (ys s) (ps s) (lambda s) (bmul s) (lossFn L) (fn (model s)) (bias s).
(** the dual value in terms of the current model *)
Definition dual_of (s : svm) : Qc :=
  (- ridge (dim s) (lambda s) (fn (model s)) (bias s) -
   qsum (numData s) (fun k => if Qclt_le_dec 0 (ps s k) then ps s k * val (cj s k) else 0) / nq (numData s))%Qc.

Lemma counted_dec (p : Qc) (A : Type) (u v : A) : (if qle p 0 then v else u) = (if Qclt_le_dec 0 p then u else v).
Proof.
  destruct (Qclt_le_dec 0 p) as [H|H].
  - destruct (qle p 0) eqn:E; [|reflexivity]. apply qle_true in E. exfalso. qc_lra.
  - destruct (qle p 0) eqn:E; [reflexivity|]. exfalso. rewrite (proj2 (qle_true p 0) H) in E. discriminate E.
Qed.

Lemma reg_ok s : sized s ->
  iter (dim s) (fun i r => do m <- aget (model s) i; Some (r + m * m)%Qc) (bias s * bias s)%Qc = Some (dot (dim s) (fn (model s)) (fn (model s)) + bias s * bias s)%Qc.
Proof.
  intros (_ & _ & _ & Lm & _).
  match goal with |- iter ?n ?b ?s0 = _ => destruct (iter_inv (fun j r => r = dot j (fn (model s)) (fn (model s)) + bias s * bias s)%Qc b n s0) as (r & -> & ->) end; [|intros j r Lj ->; rewrite Nat.add_1_r|reflexivity].
  - unfold dot. cbn. ring.
  - rewrite (aget_nth (model s) j 0%Qc) by lia. eexists. split; [reflexivity|]. unfold dot, fn. cbn. ring.
Qed.
Lemma nq_nonzero n : 0 < n -> nq n <> 0%Qc.
Proof. intro H. apply Homker_Proofs.qc_pos_neq, Homker_Proofs.nq_pos, H. Qed.

Lemma statistics_ok s : sized s -> exists s' st, update_statistics L s = Some (s', st) /\
  s' = with_scores s (scores s') /\ length (scores s') = numData s /\
  (forall k, k < numData s -> (0 < ps s k)%Qc -> fn (scores s') k = sc_lin s k) /\
  st_reg st = ridge (dim s) (lambda s) (fn (model s)) (bias s) /\ st_obj st = primal_of s /\ st_obj st = (st_reg st + st_loss st)%Qc /\
  (forall d, st_dual st = Some d -> finite s /\ d = dual_of s) /\ (finite s -> st_dual st = Some (dual_of s)).
Proof.
  intro W. unfold update_statistics. rewrite (reg_ok s W). cbn [obind].
  match goal with |- context [iter ?n ?b ?s0] => destruct (iter_inv (fun j (st : svm * Qc * option Qc) => let '(s', loss, dd) := st in
     s' = with_scores s (scores s') /\ length (scores s') = numData s /\
     (forall k, k < j -> (0 < ps s k)%Qc -> fn (scores s') k = sc_lin s k) /\
     loss = qsum j (fun k => if Qclt_le_dec 0 (ps s k) then ps s k * lossFn L (sc_lin s k) (ys s k) else 0)%Qc /\
     (forall d, dd = Some d -> (forall k, k < j -> (0 < ps s k)%Qc -> exists c, cj s k = Some c) /\
        d = (- qsum j (fun k => if Qclt_le_dec 0 (ps s k) then ps s k * val (cj s k) else 0))%Qc) /\
     ((forall k, k < j -> (0 < ps s k)%Qc -> exists c, cj s k = Some c) -> exists d, dd = Some d)) b n s0) as (((s' & loss) & dd) & -> & I) end.
  - split; [destruct s; reflexivity|]. split; [apply W|]. split; [intros k Lk; lia|]. split; [reflexivity|]. split; [|eauto].
    intros d E. injection E as <-. split; [intros k Lk; lia|reflexivity].
  - intros j ((s' & loss) & dd) Lj (Es & Ls & Hs & Hl & Hd & Hf). rewrite Nat.add_1_r. unfold statistics_step.
    assert (W' : sized s'). { rewrite Es. destruct W as (A1 & A2 & A3 & A4 & A5 & A6 & A7 & A8). repeat split; assumption. }
    assert (Nj : j < numData s') by (rewrite Es; exact Lj).
    assert (Pj : ps s' j = ps s j) by (rewrite Es; reflexivity).
    rewrite (weight_ok s' j W' Nj). cbn [obind]. rewrite Pj, counted_dec. destruct (Qclt_le_dec 0 (ps s j)) as [P|P].
    + rewrite (score_ok s' j W' Nj). cbn [obind]. rewrite aset_lt by lia. cbn [obind].
      assert (El : labels s' = labels s) by (rewrite Es; reflexivity). assert (Ea : alpha s' = alpha s) by (rewrite Es; reflexivity).
      assert (Ec : lin (dim s') (xs s') (bmul s') (fn (model s')) (bias s') j = sc_lin s j) by (rewrite Es; reflexivity). rewrite Ec, El, Ea.
      rewrite (aget_nth (labels s) j 0%Qc) by (destruct W as (_ & A & _); lia). cbn [obind].
      rewrite (aget_nth (alpha s) j 0%Qc) by (destruct W as (_ & _ & _ & _ & A & _); lia). cbn [obind].
      fold (fn (labels s) j). fold (fn (alpha s) j). fold (cj s j).
      eexists. split; [reflexivity|]. cbn -[sum].
      split; [rewrite Es; reflexivity|]. split; [rewrite upd_length; exact Ls|]. split.
      * intros k Lk Pk. unfold fn. rewrite nth_upd by lia. destruct (Nat.eqb_spec k j) as [->|N]; [reflexivity|]. apply Hs; [lia|exact Pk].
      * split; [cbn [sum]; rewrite <- Hl; destruct (Qclt_le_dec 0 (ps s j)) as [_|P']; [reflexivity|exfalso; qc_lra]|].
        split.
        -- intros d E. destruct dd as [d0|]; [|discriminate E]. destruct (cj s j) as [c|] eqn:C; [|discriminate E]. injection E as <-.
           destruct (Hd d0 eq_refl) as (Hc & ->). split.
           ++ intros k Lk Pk. destruct (Nat.eq_dec k j) as [->|N]; [eauto|]. apply Hc; [lia|exact Pk].
           ++ cbn [sum]. destruct (Qclt_le_dec 0 (ps s j)) as [_|P']; [|exfalso; qc_lra]. rewrite C. cbn [val]. ring.
        -- intro A. destruct Hf as (d0 & ->); [intros k Lk; apply A; lia|]. destruct (A j ltac:(lia) P) as (c & ->). eauto.
    + eexists. split; [reflexivity|]. cbn -[sum]. split; [exact Es|]. split; [exact Ls|]. split.
      * intros k Lk Pk. destruct (Nat.eq_dec k j) as [->|N]; [exfalso; qc_lra|]. apply Hs; [lia|exact Pk].
      * split; [cbn [sum]; destruct (Qclt_le_dec 0 (ps s j)) as [P'|_]; [exfalso; qc_lra|]; rewrite Hl; ring|]. split.
        -- intros d E. destruct (Hd d E) as (Hc & ->). split.
           ++ intros k Lk Pk. destruct (Nat.eq_dec k j) as [->|N]; [exfalso; qc_lra|]. apply Hc; [lia|exact Pk].
           ++ cbn [sum]. destruct (Qclt_le_dec 0 (ps s j)) as [P'|_]; [exfalso; qc_lra|]. ring.
        -- intro A. apply Hf. intros k Lk. apply A. lia.
  - cbv beta iota in I. destruct I as (Es & Ls & Hs & Hl & Hd & Hf). cbn [obind].
    assert (N0 : nq (numData s') <> 0%Qc) by (rewrite Es; cbn; apply nq_nonzero; apply W).
    rewrite (div_ok _ _ N0). cbn [obind]. eexists s', _. split; [reflexivity|]. cbn [st_reg st_loss st_obj st_dual].
    assert (En : numData s' = numData s) by (rewrite Es; reflexivity). rewrite En in *.
    assert (Er : ((dot (dim s) (fn (model s)) (fn (model s)) + bias s * bias s) * (lambda s * half))%Qc = ridge (dim s) (lambda s) (fn (model s)) (bias s)).
    { unfold ridge. generalize (dot (dim s) (fn (model s)) (fn (model s))). intro q. apply Qc_is_canon. unfold half, zq. qc_prep. rewrite this_div, this_Q. field. }
    rewrite Er. split; [exact Es|]. split; [exact Ls|]. split; [exact Hs|]. split; [reflexivity|]. split.
    + unfold primal_of, primal. rewrite Hl. reflexivity.
    + split; [reflexivity|]. split.
      * intros d E. destruct dd as [d0|]; [|discriminate E]. destruct (Hd d0 eq_refl) as (Hc & ->). split; [exact Hc|]. injection E as <-. unfold dual_of.
        field. exact N0.
      * intro F. destruct (Hf F) as (d0 & ->). destruct (Hd d0 eq_refl) as (_ & ->). f_equal. unfold dual_of. field. exact N0.
Qed.
End Stats.
