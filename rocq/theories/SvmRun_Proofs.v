(** Training runs of dual coordinate ascent. *)
From Coq Require Import List Arith ZArith Lia Bool QArith Qcanon Lqa.
From Verif Require Import Base Loop MserSort_Proofs ImOp_Spec ImOp_Proofs Rat Gauss_Model Gauss_Proofs Svm_Model Svm_Spec SvmLoss_Proofs Svm_Proofs SvmDual_Proofs.
From Verif Require Homker_Proofs AibNew_Proofs.
Import ListNotations.
Local Open Scope nat_scope.

(** the predefined losses with the labels and curvatures they are meant for *)
Inductive predefined : losses -> (Qc -> Prop) -> (Qc -> Prop) -> Prop :=
| p_hinge : predefined hinge sign_label positive
| p_hinge2 : predefined hinge2 sign_label nonneg
| p_l1 : predefined l1 any_label positive
| p_l2 : predefined l2 any_label nonneg.
Lemma predefined_fenchel L lab curv : predefined L lab curv -> fenchel lab (lossFn L) (conjFn L).
Proof. destruct 1; [apply hinge_fenchel|apply hinge2_fenchel|apply l1_fenchel|apply l2_fenchel]. Qed.
Lemma predefined_attained L lab curv : predefined L lab curv -> attained lab (lossFn L) (conjFn L).
Proof. destruct 1; [apply hinge_attained|apply hinge2_attained|apply l1_attained|apply l2_attained]. Qed.
Lemma predefined_steps L lab curv : predefined L lab curv -> steps_ok lab curv L.
Proof. destruct 1; [apply hinge_steps|apply hinge2_steps|apply l1_steps|apply l2_steps]. Qed.
Lemma predefined_subgradient L lab curv : predefined L lab curv -> subgradient lab (lossFn L) (derivFn L).
Proof.
  destruct 1; [|apply hinge2_subgradient|apply l1_subgradient|apply l2_subgradient]. intros z z' y _. apply hinge_subgradient. exact I.
Qed.
Lemma predefined_zero L lab curv y : predefined L lab curv -> exists c, conjFn L 0%Qc y = Some c.
Proof.
  destruct 1; cbn; unfold hinge_conj, hinge2_conj, l1_conj, l2_conj; try (replace (y * 0)%Qc with 0%Qc by ring); eexists; cbn; reflexivity.
Qed.

(** a new machine with its settings: weights, bias multiplier, bias learning rate, threshold,
    diagnostic frequency, number of iterations, iteration number *)
Definition start (d n : nat) (x y : list Qc) (lam : Qc) (w : option (list Qc)) (b r e : Qc) (f m it : nat) : svm := configure (new_svm d n x y lam) w b r e f m it.
(** usable input *)
Definition usable (lab curv : Qc -> Prop) (s : svm) : Prop :=
  dim s * numData s <= length (data s) /\ numData s <= length (labels s) /\ (forall w, weights s = Some w -> numData s <= length w) /\
  0 < numData s /\ (0 < lambda s)%Qc /\
  forall k, k < numData s -> lab (ys s k) /\ ((0 < ps s k)%Qc -> curv (ps s k * norm2_of s k)%Qc).

Section Run.
Variables (L : losses) (lab curv : Qc -> Prop).
Hypothesis HL : predefined L lab curv.

Definition sound (s0 s : svm) : Prop := usable lab curv s0 /\ frame s0 s /\ sized s /\ consistent s /\ finite L s.

Lemma start_sound d n x y lam w b r e f m it : let s := start d n x y lam w b r e f m it in usable lab curv s -> sound s s.
Proof.
  intros s U. pose proof U as (A1 & A2 & A3 & A4 & A5 & A6). split; [exact U|]. split; [apply frame_refl|]. split.
  - unfold s. repeat split; cbn; auto; apply repeat_length.
  - split.
    + split; [|split].
      * intros j Lj. unfold comb, fn. cbn. rewrite nth_repeat. rewrite (qsum_ext _ _ (fun _ => 0%Qc)) by (intros; rewrite nth_repeat; ring).
        rewrite (sum_zero _ _ _ _ _ _ Qcrt). unfold Qcdiv. ring.
      * unfold comb_bias, fn. cbn. rewrite (qsum_ext _ _ (fun _ => 0%Qc)) by (intros; apply nth_repeat). rewrite (sum_zero _ _ _ _ _ _ Qcrt). unfold Qcdiv. ring.
      * intros k Lk _. unfold fn. cbn. apply nth_repeat.
    + intros k Lk P. unfold cj, fn. cbn. rewrite nth_repeat. match goal with |- context [(- 0 / ?p)%Qc] => replace (- 0 / p)%Qc with 0%Qc by (unfold Qcdiv; ring) end. apply (predefined_zero L lab curv); exact HL.
Qed.

Lemma frame_ps s0 s : frame s0 s -> ps s = ps s0 /\ ys s = ys s0 /\ xs s = xs s0 /\ norm2_of s = norm2_of s0 /\ numData s = numData s0.
Proof. intros (F1 & F2 & F3 & F4 & F5 & F6 & F7). unfold norm2_of. rewrite F1, F2, F3, F4, F5, F6, F7. repeat split. Qed.

Lemma norms_table s0 s : sized s -> frame s0 s -> exists n2, norms s = Some n2 /\ forall k, k < numData s -> aget n2 k = Some (norm2_of s0 k).
Proof.
  intros W Fr. eexists. split; [apply norms_ok, W|]. intros k Lk. rewrite (aget_nth _ _ 0%Qc) by (rewrite map_length, seq_length; exact Lk).
  match goal with |- Some (nth k (map ?g _) _) = _ => rewrite (AibNew_Proofs.nth_map_seq g (numData s) k 0%Qc Lk) end. fold (norm2_of s k). destruct (frame_ps _ _ Fr) as (_ & _ & _ & -> & _). reflexivity.
Qed.

Lemma sound_step s0 s n2 i : sound s0 s -> (forall k, k < numData s0 -> aget n2 k = Some (norm2_of s0 k)) -> i < numData s0 ->
  exists s', sdca_step L n2 i s = Some s' /\ sound s0 s' /\ settings s s' /\ scores s' = scores s /\ (dual_of L s <= dual_of L s')%Qc /\
    (forall k, k <> i -> fn (alpha s') k = fn (alpha s) k) /\
    ((0 < ps s0 i)%Qc -> exists d, fn (alpha s') i = (fn (alpha s) i + ps s0 i * d)%Qc /\
       optimal_step (conjFn L) (fn (alpha s) i / ps s0 i)%Qc (ps s0 i * norm2_of s0 i)%Qc (sc_lin s i) (ys s0 i) d).
Proof.
  intros (U & Fr & W & C & F) Hn Li. destruct (frame_ps _ _ Fr) as (Ep & Ey & _ & En & EN). pose proof U as (_ & _ & _ & _ & _ & Hu). destruct (Hu i Li) as (Hl & Hc).
  destruct (step_ok L lab curv (predefined_steps _ _ _ HL) s n2 i W C F) as (s' & E & Fr' & St & Sc & W' & C' & F' & D & A & O).
  - rewrite EN. exact Li.
  - rewrite EN, En. exact Hn.
  - rewrite Ey. exact Hl.
  - rewrite Ep, En. exact Hc.
  - exists s'. split; [exact E|]. split; [split; [exact U|]; split; [apply (frame_trans _ s); assumption|]; auto|]. rewrite Ep, En, Ey in O. auto 8.
Qed.
Lemma sound_scores s0 s sc : sound s0 s -> length sc = numData s -> sound s0 (with_scores s sc).
Proof.
  intros (U & Fr & W & C & F) Lsc. split; [exact U|]. split; [exact Fr|]. split; [|split; [exact C|exact F]].
  destruct W as (B1 & B2 & B3 & B4 & B5 & B6 & B7 & B8). repeat split; assumption.
Qed.
Lemma sound_stats s0 s : sound s0 s -> exists s' st, update_statistics L s = Some (s', st) /\ sound s0 s' /\ s' = with_scores s (scores s') /\
  (forall k, k < numData s -> (0 < ps s k)%Qc -> fn (scores s') k = sc_lin s k) /\
  st_reg st = ridge (dim s) (lambda s) (fn (model s)) (bias s) /\ st_obj st = primal_of L s /\ st_obj st = (st_reg st + st_loss st)%Qc /\ st_dual st = Some (dual_of L s) /\
  forall w b, (dual_of L s + distance s w b <= primal_at L s w b)%Qc.
Proof.
  intro S. pose proof S as (U & Fr & W & C & F). destruct (statistics_ok L s W) as (s' & st & E & Es & Ls & Hs & R & O & O' & _ & D).
  exists s', st. split; [exact E|]. split; [rewrite Es; apply sound_scores; assumption|]. split; [exact Es|]. split; [exact Hs|]. split; [exact R|]. split; [exact O|]. split; [exact O'|].
  split; [apply D, F|]. intros w b. apply (weak_duality L lab (predefined_fenchel _ _ _ HL)); try assumption.
  destruct (frame_ps _ _ Fr) as (_ & Ey & _ & _ & EN). rewrite EN, Ey. intros k Lk. apply U. exact Lk.
Qed.

(** states met during training *)
Inductive reach (s0 : svm) : svm -> Prop :=
| reach_start : reach s0 s0
| reach_step s n2 i s' : reach s0 s -> norms s = Some n2 -> i < numData s -> sdca_step L n2 i s = Some s' -> reach s0 s'
| reach_stats s s' st : reach s0 s -> update_statistics L s = Some (s', st) -> reach s0 s'
| reach_settings s r e f m it : reach s0 s -> reach s0 (configure s (weights s) (bmul s) r e f m it).
Lemma reach_sound s0 s : sound s0 s0 -> reach s0 s -> sound s0 s.
Proof.
  intro S0. induction 1 as [|s n2 i s' R IH En Li E|s s' st R IH E|s r e f m it R IH]; [exact S0| | |].
  - pose proof IH as (_ & Fr & W & _). destruct (norms_table s0 s W Fr) as (n2' & En' & Hn). assert (n2' = n2) by congruence. subst n2'.
    destruct (frame_ps _ _ Fr) as (_ & _ & _ & _ & EN). rewrite EN in *. destruct (sound_step s0 s n2 i IH Hn Li) as (s'' & E' & S' & _). assert (s'' = s') by congruence. subst. exact S'.
  - destruct (sound_stats s0 s IH) as (s'' & st' & E' & S' & _). assert (s'' = s') by congruence. subst. exact S'.
  - destruct IH as (U & Fr & W & C & F). split; [exact U|]. split; [exact Fr|]. split; [exact W|]. split; [exact C|exact F].
Qed.

Definition orders (n : nat) (perms : nat -> list nat) : Prop := forall e, length (perms e) = n /\ forall i, In i (perms e) -> i < n.
Lemma orders_get n perms t : 0 < n -> orders n perms -> exists i, aget (perms (t / n)) (t mod n) = Some i /\ i < n.
Proof.
  intros Hn H. destruct (H (t / n)) as (Hl & Hi). assert (t mod n < length (perms (t / n))) as Lt by (rewrite Hl; apply Nat.mod_upper_bound; lia).
  rewrite (aget_nth _ _ 0 Lt). eexists. split; [reflexivity|]. apply Hi, nth_In, Lt.
Qed.
Lemma settings_trans a b c : settings a b -> settings b c -> settings a c.
Proof. intros (A1 & A2 & A3 & A4) (B1 & B2 & B3 & B4). repeat split; etransitivity; eassumption. Qed.

Lemma loop_sound s0 n2 perms : (forall k, k < numData s0 -> aget n2 k = Some (norm2_of s0 k)) -> orders (numData s0) perms ->
  forall fuel t s s' st stat, sound s0 s -> settings s0 s -> sdca_loop L fuel perms n2 t s = Some (s', st, stat) ->
  exists s1, sound s0 s1 /\ settings s0 s1 /\ update_statistics L s1 = Some (s', st) /\ (stat = Converged -> exists d, st_dual st = Some d /\ (st_obj st - d < epsilon s0)%Qc).
Proof.
  intros Hn Ho. induction fuel as [|fuel IH]; intros t s s' st stat S Hse E; [discriminate E|]. cbn [sdca_loop] in E.
  pose proof S as (U & Fr & W & _). destruct (frame_ps _ _ Fr) as (_ & _ & _ & _ & EN). rewrite EN in E.
  destruct (orders_get (numData s0) perms t ltac:(apply U) Ho) as (i & Ei & Li). rewrite Ei in E. cbn [obind] in E.
  destruct (sound_step s0 s n2 i S Hn Li) as (s1 & E1 & S1 & Se1 & _). rewrite E1 in E. cbn [obind] in E.
  assert (Se1' := settings_trans _ _ _ Hse Se1).
  destruct (diagnose s1 t); [|apply (IH _ _ _ _ _ S1 Se1' E)].
  destruct (sound_stats s0 s1 S1) as (s2 & st2 & E2 & S2 & Es2 & _ & _ & _ & _ & D & _). rewrite E2 in E. cbn [obind] in E.
  rewrite D in E. assert (Ee : epsilon s2 = epsilon s0) by (rewrite Es2; cbn; apply Se1'). rewrite Ee in E. destruct (qlt (st_obj st2 - dual_of L s1) (epsilon s0)) eqn:Q.
  - injection E as <- <- <-. exists s1. split; [exact S1|]. split; [exact Se1'|]. split; [exact E2|]. intros _. eexists. split; [exact D|]. apply qlt_true, Q.
  - destruct (t + 1 =? maxit s2) eqn:Q2.
    + injection E as <- <- <-. exists s1. split; [exact S1|]. split; [exact Se1'|]. split; [exact E2|]. intro X. discriminate X.
    + apply (IH _ _ _ _ _ S2) in E; [exact E|]. apply (settings_trans _ s1); [exact Se1'|]. rewrite Es2. repeat split.
Qed.
Lemma loop_stops s0 n2 perms : (forall k, k < numData s0 -> aget n2 k = Some (norm2_of s0 k)) -> orders (numData s0) perms ->
  forall fuel t s, sound s0 s -> settings s0 s -> t < maxit s0 -> maxit s0 <= t + fuel ->
  exists r, sdca_loop L fuel perms n2 t s = Some r.
Proof.
  intros Hn Ho. induction fuel as [|fuel IH]; intros t s S Hse Lt Lf; [lia|]. cbn [sdca_loop].
  pose proof S as (U & Fr & W & _). destruct (frame_ps _ _ Fr) as (_ & _ & _ & _ & EN). rewrite EN.
  destruct (orders_get (numData s0) perms t ltac:(apply U) Ho) as (i & Ei & Li). rewrite Ei. cbn [obind].
  destruct (sound_step s0 s n2 i S Hn Li) as (s1 & E1 & S1 & Se1 & _). rewrite E1. cbn [obind].
  assert (Se1' := settings_trans _ _ _ Hse Se1).
  assert (Dg : t + 1 = maxit s0 -> diagnose s1 t = true).
  { intro Q. unfold diagnose. replace (maxit s1) with (maxit s0) by (symmetry; apply Se1'). rewrite Q, Nat.eqb_refl, orb_true_r. reflexivity. }
  destruct (diagnose s1 t); [|apply IH; auto; lia].
  destruct (sound_stats s0 s1 S1) as (s2 & st2 & E2 & S2 & Es2 & _ & _ & _ & _ & D & _). rewrite E2. cbn [obind]. rewrite D.
  destruct (qlt (st_obj st2 - dual_of L s1) (epsilon s2)); [eauto|].
  assert (Em : maxit s2 = maxit s0) by (rewrite Es2; cbn; apply Se1'). rewrite Em. destruct (Nat.eqb_spec (t + 1) (maxit s0)) as [Q|Q]; [eauto|].
  apply IH; [exact S2| |lia|lia]. apply (settings_trans _ s1); [exact Se1'|]. rewrite Es2. repeat split.
Qed.
End Run.
