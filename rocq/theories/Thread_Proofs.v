From Coq Require Import List ZArith NArith Arith Bool Lia.
From Verif Require Import Base Random_Model Thread_Model Thread_Spec.
Import ListNotations.
Local Open Scope Z_scope.

Definition string (s : list Z) : Prop := Forall (fun c => c <> 0) s.

Lemma write_at_spec s : forall buf i, (i + length s <= length buf)%nat ->
  write_at buf i s = Some (firstn i buf ++ s ++ skipn (i + length s) buf).
Proof.
  induction s as [|c s IH]; intros buf i H; cbn [write_at length app].
  - rewrite Nat.add_0_r, firstn_skipn. reflexivity.
  - cbn [length] in H. rewrite aset_lt by lia. cbn [obind].
    rewrite IH by (rewrite upd_length; lia). f_equal.
    destruct (nth_error buf i) as [x|] eqn:NX; [|apply nth_error_None in NX; lia]. destruct (nth_error_split buf i NX) as (a & b & -> & L). subst i.
    assert (U : upd (a ++ x :: b) (length a) c = a ++ c :: b) by (clear; induction a; cbn; [auto|f_equal; auto]).
    rewrite U.
    replace (firstn (S (length a)) (a ++ c :: b)) with (a ++ [c]).
    2:{ rewrite firstn_app. replace (S (length a) - length a)%nat with 1%nat by lia.
        rewrite firstn_all2 by lia. reflexivity. }
    replace (firstn (length a) (a ++ x :: b)) with a
      by (rewrite firstn_app, Nat.sub_diag, firstn_all; cbn; rewrite app_nil_r; auto).
    rewrite <- app_assoc. cbn [app]. do 3 f_equal.
    rewrite !skipn_app. rewrite !skipn_all2 with (l := a) by lia. cbn [app].
    replace (S (length a) + length s - length a)%nat with (S (length s)) by lia.
    replace (length a + S (length s) - length a)%nat with (S (length s)) by lia. reflexivity.
Qed.

Lemma cstr_spec s tl : string s -> cstr (s ++ 0 :: tl) = Some s.
Proof.
  induction s as [|c s IH]; intro H; cbn; auto. inversion H; subst.
  destruct (Z.eqb_spec c 0); [contradiction|]. rewrite IH by auto. reflexivity.
Qed.

Lemma string_firstn s n : string s -> string (firstn n s).
Proof. unfold string. rewrite !Forall_forall. intros H x Hx. apply H. rewrite <- (firstn_skipn n s). apply in_or_app. auto. Qed.

Lemma snprintf_spec buf m s : length buf = S m -> string s ->
  exists b', snprintf buf (S m) s = Some b' /\ length b' = S m /\ cstr b' = Some (firstn m s).
Proof.
  intros L HS. unfold snprintf.
  assert (LF : (length (firstn m s) <= m)%nat) by apply firstn_le_length.
  rewrite write_at_spec by (rewrite app_length; cbn [length]; lia).
  eexists; split; [reflexivity|]. split.
  - rewrite !app_length, skipn_length, ?app_length. cbn [length firstn]. lia.
  - cbn [firstn app]. rewrite <- app_assoc. cbn [app]. apply cstr_spec, string_firstn. auto.
Qed.

(** The block [b] shows [v]. *)
Definition shows (b : tstate) (v : view) : Prop :=
  t_error b = v_error v /\ t_rand b = v_rand v /\ t_tic b = v_tic v /\
  length (t_message b) = MSG_LEN /\ cstr (t_message b) = Some (v_message v).

Definition wf_call (c : call) : Prop :=
  match c with SetLastError _ (Some s) => string s | _ => True end.
Definition wf_junk (j : tstate) : Prop := length (t_message j) = MSG_LEN.

(** Every thread with a state has its own block. *)
Record good (w : world) (vs : nat -> view) : Prop := {
  g_some : forall t a, tls w t = Some a -> exists b, nth_error (heap w) a = Some b /\ shows b (vs t);
  g_none : forall t, tls w t = None -> vs t = view0;
  g_inj : forall t u a, tls w t = Some a -> tls w u = Some a -> t = u }.

Definition vset (vs : nat -> view) (t : nat) (v : view) : nat -> view := fun u => if Nat.eqb u t then v else vs u.

Lemma tstate_new_shows junk b : wf_junk junk -> tstate_new junk = Some b -> shows b view0.
Proof.
  unfold wf_junk, tstate_new. intros L E.
  rewrite aset_lt in E by (rewrite L; unfold MSG_LEN; lia). cbn [obind rand_init] in E.
  apply (f_equal (fun o => match o with Some x => x | None => b end)) in E. cbv beta iota in E. rewrite <- E.
  unfold shows. cbn [t_error t_rand t_tic t_message v_error v_rand v_tic v_message view0].
  rewrite upd_length. repeat split; auto.
  destruct (t_message junk) as [|x m]; [discriminate L|]. reflexivity.
Qed.

Lemma tstate_new_total junk : wf_junk junk -> exists b, tstate_new junk = Some b.
Proof.
  intros L. unfold tstate_new. unfold wf_junk in L.
  rewrite aset_lt by (rewrite L; unfold MSG_LEN; lia). eexists. reflexivity.
Qed.

Lemma get_state_good junk w t vs : wf_junk junk -> good w vs ->
  exists w1 a b, get_state junk w t = Some (w1, a) /\ good w1 vs /\ tls w1 t = Some a /\
    nth_error (heap w1) a = Some b /\ shows b (vs t).
Proof.
  intros HJ G. unfold get_state. destruct (tls w t) as [a|] eqn:T.
  - destruct (g_some w vs G t a T) as (b & B1 & B2). exists w, a, b. auto.
  - destruct (tstate_new_total junk HJ) as [b B]. rewrite B. cbn [obind].
    pose proof (tstate_new_shows _ _ HJ B) as S0.
    assert (X : nth_error (heap w ++ [b]) (length (heap w)) = Some b)
      by (rewrite nth_error_app2, Nat.sub_diag by lia; reflexivity).
    eexists _, _, b. split; [reflexivity|]. cbn [tls heap]. rewrite Nat.eqb_refl.
    assert (LT : forall u a, tls w u = Some a -> (a < length (heap w))%nat).
    { intros u a U. destruct (g_some w vs G u a U) as (b' & B1 & _). apply nth_error_Some. congruence. }
    split; [|split; [reflexivity|split; [auto|rewrite (g_none w vs G t T); auto]]].
    constructor; cbn [tls heap].
    + intros u a. destruct (Nat.eqb_spec u t) as [->|NE].
      * intro E. inversion E; subst. exists b. rewrite (g_none w vs G t T). auto.
      * intro U. destruct (g_some w vs G u a U) as (b' & B1 & B2). exists b'.
        rewrite nth_error_app1 by eauto. auto.
    + intros u. destruct (Nat.eqb_spec u t); [discriminate|]. apply (g_none w vs G).
    + intros u v a. destruct (Nat.eqb_spec u t), (Nat.eqb_spec v t); intros E1 E2; subst; auto.
      * inversion E1; subst. apply LT in E2. lia.
      * inversion E2; subst. apply LT in E1. lia.
      * eapply (g_inj w vs G); eauto.
Qed.

Lemma store_good w vs t a b v : good w vs -> tls w t = Some a -> shows b v ->
  exists h, aset (heap w) a b = Some h /\ good (mk_world h (tls w)) (vset vs t v).
Proof.
  intros G T S. destruct (g_some w vs G t a T) as (b0 & B0 & _).
  assert (LT : (a < length (heap w))%nat) by (apply nth_error_Some; congruence).
  rewrite aset_lt by auto. eexists; split; [reflexivity|]. unfold vset. constructor; cbn [tls heap].
  - intros u a' U. destruct (Nat.eqb_spec u t) as [->|NE].
    + assert (a' = a) by congruence. subst a'. exists b. rewrite nth_error_upd_eq by auto. auto.
    + destruct (g_some w vs G u a' U) as (b1 & B1 & S1). exists b1.
      rewrite nth_error_upd_neq; auto. intros <-. apply NE. eapply (g_inj w vs G); eauto.
  - intros u U. destruct (Nat.eqb_spec u t) as [->|NE]; [congruence|]. apply (g_none w vs G u U).
  - apply (g_inj w vs G).
Qed.

Lemma good_ext w vs vs' : (forall t, vs t = vs' t) -> good w vs -> good w vs'.
Proof.
  intros E G. constructor.
  - intros t a T. rewrite <- E. apply (g_some w vs G); auto.
  - intros t T. rewrite <- E. apply (g_none w vs G); auto.
  - apply (g_inj w vs G).
Qed.

Lemma do_call_good junk w t c vs v' r : wf_junk junk -> wf_call c -> good w vs ->
  view_call (vs t) c = Some (v', r) ->
  exists w', do_call junk w t c = Some (w', r) /\ good w' (vset vs t v').
Proof.
  intros HJ HC G HV. unfold do_call.
  destruct (get_state_good junk w t vs HJ G) as (w1 & a & b & E & G1 & T & B & S).
  rewrite E. cbn [obind]. unfold aget. rewrite B. cbn [obind].
  assert (SAME : v' = vs t -> good w1 (vset vs t v')).
  { intros ->. apply (good_ext w1 vs); auto. intro u. unfold vset. destruct (Nat.eqb_spec u t); congruence. }
  destruct S as (S1 & S2 & S3 & S4 & S5). unfold view_call in HV.
  destruct c as [e [s|]| | |now|now|o].
  - inversion HV; subst; clear HV.
    destruct (snprintf_spec (t_message b) 1023 s) as (msg & M1 & M2 & M3); [exact S4|exact HC|].
    change (snprintf (t_message b) MSG_LEN s) with (snprintf (t_message b) (S 1023) s).
    rewrite M1. cbn [obind].
    destruct (store_good w1 vs t a (mk_tstate e msg (t_rand b) (t_tic b)) (mk_view e (firstn 1023 s) (v_rand (vs t)) (v_tic (vs t))) G1 T)
      as (h & H1 & H2).
    + unfold shows. cbn [t_error t_rand t_tic t_message v_error v_rand v_tic v_message].
      repeat split; auto.
    + rewrite H1. cbn [obind]. eauto.
  - inversion HV; subst; clear HV.
    rewrite aset_lt by (rewrite S4; unfold MSG_LEN; lia). cbn [obind].
    destruct (store_good w1 vs t a (mk_tstate e (upd (t_message b) 0 0) (t_rand b) (t_tic b)) (mk_view e [] (v_rand (vs t)) (v_tic (vs t))) G1 T)
      as (h & H1 & H2).
    + unfold shows. cbn [t_error t_rand t_tic t_message v_error v_rand v_tic v_message].
      rewrite upd_length. repeat split; auto. destruct (t_message b); [discriminate S4|reflexivity].
    + rewrite H1. cbn [obind]. eauto.
  - inversion HV; subst. rewrite S1. eauto.
  - inversion HV; subst. rewrite S5. cbn [obind]. eauto.
  - inversion HV; subst; clear HV.
    destruct (store_good w1 vs t a (mk_tstate (t_error b) (t_message b) (t_rand b) now)
      (mk_view (v_error (vs t)) (v_message (vs t)) (v_rand (vs t)) now) G1 T) as (h & H1 & H2).
    + unfold shows. cbn. auto.
    + rewrite H1. cbn [obind]. eauto.
  - inversion HV; subst. rewrite S3. eauto.
  - rewrite S2. destruct (rand_step (v_rand (vs t)) o) as [[g q]|]; [|discriminate].
    inversion HV; subst; clear HV. cbn [obind].
    destruct (store_good w1 vs t a (mk_tstate (t_error b) (t_message b) g (t_tic b))
      (mk_view (v_error (vs t)) (v_message (vs t)) g (v_tic (vs t))) G1 T) as (h & H1 & H2).
    + unfold shows. cbn. auto.
    + rewrite H1. cbn [obind]. eauto.
Qed.

Definition wf_history (h : history) : Prop := Forall (fun x => wf_call (snd (fst x)) /\ wf_junk (snd x)) h.

Lemma run_calls_good h : forall w vs rs, wf_history h -> good w vs ->
  (forall t, exists v, view_calls (vs t) (calls_of t h) = Some (v, rs t)) ->
  exists w' l, run_calls w h = Some (w', l) /\ forall t, answers_of t l = rs t.
Proof.
  induction h as [|[[t c] junk] h IH]; intros w vs rs HW G HV.
  - exists w, []. split; [reflexivity|]. intro t. destruct (HV t) as [v E]. cbn in E. inversion E. reflexivity.
  - inversion HW as [|? ? [H1 H2] HW']; subst. cbn [fst snd] in *. cbn [run_calls].
    destruct (HV t) as [v E]. unfold calls_of in E. cbn [filter fst snd] in E. rewrite Nat.eqb_refl in E.
    cbn [map fst snd view_calls] in E.
    destruct (view_call (vs t) c) as [[v1 r]|] eqn:EC; [|discriminate].
    fold (calls_of t h) in E.
    destruct (view_calls v1 (calls_of t h)) as [[v2 rs2]|] eqn:EV; [|discriminate].
    inversion E; subst; clear E.
    destruct (do_call_good junk w t c vs v1 r H2 H1 G EC) as (w1 & D & G1).
    rewrite D. cbn [obind].
    destruct (IH w1 (vset vs t v1) (fun u => if Nat.eqb u t then rs2 else rs u) HW' G1) as (w2 & l & R & HL).
    { intro u. unfold vset. destruct (Nat.eqb_spec u t) as [->|NE].
      - eauto.
      - destruct (HV u) as [v0 E0]. exists v0. unfold calls_of in E0. cbn [filter fst snd] in E0.
        destruct (Nat.eqb_spec t u); [congruence|]. exact E0. }
    rewrite R. cbn [obind]. eexists _, _. split; [reflexivity|].
    intro u. unfold answers_of. cbn [filter fst]. specialize (HL u). unfold answers_of in HL.
    destruct (Nat.eqb_spec t u) as [<-|NE].
    + cbn [map snd]. rewrite HL, Nat.eqb_refl. auto.
    + rewrite HL. destruct (Nat.eqb_spec u t); [congruence|]. reflexivity.
Qed.

Lemma world0_good : good world0 (fun _ => view0).
Proof. constructor; cbn; congruence. Qed.
