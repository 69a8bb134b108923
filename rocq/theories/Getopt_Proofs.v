From Coq Require Import List ZArith Arith Bool Lia.
From Verif Require Import Base Getopt_Model Getopt_Spec.
Import ListNotations.
Local Open Scope Z_scope.

(** ** The circular shift *)
Lemma nth_error_mid {A} (a : list A) x b : nth_error (a ++ x :: b) (length a) = Some x.
Proof. rewrite nth_error_app2 by lia. rewrite Nat.sub_diag. reflexivity. Qed.

Lemma upd_mid {A} (a : list A) x b v : upd (a ++ x :: b) (length a) v = a ++ v :: b.
Proof. induction a; cbn; [auto|]. f_equal. auto. Qed.

Lemma shift_right_ok : forall s a x b,
  shift_right (length s) (a ++ s ++ x :: b) (length a + length s) =
  Some (a ++ (match s with [] => x | y :: _ => y end) :: s ++ b).
Proof.
  intro s. induction s as [|z s IH] using rev_ind; intros a x b.
  - cbn. reflexivity.
  - rewrite app_length. cbn [length]. rewrite Nat.add_1_r. cbn [shift_right].
    replace (length a + S (length s) - 1)%nat with (length a + length s)%nat by lia.
    unfold aget at 1. rewrite <- app_assoc. cbn [app].
    assert (E : nth_error (a ++ s ++ z :: x :: b) (length a + length s) = Some z).
    { rewrite app_assoc. rewrite <- app_length. apply nth_error_mid. }
    rewrite E. cbn [obind]. rewrite aset_lt by (rewrite !app_length; cbn [length]; lia). cbn [obind].
    replace (upd (a ++ s ++ z :: x :: b) (length a + S (length s)) z) with (a ++ s ++ z :: z :: b).
    2:{ replace (a ++ s ++ z :: x :: b) with ((a ++ s ++ [z]) ++ x :: b) by (rewrite <- !app_assoc; reflexivity).
        replace (length a + S (length s))%nat with (length (a ++ s ++ [z])) by (rewrite !app_length; cbn; lia).
        rewrite upd_mid. rewrite <- !app_assoc. reflexivity. }
    rewrite IH. f_equal. f_equal. f_equal; [destruct s; reflexivity|].
    rewrite <- app_assoc. reflexivity.
Qed.

Lemma rotate1_ok a s x b :
  rotate1 (a ++ s ++ x :: b) (length a) (length a + length s + 1) = Some (a ++ x :: s ++ b).
Proof.
  unfold rotate1. replace (length a + length s + 1 - 1)%nat with (length a + length s)%nat by lia.
  unfold aget at 1. replace (nth_error (a ++ s ++ x :: b) (length a + length s)) with (Some x).
  2:{ rewrite app_assoc, <- app_length, nth_error_mid. reflexivity. }
  cbn [obind]. replace (length a + length s - length a)%nat with (length s) by lia.
  rewrite shift_right_ok. cbn [obind]. rewrite aset_lt by (rewrite app_length; cbn; lia).
  rewrite upd_mid. reflexivity.
Qed.

Lemma rotate_ok : forall blk a s b,
  rotate (length blk) (a ++ s ++ blk ++ b) (length a) (length a + length s + length blk)
  = Some (a ++ blk ++ s ++ b).
Proof.
  intro blk. induction blk as [|x blk IH] using rev_ind; intros a s b.
  - reflexivity.
  - rewrite app_length. cbn [length]. rewrite (Nat.add_1_r (length blk)). cbn [rotate].
    replace (a ++ s ++ (blk ++ [x]) ++ b) with (a ++ (s ++ blk) ++ x :: b) by (rewrite <- !app_assoc; reflexivity).
    replace (length a + length s + S (length blk))%nat with (length a + length (s ++ blk) + 1)%nat
      by (rewrite app_length; lia).
    rewrite rotate1_ok. cbn [obind].
    specialize (IH a (x :: s) b). cbn [app length] in IH. rewrite <- app_assoc.
    replace (length a + length (s ++ blk) + 1)%nat with (length a + S (length s) + length blk)%nat
      by (rewrite app_length; lia).
    rewrite IH. cbn [app]. rewrite <- app_assoc. cbn [app]. reflexivity.
Qed.

(** ** Lookups *)
Lemma str_eqb_spec a b : str_eqb a b = true <-> a = b.
Proof.
  revert b; induction a as [|x a IH]; intros [|y b]; cbn [str_eqb]; split; intro H; try discriminate; auto.
  - apply andb_true_iff in H as [H1 H2]. apply Z.eqb_eq in H1. apply IH in H2. congruence.
  - inversion H; subst. rewrite Z.eqb_refl. cbn. apply IH. reflexivity.
Qed.

Lemma named_cspn body name v : named body name v ->
  cspn_eq body = length name /\ firstn (length name) body = name /\
  skipn (length name) body = match v with None => [] | Some v => 61 :: v end.
Proof.
  intros [HN HB]. split.
  - assert (forall name tl, ~ In 61 name -> (tl = [] \/ exists t, tl = 61 :: t) -> cspn_eq (name ++ tl) = length name).
    { clear. induction name as [|c name IH]; intros tl HI HT; cbn.
      - destruct HT as [->|[t ->]]; reflexivity.
      - cbn in HI. destruct (Z.eqb_spec c 61); [tauto|]. f_equal. apply IH; auto. }
    destruct v; subst body; [apply H; eauto|]. rewrite <- (app_nil_r name) at 1. apply H; auto.
  - destruct v; subst body.
    + rewrite firstn_app, skipn_app, firstn_all, skipn_all, Nat.sub_diag. cbn. rewrite app_nil_r. auto.
    + rewrite firstn_all, skipn_all. auto.
Qed.

Lemma named_exists body : exists name v, named body name v.
Proof.
  induction body as [|c body (name & v & HI & HB)].
  - exists [], None. split; auto.
  - destruct (Z.eq_dec c 61) as [->|NE].
    + exists [], (Some body). split; auto.
    + exists (c :: name), v. split; [cbn; intros [?|?]; auto|]. destruct v; subst; reflexivity.
Qed.

Lemma named_none body name : named body name None -> name = body.
Proof. intros [_ H]. auto. Qed.

Lemma find_long_spec body name v longs : named body name v -> forall i,
  match find_long body (cspn_eq body) longs i with
  | Some (j, o) => (i <= j)%nat /\ lookup longs name (j - i) o
  | None => forall o, In o longs -> lo_name o <> name
  end.
Proof.
  intros HN. destruct (named_cspn _ _ _ HN) as (E1 & E2 & E3). rewrite E1.
  induction longs as [|o longs IH]; intro i; cbn [find_long]; [intros o []|].
  rewrite E2. destruct (_ && _)%bool eqn:B.
  - apply andb_true_iff in B as [B1 B2]. apply str_eqb_spec in B2.
    split; [lia|]. exists [], longs. rewrite Nat.sub_diag. auto.
  - assert (HNE : lo_name o <> name).
    { intro X. rewrite X, Nat.eqb_refl in B. cbn in B. rewrite (proj2 (str_eqb_spec name name) eq_refl) in B. discriminate. }
    specialize (IH (S i)). destruct (find_long body (length name) longs (S i)) as [[j o']|].
    + destruct IH as [HL (pre & post & -> & HP & HO & HF)]. split; [lia|].
      exists (o :: pre), post. cbn. repeat split; auto. lia.
    + intros o' [<-|H]; auto.
Qed.

Lemma lookup_det longs name i o j p : lookup longs name i o -> lookup longs name j p -> i = j /\ o = p.
Proof.
  intros (pr & po & E & L & N & F) (pr' & po' & E' & L' & N' & F'). rewrite E in E'. subst i j. clear E.
  revert pr' E' F F'. induction pr as [|x pr IH]; intros [|y pr'] E' F F'; cbn in E'; inversion E'; subst.
  - auto.
  - inversion F'; subst. congruence.
  - inversion F; subst. congruence.
  - inversion F; inversion F'; subst. destruct (IH pr' H1) as [X1 X2]; auto. cbn. split; auto.
Qed.

Lemma find_long_lookup body name v longs i o : named body name v -> lookup longs name i o ->
  find_long body (cspn_eq body) longs 0 = Some (i, o).
Proof.
  intros HN HL. pose proof (find_long_spec body name v longs HN 0) as H.
  destruct (find_long _ _ _ _) as [[j p]|].
  - destruct H as [_ H]. rewrite Nat.sub_0_r in H. destruct (lookup_det _ _ _ _ _ _ HL H). subst. auto.
  - exfalso. destruct HL as (pre & post & -> & _ & HN' & _). apply (H o); auto.
    apply in_or_app. right. left. auto.
Qed.

Lemma find_long_none body name v longs : named body name v ->
  (forall o, In o longs -> lo_name o <> name) -> find_long body (cspn_eq body) longs 0 = None.
Proof.
  intros HN HL. pose proof (find_long_spec body name v longs HN 0) as H.
  destruct (find_long _ _ _ _) as [[j p]|]; auto.
  destruct H as [_ (pre & post & -> & _ & HN' & _)]. exfalso. apply (HL p); auto.
  apply in_or_app. right. left. auto.
Qed.

Lemma strchr_none (s : list Z) c : ~ In c s -> strchr s c = None.
Proof.
  induction s as [|x s IH]; intro H; cbn; auto. cbn in H.
  destruct (Z.eqb_spec x c); [tauto|]. apply IH. tauto.
Qed.

Lemma strchr_first (pre : list Z) c post : ~ In c pre -> strchr (pre ++ c :: post) c = Some (c :: post).
Proof.
  induction pre as [|x pre IH]; intro H; cbn.
  - rewrite Z.eqb_refl. auto.
  - cbn in H. destruct (Z.eqb_spec x c); [tauto|]. apply IH. tauto.
Qed.

Lemma first_occ (s : list Z) c : In c s -> exists pre post, s = pre ++ c :: post /\ ~ In c pre.
Proof.
  induction s as [|x s IH]; intros []; destruct (Z.eq_dec x c) as [->|NE].
  - exists [], s. auto.
  - congruence.
  - exists [], s. auto.
  - destruct (IH H) as (pre & post & -> & HI). exists (x :: pre), post. cbn. split; auto. intros [?|?]; auto.
Qed.

(** ** Looking for the next option *)
Definition free_arg (a : list Z) : Prop := hd_error a <> Some 45.

Lemma find_option_skip fr : forall fuel pre rest argc, Forall free_arg fr ->
  (length pre + length fr < argc)%nat -> (length fr < fuel)%nat ->
  find_option fuel (pre ++ map Some fr ++ rest) argc (length pre) =
  find_option (fuel - length fr) (pre ++ map Some fr ++ rest) argc (length pre + length fr).
Proof.
  induction fr as [|a fr IH]; intros fuel pre rest argc HF HL HFu.
  - cbn. rewrite Nat.sub_0_r, Nat.add_0_r. reflexivity.
  - inversion HF as [|? ? Ha HF']; subst. cbn [length map app] in *.
    destruct fuel as [|fuel]; [lia|]. cbn [find_option].
    unfold aget at 1. rewrite nth_error_mid. cbn [obind].
    specialize (IH fuel (pre ++ [Some a]) rest argc HF').
    rewrite <- app_assoc, app_length in IH. cbn [app length] in IH.
    assert (HLe : (argc <=? length pre + 1)%nat = false) by (apply Nat.leb_gt; lia).
    replace (length pre + S (length fr))%nat with (length pre + 1 + length fr)%nat by lia.
    replace (S fuel - S (length fr))%nat with (fuel - length fr)%nat by lia.
    rewrite <- IH by lia.
    destruct a as [|c a]; rewrite ?HLe; auto.
    unfold free_arg in Ha. cbn in Ha. destruct (Z.eqb_spec c 45); [subst; tauto|]. reflexivity.
Qed.

Lemma find_option_hit fuel pre body rest argc : (0 < fuel)%nat ->
  find_option fuel (pre ++ Some (45 :: body) :: rest) argc (length pre) = Some (Some (length pre, body)).
Proof.
  intro H. destruct fuel; [lia|]. cbn [find_option]. unfold aget. rewrite nth_error_mid. reflexivity.
Qed.

Lemma find_option_end fr : forall fuel pre argc, Forall free_arg fr -> fr <> [] ->
  argc = (length pre + length fr)%nat -> (length fr <= fuel)%nat ->
  find_option fuel (pre ++ map Some fr ++ [None]) argc (length pre) = Some None.
Proof.
  induction fr as [|a fr IH]; intros fuel pre argc HF HN HL HFu; [congruence|].
  inversion HF as [|? ? Ha HF']; subst. cbn [length map app] in *.
  destruct fuel as [|fuel]; [lia|]. cbn [find_option].
  unfold aget at 1. rewrite nth_error_mid. cbn [obind].
  assert (Hc : forall c a', a = c :: a' -> (c =? 45) = false).
  { intros c a' ->. unfold free_arg in Ha. cbn in Ha. destruct (Z.eqb_spec c 45); [subst; tauto|]. reflexivity. }
  assert (HG : (if (length pre + S (length fr) <=? length pre + 1)%nat then Some None
     else find_option fuel (pre ++ Some a :: map Some fr ++ [None]) (length pre + S (length fr)) (length pre + 1)) = Some None).
  { destruct (Nat.leb_spec (length pre + S (length fr)) (length pre + 1)); auto.
    destruct fr as [|b fr]; [cbn in *; lia|].
    specialize (IH fuel (pre ++ [Some a]) (length pre + S (length (b :: fr)))%nat HF' ltac:(discriminate)).
    rewrite <- app_assoc, app_length in IH. cbn [app] in IH. apply IH; cbn [length] in *; lia. }
  destruct a as [|c a]; [apply HG|]. rewrite (Hc c a eq_refl). apply HG.
Qed.

(** ** One option *)
Section Run.
  Variables (optstring0 : list Z) (longs : list longopt) (argc : nat).
  Let colon := fst (split_colon optstring0).
  Let optstring := snd (split_colon optstring0).
  Hypothesis Hchars : ~ In (-1) optstring.
  Hypothesis Hvals : Forall (fun o => lo_val o <> -1) longs.

  Lemma done_ok P F B R s e :
    g_argv s = P ++ F ++ B ++ R -> g_ind s = length P -> g_begin s = (length P + length F)%nat ->
    g_end s = (length P + length F + length B)%nat ->
    done_option s e = Some (mk_gst (P ++ B ++ F ++ R) (length P + length B) (g_begin s) (g_end s)
      (g_place s) (g_arg s) (g_opt s) (g_reset s), e).
  Proof.
    intros E1 E2 E3 E4. unfold done_option. rewrite E1, E2, E3, E4.
    replace (length P + length F + length B - (length P + length F))%nat with (length B) by lia.
    rewrite rotate_ok. reflexivity.
  Qed.

  (** Between calls: [P] processed, [F] free arguments seen, [T] still to see. *)
  Definition ready (P : list (option (list Z))) (F T : list (list Z)) (s : gst) : Prop :=
    g_argv s = P ++ map Some F ++ map Some T ++ [None] /\ g_ind s = length P /\
    g_place s = [] /\ argc = (length P + length F + length T)%nat.

  (** Inside the cluster [a]. *)
  Definition mid P F a T body (s : gst) : Prop :=
    g_argv s = P ++ map Some F ++ Some a :: map Some T ++ [None] /\ g_ind s = length P /\
    g_begin s = (length P + length F)%nat /\ g_end s = (length P + length F + 1)%nat /\
    g_place s = body /\ g_arg s = None /\ g_reset s = false /\
    argc = (length P + length F + 1 + length T)%nat.

  Notation run := (fun fuel => getopt_run fuel argc optstring0 longs).
  Definition after (fuel : nat) (r : option (gst * event)) : option (gst * list event) :=
    do (s1, e) <- r;
    if ev_ret e =? -1 then Some (s1, [])
    else do (s2, es) <- getopt_run fuel argc optstring0 longs s1; Some (s2, e :: es).

  Lemma run_S fuel s : getopt_run (S fuel) argc optstring0 longs s =
    after fuel (getopt_long argc optstring0 longs s).
  Proof. reflexivity. Qed.

  Lemma ret_ok c : In c optstring -> (c =? -1) = false.
  Proof. intro H. apply Z.eqb_neq. intros ->. auto. Qed.

  Lemma plain_In c : plain optstring c -> In c optstring.
  Proof. intros (pre & post & -> & _). apply in_or_app. right. left. auto. Qed.
  Lemma takes_In c : takes_arg optstring c -> In c optstring.
  Proof. intros (pre & post & -> & _). apply in_or_app. right. left. auto. Qed.

  Lemma missing_ok : (missing colon =? -1) = false.
  Proof. unfold missing. destruct colon; reflexivity. Qed.

  Lemma getopt_mid P F a T c body s : mid P F a T (c :: body) s ->
    getopt_long argc optstring0 longs s = short_option colon optstring argc s.
  Proof.
    intros (_ & _ & _ & _ & HP & _ & HR & _). unfold getopt_long.
    unfold colon, optstring. destruct (split_colon optstring0) as [hc os]. cbn [fst snd].
    rewrite HR, HP. reflexivity.
  Qed.

  Lemma cluster_ok : forall body rest evs k, shorts colon optstring body rest evs k ->
    forall P F a s, body <> [] -> mid P F a rest body s ->
    exists s', ready (P ++ map Some (a :: firstn k rest)) F (skipn k rest) s' /\
    forall fuel, after (length evs - 1 + fuel) (short_option colon optstring argc s) =
      do (s2, es) <- getopt_run fuel argc optstring0 longs s'; Some (s2, evs ++ es).
  Proof.
    intros body rest evs k HS. induction HS; intros P F a s HN HM; [congruence| | | | |];
      destruct HM as (E1 & E2 & E3 & E4 & E5 & E6 & E7 & E8); unfold short_option; rewrite E5.
    - (* unknown *)
      rewrite strchr_none by auto. destruct body as [|b body].
      + rewrite done_ok with (P := P) (F := map Some F) (B := [Some a]) (R := map Some rest ++ [None]);
          cbn [g_argv g_ind g_begin g_end]; rewrite ?map_length; auto.
        inversion HS; subst. cbn [firstn skipn length app map].
        eexists; split; [|intro fuel; cbn [after obind ev_ret]; rewrite E6; cbn [g_arg]; reflexivity].
        cbn [g_place g_arg g_opt g_reset]. unfold ready. cbn [g_argv g_ind g_place].
        rewrite app_length, <- app_assoc. cbn [length app]. repeat split; auto; lia.
      + set (s1 := mk_gst _ _ _ _ _ _ _ _).
        destruct (IHHS P F a s1) as (s' & HR & HE); [discriminate|unfold mid; cbn [s1 g_argv g_ind g_begin g_end g_place g_arg g_reset]; auto 10|].
        exists s'. split; auto. intro fuel. unfold after. cbn [obind ev_ret]. cbn [Z.eqb].
        assert (M1 : mid P F a rest (b :: body) s1) by (unfold mid; cbn [s1 g_argv g_ind g_begin g_end g_place g_arg g_reset]; auto 10).
        assert (HL : (0 < length evs)%nat) by (inversion HS; cbn; lia).
        replace (length (mk_event 63 None None None :: evs) - 1 + fuel)%nat with (S (length evs - 1 + fuel)) by (cbn; lia).
        rewrite run_S, (getopt_mid _ _ _ _ _ _ _ M1), HE. cbn [g_arg s1]. rewrite E6.
        destruct (getopt_run fuel argc optstring0 longs s') as [[s2 es]|]; reflexivity.
    - (* plain *)
      pose proof (ret_ok c (plain_In c H)) as HRT.
      destruct H as (pre & post & EO & HI & HH).
      replace (strchr optstring c) with (Some (c :: post)) by (rewrite EO; symmetry; apply strchr_first; auto).
      replace (match post with x :: _ => x =? 58 | [] => false end) with false.
      2:{ destruct post as [|x post]; auto. cbn in HH. symmetry. apply Z.eqb_neq. congruence. }
      destruct body as [|b body].
      + rewrite done_ok with (P := P) (F := map Some F) (B := [Some a]) (R := map Some rest ++ [None]);
          cbn [g_argv g_ind g_begin g_end]; rewrite ?map_length; auto.
        inversion HS; subst. cbn [firstn skipn length app map].
        eexists; split; [|intro fuel; cbn [after obind ev_ret]; rewrite HRT, E6; cbn [g_arg]; reflexivity].
        cbn [g_place g_arg g_opt g_reset]. unfold ready. cbn [g_argv g_ind g_place].
        rewrite app_length, <- app_assoc. cbn [length app]. repeat split; auto; lia.
      + set (s1 := mk_gst _ _ _ _ _ _ _ _).
        destruct (IHHS P F a s1) as (s' & HR & HE); [discriminate|unfold mid; cbn [s1 g_argv g_ind g_begin g_end g_place g_arg g_reset]; auto 10|].
        exists s'. split; auto. intro fuel. unfold after. cbn [obind ev_ret]. rewrite HRT.
        assert (M1 : mid P F a rest (b :: body) s1) by (unfold mid; cbn [s1 g_argv g_ind g_begin g_end g_place g_arg g_reset]; auto 10).
        assert (HL : (0 < length evs)%nat) by (inversion HS; cbn; lia).
        replace (length (mk_event c None None None :: evs) - 1 + fuel)%nat with (S (length evs - 1 + fuel)) by (cbn; lia).
        rewrite run_S, (getopt_mid _ _ _ _ _ _ _ M1), HE. cbn [g_arg s1]. rewrite E6.
        destruct (getopt_run fuel argc optstring0 longs s') as [[s2 es]|]; reflexivity.
    - (* -ovalue *)
      pose proof (ret_ok c (takes_In c H)) as HRT.
      destruct H as (pre & post & EO & HI).
      replace (strchr optstring c) with (Some (c :: 58 :: post)) by (rewrite EO; symmetry; apply strchr_first; auto).
      cbn [Z.eqb Pos.eqb]. destruct body as [|b body]; [congruence|].
      rewrite done_ok with (P := P) (F := map Some F) (B := [Some a]) (R := map Some rest ++ [None]);
        cbn [g_argv g_ind g_begin g_end]; rewrite ?map_length; auto.
      eexists; split; [|intro fuel; cbn [after obind ev_ret]; rewrite HRT; reflexivity].
      unfold ready. cbn [g_argv g_ind g_place firstn skipn map]. rewrite app_length, <- app_assoc. cbn [length app].
      repeat split; auto; lia.
    - (* -o value *)
      pose proof (ret_ok c (takes_In c H)) as HRT.
      destruct H as (pre & post & EO & HI).
      replace (strchr optstring c) with (Some (c :: 58 :: post)) by (rewrite EO; symmetry; apply strchr_first; auto).
      cbn [Z.eqb Pos.eqb]. cbn [length] in E8.
      cbn [g_argv g_ind g_begin g_end].
      destruct (Nat.leb_spec (argc - 1) (g_begin s)); [lia|].
      unfold aget. rewrite E1, E4. cbn [map app].
      replace (nth_error _ _) with (Some (Some v)).
      2:{ replace (P ++ map Some F ++ Some a :: Some v :: map Some rest ++ [None])
            with ((P ++ map Some F ++ [Some a]) ++ Some v :: map Some rest ++ [None]) by (rewrite <- !app_assoc; reflexivity).
          replace (length P + length F + 1)%nat with (length (P ++ map Some F ++ [Some a]))
            by (rewrite !app_length, map_length; cbn; lia). rewrite nth_error_mid. reflexivity. }
      cbn [obind].
      rewrite done_ok with (P := P) (F := map Some F) (B := [Some a; Some v]) (R := map Some rest ++ [None]);
        cbn [g_argv g_ind g_begin g_end]; rewrite ?map_length; auto; [|cbn; lia].
      eexists; split; [|intro fuel; cbn [after obind ev_ret]; rewrite HRT; reflexivity].
      unfold ready. cbn [g_argv g_ind g_place firstn skipn map]. rewrite app_length, <- app_assoc. cbn [length app].
      repeat split; auto; lia.
    - (* -o missing *)
      destruct H as (pre & post & EO & HI).
      replace (strchr optstring c) with (Some (c :: 58 :: post)) by (rewrite EO; symmetry; apply strchr_first; auto).
      cbn [Z.eqb Pos.eqb]. cbn [length] in E8. cbn [g_argv g_ind g_begin g_end].
      destruct (Nat.leb_spec (argc - 1) (g_begin s)); [|lia].
      rewrite done_ok with (P := P) (F := map Some F) (B := [Some a]) (R := [None]);
        cbn [g_argv g_ind g_begin g_end]; rewrite ?map_length; auto.
      eexists; split; [|intro fuel; unfold after; cbn [obind ev_ret]; fold (missing colon);
        change (if colon then BADARG else BADCH) with (missing colon); rewrite missing_ok, E6; cbn [g_arg]; reflexivity].
      unfold ready. cbn [g_argv g_ind g_place firstn skipn map]. rewrite app_length, <- app_assoc. cbn [length app].
      repeat split; auto; cbn; lia.
  Qed.
  Lemma found_ok i o arg : In o longs -> (ev_ret (found i o arg) =? -1) = false.
  Proof.
    intro H. rewrite Forall_forall in Hvals. specialize (Hvals o H). unfold found.
    destruct (lo_flag o); cbn; [reflexivity|]. apply Z.eqb_neq. auto.
  Qed.

  Lemma lookup_In name i o : lookup longs name i o -> In o longs.
  Proof. intros (pre & post & -> & _). apply in_or_app. right. left. auto. Qed.

  Lemma long_ok body rest ev k P F a s place : long colon longs body rest ev k ->
    mid P F a rest place s ->
    exists s', ready (P ++ map Some (a :: firstn k rest)) F (skipn k rest) s' /\
      long_option colon longs argc s body = Some (s', ev) /\ (ev_ret ev =? -1) = false.
  Proof.
    intros HL (E1 & E2 & E3 & E4 & E5 & E6 & E7 & E8). unfold long_option.
    assert (HD : forall s0 e, g_argv s0 = g_argv s -> g_ind s0 = g_ind s -> g_begin s0 = g_begin s ->
       g_end s0 = g_end s -> g_place s0 = [] -> exists s', ready (P ++ [Some a]) F rest s' /\ done_option s0 e = Some (s', e)).
    { intros s0 e X1 X2 X3 X4 X5.
      rewrite done_ok with (P := P) (F := map Some F) (B := [Some a]) (R := map Some rest ++ [None]);
        rewrite ?map_length; try congruence.
      - eexists; split; [|reflexivity]. unfold ready. cbn [g_argv g_ind g_place].
        rewrite app_length, <- app_assoc. cbn [length app]. repeat split; auto; lia.
      - rewrite X1, E1. reflexivity.
      - rewrite X4, E4. cbn. lia. }
    assert (HF : forall i o s0 arg, g_argv s0 = g_argv s -> g_ind s0 = g_ind s -> g_begin s0 = g_begin s ->
       g_end s0 = g_end s -> g_place s0 = [] -> g_arg s0 = arg -> exists s', ready (P ++ [Some a]) F rest s' /\
       match lo_flag o with
        | None => done_option s0 (mk_event (lo_val o) (g_arg s0) (Some i) None)
        | Some f => done_option s0 (mk_event 0 (g_arg s0) (Some i) (Some (f, lo_val o)))
        end = Some (s', found i o arg)).
    { intros i o s0 arg X1 X2 X3 X4 X5 X6. rewrite X6. unfold found. destruct (lo_flag o); apply HD; auto. }
    destruct HL as [body name v rest HN HU|body name v rest i o HN HU HA|body name v rest i o HN HU HA
      |body rest i o HN HU HA|body v rest i o HN HU HA|body i o HN HU HA].
    - rewrite (find_long_none _ _ _ _ HN HU). cbn [g_arg set_place]. rewrite E6.
      destruct (HD (set_place s []) (mk_event BADCH None None None)) as (s' & R1 & R2); auto.
      exists s'. cbn [map firstn skipn]. auto.
    - rewrite (find_long_lookup _ _ _ _ _ _ HN HU), HA.
      destruct (HF i o (set_place s []) None) as (s' & R1 & R2); auto.
      exists s'. cbn [map firstn skipn]. repeat split; try apply R1; auto. apply found_ok. eapply lookup_In; eauto.
    - rewrite (find_long_lookup _ _ _ _ _ _ HN HU).
      destruct (named_cspn _ _ _ HN) as (X1 & _ & X3). rewrite X1, X3.
      destruct (HF i o (mk_gst (g_argv s) (g_ind s) (g_begin s) (g_end s) [] (Some v) (g_opt s) (g_reset s)) (Some v))
        as (s' & R1 & R2); auto.
      exists s'. cbn [map firstn skipn]. repeat split; try apply R1; auto.
      + destruct (lo_arg o); [congruence| |]; exact R2.
      + apply found_ok. eapply lookup_In; eauto.
    - rewrite (find_long_lookup _ _ _ _ _ _ HN HU), HA.
      destruct (named_cspn _ _ _ HN) as (X1 & _ & X3). rewrite X1, X3.
      destruct (HF i o (set_place s []) None) as (s' & R1 & R2); auto.
      exists s'. cbn [map firstn skipn]. repeat split; try apply R1; auto. apply found_ok. eapply lookup_In; eauto.
    - clear HD HF. rewrite (find_long_lookup _ _ _ _ _ _ HN HU), HA.
      destruct (named_cspn _ _ _ HN) as (X1 & _ & X3). rewrite X1, X3.
      cbn [set_place g_begin g_argv g_end g_ind g_opt g_reset]. cbn [length] in E8.
      destruct (Nat.leb_spec (argc - 1) (g_begin s)); [lia|].
      unfold aget. rewrite E1, E4. cbn [map app].
      replace (nth_error _ _) with (Some (Some v)).
      2:{ replace (P ++ map Some F ++ Some a :: Some v :: map Some rest ++ [None])
            with ((P ++ map Some F ++ [Some a]) ++ Some v :: map Some rest ++ [None]) by (rewrite <- !app_assoc; reflexivity).
          replace (length P + length F + 1)%nat with (length (P ++ map Some F ++ [Some a]))
            by (rewrite !app_length, map_length; cbn; lia). rewrite nth_error_mid. reflexivity. }
      cbn [obind g_arg].
      assert (HD : forall e, exists s', ready (P ++ [Some a; Some v]) F rest s' /\
        done_option (mk_gst (P ++ map Some F ++ Some a :: Some v :: map Some rest ++ [None]) (g_ind s) (g_begin s)
              (length P + length F + 1 + 1) [] (Some v) (g_opt s) (g_reset s)) e = Some (s', e)).
      { intro e. rewrite done_ok with (P := P) (F := map Some F) (B := [Some a; Some v]) (R := map Some rest ++ [None]);
          cbn [g_argv g_ind g_begin g_end]; rewrite ?map_length; auto; [|cbn; lia].
        eexists; split; [|reflexivity]. unfold ready. cbn [g_argv g_ind g_place].
        rewrite app_length, <- app_assoc. cbn [length app]. repeat split; auto; lia. }
      cbn [map firstn skipn]. pose proof (found_ok i o (Some v) (lookup_In _ _ _ HU)) as HR. revert HR.
      unfold found. destruct (lo_flag o) as [f|]; intro HR.
      + destruct (HD (mk_event 0 (Some v) (Some i) (Some (f, lo_val o)))) as (s' & R1 & R2). exists s'. auto.
      + destruct (HD (mk_event (lo_val o) (Some v) (Some i) None)) as (s' & R1 & R2). exists s'. auto.
    - rewrite (find_long_lookup _ _ _ _ _ _ HN HU), HA.
      destruct (named_cspn _ _ _ HN) as (X1 & _ & X3). rewrite X1, X3.
      cbn [set_place g_begin g_argv g_end g_ind g_opt g_reset]. cbn [length] in E8.
      destruct (Nat.leb_spec (argc - 1) (g_begin s)); [|lia]. cbn [set_place g_arg].
      change (if colon then BADARG else BADCH) with (missing colon). rewrite E6.
      destruct (HD (set_place s []) (mk_event (missing colon) None (Some i) None)) as (s' & R1 & R2); auto.
      exists s'. cbn [map firstn skipn]. repeat split; try apply R1; auto. apply missing_ok.
  Qed.

  Lemma start P F body T s : ready P F ((45 :: body) :: T) s -> Forall free_arg F -> body <> [] -> body <> [45] ->
    exists s1, mid P F (45 :: body) T body s1 /\
    getopt_long argc optstring0 longs s =
      match body with
      | c :: body' => if c =? 45 then long_option colon longs argc s1 body' else short_option colon optstring argc s1
      | [] => None
      end.
  Proof.
    intros (E1 & E2 & E3 & E4) HF HN1 HN2. cbn [length] in E4.
    exists (mk_gst (g_argv s) (g_ind s) (length P + length F) (length P + length F + 1) body None (g_opt s) false).
    split.
    - unfold mid. cbn [g_argv g_ind g_begin g_end g_place g_arg g_reset]. rewrite E1. cbn [map app].
      repeat split; auto; lia.
    - unfold getopt_long. unfold colon, optstring. destruct (split_colon optstring0) as [hc os]. cbn [fst snd].
      rewrite E3, orb_true_r. rewrite E2. destruct (Nat.leb_spec argc (length P)); [lia|].
      rewrite E1, find_option_skip by (auto; lia).
      replace (P ++ map Some F ++ map Some ((45 :: body) :: T) ++ [None])
        with ((P ++ map Some F) ++ Some (45 :: body) :: map Some T ++ [None]) by (rewrite <- app_assoc; reflexivity).
      replace (length P + length F)%nat with (length (P ++ map Some F)) by (rewrite app_length, map_length; auto).
      rewrite find_option_hit by lia. cbn [obind g_argv g_ind g_begin g_end g_opt].
      destruct body as [|c [|d body]]; [congruence| |]; destruct (Z.eqb_spec c 45); auto. congruence.
  Qed.

  Lemma finish P F s : ready P F [] s -> Forall free_arg F ->
    exists s1, getopt_long argc optstring0 longs s = Some (s1, mk_event (-1) (g_arg s) None None) /\
      g_argv s1 = g_argv s /\ g_ind s1 = g_ind s /\ ready P F [] s1.
  Proof.
    intros (E1 & E2 & E3 & E4) HF. cbn [map app length] in *.
    unfold getopt_long. destruct (split_colon optstring0) as [hc os]. rewrite E3, orb_true_r.
    destruct (Nat.leb_spec argc (g_ind s)).
    - eexists; split; [reflexivity|]. unfold ready. cbn [g_argv g_ind g_place map app length]. auto 10.
    - rewrite E1, E2. destruct F as [|f F]; [cbn in *; lia|].
      rewrite find_option_end by (auto; try discriminate; lia). cbn [obind].
      eexists; split; [reflexivity|]. unfold ready. cbn [g_argv g_ind g_place map app length] in *. auto 10.
  Qed.

  Lemma parse_ok args evs used free : parses colon optstring longs args evs used free ->
    forall P F s, ready P F args s -> Forall free_arg F ->
    exists s', g_argv s' = P ++ map Some used ++ map Some F ++ map Some free ++ [None] /\
      g_ind s' = (length P + length used)%nat /\ ready (P ++ map Some used) (F ++ free) [] s' /\
      forall fuel, getopt_run (length evs + 1 + fuel) argc optstring0 longs s = Some (s', evs).
  Proof.
    intro H. induction H as [|a rest evs used free Ha H IH|body rest ev k evs used free HB HL H IH
      |body rest evs1 k evs used free HB HB2 HS H IH]; intros P F s HR HF.
    - destruct (finish P F s HR HF) as (s1 & G1 & G2 & G3 & G4). exists s1. cbn [map app length].
      rewrite !app_nil_r. pose proof HR as (E1 & E2 & E3 & E4).
      repeat split; try apply G4; try (rewrite G2, E1; reflexivity); try (rewrite G3, E2; lia).
      intro fuel. cbn [Nat.add]. rewrite run_S. unfold after. rewrite G1. reflexivity.
    - destruct (IH P (F ++ [a]) s) as (s' & Q1 & Q2 & Q3 & Q4).
      + destruct HR as (E1 & E2 & E3 & E4). unfold ready. rewrite map_app, app_length. cbn [map length] in *.
        rewrite E1, <- !app_assoc. cbn [app]. repeat split; auto; lia.
      + apply Forall_app. auto.
      + exists s'. rewrite map_app in Q1. rewrite <- app_assoc in Q3. cbn [app] in Q3.
        rewrite Q1. cbn [map]. rewrite <- !app_assoc. cbn [app]. auto.
    - destruct (start P F (45 :: body) rest s HR HF) as (s1 & HM & HG); [discriminate|congruence|].
      cbn [Z.eqb Pos.eqb] in HG.
      destruct (long_ok body rest ev k P F _ s1 _ HL HM) as (s2 & R2 & G2 & V2).
      destruct (IH _ F s2 R2 HF) as (s' & Q1 & Q2 & Q3 & Q4).
      assert (EQ : forall x, (P ++ map Some (x :: firstn k rest)) ++ map Some used = P ++ map Some (x :: firstn k rest ++ used))
        by (intro; rewrite <- app_assoc; cbn [map app]; rewrite map_app; reflexivity).
      exists s'. rewrite Q1. split; [rewrite app_assoc, EQ, <- app_assoc; reflexivity|].
      split; [rewrite Q2, !app_length; cbn [map length]; rewrite !app_length, map_length; lia|].
      split; [rewrite <- EQ; exact Q3|].
      intro fuel. cbn [length Nat.add]. rewrite run_S, HG, G2. unfold after. cbn [obind]. rewrite V2, Q4. reflexivity.
    - destruct (start P F body rest s HR HF) as (s1 & HM & HG); [auto|intros ->; apply HB2; reflexivity|].
      destruct body as [|c body]; [congruence|].
      destruct (Z.eqb_spec c 45) as [->|_]; [exfalso; apply HB2; reflexivity|].
      destruct (cluster_ok _ _ _ _ HS P F _ s1 HB HM) as (s2 & R2 & G2).
      destruct (IH _ F s2 R2 HF) as (s' & Q1 & Q2 & Q3 & Q4).
      assert (EQ : forall x, (P ++ map Some (x :: firstn k rest)) ++ map Some used = P ++ map Some (x :: firstn k rest ++ used))
        by (intro; rewrite <- app_assoc; cbn [map app]; rewrite map_app; reflexivity).
      exists s'. rewrite Q1. split; [rewrite app_assoc, EQ, <- app_assoc; reflexivity|].
      split; [rewrite Q2, !app_length; cbn [map length]; rewrite !app_length, map_length; lia|].
      split; [rewrite <- EQ; exact Q3|].
      intro fuel. assert (HL : (0 < length evs1)%nat) by (inversion HS; cbn; lia).
      replace (length (evs1 ++ evs) + 1 + fuel)%nat with (S (length evs1 - 1 + (length evs + 1 + fuel)))
        by (rewrite app_length; lia).
      rewrite run_S, HG, G2, Q4. reflexivity.
  Qed.
End Run.

(** ** Every command line without "-" and "--" parses *)
Lemma classify optstring c : ~ In c optstring \/ plain optstring c \/ takes_arg optstring c.
Proof.
  destruct (in_dec Z.eq_dec c optstring) as [H|H]; [right|left; auto].
  destruct (first_occ _ _ H) as (pre & post & -> & HI). destruct post as [|x post].
  - left. exists pre, []. repeat split; auto. discriminate.
  - destruct (Z.eq_dec x 58) as [->|NE].
    + right. exists pre, post. auto.
    + left. exists pre, (x :: post). repeat split; auto. cbn. congruence.
Qed.

Lemma shorts_total colon optstring body rest : exists evs k, shorts colon optstring body rest evs k.
Proof.
  induction body as [|c body (evs & k & IH)]; [eexists _, _; constructor|].
  destruct (classify optstring c) as [H|[H|H]].
  - eexists _, _. eapply sh_unknown; eauto.
  - eexists _, _. eapply sh_plain; eauto.
  - destruct body as [|b body]; [destruct rest as [|v rest]|].
    + eexists _, _. apply sh_missing; auto.
    + eexists _, _. apply sh_next; auto.
    + eexists _, _. apply sh_inline; auto. discriminate.
Qed.

Lemma long_total colon longs body rest : exists ev k, long colon longs body rest ev k.
Proof.
  destruct (named_exists body) as (name & v & HN).
  pose proof (find_long_spec body name v longs HN 0) as H.
  destruct (find_long _ _ _ _) as [[j o]|].
  - destruct H as [_ H]. destruct (lo_arg o) eqn:A.
    + eexists _, _. eapply lg_plain; eauto.
    + destruct v as [v|].
      * eexists _, _. eapply lg_inline; eauto. congruence.
      * pose proof (named_none _ _ HN). subst name. destruct rest as [|x rest].
        -- eexists _, _. eapply lg_missing; eauto.
        -- eexists _, _. eapply lg_next; eauto.
    + destruct v as [v|].
      * eexists _, _. eapply lg_inline; eauto. congruence.
      * pose proof (named_none _ _ HN). subst name. eexists _, _. eapply lg_optional; eauto.
  - eexists _, _. eapply lg_unknown; eauto.
Qed.

Lemma parses_total colon optstring longs args :
  ~ In [45] args -> ~ In [45; 45] args ->
  exists evs used free, parses colon optstring longs args evs used free.
Proof.
  remember (length args) as n. assert (Hn : (length args <= n)%nat) by lia. clear Heqn. revert args Hn.
  induction n as [|n IH]; intros args Hn H1 H2.
  - destruct args; [|cbn in Hn; lia]. eexists _, _, _. constructor.
  - destruct args as [|a rest]; [eexists _, _, _; constructor|]. cbn [length] in Hn. cbn [In] in H1, H2.
    assert (HSk : forall k, exists evs used free, parses colon optstring longs (skipn k rest) evs used free).
    { intro k. apply IH.
      - rewrite skipn_length. lia.
      - intro X. apply H1. right. rewrite <- (firstn_skipn k rest). apply in_or_app. auto.
      - intro X. apply H2. right. rewrite <- (firstn_skipn k rest). apply in_or_app. auto. }
    destruct a as [|c a].
    { destruct (HSk 0%nat) as (e & u & f & HP). eexists _, _, _. apply ps_free; [discriminate|]. exact HP. }
    destruct (Z.eq_dec c 45) as [->|NE].
    2:{ destruct (HSk 0%nat) as (e & u & f & HP). eexists _, _, _. apply ps_free; [cbn; congruence|]. exact HP. }
    destruct a as [|d a]; [tauto|]. destruct (Z.eq_dec d 45) as [->|NE].
    + destruct a as [|g a]; [tauto|].
      destruct (long_total colon longs (g :: a) rest) as (ev & k & HL).
      destruct (HSk k) as (e & u & f & HP). eexists _, _, _. eapply ps_long; eauto. discriminate.
    + destruct (shorts_total colon optstring (d :: a) rest) as (ev & k & HL).
      destruct (HSk k) as (e & u & f & HP). eexists _, _, _. eapply ps_short; eauto; [discriminate|cbn; congruence].
Qed.
