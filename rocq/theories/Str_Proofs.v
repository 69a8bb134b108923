From Coq Require Import List NArith ZArith Arith Bool Lia.
From Verif Require Import Base Str_Model Str_Spec.
Import ListNotations.

(** ** Bounded writes *)
Definition st (done b : list N) (n : nat) : list N :=
  let m := Nat.min (length done) (n - 1) in firstn m done ++ skipn m b.

Definition stt (d : option (list N)) (done : list N) (n : nat) := option_map (fun b => st done b n) d.

Definition room (d : option (list N)) (n : nat) : Prop :=
  match d with Some b => n <= length b | None => True end.

Lemma firstn_app_le {A} (l1 l2 : list A) m : m <= length l1 -> firstn m (l1 ++ l2) = firstn m l1.
Proof.
  intro H. rewrite firstn_app. replace (m - length l1) with 0 by lia.
  cbn. apply app_nil_r.
Qed.

Lemma upd_skipn_head {A} (b : list A) m c : m < length b ->
  upd (skipn m b) 0 c = c :: skipn (m + 1) b.
Proof.
  revert b; induction m as [|m IH]; intros [|x b] H; cbn [length] in H; try lia; [reflexivity|].
  cbn [skipn Nat.add]. apply IH. lia.
Qed.

Lemma st_length done b n : n <= length b -> length (st done b n) = length b.
Proof.
  intro H. unfold st. rewrite app_length, firstn_length, skipn_length. lia.
Qed.

Lemma put_st d done n c : room d n ->
  put (stt d done n) n (length done) c = Some (stt d (done ++ [c]) n).
Proof.
  intro H. destruct d as [b|]; [|reflexivity]. cbn [room] in H. cbn [stt option_map put].
  destruct (Nat.ltb_spec (length done + 1) n) as [L|L].
  - rewrite aset_lt by (rewrite st_length; lia). cbn [obind]. do 2 f_equal.
    unfold st. rewrite app_length; cbn [length].
    rewrite (Nat.min_l (length done) (n - 1)) by lia. rewrite firstn_all.
    rewrite (Nat.min_l (length done + 1) (n - 1)) by lia.
    rewrite firstn_all2 by (rewrite app_length; cbn; lia).
    rewrite (upd_app_r done) by lia. rewrite Nat.sub_diag.
    rewrite upd_skipn_head by lia. rewrite <- app_assoc. reflexivity.
  - do 2 f_equal. unfold st. rewrite app_length; cbn [length].
    rewrite (Nat.min_r (length done) (n - 1)) by lia.
    rewrite (Nat.min_r (length done + 1) (n - 1)) by lia.
    rewrite firstn_app_le by lia. reflexivity.
Qed.

Lemma finalize_st b done n : n <= length b -> 
  exists b', finalize (stt (Some b) done n) n (length done) = Some (Some b') /\
    bounded_write done b n b' (length done).
Proof.
  intro H. cbn [stt option_map]. unfold finalize.
  destruct (Nat.ltb_spec 0 n) as [L|L].
  - rewrite aset_lt by (rewrite st_length; lia). cbn [obind]. eexists; split; [reflexivity|].
    split; [reflexivity|]. split; [lia|]. intros _. eexists; split; [reflexivity|].
    unfold st. set (m := Nat.min (length done) (n - 1)).
    assert (m <= n - 1) by apply Nat.le_min_r. assert (m <= length done) by apply Nat.le_min_l.
    rewrite upd_app_r by (rewrite firstn_length; lia).
    rewrite firstn_length. replace (m - Nat.min m (length done)) with 0 by lia.
    rewrite upd_skipn_head by lia. reflexivity.
  - assert (n = 0) by lia; subst. eexists; split; [reflexivity|].
    split; [reflexivity|]. split; [|lia]. intros _.
    unfold st. rewrite Nat.min_r by lia. reflexivity.
Qed.

Lemma finalize_null done : finalize (stt None done 0) 0 (length done) = Some None.
Proof. reflexivity. Qed.

Lemma stt_nil d n : stt d [] n = d.
Proof. destruct d; reflexivity. Qed.

Lemma copy_loop_st d n : room d n -> forall s rest done, text s ->
  copy_loop (stt d done n) n (s ++ 0%N :: rest) (length done)
  = Some (stt d (done ++ s) n, length (done ++ s)).
Proof.
  intros HR. induction s as [|c s IH]; intros rest done HT.
  - cbn [copy_loop app]. cbn. rewrite app_nil_r. reflexivity.
  - inversion HT; subst. cbn [app copy_loop].
    destruct (N.eqb_spec c 0); [congruence|]. rewrite put_st by auto. cbn [obind].
    replace (length done + 1) with (length (done ++ [c])) by (rewrite app_length; reflexivity).
    rewrite IH by auto. rewrite <- app_assoc. reflexivity.
Qed.

Lemma repl_loop_copy dst n repl k : repl_loop dst n repl k = copy_loop dst n repl k.
Proof.
  revert dst k; induction repl as [|c repl IH]; intros; cbn [repl_loop copy_loop]; [reflexivity|].
  destruct (c =? 0)%N; [reflexivity|]. destruct (put dst n k c); cbn [obind]; [apply IH|reflexivity].
Qed.

Lemma copy_sub_loop_st d n : room d n -> forall len s rest done, text s ->
  copy_sub_loop len (stt d done n) n (s ++ 0%N :: rest) (length done)
  = Some (stt d (done ++ firstn len s) n, length (done ++ firstn len s)).
Proof.
  intros HR. induction len as [|len IH]; intros s rest done HT.
  - cbn [copy_sub_loop firstn]. rewrite app_nil_r. reflexivity.
  - destruct s as [|c s]; cbn [copy_sub_loop app firstn].
    + cbn. rewrite app_nil_r. reflexivity.
    + inversion HT; subst. destruct (N.eqb_spec c 0); [congruence|].
      rewrite put_st by auto. cbn [obind].
      replace (length done + 1) with (length (done ++ [c])) by (rewrite app_length; reflexivity).
      rewrite IH by auto. rewrite <- app_assoc. reflexivity.
Qed.

Lemma wild_loop_st d n w e r rrest : room d n -> text r -> forall src rest done esc, text src ->
  wild_loop (stt d done n) n (src ++ 0%N :: rest) w e (r ++ 0%N :: rrest) (length done) esc
  = let full := done ++ (if esc then match src with [] => [] | c :: t => c :: substituted w e r t end
                         else substituted w e r src) in
    Some (stt d full n, length full).
Proof.
  intros HR HTr. induction src as [|c src IH]; intros rest done esc HT; cbn zeta in *.
  - cbn [app wild_loop]. cbn. destruct esc; rewrite app_nil_r; reflexivity.
  - inversion HT; subst. cbn [app wild_loop substituted].
    destruct (N.eqb_spec c 0); [congruence|].
    destruct esc; cbn [negb andb].
    + rewrite put_st by auto. cbn [obind].
      replace (length done + 1) with (length (done ++ [c])) by (rewrite app_length; reflexivity).
      rewrite IH by auto. rewrite <- app_assoc. reflexivity.
    + destruct (c =? e)%N.
      * rewrite IH by auto. destruct src; reflexivity.
      * destruct (c =? w)%N.
        -- rewrite repl_loop_copy, copy_loop_st by auto. cbn [obind].
           rewrite IH by auto. rewrite <- app_assoc. reflexivity.
        -- rewrite put_st by auto. cbn [obind].
           replace (length done + 1) with (length (done ++ [c])) by (rewrite app_length; reflexivity).
           rewrite IH by auto. rewrite <- app_assoc. reflexivity.
Qed.

(** ** Basename *)
Lemma string_length_eq s rest : text s -> string_length (s ++ 0%N :: rest) = Some (length s).
Proof.
  induction s as [|c s IH]; intro HT; [reflexivity|].
  inversion HT; subst. cbn [app string_length length].
  destruct (N.eqb_spec c 0); [congruence|]. rewrite IH by auto. reflexivity.
Qed.

Lemma basename_beg_inv rest : forall todo seen beg,
  text todo -> beg <= length seen ->
  leading_path seen (skipn beg seen) ->
  exists b, basename_beg (todo ++ 0%N :: rest) (length seen) beg = Some b /\
    b <= length (seen ++ todo) /\ leading_path (seen ++ todo) (skipn b (seen ++ todo)).
Proof.
  induction todo as [|c todo IH]; intros seen beg HT HB HL.
  - cbn. rewrite app_nil_r. eauto.
  - inversion HT; subst. cbn [app basename_beg].
    destruct (N.eqb_spec c 0); [congruence|].
    replace (length seen + 1) with (length (seen ++ [c])) by (rewrite app_length; reflexivity).
    replace (seen ++ c :: todo) with ((seen ++ [c]) ++ todo) by (rewrite <- app_assoc; reflexivity).
    apply IH; auto.
    + destruct (_ || _)%bool; rewrite app_length; cbn; lia.
    + destruct ((c =? 92) || (c =? 47))%N eqn:E.
      * rewrite skipn_all. split; [constructor|]. right. exists seen, c. split; auto.
        apply orb_true_iff in E as [E|E]; apply N.eqb_eq in E; [left|right]; auto.
      * rewrite skipn_app. replace (beg - length seen) with 0 by lia. cbn [skipn].
        apply orb_false_iff in E as [E1 E2]. apply N.eqb_neq in E1, E2.
        destruct HL as [HF HC]. split.
        -- apply Forall_app. split; auto. constructor; [|constructor]. intros [|]; auto.
        -- destruct HC as [HC|(dir & x & Hx & HC)].
           ++ left. rewrite <- HC at 1. reflexivity.
           ++ right. exists dir, x. split; auto. rewrite HC at 1. rewrite <- app_assoc. reflexivity.
Qed.

Lemma basename_end_inv src beg rest : forall b mid removed m exts,
  skipn beg src = b ++ mid ++ removed ++ rest ->
  removed = concat exts -> Forall extension exts -> (m = 0 \/ ~ In 46%N mid) ->
  exists stem exts', basename_end (length b) src beg m (beg + length (b ++ mid)) = Some (beg + length stem)
   /\ b ++ mid ++ removed = stem ++ concat exts' /\ Forall extension exts'
   /\ length exts' <= length exts + m /\ (length exts' = length exts + m \/ ~ In 46%N stem).
Proof.
  intros b. induction b as [|c b IH] using rev_ind; intros mid removed m exts HS HR HE HM.
  - cbn [length basename_end app]. exists mid, exts. split; [reflexivity|].
    split; [subst; reflexivity|]. split; auto. split; [lia|]. destruct HM; [left; lia|auto].
  - rewrite app_length. cbn [length].
    replace (length b + 1) with (S (length b)) by lia. cbn [basename_end].
    replace (beg + S (length b) - 1) with (beg + length b) by lia.
    assert (HG : aget src (beg + length b) = Some c).
    { unfold aget. assert (E : nth_error (skipn beg src) (length b) = Some c).
      { rewrite HS, <- !app_assoc. rewrite nth_error_app2 by lia. rewrite Nat.sub_diag. reflexivity. }
      rewrite <- E. clear. revert src; induction beg; destruct src; cbn; auto.
      destruct (length b); reflexivity. }
    rewrite HG. cbn [obind].
    destruct ((c =? 46)%N && (0 <? m)) eqn:E.
    + apply andb_true_iff in E as [E1 E2]. apply N.eqb_eq in E1. apply Nat.ltb_lt in E2. subst c.
      destruct (IH [] ((46%N :: mid) ++ removed) (m - 1) ((46%N :: mid) :: exts)) as (stem & ex & E & H1 & H2 & H3 & H4).
      * rewrite HS. rewrite <- !app_assoc. reflexivity.
      * cbn [concat]. rewrite HR. reflexivity.
      * constructor; auto. exists mid. split; auto. destruct HM; [lia|auto].
      * right. intros [].
      * rewrite app_nil_r in E. exists stem, ex. split; auto. split.
        -- rewrite <- H1. rewrite <- !app_assoc. reflexivity.
        -- split; auto. cbn [length] in *. split; [lia|]. destruct H4; [left; lia|auto].
    + replace (length ((b ++ [c]) ++ mid)) with (length (b ++ c :: mid))
        by (rewrite !app_length; cbn; lia).
      destruct (IH (c :: mid) removed m exts) as (stem & ex & E' & H1 & H2 & H3 & H4); auto.
      * rewrite HS. rewrite <- !app_assoc. reflexivity.
      * apply andb_false_iff in E as [E|E].
        -- apply N.eqb_neq in E. destruct HM as [|HM]; auto. right. intros [|]; auto.
        -- apply Nat.ltb_ge in E. left; lia.
      * exists stem, ex. split; auto. split; auto. rewrite <- H1, <- !app_assoc. reflexivity.
Qed.

Lemma basename_ok d n src rest m : room d n -> text src ->
  exists base stem, leading_path src base /\ stripped base m stem /\
    string_basename d n (src ++ 0%N :: rest) m =
      do dst2 <- finalize (stt d stem n) n (length stem); Some (dst2, length stem).
Proof.
  intros HR HT. unfold string_basename.
  destruct (basename_beg_inv rest src [] 0) as (beg & E & HB & HL); auto.
  { split; [constructor|left; reflexivity]. }
  cbn [length app] in *. rewrite E. cbn [obind]. rewrite string_length_eq by auto. cbn [obind].
  set (base := skipn beg src) in *.
  assert (LB : length base = length src - beg) by (unfold base; apply skipn_length).
  destruct (basename_end_inv (src ++ 0%N :: rest) beg (0%N :: rest) base [] [] m []) as
    (stem & ex & E2 & H1 & H2 & H3 & H4); auto.
  { rewrite skipn_app. replace (beg - length src) with 0 by lia. reflexivity. }
  rewrite app_nil_r in E2. rewrite LB in E2. replace (beg + (length src - beg)) with (length src) in E2 by lia.
  rewrite E2. cbn [obind]. exists base, stem. split; auto. split.
  - exists ex. cbn [app] in H1. rewrite app_nil_r in H1. cbn [length Nat.add] in *. auto.
  - unfold string_copy_sub. rewrite skipn_app. replace (beg - length src) with 0 by lia.
    cbn [skipn]. fold base.
    replace (beg + length stem - beg) with (length stem) by lia.
    assert (HTb : text base).
    { unfold text, base in *. rewrite Forall_forall in *. intros x Hx. apply HT.
      rewrite <- (firstn_skipn beg src). apply in_or_app; auto. }
    pose proof (copy_sub_loop_st d n HR (length stem) base rest [] HTb) as EC.
    rewrite stt_nil in EC. cbn [length app] in EC. rewrite EC. cbn [obind].
    assert (F : firstn (length stem) base = stem).
    { cbn [app] in H1. rewrite app_nil_r in H1. rewrite H1. rewrite firstn_app, firstn_all, Nat.sub_diag.
      cbn. apply app_nil_r. }
    rewrite F. reflexivity.
Qed.

(** Both specifications determine the result. *)
Lemma leading_path_unique src b1 b2 : leading_path src b1 -> leading_path src b2 -> b1 = b2.
Proof.
  assert (K : forall src b1 b2, length b1 <= length b2 -> leading_path src b1 -> leading_path src b2 -> b1 = b2).
  { clear. intros src b1 b2 HL [F1 C1] [F2 C2].
    assert (S1 : exists p, src = p ++ b1).
    { destruct C1 as [->|(d & c & _ & ->)]; [exists []; auto|exists (d ++ [c]); rewrite <- app_assoc; auto]. }
    assert (S2 : exists p, src = p ++ b2).
    { destruct C2 as [->|(d & c & _ & ->)]; [exists []; auto|exists (d ++ [c]); rewrite <- app_assoc; auto]. }
    destruct S2 as [p2 E2].
    destruct C1 as [E1|(d & c & Hc & E1)].
    - subst src. rewrite E2 in HL. rewrite E2.
      destruct p2; auto. cbn in HL. rewrite app_length in HL. lia.
    - destruct (Nat.eq_dec (length b1) (length b2)) as [E|E].
      + rewrite E1 in E2. replace (d ++ c :: b1) with ((d ++ [c]) ++ b1) in E2 by (rewrite <- app_assoc; auto).
        assert (X := E2). apply (f_equal (skipn (length (d ++ [c])))) in X.
        rewrite skipn_app, skipn_all, Nat.sub_diag in X. cbn in X.
        assert (length (d ++ [c]) = length p2).
        { apply (f_equal (@length N)) in E2. rewrite !app_length in E2. rewrite app_length. cbn in *. lia. }
        rewrite H, skipn_app, skipn_all, Nat.sub_diag in X. cbn in X. auto.
      + exfalso. (* c lies inside b2 *)
        assert (In c b2).
        { rewrite E1 in E2. assert (LL : length d + S (length b1) = length p2 + length b2).
          { apply (f_equal (@length N)) in E2. rewrite !app_length in E2. cbn in E2. lia. }
          assert (X := f_equal (fun l => nth_error l (length d)) E2). cbn beta in X.
          rewrite nth_error_app2 in X by lia. rewrite Nat.sub_diag in X. cbn in X.
          rewrite nth_error_app2 in X by lia. symmetry in X. apply nth_error_In in X. auto. }
        rewrite Forall_forall in F2. apply (F2 c H Hc). }
  intros H1 H2. destruct (Nat.le_ge_cases (length b1) (length b2)).
  - eauto.
  - symmetry. eauto.
Qed.

(** ** Case-insensitive comparison *)
Lemma tolower_lower c : tolower c = lower c.
Proof. reflexivity. Qed.

Lemma lower_0 c : c <> 0%N -> lower c <> 0%N.
Proof. unfold lower. destruct (_ && _); lia. Qed.

Lemma casei_cmp_spec : forall s1 s2 r1 r2, text s1 -> text s2 ->
  exists v, casei_cmp (s1 ++ 0%N :: r1) (s2 ++ 0%N :: r2) = Some v /\
   (v = 0%Z /\ map lower s1 = map lower s2 \/
    (v < 0)%Z /\ dict_lt (map lower s1) (map lower s2) \/
    (v > 0)%Z /\ dict_lt (map lower s2) (map lower s1)).
Proof.
  induction s1 as [|c1 s1 IH]; intros [|c2 s2] r1 r2 H1 H2; cbn [app casei_cmp map].
  - cbn. eexists; split; [reflexivity|]. auto.
  - inversion H2; subst. change tolower with lower. change (lower 0) with 0%N.
    pose proof (lower_0 c2 H3).
    destruct (N.eqb_spec 0 (lower c2)); [congruence|]. eexists; split; [reflexivity|].
    right; left. split; [lia|constructor].
  - inversion H1; subst. change tolower with lower. change (lower 0) with 0%N.
    pose proof (lower_0 c1 H3).
    destruct (N.eqb_spec (lower c1) 0); [congruence|]. eexists; split; [reflexivity|].
    right; right. split; [lia|constructor].
  - inversion H1; inversion H2; subst. change tolower with lower.
    destruct (N.eqb_spec (lower c1) (lower c2)) as [E|E].
    + destruct (N.eqb_spec c1 0); [congruence|].
      destruct (IH s2 r1 r2) as (v & Ev & Hv); auto. exists v. split; auto.
      rewrite E. destruct Hv as [[-> Hv]|[[? Hv]|[? Hv]]].
      * left; split; auto. congruence.
      * right; left; split; auto. apply dl_tail; auto.
      * right; right; split; auto. apply dl_tail; auto.
    + eexists; split; [reflexivity|].
      destruct (N.lt_trichotomy (lower c1) (lower c2)) as [L|[L|L]]; [|congruence|].
      * right; left. split; [lia|apply dl_head; auto].
      * right; right. split; [lia|apply dl_head; auto].
Qed.

Lemma dict_lt_irrefl s : ~ dict_lt s s.
Proof. induction s; intro H; inversion H; subst; [lia|auto]. Qed.

Lemma dict_lt_trans s t u : dict_lt s t -> dict_lt t u -> dict_lt s u.
Proof.
  intro H; revert u; induction H; intros u Hu; inversion Hu; subst; try constructor; auto; lia.
Qed.

Lemma strcmp_zero : forall s1 s2 r1 r2, text s1 -> text s2 ->
  exists v, strcmp (s1 ++ 0%N :: r1) (s2 ++ 0%N :: r2) = Some v /\ (v = 0%Z <-> s1 = s2).
Proof.
  induction s1 as [|c1 s1 IH]; intros [|c2 s2] r1 r2 H1 H2; cbn [app strcmp].
  - cbn. eexists; split; [reflexivity|]. tauto.
  - inversion H2; subst. destruct (N.eqb_spec 0 c2); [congruence|].
    eexists; split; [reflexivity|]. split; [lia|discriminate].
  - inversion H1; subst. destruct (N.eqb_spec c1 0); [congruence|].
    eexists; split; [reflexivity|]. split; [lia|discriminate].
  - inversion H1; inversion H2; subst. destruct (N.eqb_spec c1 c2) as [->|E].
    + destruct (N.eqb_spec c2 0); [congruence|].
      destruct (IH s2 r1 r2) as (v & Ev & Hv); auto. exists v. split; auto.
      rewrite Hv. split; [congruence|intro X; inversion X; auto].
    + eexists; split; [reflexivity|]. split; [lia|]. intro X; inversion X; congruence.
Qed.

Lemma enum_scan_spec (test : list N -> enumerator -> option bool) (P : enumerator -> Prop) :
  forall tbl tail i,
  (forall e, In e tbl -> exists nm b, en_name e = Some nm /\ test nm e = Some b /\ (b = true <-> P e)) ->
  forall last, en_name last = None ->
  exists r, enum_scan test (tbl ++ last :: tail) i = Some (option_map (Nat.add i) r) /\
    first_match P tbl r.
Proof.
  induction tbl as [|e tbl IH]; intros tail i HT last HL.
  - cbn [app enum_scan]. rewrite HL. exists None. split; auto. intros x [].
  - cbn [app enum_scan]. destruct (HT e (or_introl eq_refl)) as (nm & b & -> & -> & Hb).
    cbn [obind]. destruct b.
    + exists (Some 0). split; [cbn; do 2 f_equal; lia|].
      exists e. split; [reflexivity|]. split; [tauto|]. intros; lia.
    + destruct (IH tail (i + 1) (fun e' H => HT e' (or_intror H)) last HL) as (r & E & HF).
      assert (NP : ~ P e) by (rewrite <- Hb; discriminate).
      exists (option_map S r). split.
      * rewrite E. destruct r; cbn; auto. do 2 f_equal. lia.
      * destruct r as [j|]; cbn [option_map first_match] in *.
        -- destruct HF as (x & Hx & Px & Hmin). exists x. split; auto. split; auto.
           intros [|k] y Hk Hy; [inversion Hy; subst; auto|]. apply (Hmin k y); auto; lia.
        -- intros x [->|Hx]; auto.
Qed.

(** ** Protocols *)
Lemma strstr_some : forall s k rest, text s ->
  exists r, strstr_sep (s ++ 0%N :: rest) k = Some r /\
    match r with
    | None => ~ contains_sep s
    | Some n => exists pre post, n = k + length pre /\ split_first s pre post
    end.
Proof.
  induction s as [|c s IH]; intros k rest HT.
  - cbn. exists None. split; auto. intros (a & b & E). destruct a; discriminate.
  - inversion HT; subst.
    assert (K : (exists t, c :: s = sep ++ t) \/
      ((~ exists t, c :: s = sep ++ t) /\
        strstr_sep ((c :: s) ++ 0%N :: rest) k = strstr_sep (s ++ 0%N :: rest) (k + 1))).
    { destruct (list_eq_dec N.eq_dec (firstn 3 (c :: s)) sep) as [E|E].
      - left. exists (skipn 3 (c :: s)). rewrite <- E. symmetry. apply firstn_skipn.
      - right. split.
        + intros [t Ht]. apply E. rewrite Ht. reflexivity.
        + cbn [app strstr_sep]. destruct (N.eqb_spec c 0); [congruence|].
          destruct (N.eq_dec c 58) as [->|N1].
          2:{ destruct c as [|p]; [congruence|]. repeat (destruct p as [p|p|]; try reflexivity; try congruence). }
          destruct s as [|c2 s]; [reflexivity|]. cbn [app].
          destruct (N.eq_dec c2 47) as [->|N2].
          2:{ destruct c2 as [|p]; [reflexivity|]. repeat (destruct p as [p|p|]; try reflexivity; try congruence). }
          destruct s as [|c3 s]; [reflexivity|]. cbn [app].
          destruct (N.eq_dec c3 47) as [->|N3].
          2:{ destruct c3 as [|p]; [reflexivity|]. repeat (destruct p as [p|p|]; try reflexivity; try congruence). }
          exfalso. apply E. reflexivity. }
    destruct K as [[t Ht]|[HN K]].
    + rewrite Ht. exists (Some k). split; [reflexivity|]. exists [], t. split; [cbn; lia|].
      split; [reflexivity|]. intros; cbn; lia.
    + rewrite K. destruct (IH (k + 1) rest) as (r & E & Hr); auto. exists r. split; auto.
      destruct r as [n|].
      * destruct Hr as (pre & post & -> & HS & HM). exists (c :: pre), post.
        split; [cbn; lia|]. split; [cbn; rewrite HS; reflexivity|].
        intros [|a0 a] b Hab; [exfalso; apply HN; exists b; exact Hab|].
        cbn. apply le_n_S. apply (HM a b). inversion Hab; auto.
      * intros (a & b & Hab). destruct a as [|a0 a]; [apply HN; exists b; exact Hab|].
        apply Hr. exists a, b. inversion Hab; auto.
Qed.

Lemma strncmp_eq_spec : forall n s t rest, text s -> text t -> n <= length s ->
  exists b, strncmp_eq (s ++ 0%N :: rest) t n = Some b /\ (b = true <-> prefix_of (firstn n s) t).
Proof.
  induction n as [|n IH]; intros s t rest HS HT HL.
  - exists true. split; [reflexivity|]. split; auto. intros _. exists t. reflexivity.
  - destruct s as [|c s]; [cbn in HL; lia|]. inversion HS; subst.
    cbn [app strncmp_eq firstn]. destruct t as [|d t].
    + destruct (N.eqb_spec c 0); [congruence|]. exists false. split; auto.
      split; [discriminate|]. intros [q Hq]; discriminate.
    + inversion HT; subst. destruct (N.eqb_spec c d) as [->|E].
      * destruct (N.eqb_spec d 0); [congruence|]. cbn [tl].
        destruct (IH s t rest) as (b & E & Hb); auto; [cbn in HL; lia|].
        exists b. split; auto. rewrite Hb. split; intros [q Hq]; exists q.
        -- cbn. rewrite Hq. reflexivity.
        -- inversion Hq; auto.
      * exists false. split; auto. split; [discriminate|]. intros [q Hq]; inversion Hq; congruence.
Qed.

(** ** Statements used in Str_Props.v *)
Lemma string_copy_ok s mem b n : cstring s mem -> n <= length b ->
  exists b' r, string_copy (Some b) n mem = Some (Some b', r) /\ bounded_write s b n b' r.
Proof.
  intros [HT [rest ->]] HB. unfold string_copy.
  pose proof (copy_loop_st (Some b) n HB s rest [] HT) as E. rewrite stt_nil in E.
  cbn [length app] in E. rewrite E. cbn [obind].
  destruct (finalize_st b s n HB) as (b' & E2 & HW). rewrite E2. cbn [obind]. eauto.
Qed.

Lemma string_copy_sub_ok s mem b n len : cstring s mem -> n <= length b ->
  exists b' r, string_copy_sub (Some b) n mem len = Some (Some b', r) /\
    bounded_write (firstn len s) b n b' r.
Proof.
  intros [HT [rest ->]] HB. unfold string_copy_sub.
  pose proof (copy_sub_loop_st (Some b) n HB len s rest [] HT) as E. rewrite stt_nil in E.
  cbn [length app] in E. rewrite E. cbn [obind].
  destruct (finalize_st b (firstn len s) n HB) as (b' & E2 & HW). rewrite E2. cbn [obind]. eauto.
Qed.

Lemma string_basename_ok s mem b n m : cstring s mem -> n <= length b ->
  exists base stem b' r, string_basename (Some b) n mem m = Some (Some b', r) /\
    leading_path s base /\ stripped base m stem /\ bounded_write stem b n b' r.
Proof.
  intros [HT [rest ->]] HB.
  destruct (basename_ok (Some b) n s rest m HB HT) as (base & stem & H1 & H2 & E).
  destruct (finalize_st b stem n HB) as (b' & E2 & HW). rewrite E, E2. cbn [obind].
  exists base, stem, b', (length stem). auto.
Qed.

Lemma stripped_unique base m t1 t2 : stripped base m t1 -> stripped base m t2 -> t1 = t2.
Proof.
  intros (x1 & E1 & F1 & L1 & C1) (x2 & E2 & F2 & L2 & C2).
  (* compare the decompositions from the right *)
  revert x2 m base t1 t2 E1 F1 L1 C1 E2 F2 L2 C2.
  assert (K : forall x, Forall extension x -> x <> [] -> In 46%N (concat x)).
  { intros [|a x] HF HN; [congruence|]. inversion HF; subst. destruct H1 as (y & -> & _).
    cbn. auto. }
  induction x1 as [|a x1 IH] using rev_ind; intros x2 m base t1 t2 E1 F1 L1 C1 E2 F2 L2 C2.
  - cbn in E1. rewrite app_nil_r in E1. subst base.
    destruct C1 as [C1|C1].
    + cbn in C1. destruct x2; [|cbn in L2; lia]. cbn in E2. rewrite app_nil_r in E2. auto.
    + destruct x2 as [|y x2]; [cbn in E2; rewrite app_nil_r in E2; auto|].
      exfalso. apply C1. rewrite E2. apply in_or_app. right. apply K; auto. discriminate.
  - destruct x2 as [|b x2 _] using rev_ind.
    + cbn in E2. rewrite app_nil_r in E2. rewrite E2 in E1.
      destruct C2 as [C2|C2].
      * exfalso. cbn in C2. rewrite app_length in L1. cbn in L1. lia.
      * exfalso. apply C2. rewrite E1. apply in_or_app. right. apply K; auto.
        destruct x1; discriminate.
    + apply Forall_app in F1 as [F1 Fa]. apply Forall_app in F2 as [F2 Fb].
      inversion Fa as [|? ? (ya & -> & Na) _]; subst. inversion Fb as [|? ? (yb & -> & Nb) _]; subst.
      rewrite !concat_app in *. cbn [concat] in *. rewrite !app_nil_r in *.
      rewrite !app_length in *. cbn [length] in *.
      rewrite !app_assoc in E2.
      (* last dot splits uniquely *)
      assert (U : forall p q ya yb, p ++ 46%N :: ya = q ++ 46%N :: yb ->
                  ~ In 46%N ya -> ~ In 46%N yb -> p = q).
      { clear. induction p as [|c p IH]; intros [|d q] ya yb E Na Nb; auto.
        - inversion E; subst. exfalso. apply Na. apply in_or_app. right; left; auto.
        - inversion E; subst. exfalso. apply Nb. apply in_or_app. right; left; auto.
        - inversion E; subst. f_equal. eauto. }
      pose proof (U _ _ _ _ E2 Na Nb) as E3.
      apply (IH x2 (m - 1) (t1 ++ concat x1) t1 t2); auto; try lia;
        [destruct C1; [left; lia|auto]|destruct C2; [left; lia|auto]].
Qed.

Lemma basename_det s m b1 b2 t1 t2 :
  leading_path s b1 -> leading_path s b2 -> stripped b1 m t1 -> stripped b2 m t2 -> t1 = t2.
Proof.
  intros H1 H2 S1 S2. pose proof (leading_path_unique _ _ _ H1 H2). subst.
  eapply stripped_unique; eauto.
Qed.

Lemma null_dest s mem r rmem w e m : cstring s mem -> cstring r rmem ->
  string_copy None 0 mem = Some (None, length s) /\
  string_copy_sub None 0 mem m = Some (None, length (firstn m s)) /\
  replace_wildcard None 0 mem w e rmem = Some (None, length (substituted w e r s)).
Proof.
  intros [HT [rest ->]] [HTr [rrest ->]]. repeat split.
  - unfold string_copy. pose proof (copy_loop_st None 0 I s rest [] HT) as E.
    cbn [stt option_map length app] in E. rewrite E. reflexivity.
  - unfold string_copy_sub. pose proof (copy_sub_loop_st None 0 I m s rest [] HT) as E.
    cbn [stt option_map length app] in E. rewrite E. reflexivity.
  - unfold replace_wildcard.
    pose proof (wild_loop_st None 0 w e r rrest I HTr s rest [] false HT) as E.
    cbn zeta in E. cbn [stt option_map length app] in E. rewrite E. reflexivity.
Qed.

Lemma replace_wildcard_ok s mem r rmem w e b n :
  cstring s mem -> cstring r rmem -> n <= length b ->
  exists b' k, replace_wildcard (Some b) n mem w e rmem = Some (Some b', k) /\
    bounded_write (substituted w e r s) b n b' k.
Proof.
  intros [HT [rest ->]] [HTr [rrest ->]] HB. unfold replace_wildcard.
  pose proof (wild_loop_st (Some b) n w e r rrest HB HTr s rest [] false HT) as E.
  cbn zeta in E. rewrite stt_nil in E. cbn [length app] in E. rewrite E. cbn [obind].
  destruct (finalize_st b (substituted w e r s) n HB) as (b' & E2 & HW). rewrite E2. cbn [obind]. eauto.
Qed.

Lemma parse_none s mem : cstring s mem -> ~ contains_sep s -> parse_protocol mem = Some (PROT_NONE, 0).
Proof.
  intros [HT [rest ->]] HN. unfold parse_protocol.
  destruct (strstr_some s 0 rest HT) as (r & E & Hr). rewrite E. cbn [obind].
  destruct r as [n|]; auto. destruct Hr as (pre & post & _ & HS & _).
  exfalso. apply HN. exists pre, post. auto.
Qed.

Lemma app_eq_len {A} (a b c d : list A) : a ++ b = c ++ d -> length a = length c -> a = c /\ b = d.
Proof.
  revert c; induction a as [|x a IH]; intros [|y c] E L; cbn in *; try lia; auto.
  inversion E; subst. destruct (IH c) as [-> ->]; auto.
Qed.

Lemma parse_split s mem pre rest : cstring s mem -> split_first s pre rest ->
  exists p, parse_protocol mem = Some (p, length pre + 3) /\
    (p = PROT_ASCII <-> prefix_of pre str_ascii) /\
    (p = PROT_BINARY <-> prefix_of pre str_bin /\ pre <> []) /\
    (p = PROT_UNKNOWN <-> ~ prefix_of pre str_ascii /\ ~ prefix_of pre str_bin).
Proof.
  intros [HT [mrest ->]] [HS HM]. unfold parse_protocol.
  destruct (strstr_some s 0 mrest HT) as (r & E & Hr). rewrite E. cbn [obind].
  destruct r as [n|]; [|exfalso; apply Hr; exists pre, rest; auto].
  destruct Hr as (pre' & post' & -> & HS' & HM'). cbn [Nat.add].
  assert (L : length pre' = length pre).
  { pose proof (HM _ _ HS'). pose proof (HM' _ _ HS). lia. }
  assert (pre' = pre) as ->.
  { rewrite HS in HS'. symmetry. apply (app_eq_len _ _ _ _ HS'). auto. }
  assert (HF : firstn (length pre) s = pre).
  { rewrite HS, firstn_app, firstn_all, Nat.sub_diag. cbn. apply app_nil_r. }
  assert (HLs : length pre <= length s) by (rewrite HS, app_length; lia).
  assert (TA : text str_ascii) by (repeat constructor; discriminate).
  assert (TB : text str_bin) by (repeat constructor; discriminate).
  destruct (strncmp_eq_spec (length pre) s str_ascii mrest HT TA HLs) as (a & Ea & Ha).
  destruct (strncmp_eq_spec (length pre) s str_bin mrest HT TB HLs) as (b & Eb & Hb).
  rewrite HF in Ha, Hb. rewrite Ea. cbn [obind].
  (* a nonempty prefix of "bin" is not a prefix of "ascii" *)
  assert (X : prefix_of pre str_ascii -> prefix_of pre str_bin -> pre = []).
  { intros [q1 H1] [q2 H2]. destruct pre; auto. exfalso.
    unfold str_ascii, str_bin in *. inversion H1; inversion H2; subst; discriminate. }
  assert (Y : pre = [] -> prefix_of pre str_ascii) by (intros ->; eexists; reflexivity).
  destruct a.
  - assert (prefix_of pre str_ascii) by (apply Ha; auto).
    exists PROT_ASCII. split; auto. split; [tauto|]. split; split; try discriminate; try tauto.
  - assert (~ prefix_of pre str_ascii) by (rewrite <- Ha; discriminate).
    rewrite Eb. cbn [obind]. eexists; split; [reflexivity|].
    destruct b.
    + assert (prefix_of pre str_bin) by (apply Hb; auto).
      repeat split; try discriminate; try tauto.
    + assert (~ prefix_of pre str_bin) by (rewrite <- Hb; discriminate).
      repeat split; try discriminate; try tauto.
Qed.

Lemma sep_free_first nm s : (forall c, In c nm -> c <> 58%N) -> split_first (nm ++ sep ++ s) nm s.
Proof.
  intro H. split; auto. intros a b E.
  destruct (Nat.le_gt_cases (length nm) (length a)) as [|L]; auto. exfalso.
  assert (X := f_equal (fun l => nth_error l (length a)) E). cbn beta in X.
  rewrite nth_error_app1 in X by auto. rewrite nth_error_app2 in X by lia.
  rewrite Nat.sub_diag in X. cbn in X. apply nth_error_In in X. apply (H _ X). auto.
Qed.

Lemma names_parse_back p nm s mem : p = PROT_ASCII \/ p = PROT_BINARY ->
  protocol_name p = Some nm -> cstring (nm ++ sep ++ s) mem ->
  parse_protocol mem = Some (p, length nm + 3).
Proof.
  intros HP HN HC.
  assert (HS : split_first (nm ++ sep ++ s) nm s).
  { apply sep_free_first. destruct HP; subst; cbn in HN; inversion HN; subst;
      intros c Hc; cbn in Hc; intuition (subst; discriminate). }
  destruct (parse_split _ _ _ _ HC HS) as (p' & E & HA & HB & HU). rewrite E. do 2 f_equal.
  destruct HP; subst; cbn in HN; inversion HN; subst.
  - apply HA. exists []. reflexivity.
  - apply HB. split; [exists []; reflexivity|discriminate].
Qed.

Lemma prefixes_refuted :
  (exists s mem, s = [98;105;110;97;114;121;58;47;47]%N /\ cstring s mem /\
     parse_protocol mem = Some (PROT_UNKNOWN, 9)) /\
  (exists s mem, s = [97;58;47;47]%N /\ cstring s mem /\
     parse_protocol mem = Some (PROT_ASCII, 4)) /\
  (exists s mem, s = [58;47;47]%N /\ cstring s mem /\
     parse_protocol mem = Some (PROT_ASCII, 3)) /\
  protocol_name PROT_UNKNOWN <> Some [].
Proof.
  repeat split; try discriminate.
  - eexists _, _. split; [reflexivity|]. split; [split; [|exists []; reflexivity]|reflexivity].
    repeat constructor; discriminate.
  - eexists _, _. split; [reflexivity|]. split; [split; [|exists []; reflexivity]|reflexivity].
    repeat constructor; discriminate.
  - eexists _, _. split; [reflexivity|]. split; [split; [|exists []; reflexivity]|reflexivity].
    repeat constructor; discriminate.
Qed.

Lemma casei_order s1 s2 m1 m2 : cstring s1 m1 -> cstring s2 m2 ->
  exists v, casei_cmp m1 m2 = Some v /\
    (v = 0%Z <-> map lower s1 = map lower s2) /\
    ((v < 0)%Z <-> dict_lt (map lower s1) (map lower s2)) /\
    ((v > 0)%Z <-> dict_lt (map lower s2) (map lower s1)).
Proof.
  intros [H1 [r1 ->]] [H2 [r2 ->]].
  destruct (casei_cmp_spec s1 s2 r1 r2 H1 H2) as (v & E & H). exists v. split; auto.
  pose proof (dict_lt_irrefl (map lower s1)) as I1.
  pose proof (dict_lt_irrefl (map lower s2)) as I2.
  pose proof (dict_lt_trans (map lower s1) (map lower s2) (map lower s1)) as T1.
  destruct H as [[-> H]|[[? H]|[? H]]].
  - rewrite H in *. repeat split; intros; try lia; tauto.
  - repeat split; intros; try lia; try tauto.
    match goal with E : map lower s1 = _ |- _ => rewrite E in *; tauto end.
  - repeat split; intros; try lia; try tauto.
    match goal with E : map lower s1 = _ |- _ => rewrite E in *; tauto end.
Qed.

Lemma dict_total :
  (forall s, ~ dict_lt s s) /\
  (forall s t u, dict_lt s t -> dict_lt t u -> dict_lt s u) /\
  (forall s t, dict_lt s t \/ s = t \/ dict_lt t s).
Proof.
  split; [exact dict_lt_irrefl|]. split; [exact dict_lt_trans|].
  induction s as [|c s IH]; intros [|d t]; auto.
  - left; constructor.
  - right; right; constructor.
  - destruct (N.lt_trichotomy c d) as [L|[->|L]].
    + left; constructor; auto.
    + destruct (IH t) as [H|[->|H]]; auto.
      * left; apply dl_tail; auto.
      * right; right; apply dl_tail; auto.
    + right; right; constructor; auto.
Qed.

Lemma casei_laws s1 s2 s3 m1 m2 m3 v12 v21 v23 v13 :
  cstring s1 m1 -> cstring s2 m2 -> cstring s3 m3 ->
  casei_cmp m1 m2 = Some v12 -> casei_cmp m2 m1 = Some v21 ->
  casei_cmp m2 m3 = Some v23 -> casei_cmp m1 m3 = Some v13 ->
  ((v12 < 0)%Z <-> (v21 > 0)%Z) /\ (v12 = 0%Z <-> v21 = 0%Z) /\
  ((v12 <= 0)%Z -> (v23 <= 0)%Z -> (v13 <= 0)%Z).
Proof.
  intros H1 H2 H3 E12 E21 E23 E13.
  destruct (casei_order _ _ _ _ H1 H2) as (a & Ea & A1 & A2 & A3).
  destruct (casei_order _ _ _ _ H2 H1) as (b & Eb & B1 & B2 & B3).
  destruct (casei_order _ _ _ _ H2 H3) as (c & Ec & C1 & C2 & C3).
  destruct (casei_order _ _ _ _ H1 H3) as (d & Ed & D1 & D2 & D3).
  assert (a = v12) by congruence. assert (b = v21) by congruence.
  assert (c = v23) by congruence. assert (d = v13) by congruence. subst.
  split; [rewrite A2, B3; tauto|]. split; [rewrite A1, B1; split; congruence|].
  intros L1 L2. destruct dict_total as (DI & DT & _).
  destruct (Z_le_gt_dec v13 0) as [|G]; auto. exfalso. apply D3 in G.
  destruct (Z.eq_dec v12 0) as [Z1|Z1]; destruct (Z.eq_dec v23 0) as [Z2|Z2].
  - apply A1 in Z1. apply C1 in Z2. rewrite Z1, Z2 in G. eapply DI; eauto.
  - apply A1 in Z1. assert (Q : (v23 < 0)%Z) by lia. apply C2 in Q. rewrite Z1 in G.
    eapply DI. eapply DT; eauto.
  - apply C1 in Z2. assert (Q : (v12 < 0)%Z) by lia. apply A2 in Q. rewrite <- Z2 in G.
    eapply DI. eapply DT; eauto.
  - assert (Q : (v23 < 0)%Z) by lia. apply C2 in Q. assert (Q' : (v12 < 0)%Z) by lia. apply A2 in Q'.
    eapply DI. eapply DT; [exact G|]. eapply DT; eauto.
Qed.

Lemma cstring_unique s t m : cstring s m -> cstring t m -> s = t.
Proof.
  intros [HS [r1 ->]] [HT [r2 E]]. revert t HT E.
  induction s as [|c s IH]; intros [|d t] HT E; auto.
  - inversion E; subst. inversion HT; congruence.
  - inversion E; subst. inversion HS; congruence.
  - inversion HS; inversion HT; inversion E; subst. f_equal. apply IH; auto.
Qed.

Lemma enum_generic entries tbl (test : list N -> enumerator -> option bool) (P : enumerator -> Prop) :
  (exists last tail, en_name last = None /\ tbl = entries ++ last :: tail) ->
  (forall e, In e entries -> exists nm b, en_name e = Some nm /\ test nm e = Some b /\ (b = true <-> P e)) ->
  exists r, enum_scan test tbl 0 = Some r /\ first_match P entries r.
Proof.
  intros (last & tail & HL & ->) H.
  destruct (enum_scan_spec test P entries tail 0 H last HL) as (r & E & HF).
  exists r. split; auto. rewrite E. destruct r; reflexivity.
Qed.

Lemma enum_get_ok entries tbl s mem :
  (forall e, In e entries -> exists nm s, en_name e = Some nm /\ cstring s nm) ->
  (exists last tail, en_name last = None /\ tbl = entries ++ last :: tail) -> cstring s mem ->
  exists r, enumeration_get tbl mem = Some r /\
    first_match (fun e => exists nm, en_name e = Some nm /\ cstring s nm) entries r.
Proof.
  intros HE HT HS. unfold enumeration_get. apply enum_generic; auto.
  intros e He. destruct (HE e He) as (nm & t & En & Ht). exists nm.
  pose proof HS as [HT1 [r1 ->]]. pose proof Ht as [HT2 [r2 E2]].
  destruct (strcmp_zero s t r1 r2 HT1 HT2) as (v & Ev & Hv).
  rewrite <- E2 in Ev. rewrite Ev. cbn [obind]. exists (v =? 0)%Z. split; auto. split; auto.
  rewrite Z.eqb_eq, Hv. split.
  - intros ->. eauto.
  - intros (nm' & En' & Hs). assert (nm' = nm) by congruence. subst.
    symmetry. eapply cstring_unique; eauto.
Qed.

Lemma enum_casei_ok entries tbl s mem :
  (forall e, In e entries -> exists nm s, en_name e = Some nm /\ cstring s nm) ->
  (exists last tail, en_name last = None /\ tbl = entries ++ last :: tail) -> cstring s mem ->
  exists r, enumeration_get_casei tbl mem = Some r /\
    first_match (fun e => exists nm t, en_name e = Some nm /\ cstring t nm /\ map lower t = map lower s) entries r.
Proof.
  intros HE HT HS. unfold enumeration_get_casei. apply enum_generic; auto.
  intros e He. destruct (HE e He) as (nm & t & En & Ht). exists nm.
  destruct (casei_order _ _ _ _ HS Ht) as (v & Ev & Hv & _).
  rewrite Ev. cbn [obind]. exists (v =? 0)%Z. split; auto. split; auto.
  rewrite Z.eqb_eq, Hv. split.
  - intros. exists nm, t. auto.
  - intros (nm' & t' & En' & Ht' & E). assert (nm' = nm) by congruence. subst.
    assert (t' = t) by (eapply cstring_unique; eauto). subst. auto.
Qed.

Lemma enum_value_ok entries tbl v :
  (forall e, In e entries -> exists nm s, en_name e = Some nm /\ cstring s nm) ->
  (exists last tail, en_name last = None /\ tbl = entries ++ last :: tail) ->
  exists r, enumeration_get_by_value tbl v = Some r /\ first_match (fun e => en_value e = v) entries r.
Proof.
  intros HE HT. unfold enumeration_get_by_value. apply enum_generic; auto.
  intros e He. destruct (HE e He) as (nm & t & En & Ht). exists nm, (en_value e =? v)%Z.
  split; auto. split; auto. apply Z.eqb_eq.
Qed.
