From Coq Require Import List NArith ZArith Arith Bool Lia.
From Verif Require Import Base Pgm_Model Pgm_Spec Qsort_Proofs.
Import ListNotations.
Local Open Scope Z_scope.

(** ** The header scanner is total *)
Lemma remove_line_length f : (length (fst (remove_line f)) <= length f)%nat.
Proof.
  induction f as [|c f IH]; cbn [remove_line]; [cbn; lia|].
  destruct (c =? 10); [cbn; lia|].
  destruct (remove_line f) as [r n]. cbn in *. lia.
Qed.

Lemma remove_blanks_loop_total : forall fuel f count, (length f < fuel)%nat ->
  exists r n, remove_blanks_loop fuel f count = Some (r, n) /\ (length r <= length f)%nat.
Proof.
  induction fuel as [|fuel IH]; intros f count H; [lia|]. cbn [remove_blanks_loop].
  destruct f as [|c f]; [eauto|]. cbn [length] in H.
  destruct (_ || _)%bool.
  - destruct (IH f (count + 1)%nat) as (r & n & E & L); [lia|].
    exists r, n. split; auto. cbn; lia.
  - destruct (c =? 35).
    + pose proof (remove_line_length f) as HL. destruct (remove_line f) as [r n]. cbn [fst] in HL.
      destruct (IH r (count + 1 + n)%nat) as (r' & n' & E & L); [lia|].
      exists r', n'. split; auto. cbn; lia.
    + eexists _, _. split; [reflexivity|]. lia.
Qed.

Lemma remove_blanks_total f : exists r n, remove_blanks f = Some (r, n).
Proof.
  destruct (remove_blanks_loop_total (S (length f)) f 0) as (r & n & E & _); [lia|].
  exists r, n. exact E.
Qed.

Lemma wrap_int_range z : - 2 ^ 31 <= wrap_int z < 2 ^ 31.
Proof.
  unfold wrap_int. pose proof (Z.mod_pos_bound z (2 ^ 32) ltac:(lia)).
  destruct (Z.ltb_spec (z mod 2 ^ 32) (2 ^ 31)); lia.
Qed.

Lemma extract_head_total f : exists err im rest, extract_head f = Some (err, im, rest) /\
  (im = None -> err = ERR_INV_HEAD \/ err = ERR_INV_META) /\
  (forall i, im = Some i -> err = 0 /\ 65536 <= p_max i).
Proof.
  unfold extract_head.
  destruct f as [|m0 [|m1 f]].
  1,2: eexists _, _, _; split; [reflexivity|]; split; [auto|discriminate].
  destruct (_ && _)%bool.
  2:{ eexists _, _, _; split; [reflexivity|]; split; [auto|discriminate]. }
  destruct (remove_blanks_total f) as (f1 & c1 & ->). cbn [obind].
  destruct (scan_int f1) as [width f2].
  destruct (remove_blanks_total f2) as (f3 & c2 & ->). cbn [obind].
  destruct (scan_int f3) as [height f4].
  destruct (remove_blanks_total f4) as (f5 & c3 & ->). cbn [obind].
  unfold scan_int. destruct (scan_number f5) as [maxv f6].
  destruct (match f6 with [] => _ | _ => _ end) as [blank f7].
  destruct (_ && _)%bool.
  2:{ eexists _, _, _; split; [reflexivity|]; split; [auto|discriminate]. }
  destruct width as [w|], height as [h|], maxv as [m|]; cbn [option_map];
    try (eexists _, _, _; split; [reflexivity|]; split; [auto|discriminate]).
  destruct (Z.leb_spec 65536 (wrap_int m)); cbn [negb].
  - eexists _, _, _; split; [reflexivity|]; split; [discriminate|].
    intros i E. inversion E; subst. split; auto. cbn [p_max].
    pose proof (wrap_int_range m). unfold wrap_size. rewrite Z.mod_small; lia.
  - eexists _, _, _; split; [reflexivity|]; split; [auto|discriminate].
Qed.

Lemma read_never le f : exists err, pgm_read_new le f = Some (err, None) /\
  (err = ERR_INV_HEAD \/ err = ERR_INV_META \/ err = ERR_BAD_ARG).
Proof.
  unfold pgm_read_new. destruct (extract_head_total f) as (err & im & rest & E & HN & HS).
  rewrite E. cbn [obind]. destruct im as [im|].
  - destruct (HS im eq_refl) as [_ HM].
    assert (B : 1 <? bpp im = true).
    { unfold bpp. destruct (Z.leb_spec 256 (p_max im)); [reflexivity|lia]. }
    rewrite B. exists ERR_BAD_ARG. auto.
  - destruct (HN eq_refl) as [->| ->]; eexists; split; try reflexivity; auto.
Qed.

(** ** Printing and scanning decimal numbers *)
Lemma scan_digits_app ds rest a : Forall (fun c => is_digit c = true) ds ->
  scan_digits (ds ++ rest) a =
  scan_digits rest (fold_left (fun a c => a * 10 + (c - 48)) ds a).
Proof.
  revert a; induction ds as [|c ds IH]; intros a H; [reflexivity|].
  inversion H; subst. cbn [app scan_digits fold_left]. rewrite H2. apply IH; auto.
Qed.

Lemma print_nat_loop_spec : forall fuel n acc, 0 <= n < 2 ^ Z.of_nat fuel ->
  exists ds, print_nat_loop fuel n acc = ds ++ acc /\ Forall (fun c => is_digit c = true) ds /\
    (fuel <> 0%nat -> ds <> []) /\
    (exists k, forall a, fold_left (fun a c => a * 10 + (c - 48)) ds a = a * k + n).
Proof.
  induction fuel as [|fuel IH]; intros n acc H.
  - exists []. cbn. repeat split; auto. exists 1. intro a. cbn in H. lia.
  - cbn [print_nat_loop].
    assert (HD : is_digit (48 + n mod 10) = true).
    { unfold is_digit. pose proof (Z.mod_pos_bound n 10 ltac:(lia)).
      apply andb_true_iff. split; apply Z.leb_le; lia. }
    destruct (Z.eqb_spec (n / 10) 0) as [E|E].
    + exists [48 + n mod 10]. split; [reflexivity|]. split; [repeat constructor; auto|].
      split; [discriminate|]. exists 10. intro a. cbn [fold_left].
      pose proof (Z.div_mod n 10 ltac:(lia)). lia.
    + destruct (IH (n / 10) ((48 + n mod 10) :: acc)) as (ds & E1 & HF & HN & k & HK).
      { split; [apply Z.div_pos; lia|]. apply Z.div_lt_upper_bound; [lia|].
        rewrite Nat2Z.inj_succ, Z.pow_succ_r in H by lia. lia. }
      exists (ds ++ [48 + n mod 10]). rewrite E1. split; [rewrite <- app_assoc; reflexivity|].
      split; [apply Forall_app; auto|]. split; [intros _ X; destruct ds; discriminate|].
      exists (k * 10). intro a. rewrite fold_left_app, HK. cbn [fold_left].
      pose proof (Z.div_mod n 10 ltac:(lia)). lia.
Qed.

Lemma print_nat_spec n : 0 <= n -> exists c ds, print_nat n = c :: ds /\
  Forall (fun c => is_digit c = true) (c :: ds) /\
  fold_left (fun a c => a * 10 + (c - 48)) (c :: ds) 0 = n.
Proof.
  intro H. unfold print_nat.
  destruct (print_nat_loop_spec (S (Z.to_nat (Z.log2 n))) n []) as (ds & E & HF & HN & k & HK).
  - split; auto. rewrite Nat2Z.inj_succ, Z2Nat.id by apply Z.log2_nonneg.
    destruct (Z.eq_dec n 0) as [->|]; [reflexivity|]. apply Z.log2_spec. lia.
  - rewrite E, app_nil_r. destruct ds as [|c ds]; [destruct HN; auto|].
    exists c, ds. split; auto. split; auto. rewrite HK. lia.
Qed.

Lemma digit_cases c : is_digit c = true ->
  c = 48 \/ c = 49 \/ c = 50 \/ c = 51 \/ c = 52 \/ c = 53 \/ c = 54 \/ c = 55 \/ c = 56 \/ c = 57.
Proof. unfold is_digit. intro H. apply andb_true_iff in H as [A B]. apply Z.leb_le in A, B. lia. Qed.

Lemma wrap_int_small n : 0 <= n < 2 ^ 31 -> wrap_int n = n.
Proof. intro H. unfold wrap_int. rewrite Z.mod_small by lia. destruct (Z.ltb_spec n (2 ^ 31)); lia. Qed.

Lemma scan_print n x rest : 0 <= n < 2 ^ 31 -> is_digit x = false ->
  scan_int (print_int (wrap_int n) ++ x :: rest) = (Some n, x :: rest).
Proof.
  intros H HX. rewrite wrap_int_small by auto. unfold print_int.
  destruct (Z.ltb_spec n 0); [lia|].
  destruct (print_nat_spec n) as (c & ds & -> & HF & HV); [lia|].
  unfold scan_int.
  assert (E : scan_number ((c :: ds) ++ x :: rest) = scan_unsigned ((c :: ds) ++ x :: rest)).
  { inversion HF; subst. apply digit_cases in H3. cbn [app].
    decompose [or] H3; subst c; reflexivity. }
  rewrite E. clear E. inversion HF; subst. cbn [app scan_unsigned]. rewrite H3.
  change (c :: ds ++ x :: rest) with ((c :: ds) ++ x :: rest).
  rewrite scan_digits_app by auto. cbn [scan_digits]. rewrite HX. cbn [option_map].
  rewrite wrap_int_small by auto. reflexivity.
Qed.

Lemma blanks_print n rest : 0 <= n < 2 ^ 31 ->
  remove_blanks (10 :: print_int (wrap_int n) ++ rest) = Some (print_int (wrap_int n) ++ rest, 1%nat).
Proof.
  intros H. rewrite wrap_int_small by auto. unfold print_int.
  destruct (Z.ltb_spec n 0); [lia|].
  destruct (print_nat_spec n) as (c & ds & -> & HF & HV); [lia|].
  unfold remove_blanks. cbn [app length remove_blanks_loop].
  inversion HF; subst. apply digit_cases in H3.
  decompose [or] H3; subst c; reflexivity.
Qed.

Definition small (n : Z) : Prop := 0 <= n < 2 ^ 31.

Lemma wrap_size_small n : small n -> wrap_size n = n.
Proof. intros H. unfold small in H. unfold wrap_size. apply Z.mod_small. lia. Qed.

Lemma head_of_header w h m raw rest : small w -> small h -> small m ->
  extract_head (pgm_header (mk_pgm w h m raw) ++ rest) =
  Some (if 65536 <=? m then (0, Some (mk_pgm w h m true), rest) else (ERR_INV_META, None, rest)).
Proof.
  intros Hw Hh Hm. unfold pgm_header. cbn [p_width p_height p_max]. cbn [app].
  unfold extract_head. cbn [Z.eqb Pos.eqb orb andb].
  repeat (rewrite <- app_assoc; cbn [app]).
  rewrite blanks_print by auto. cbn [obind]. rewrite scan_print by auto. cbn zeta iota beta.
  rewrite blanks_print by auto. cbn [obind]. rewrite scan_print by auto.
  rewrite blanks_print by auto. cbn [obind]. rewrite scan_print by auto.
  cbn [Z.eqb Pos.eqb orb andb Nat.ltb Nat.leb].
  destruct (Z.leb_spec 65536 m); cbn [negb]; [|reflexivity].
  rewrite !wrap_size_small by auto. reflexivity.
Qed.

Lemma swap_pairs_invol : forall n d, length d = (2 * n)%nat -> swap_pairs (swap_pairs d) = d.
Proof.
  induction n as [|n IH]; intros [|a [|b d]] H; cbn [length] in H; try lia; auto.
  cbn [swap_pairs]. rewrite IH by lia. reflexivity.
Qed.

Lemma swap_pairs_length d : length (swap_pairs d) = length d.
Proof.
  assert (forall n d, (length d <= n)%nat -> length (swap_pairs d) = length d).
  { induction n as [|n IH]; intros [|a [|b l]] H; cbn [length swap_pairs] in *; try lia.
    rewrite IH by lia. reflexivity. }
  eauto.
Qed.

Lemma bpp_cases im : bpp im = 1 \/ bpp im = 2.
Proof. unfold bpp. destruct (256 <=? p_max im); auto. Qed.

Lemma stream_round_trip le w h m data : small w -> small h -> small m ->
  let im := mk_pgm w h m true in
  Z.of_nat (length data) = bpp im * npixels im ->
  exists body, insert le im data = Some (pgm_header im ++ body) /\
    (forall rest, extract_head (pgm_header im ++ rest) =
      Some (if 65536 <=? m then (0, Some im, rest) else (ERR_INV_META, None, rest))) /\
    (forall rest, extract_data le (body ++ rest) im = (0, data, rest)).
Proof.
  intros Hw Hh Hm im HL. unfold insert.
  destruct (Z.leb_spec (bpp im * npixels im) (Z.of_nat (length data))); [|lia].
  assert (HT : Z.to_nat (bpp im * npixels im) = length data) by lia. rewrite HT, firstn_all.
  eexists; split; [reflexivity|]. split.
  - intro rest. apply head_of_header; auto.
  - intro rest. unfold extract_data. cbn [p_raw im].
    set (body := if (le && (bpp im =? 2))%bool then swap_pairs data else data).
    assert (LB : length body = length data)
      by (unfold body; destruct (_ && _)%bool; [apply swap_pairs_length|auto]).
    rewrite app_length, LB.
    destruct (Z.leb_spec (bpp im * npixels im) (Z.of_nat (length data + length rest))); [|lia].
    rewrite HT, <- LB, firstn_app, Nat.sub_diag, firstn_all, skipn_app, Nat.sub_diag, skipn_all.
    cbn [firstn skipn app]. rewrite app_nil_r. do 2 f_equal.
    unfold body. destruct (le && (bpp im =? 2))%bool eqn:E; auto.
    apply andb_true_iff in E as [_ E]. apply Z.eqb_eq in E. rewrite E in HL.
    apply (swap_pairs_invol (Z.to_nat (npixels im))).
    assert (0 <= npixels im) by (unfold npixels, wrap_size; apply Z.mod_pos_bound; lia). lia.
Qed.

(** ** Written files are never read back *)
Lemma written_rejected le data w h f : pgm_write le data w h = Some f -> 0 <= w < 2 ^ 31 -> 0 <= h < 2 ^ 31 ->
  pgm_read_new le f = Some (ERR_INV_META, None).
Proof.
  unfold pgm_write. intros E Hw Hh. unfold insert in E.
  destruct (_ <=? _); [|discriminate]. apply (f_equal (fun o => match o with Some x => x | None => [] end)) in E. cbv beta iota in E. rewrite <- E. clear E.
  unfold pgm_read_new. rewrite !wrap_size_small by auto.
  rewrite head_of_header by (try assumption; unfold small; lia). reflexivity.
Qed.

(** ** ASCII pixels *)
Lemma scan_number_digits n x rest : 0 <= n -> is_digit x = false ->
  scan_number (print_nat n ++ x :: rest) = (Some n, x :: rest).
Proof.
  intros H HX. destruct (print_nat_spec n H) as (c & ds & -> & HF & HV).
  assert (E : scan_number ((c :: ds) ++ x :: rest) = scan_unsigned ((c :: ds) ++ x :: rest)).
  { inversion HF; subst. apply digit_cases in H2. cbn [app].
    decompose [or] H2; subst c; reflexivity. }
  rewrite E. clear E. inversion HF; subst. cbn [app scan_unsigned]. rewrite H2.
  change (c :: ds ++ x :: rest) with ((c :: ds) ++ x :: rest).
  rewrite scan_digits_app by auto. cbn [scan_digits]. rewrite HX. reflexivity.
Qed.

Lemma skip_space_sp s f : is_space s = true -> scan_number (s :: f) = scan_number f.
Proof. intro H. unfold scan_number. cbn [skip_space]. rewrite H. reflexivity. Qed.

Lemma ascii_ok b : forall vs f0 rest acc,
  Forall (fun v => 0 <= v < 2 ^ (8 * b)) vs ->
  (f0 = [] \/ f0 = [32]) ->
  extract_ascii (length vs) b (f0 ++ concat (map (fun v => print_nat v ++ [32]) vs) ++ rest) acc
  = (0, rev acc ++ vs, (match vs with [] => f0 | _ => [32] end) ++ rest).
Proof.
  induction vs as [|v vs IH]; intros f0 rest acc HF H0.
  - cbn. rewrite app_nil_r. reflexivity.
  - inversion HF; subst. cbn [length extract_ascii map concat].
    repeat rewrite <- !app_assoc. cbn [app].
    assert (E : scan_number (f0 ++ print_nat v ++ 32 :: concat (map (fun v => print_nat v ++ [32]) vs) ++ rest)
                = (Some v, 32 :: concat (map (fun v => print_nat v ++ [32]) vs) ++ rest)).
    { destruct H0 as [->| ->]; cbn [app]; [|rewrite skip_space_sp by reflexivity];
        apply scan_number_digits; auto; lia. }
    rewrite E. rewrite Z.mod_small by auto.
    specialize (IH [32] rest (v :: acc) H3  (or_intror eq_refl)).
    cbn [app] in IH. rewrite IH. cbn [rev]. rewrite <- app_assoc. cbn [app].
    destruct vs; reflexivity.
Qed.

(** ** Byte order *)
Lemma byte_moves_spec dst src from n0 m0 :
  disjoint_ranges m0 dst src n0 -> (forall i, (i < n0)%nat -> (from i < n0)%nat) ->
  forall n i m, (i + n = n0)%nat ->
  length m = length m0 ->
  (forall k : nat, nth_error m k = if ((dst <=? k)%nat && (k <? dst + i)%nat)%bool
                             then nth_error m0 (src + from (k - dst))%nat else nth_error m0 k) ->
  exists m', byte_moves n i m dst src from = Some m' /\ length m' = length m0 /\
  (forall k : nat, nth_error m' k = if ((dst <=? k)%nat && (k <? dst + n0)%nat)%bool
                             then nth_error m0 (src + from (k - dst))%nat else nth_error m0 k).
Proof.
  intros (H1 & H2 & H3) HFr. induction n as [|n IH]; intros i m Hi HL HK; cbn [byte_moves].
  - exists m. split; auto. split; auto. replace n0 with i by lia. auto.
  - pose proof (HFr i ltac:(lia)) as Hfi.
    destruct (aget_lt m (src + from i)) as [x Hx]; [lia|]. rewrite Hx. cbn [obind].
    rewrite aset_lt by lia. cbn [obind]. apply IH; [lia|rewrite upd_length; auto|].
    intro k. rewrite nth_error_upd. destruct (Nat.eqb_spec k (dst + i)) as [->|NE].
    + destruct (Nat.ltb_spec (dst + i) (length m)); [|lia]. cbn [andb].
      replace (dst <=? dst + i)%nat with true by (symmetry; apply Nat.leb_le; lia).
      replace (dst + i <? dst + (i + 1))%nat with true by (symmetry; apply Nat.ltb_lt; lia).
      cbn [andb]. replace (dst + i - dst)%nat with i by lia.
      unfold aget in Hx. rewrite HK in Hx.
      destruct ((dst <=? src + from i)%nat && (src + from i <? dst + i)%nat)%bool eqn:B.
      * apply andb_true_iff in B as [B1 B2]. apply Nat.leb_le in B1. apply Nat.ltb_lt in B2. lia.
      * congruence.
    + cbn [andb]. rewrite HK.
      replace (k <? dst + (i + 1))%nat with (k <? dst + i)%nat; auto.
      destruct (Nat.ltb_spec k (dst + i)), (Nat.ltb_spec k (dst + (i + 1))); auto; lia.
Qed.

Lemma nth_error_rev {A} (l : list A) i : (i < length l)%nat ->
  nth_error (rev l) i = nth_error l (length l - 1 - i)%nat.
Proof.
  revert i; induction l as [|x l IH]; intros i H; cbn [length] in H; [lia|].
  cbn [rev]. destruct (Nat.eq_dec i (length l)) as [->|].
  - rewrite nth_error_app2 by (rewrite rev_length; lia). rewrite rev_length, Nat.sub_diag.
    cbn [length]. replace (S (length l) - 1 - length l)%nat with 0%nat by lia. reflexivity.
  - rewrite nth_error_app1 by (rewrite rev_length; lia). rewrite IH by lia.
    cbn [length]. replace (S (length l) - 1 - i)%nat with (S (length l - 1 - i)) by lia. reflexivity.
Qed.

Lemma bytes_at_nth m o n i : (i < n)%nat -> nth_error (bytes_at m o n) i = nth_error m (o + i)%nat.
Proof.
  intro H. unfold bytes_at. rewrite nth_error_firstn.
  destruct (Nat.ltb_spec i n); [|lia]. apply nth_error_skipn.
Qed.

Lemma bytes_at_length m o n : (o + n <= length m)%nat -> length (bytes_at m o n) = n.
Proof. intro H. unfold bytes_at. rewrite firstn_length, skipn_length. lia. Qed.

Lemma swap_spec n big m dst src : disjoint_ranges m dst src n ->
  exists m', swap_endianness n big m dst src = Some m' /\
    replaced m dst (if big then bytes_at m src n else rev (bytes_at m src n)) m'.
Proof.
  intros HD. unfold swap_endianness.
  destruct (byte_moves_spec dst src (fun i => if big then i else (n - 1 - i)%nat) n m HD) with (n := n) (i := 0%nat) (m := m)
    as (m' & E & HL & HK); auto.
  { intros i Hi. destruct big; lia. }
  { intro k. destruct (Nat.leb_spec dst k), (Nat.ltb_spec k (dst + 0)); cbn [andb]; auto; lia. }
  exists m'. split; auto. destruct HD as (H1 & H2 & H3). unfold replaced.
  set (new := if big then bytes_at m src n else rev (bytes_at m src n)).
  assert (LN : length new = n).
  { unfold new. destruct big; rewrite ?rev_length; apply bytes_at_length; auto. }
  rewrite LN. apply nth_error_ext'. intro k. rewrite HK.
  assert (LF : length (firstn dst m) = dst) by (rewrite firstn_length; lia).
  destruct (Nat.leb_spec dst k); cbn [andb].
  - rewrite nth_error_app2 by lia. rewrite LF.
    destruct (Nat.ltb_spec k (dst + n)).
    + rewrite nth_error_app1 by lia. unfold new. destruct big.
      * rewrite bytes_at_nth by lia. reflexivity.
      * rewrite nth_error_rev by (rewrite bytes_at_length; lia).
        rewrite bytes_at_length by lia. rewrite bytes_at_nth by lia. reflexivity.
    + rewrite nth_error_app2 by lia. rewrite LN, nth_error_skipn. f_equal. lia.
  - rewrite nth_error_app1 by lia. rewrite nth_error_firstn.
    destruct (Nat.ltb_spec k dst); [auto|lia].
Qed.

Lemma replaced_bytes m dst new m' : (dst <= length m)%nat -> replaced m dst new m' ->
  bytes_at m' dst (length new) = new.
Proof.
  intros H ->. unfold bytes_at. 
  rewrite skipn_app, firstn_length, Nat.min_l by auto. rewrite Nat.sub_diag.
  rewrite skipn_all2 by (rewrite firstn_length; lia). cbn [skipn app].
  rewrite firstn_app, firstn_all, Nat.sub_diag. cbn. apply app_nil_r.
Qed.

Lemma le_value_app l b : le_value (l ++ [b]) = le_value l + b * 256 ^ Z.of_nat (length l).
Proof.
  induction l as [|x l IH]; [cbn; lia|]. cbn [app le_value length].
  rewrite IH, Nat2Z.inj_succ, Z.pow_succ_r by lia. lia.
Qed.

Lemma le_value_rev l : le_value (rev l) = be_value l.
Proof.
  induction l as [|b l IH]; [reflexivity|]. cbn [rev be_value].
  rewrite le_value_app, IH, rev_length. lia.
Qed.

Lemma be_value_rev l : be_value (rev l) = le_value l.
Proof. rewrite <- (rev_involutive l) at 2. symmetry. apply le_value_rev. Qed.
