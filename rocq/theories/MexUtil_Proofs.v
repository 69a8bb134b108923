(** Proofs about the tests of arrays and the options. *)
From Coq Require Import List NArith ZArith Arith Lia Bool.
Import ListNotations.
From Verif Require Import Base Str_Model Str_Spec Str_Proofs MexUtil_Model MexUtil_Spec.
Local Open Scope nat_scope.

Lemma cast_eq n want : (Z.of_nat n < 4294967296)%Z -> (0 <= want < 4294967296)%Z -> (cast n =? zcast want)%Z = true <-> want = Z.of_nat n.
Proof. intros A B. unfold cast, zcast. rewrite !Z.mod_small by lia. rewrite Z.eqb_eq. lia. Qed.
Lemma size_test n want : (Z.of_nat n < 4294967296)%Z -> (want < 4294967296)%Z ->
  ((0 <=? want)%Z && negb (cast n =? zcast want)%Z)%bool = false <-> fits_size want n.
Proof.
  intros A B. unfold fits_size. destruct (Z.leb_spec 0 want) as [H|H]; cbn [andb].
  - rewrite negb_false_iff, cast_eq by lia. lia.
  - split; [left; lia|reflexivity].
Qed.

Lemma skip_ones_ok dims nd : nd = length dims -> forall fuel di, di <= nd -> nd - di < fuel ->
  exists k, skip_ones fuel dims nd di = Some k /\ di <= k <= nd /\ (forall i, di <= i < k -> nth_error dims i = Some 1) /\ (k < nd -> nth_error dims k <> Some 1).
Proof.
  intros E. induction fuel as [|fuel IH]; intros di L F; [lia|]. cbn [skip_ones]. destruct (Nat.ltb_spec di nd) as [H|H].
  - destruct (nth_error dims di) as [d|] eqn:Ed; [|apply nth_error_None in Ed; lia]. unfold aget. rewrite Ed. cbn [obind].
    destruct (Nat.eqb_spec d 1) as [->|Hd].
    + destruct (IH (di + 1)) as (k & -> & A & B & C); [lia..|]. exists k. split; [reflexivity|]. split; [lia|]. split; [|assumption].
      intros i Hi. destruct (Nat.eq_dec i di) as [->|]; [assumption|apply B; lia].
    + exists di. split; [reflexivity|]. split; [lia|]. split; [lia|]. intros _. congruence.
  - exists di. split; [reflexivity|]. split; [lia|]. split; [lia|]. lia.
Qed.
Lemma only_ones_ok dims nd : nd = length dims -> forall fuel di, nd - di < fuel ->
  exists b, only_ones fuel dims nd di = Some b /\ (b = true <-> forall i d, di <= i -> nth_error dims i = Some d -> d = 1).
Proof.
  intros E. induction fuel as [|fuel IH]; intros di F; [lia|]. cbn [only_ones]. destruct (Nat.ltb_spec di nd) as [H|H].
  - destruct (nth_error dims di) as [d|] eqn:Ed; [|apply nth_error_None in Ed; lia]. unfold aget. rewrite Ed. cbn [obind].
    destruct (Nat.eqb_spec d 1) as [->|Hd].
    + destruct (IH (di + 1)) as (b & -> & B); [lia..|]. exists b. split; [reflexivity|]. rewrite B. split; intros Q i d Hi Hd.
      * destruct (Nat.eq_dec i di) as [->|]; [congruence|]. apply (Q i d); [lia|assumption].
      * apply (Q i d); [lia|assumption].
    + exists false. split; [reflexivity|]. split; [discriminate|]. intro Q. exfalso. apply Hd. apply (Q di d); [lia|assumption].
  - exists true. split; [reflexivity|]. split; [|reflexivity]. intros _ i d Hi Hd. assert (nth_error dims i <> None) by congruence. apply nth_error_Some in H0. lia.
Qed.
Lemma long_iff dims k : k <= length dims -> (forall i, i < k -> nth_error dims i = Some 1) -> (k < length dims -> nth_error dims k <> Some 1) ->
  (forall i d, k + 1 <= i -> nth_error dims i = Some d -> d = 1) <-> one_long_dimension dims.
Proof.
  intros L A B. split.
  - intro Q. exists k. intros i d Hi Hd. destruct (lt_dec i k) as [H|H]; [rewrite A in Hd by assumption; congruence|]. apply (Q i d); [lia|assumption].
  - intros (j & Q) i d Hi Hd. destruct (Nat.eq_dec i j) as [->|Hj]; [|now apply (Q i d)].
    assert (Lk : k < length dims). { assert (nth_error dims j <> None) by congruence. apply nth_error_Some in H. lia. }
    destruct (nth_error dims k) as [e|] eqn:Ek; [|apply nth_error_None in Ek; lia]. exfalso. apply (B Lk). rewrite (Q k e); [reflexivity|lia|assumption].
Qed.
Lemma is_vector_ok a want : (Z.of_nat (numel a) < 4294967296)%Z -> (want < 4294967296)%Z ->
  exists b, is_vector a want = Some b /\ (b = true <-> a_sparse a = false /\ fits_size want (numel a) /\ one_long_dimension (a_dims a)).
Proof.
  intros HN HW. unfold is_vector. destruct (a_sparse a); [exists false; split; [reflexivity|split; [discriminate|intros (Q & _); discriminate]]|].
  pose proof (size_test (numel a) want HN HW) as T. destruct ((0 <=? want)%Z && negb (cast (numel a) =? zcast want)%Z).
  - exists false. split; [reflexivity|]. split; [discriminate|]. intros (_ & Q & _). apply T in Q. discriminate.
  - destruct (skip_ones_ok (a_dims a) _ eq_refl (length (a_dims a) + 1) 0) as (k & E1 & A & B & C); [lia..|]. cbv zeta. rewrite E1. cbn [obind].
    destruct (only_ones_ok (a_dims a) _ eq_refl (length (a_dims a) + 1) (k + 1)) as (b & E2 & D); [lia|]. rewrite E2. exists b. split; [reflexivity|].
    rewrite D. rewrite long_iff; [|lia|intros i Hi; apply B; lia|assumption]. destruct T as [T _]. specialize (T eq_refl). tauto.
Qed.

Lemma skip_single_ok v dims nd : nd = length dims -> Forall (fun d => (Z.of_nat d < 4294967296)%Z) dims -> forall fuel di, di <= nd -> nd - di < fuel ->
  exists k, skip_single fuel (Some v) dims nd di = Some k /\ ((k =? nd) = true <-> forall i d, di <= i -> nth_error dims i = Some d -> d = 1).
Proof.
  intros E F. induction fuel as [|fuel IH]; intros di L LF; [lia|]. cbn [skip_single]. unfold dim_at. rewrite <- E. destruct (Nat.ltb_spec di nd) as [H|H].
  - destruct (nth_error dims di) as [d|] eqn:Ed; [|apply nth_error_None in Ed; lia]. unfold aget. rewrite Ed. cbn [obind].
    assert (Bd : (Z.of_nat d < 4294967296)%Z) by (rewrite Forall_forall in F; apply F; now apply nth_error_In in Ed).
    replace (cast d =? 1)%Z with (d =? 1) by (unfold cast; rewrite Z.mod_small by lia; destruct (Nat.eqb_spec d 1), (Z.eqb_spec (Z.of_nat d) 1); lia).
    destruct (Nat.eqb_spec d 1) as [->|Hd]; cbn [andb].
    + destruct (IH (di + 1)) as (k & -> & B); [lia..|]. exists k. split; [reflexivity|]. rewrite B. split; intros Q i d Hi Hd.
      * destruct (Nat.eq_dec i di) as [->|]; [congruence|]. apply (Q i d); [lia|assumption].
      * apply (Q i d); [lia|assumption].
    + exists di. split; [reflexivity|]. split; [intro Q; apply Nat.eqb_eq in Q; lia|]. intro Q. exfalso. apply Hd. apply (Q di d); [lia|assumption].
  - replace di with nd by lia. rewrite Nat.eqb_refl. cbn [obind]. rewrite andb_false_r. exists nd. split; [reflexivity|]. rewrite Nat.eqb_refl. split; [|reflexivity].
    intros _ i d Hi Hd. assert (Q : nth_error dims i <> None) by congruence. apply nth_error_Some in Q. lia.
Qed.
Lemma numel_split a : 2 <= length (a_dims a) -> numel a = get_M a * get_N a.
Proof. unfold numel, get_M, get_N. destruct (a_dims a) as [|x l]; cbn [length]; [lia|]. intros _. reflexivity. Qed.
Lemma get_M_small a : small_array a -> (Z.of_nat (get_M a) < 4294967296)%Z.
Proof. intros (L & _ & F & _). unfold get_M. destruct (a_dims a) as [|x l]; cbn [length] in L; [lia|]. exact (Forall_inv F). Qed.
Lemma is_matrix_ok v a M N : small_array a -> (M < 4294967296)%Z -> (N < 4294967296)%Z ->
  exists b, is_matrix (Some v) a M N = Some b /\
    (b = true <-> a_sparse a = false /\ fits_size M (get_M a) /\ fits_size N (get_N a) /\ (flat (a_dims a) \/ numel a = 0)).
Proof.
  intros S HM HN. pose proof (get_M_small a S) as SM. destruct S as (L & _ & F & SN). unfold is_matrix.
  destruct (a_sparse a); [exists false; split; [reflexivity|split; [discriminate|intros (Q & _); discriminate]]|].
  pose proof (size_test (get_M a) M SM HM) as T1. destruct ((0 <=? M)%Z && negb (cast (get_M a) =? zcast M)%Z).
  { exists false. split; [reflexivity|]. split; [discriminate|]. intros (_ & Q & _). apply T1 in Q. discriminate. }
  pose proof (size_test (get_N a) N SN HN) as T2. destruct ((0 <=? N)%Z && negb (cast (get_N a) =? zcast N)%Z).
  { exists false. split; [reflexivity|]. split; [discriminate|]. intros (_ & _ & Q & _). apply T2 in Q. discriminate. }
  destruct T1 as [T1 _], T2 as [T2 _]. specialize (T1 eq_refl). specialize (T2 eq_refl). pose proof (numel_split a L) as NS.
  destruct ((numel a =? 0) && ((get_M a =? 0) || (get_N a =? 0))) eqn:E.
  - exists true. split; [reflexivity|]. split; [|reflexivity]. intros _. apply andb_true_iff in E. destruct E as [E _]. apply Nat.eqb_eq in E. tauto.
  - assert (NZ : numel a <> 0).
    { intro Z0. rewrite Z0 in E. cbn [Nat.eqb andb] in E. apply orb_false_iff in E. destruct E as [E1 E2]. apply Nat.eqb_neq in E1, E2. nia. }
    destruct (skip_single_ok v (a_dims a) _ eq_refl F (length (a_dims a) + 1) 2) as (k & E1 & K); [lia..|]. cbv zeta. rewrite E1. cbn [obind].
    eexists. split; [reflexivity|]. rewrite K. unfold flat. tauto.
Qed.

Lemma dims_match_ok want dims : length dims = length want -> Forall (fun d => (Z.of_nat d < 4294967296)%Z) dims -> Forall (fun w => (w < 4294967296)%Z) want ->
  forall cnt d, d + cnt = length dims ->
  exists b, dims_match cnt d want dims = Some b /\ (b = true <-> forall i w n, d <= i -> nth_error want i = Some w -> nth_error dims i = Some n -> fits_size w n).
Proof.
  intros E F G. induction cnt as [|cnt IH]; intros d L; cbn [dims_match].
  - exists true. split; [reflexivity|]. split; [|reflexivity]. intros _ i w n Hi Hw Hn. assert (Q : nth_error dims i <> None) by congruence. apply nth_error_Some in Q. lia.
  - destruct (nth_error want d) as [w|] eqn:Ew; [|apply nth_error_None in Ew; lia]. destruct (nth_error dims d) as [n|] eqn:En; [|apply nth_error_None in En; lia].
    unfold aget. rewrite Ew. cbn [obind]. destruct (IH (d + 1) ltac:(lia)) as (b & Eb & B).
    assert (Bn : (Z.of_nat n < 4294967296)%Z) by (rewrite Forall_forall in F; apply F; now apply nth_error_In in En).
    assert (Bw : (w < 4294967296)%Z) by (rewrite Forall_forall in G; apply G; now apply nth_error_In in Ew).
    destruct (Z.ltb_spec w 0) as [H|H].
    + exists b. split; [assumption|]. rewrite B. split; intros Q i w' n' Hi Hw Hn; [|apply (Q i); [lia|assumption..]].
      destruct (Nat.eq_dec i d) as [->|]; [left; congruence|apply (Q i); [lia|assumption..]].
    + fold (aget dims d). unfold aget. rewrite En. cbn [obind]. rewrite (Z.eqb_sym (zcast w)). destruct (cast n =? zcast w)%Z eqn:Ec.
      * apply cast_eq in Ec; [|lia..]. exists b. split; [assumption|]. rewrite B. split; intros Q i w' n' Hi Hw Hn; [|apply (Q i); [lia|assumption..]].
        destruct (Nat.eq_dec i d) as [->|]; [right; congruence|apply (Q i); [lia|assumption..]].
      * exists false. split; [reflexivity|]. split; [discriminate|]. intro Q. exfalso. destruct (Q d w n (le_n d) Ew En) as [Q'|Q']; [lia|].
        assert (X : (cast n =? zcast w)%Z = true) by (apply cast_eq; lia). congruence.
Qed.

(** ** Strings *)
Lemma compare_ok : forall s1 s2 rest, text s2 ->
  exists v, compare_to_string s1 (s2 ++ 0%N :: rest) = Some v /\
   (v = 0%Z /\ map lower s1 = map lower s2 \/
    (v < 0)%Z /\ dict_lt (map lower s1) (map lower s2) \/
    (v > 0)%Z /\ dict_lt (map lower s2) (map lower s1)).
Proof.
  induction s1 as [|c1 s1 IH]; intros [|c2 s2] rest H2; cbn [app compare_to_string map].
  - cbn. eexists. split; [reflexivity|]. left. auto.
  - pose proof (lower_0 c2 (Forall_inv H2)). change tolower with lower. eexists. split; [reflexivity|]. right. left. split; [lia|constructor].
  - change tolower with lower. change (lower 0) with 0%N. destruct (N.eqb_spec (lower c1) 0) as [E|E]; cbn [N.eqb].
    + eexists. split; [reflexivity|]. right. right. split; [lia|constructor].
    + eexists. split; [reflexivity|]. right. right. split; [lia|constructor].
  - pose proof (Forall_inv H2) as H. cbn beta in H. change tolower with lower. destruct (N.eqb_spec (lower c1) (lower c2)) as [E|E].
    + destruct (N.eqb_spec c2 0) as [Q|Q]; [contradiction|]. destruct (IH s2 rest (Forall_inv_tail H2)) as (v & Ev & Hv). exists v. split; [assumption|].
      rewrite E. destruct Hv as [[-> Hv]|[[? Hv]|[? Hv]]].
      * left. split; [reflexivity|]. congruence.
      * right; left. split; [assumption|]. now apply dl_tail.
      * right; right. split; [assumption|]. now apply dl_tail.
    + eexists. split; [reflexivity|]. destruct (N.lt_trichotomy (lower c1) (lower c2)) as [L|[L|L]]; [|contradiction|].
      * right; left. split; [lia|now apply dl_head].
      * right; right. split; [lia|now apply dl_head].
Qed.

(** ** Options *)
Definition bytes_of (a : marray) : list N := map (fun c => (c mod 256)%N) (a_chars a).
Lemma lookup_ok tbl a : good_table tbl -> plain_text a -> is_string a (-1) = true -> length (a_chars a) <= 1023 ->
  exists r, lookup tbl (bytes_of a ++ [0%N]) = Some r /\
    match r with Some o => entry tbl a o /\ (0 <= o_val o)%Z | None => forall o, ~ entry tbl a o end.
Proof.
  intros (es & e & -> & En & F) PT IS LC. assert (TX : text (bytes_of a)).
  { unfold bytes_of. apply Forall_forall. intros c Hc. apply in_map_iff in Hc. destruct Hc as (x & <- & Hx). unfold plain_text in PT. rewrite Forall_forall in PT. now apply PT. }
  enough (G : forall pre, (forall o', In o' pre -> ~ names a o') -> exists r, lookup (es ++ [e]) (bytes_of a ++ [0%N]) = Some r /\
    match r with Some o => entry (pre ++ es ++ [e]) a o /\ (0 <= o_val o)%Z | None => forall o, ~ entry (pre ++ es ++ [e]) a o end) by (apply (G []); intros o' []).
  induction F as [|o es [Vo (n & Eo & Tn)] F IH]; intros pre NP; cbn [app lookup].
  - rewrite En. exists None. split; [reflexivity|]. intros o (b & af & Eb & No & _).
    assert (Hin : In o (pre ++ [e])) by (rewrite Eb; apply in_or_app; right; now left). apply in_app_or in Hin. destruct Hin as [Hin|[<-|[]]]; [now apply (NP o)|].
    destruct No as (_ & _ & n & E & _). congruence.
  - rewrite Eo. destruct (casei_cmp_spec (bytes_of a) n [] [] TX Tn) as (v & -> & Hv). cbn [obind].
    assert (NI : names a o <-> v = 0%Z).
    { split.
      - intros (_ & _ & n' & E' & Q). assert (n' = n) by (rewrite Eo in E'; injection E' as E'; apply app_inj_tail in E'; symmetry; tauto). subst n'. fold (bytes_of a) in Q.
        destruct Hv as [[? _]|[[_ D]|[_ D]]]; [assumption|..]; rewrite Q in D; now apply dict_lt_irrefl in D.
      - intros ->. destruct Hv as [[_ Q]|[[H _]|[H _]]]; [|lia..]. split; [assumption|]. split; [assumption|]. exists n. auto. }
    destruct (Z.eqb_spec v 0) as [E0|E0].
    + eexists. split; [reflexivity|]. split; [|assumption]. exists pre, (es ++ [e]). split; [reflexivity|]. tauto.
    + destruct (IH (pre ++ [o])) as (r & E & Hr).
      * intros o' Hin. apply in_app_or in Hin. destruct Hin as [Hin|[<-|[]]]; [now apply NP|tauto].
      * exists r. split; [assumption|]. rewrite <- !app_assoc in Hr. exact Hr.
Qed.
Lemma entry_unique tbl a o o' : entry tbl a o -> entry tbl a o' -> o = o'.
Proof.
  intros (b & af & E & N & F) (b' & af' & E' & N' & F'). rewrite E in E'. clear E.
  revert b' E' F'. induction b as [|x b IH]; intros [|x' b'] E' F'; cbn [app] in E'.
  - congruence.
  - exfalso. injection E' as -> _. apply (F' x'); [now left|assumption].
  - exfalso. injection E' as -> _. apply (F o'); [now left|assumption].
  - injection E' as -> E'. apply (IH ltac:(intros o1 H1; apply F; now right) b' E'). intros o1 H1. apply F'. now right.
Qed.
Lemma next_option_ok args tbl next : good_table tbl -> Forall plain_text args -> next <= length args ->
  exists r, next_option args tbl next = Some r /\
    match r with
    | Some Done => skipn next args = []
    | Some (Found opt oa nx) => next < nx <= length args /\ exists a o, entry tbl a o /\ opt = o_val o /\
        (o_has_arg o = false /\ oa = None /\ skipn next args = a :: skipn nx args \/
         exists v, o_has_arg o = true /\ oa = Some v /\ skipn next args = a :: v :: skipn nx args)
    | None => forall l, ~ options_of tbl (skipn next args) l
    end.
Proof.
  intros GT PT LN. unfold next_option. destruct (Nat.leb_spec (length args) next) as [H|H].
  { eexists. split; [reflexivity|]. apply skipn_all2. lia. }
  destruct (nth_error args next) as [a|] eqn:Ea; [|apply nth_error_None in Ea; lia]. unfold aget. rewrite Ea. cbn [obind].
  assert (SK : skipn next args = a :: skipn (next + 1) args).
  { clear -Ea. revert next Ea. induction args as [|x args IH]; intros [|next] Ea; cbn in *; try discriminate; [congruence|]. now apply IH. }
  assert (ENT : forall l, options_of tbl (skipn next args) l -> exists o, entry tbl a o).
  { intros l O. rewrite SK in O. inversion O; eauto. }
  destruct (is_string a (-1)) eqn:ES; cbn [negb].
  2: { eexists. split; [reflexivity|]. intros l O. destruct (ENT l O) as (o & b & af & _ & (Q & _) & _). congruence. }
  unfold get_string. destruct (Nat.ltb_spec (length (a_chars a)) 1024) as [HL|HL].
  2: { eexists. split; [reflexivity|]. intros l O. destruct (ENT l O) as (o & b & af & _ & (_ & Q & _) & _). lia. }
  destruct (lookup_ok tbl a GT ltac:(rewrite Forall_forall in PT; apply PT; now apply nth_error_In in Ea) ES ltac:(lia)) as (r & El & Hr).
  unfold bytes_of in El. rewrite El. cbn [obind]. destruct r as [o|].
  2: { eexists. split; [reflexivity|]. intros l O. destruct (ENT l O) as (o & Q). exact (Hr o Q). }
  destruct Hr as [En Vo]. destruct (Z.ltb_spec (o_val o) 0); [lia|]. destruct (o_has_arg o) eqn:EH; cbn [negb].
  - destruct (Nat.leb_spec (length args) (next + 1)) as [H1|H1].
    + eexists. split; [reflexivity|]. intros l O. rewrite SK, (skipn_all2 args (n := next + 1)) in O by lia. inversion O as [|a' args' o' l' E' H' O'|]; subst.
      assert (o' = o) by (eapply entry_unique; eassumption). congruence.
    + destruct (nth_error args (next + 1)) as [v|] eqn:Ev; [|apply nth_error_None in Ev; lia]. cbn [obind]. eexists. split; [reflexivity|]. split; [lia|].
      exists a, o. split; [assumption|]. split; [reflexivity|]. right. exists v. split; [assumption|]. split; [reflexivity|]. rewrite SK. f_equal.
      clear -Ev. replace (next + 2) with (S (next + 1)) by lia. revert Ev. generalize (next + 1). intro n. revert n. induction args as [|x args IH]; intros [|n] Ev; cbn in *; try discriminate; [congruence|]. now apply IH.
  - eexists. split; [reflexivity|]. split; [lia|]. exists a, o. split; [assumption|]. split; [reflexivity|]. left. auto.
Qed.
Lemma all_options_ok args tbl : good_table tbl -> Forall plain_text args -> forall fuel next, next <= length args -> length args - next < fuel ->
  exists r, all_options fuel args tbl next = Some r /\
    match r with Some l => forall l', options_of tbl (skipn next args) l' <-> l' = l | None => forall l, ~ options_of tbl (skipn next args) l end.
Proof.
  intros GT PT. induction fuel as [|fuel IH]; intros next L F; [lia|]. cbn [all_options].
  destruct (next_option_ok args tbl next GT PT L) as (r & -> & Hr). cbn [obind]. destruct r as [[|opt oa nx]|].
  - eexists. split; [reflexivity|]. intro l'. rewrite Hr. split; [intro O; now inversion O|intros ->; constructor].
  - destruct Hr as (Ln & a & o & En & -> & Hs). destruct (IH nx ltac:(lia) ltac:(lia)) as (r & -> & Hr). cbn [obind].
    assert (ST : forall l', options_of tbl (skipn next args) l' <-> exists l, l' = (o_val o, oa) :: l /\ options_of tbl (skipn nx args) l).
    { intro l'. destruct Hs as [(EH & -> & ->)|(v & EH & -> & ->)]; (split; [intro O|intros (l & -> & O)]).
      - inversion O as [|a' args' o' l1 E1 H1 O1|a' v' args' o' l1 E1 H1 O1]; subst; assert (o' = o) by (eapply entry_unique; eassumption); subst o'; [eauto|congruence].
      - constructor; assumption.
      - inversion O as [|a' args' o' l1 E1 H1 O1|a' v' args' o' l1 E1 H1 O1]; subst; assert (o' = o) by (eapply entry_unique; eassumption); subst o'; [congruence|eauto].
      - constructor; assumption. }
    destruct r as [l|]; cbn [option_map].
    + eexists. split; [reflexivity|]. intro l'. rewrite ST. split; [intros (l1 & -> & O); apply Hr in O; congruence|intros ->; exists l; split; [reflexivity|now apply Hr]].
    + eexists. split; [reflexivity|]. intros l' O. apply ST in O. destruct O as (l1 & _ & O). exact (Hr l1 O).
  - eexists. split; [reflexivity|]. exact Hr.
Qed.
