(** Files of the drivers: theorems. *)
From Coq Require Import List Arith NArith ZArith Bool Lia.
From Verif Require Import Base Str_Model Str_Spec Str_Proofs Str_Props FileMeta_Model FileMeta_Spec.
Import ListNotations.
Local Open Scope nat_scope.

Lemma bounded_fits s b b' r : text s -> bounded_write s b (length b) b' r -> length s < length b -> cstring s b' /\ length b' = length b.
Proof.
  intros T (-> & _ & H) L. destruct (H ltac:(lia)) as (m & Em & ->). assert (m = length s) by lia. subst m. rewrite H0. rewrite firstn_all.
  split; [split; [exact T|]; eexists; reflexivity|]. rewrite !app_length, skipn_length. cbn. lia.
Qed.
Lemma bounded_length s b n b' r : n <= length b -> bounded_write s b n b' r -> length b' = length b.
Proof.
  intros L (-> & H0 & H). destruct n as [|n]; [now rewrite H0|]. destruct (H ltac:(lia)) as (m & Em & ->).
  rewrite !app_length, skipn_length, firstn_length. cbn. lia.
Qed.
Lemma length_ok s mem : cstring s mem -> string_length mem = Some (length s).
Proof.
  intros (T & rest & ->). induction s as [|c s IH]; cbn; [reflexivity|]. inversion T; subst.
  destruct (N.eqb_spec c 0); [contradiction|]. now rewrite IH.
Qed.
Lemma skip_cstring s mem pre post : cstring s mem -> s = pre ++ post -> cstring post (skipn (length pre) mem).
Proof.
  intros (T & rest & ->) ->. rewrite <- app_assoc, skipn_app, skipn_all, Nat.sub_diag. cbn [app skipn].
  split; [|eexists; reflexivity]. apply Forall_app in T. apply T.
Qed.

(** C251: the argument of an option is split into protocol and pattern; the fields not mentioned in it are kept. *)
Theorem C251_parse : forall F (self : meta F) s mem, cstring s mem -> 
  (forall post p, (~ contains_sep s /\ post = s /\ p = PROT_NONE) \/ (exists pre, split_first s pre post /\ parse_protocol mem = Some (p, length pre + 3)) ->
   exists self' e, meta_parse self (Some mem) = Some (self', e) /\ m_active self' = true /\ m_name self' = m_name self /\ m_file self' = m_file self /\
    length (m_pattern self') = length (m_pattern self) /\
    (p = PROT_UNKNOWN -> e = VL_ERR_BAD_ARG /\ m_pattern self' = m_pattern self /\ m_protocol self' = m_protocol self) /\
    (p <> PROT_UNKNOWN -> m_protocol self' = (match p with PROT_NONE => m_protocol self | _ => p end) /\
      (post = [] -> e = VL_ERR_OK /\ m_pattern self' = m_pattern self) /\
      (post <> [] -> length post < length (m_pattern self) -> e = VL_ERR_OK /\ cstring post (m_pattern self')) /\
      (post <> [] -> length (m_pattern self) <= length post -> e = VL_ERR_OVERFLOW))).
Proof.
  intros F self s mem HS post p HP.
  assert (Q : exists k, parse_protocol mem = Some (p, k) /\ cstring post (skipn k mem)).
  { destruct HP as [(NS & -> & ->)|(pre & SF & E)].
    - exists 0. split; [now apply (C10_parse_protocol_none s mem)|exact HS].
    - exists (length pre + 3). split; [exact E|]. destruct SF as [Es _].
      replace (length pre + 3) with (length (pre ++ sep)) by (rewrite app_length; reflexivity).
      apply (skip_cstring s); [exact HS|]. now rewrite <- app_assoc. }
  destruct Q as (k & EP & HC). unfold meta_parse. rewrite EP. cbn [obind].
  assert (M : p <> PROT_UNKNOWN -> exists self' e,
    (let self0 := match p with PROT_NONE => with_active self true | _ => with_protocol (with_active self true) p end in
      do n <- string_length (skipn k mem);
      if 0 <? n then
        do (b, q) <- string_copy (Some (m_pattern self0)) (length (m_pattern self0)) (skipn k mem);
        match b with
        | None => None
        | Some b => let self := with_pattern self0 b in
          if length (m_pattern self) <=? q then Some (self, VL_ERR_OVERFLOW) else Some (self, VL_ERR_OK)
        end
      else Some (self0, VL_ERR_OK)) = Some (self', e) /\ m_active self' = true /\ m_name self' = m_name self /\ m_file self' = m_file self /\
      length (m_pattern self') = length (m_pattern self) /\ m_protocol self' = (match p with PROT_NONE => m_protocol self | _ => p end) /\
      (post = [] -> e = VL_ERR_OK /\ m_pattern self' = m_pattern self) /\
      (post <> [] -> length post < length (m_pattern self) -> e = VL_ERR_OK /\ cstring post (m_pattern self')) /\
      (post <> [] -> length (m_pattern self) <= length post -> e = VL_ERR_OVERFLOW)).
  { intro NP. cbv zeta. set (self0 := match p with PROT_NONE => with_active self true | _ => with_protocol (with_active self true) p end).
    assert (S0 : m_active self0 = true /\ m_pattern self0 = m_pattern self /\ m_name self0 = m_name self /\ m_file self0 = m_file self /\
      m_protocol self0 = match p with PROT_NONE => m_protocol self | _ => p end) by (unfold self0; destruct p; repeat split).
    clearbody self0. destruct S0 as (A1 & A2 & A3 & A4 & A5).
    rewrite (length_ok post _ HC). cbn [obind]. destruct (Nat.ltb_spec 0 (length post)) as [LP|LP].
    - destruct (C08_string_copy_bounded post _ (m_pattern self0) (length (m_pattern self0)) HC (le_n _)) as (b' & r & -> & BW). cbn [obind].
      pose proof (bounded_length _ _ _ _ _ (le_n _) BW) as LB. assert (R : r = length post) by apply BW. subst r.
      cbn [m_pattern with_pattern]. destruct (Nat.leb_spec (length b') (length post)) as [LE|LE]; eexists; eexists; (split; [reflexivity|]); cbn; rewrite A2 in *;
        repeat (split; [first [assumption|congruence|lia]|]).
      + split; [intros ->; cbn in LP; lia|]. split; [intros; lia|reflexivity].
      + split; [intros ->; cbn in LP; lia|]. split; [|intros; lia]. intros _ L. split; [reflexivity|]. now apply (bounded_fits post (m_pattern self) b' (length post) (proj1 HC) BW).
    - eexists; eexists; (split; [reflexivity|]). repeat (split; [first [assumption|congruence]|]).
      assert (post = []) by (destruct post; cbn in LP; [reflexivity|lia]).
      split; [split; [reflexivity|assumption]|]. split; intros N; contradiction. }
  destruct p.
  - eexists; eexists; (split; [reflexivity|]). repeat (split; [reflexivity|]). split; [repeat split|congruence].
  - destruct (M ltac:(discriminate)) as (self' & e & X & B1 & B2 & B3 & B4 & B5). exists self', e. repeat (split; [assumption|]). split; [discriminate|auto].
  - destruct (M ltac:(discriminate)) as (self' & e & X & B1 & B2 & B3 & B4 & B5). exists self', e. repeat (split; [assumption|]). split; [discriminate|auto].
  - destruct (M ltac:(discriminate)) as (self' & e & X & B1 & B2 & B3 & B4 & B5). exists self', e. repeat (split; [assumption|]). split; [discriminate|auto].
Qed.
(** "bin://%.d" *)
Example C251_ex : option_map (fun r => (m_protocol (fst r), m_pattern (fst r), snd r))
    (meta_parse (mk_meta (F:=unit) false (repeat 7%N 8) PROT_ASCII (repeat 0%N 8) None) (Some [98; 105; 110; 58; 47; 47; 37; 46; 100; 0]%N))
  = Some (PROT_BINARY, [37; 46; 100; 0; 7; 7; 7; 7]%N, VL_ERR_OK).
Proof. reflexivity. Qed.

(** C252: the name of the file is the pattern with the basename for each percent sign, or an overflow is reported and nothing is opened. *)
Theorem C252_open : forall F fopen (self : meta F) s base mem, m_active self = true -> cstring s (m_pattern self) -> cstring base mem ->
  let full := substituted 37 0 base s in
  exists self' e, meta_open fopen self mem = Some (self', e) /\ m_pattern self' = m_pattern self /\ m_protocol self' = m_protocol self /\
    (length full < length (m_name self) -> cstring full (m_name self') /\ m_file self' = fopen (m_name self') /\ (e = VL_ERR_OK <-> m_file self' <> None) /\ (e = VL_ERR_IO <-> m_file self' = None)) /\
    (length (m_name self) <= length full -> e = VL_ERR_OVERFLOW /\ m_file self' = m_file self).
Proof.
  intros F fopen self s base mem HA HS HB full. unfold meta_open. rewrite HA. cbn [negb].
  destruct (C09_replace_wildcard s (m_pattern self) base mem 37%N 0%N (m_name self) (length (m_name self)) HS HB (le_n _)) as (b' & r & -> & BW). cbn [obind].
  fold full in BW. assert (R : r = length full) by apply BW. subst r. pose proof (bounded_length _ _ _ _ _ (le_n _) BW) as LB.
  assert (TF : text full).
  { unfold full. destruct HS as (TS & _), HB as (TB & _). clear - TS TB. 
    assert (H : forall n s, length s <= n -> text s -> text (substituted 37 0 base s)).
    { induction n as [|n IH]; intros [|c t] L T; cbn in *; try lia; try constructor. inversion T; subst.
      destruct (N.eqb_spec c 0); [contradiction|]. destruct (N.eqb_spec c 37).
      - apply Forall_app. split; [exact TB|]. apply IH; [lia|assumption].
      - constructor; [assumption|]. apply IH; [lia|assumption]. }
    now apply (H (length s)). }
  cbn [m_name with_name]. destruct (Nat.leb_spec (length b') (length full)) as [LE|LE].
  - eexists; eexists; (split; [reflexivity|]). cbn. repeat (split; [reflexivity|]). split; [intros; lia|]. intros _. split; reflexivity.
  - cbn [m_file with_file]. destruct (fopen b') as [f|] eqn:EF; eexists; eexists; (split; [reflexivity|]); cbn; repeat (split; [reflexivity|]); (split; [|intros; lia]); intro L;
      (split; [now apply (bounded_fits full (m_name self) b' (length full) TF BW)|]); rewrite EF; (split; [reflexivity|]); split; split; congruence.
Qed.
Example C252_ex : option_map (fun r => (m_name (fst r), m_file (fst r), snd r))
    (meta_open (fun _ => Some tt) (mk_meta true [37; 46; 100; 0]%N PROT_ASCII (repeat 7%N 6) None) [97; 98; 0]%N)
  = Some ([97; 98; 46; 100; 0; 7]%N, Some tt, VL_ERR_OK).
Proof. reflexivity. Qed.

(** C253: numbers written to a binary file are read back unchanged, on a host of any byte order; what is written has the most significant byte first. *)
Lemma swap_stored big v : length v = 8 -> swap8 big (stored big v) = Some v.
Proof.
  intro L. do 9 (destruct v as [|? v]; try discriminate L). clear L. destruct big; reflexivity.
Qed.
Lemma swap_read big v : length v = 8 -> swap8 big v = Some (stored big v).
Proof.
  intro L. do 9 (destruct v as [|? v]; try discriminate L). clear L. destruct big; reflexivity.
Qed.
Lemma put_all_ok big pg : forall vs (self : meta out) l room, Forall (fun v => length v = 8) vs -> m_protocol self = PROT_BINARY -> m_file self = Some (l, room) -> 8 * length vs <= room ->
  exists self', put_all big pg self (map (stored big) vs) = Some (self', repeat VL_ERR_OK (length vs)) /\ m_file self' = Some (l ++ concat vs, room - 8 * length vs).
Proof.
  induction vs as [|v vs IH]; intros self l room HV HP HF HR.
  - exists self. split; [reflexivity|]. cbn. now rewrite app_nil_r, Nat.sub_0_r.
  - inversion HV as [|? ? LV HV']; subst. cbn [map put_all length repeat concat]. unfold put_double. rewrite HF, HP, swap_stored by exact LV. cbn [obind].
    unfold fwrite. cbn [length] in HR. destruct (Nat.leb_spec (length v) room); [|lia]. cbn [obind].
    destruct (IH (with_file self (Some (l ++ v, room - length v))) (l ++ v) (room - length v) HV' HP eq_refl ltac:(lia)) as (self' & E & HF').
    cbv beta iota zeta. change ((1 <? 1)%Z) with false. cbv beta iota. cbn [obind].
    match goal with |- context [put_all big pg ?s ?m] => assert (X : put_all big pg s m = Some (self', repeat VL_ERR_OK (length vs))) by exact E; rewrite X end. cbn [obind]. exists self'. split; [reflexivity|]. rewrite HF', <- app_assoc. replace (room - length v - 8 * length vs) with (room - 8 * S (length vs)) by lia. reflexivity.
Qed.
Lemma get_all_ok big scan : forall vs (self : meta (list N)) tail, Forall (fun v => length v = 8) vs -> m_protocol self = PROT_BINARY -> m_file self = Some (concat vs ++ tail) ->
  exists self', get_all big scan (length vs) self = Some (self', map (stored big) vs) /\ m_protocol self' = PROT_BINARY /\ m_file self' = Some tail.
Proof.
  induction vs as [|v vs IH]; intros self tail HV HP HF.
  - exists self. auto.
  - inversion HV as [|? ? LV HV']; subst. cbn [length get_all]. unfold get_double. rewrite HF, HP. cbn [concat].
    rewrite <- app_assoc. destruct (Nat.ltb_spec (length (v ++ concat vs ++ tail)) 8) as [LT|LT]; [rewrite app_length in LT; lia|].
    replace (firstn 8 (v ++ concat vs ++ tail)) with v by (rewrite <- LV, firstn_app, firstn_all, Nat.sub_diag; cbn; now rewrite app_nil_r).
    replace (skipn 8 (v ++ concat vs ++ tail)) with (concat vs ++ tail) by (rewrite <- LV, skipn_app, skipn_all, Nat.sub_diag; reflexivity).
    rewrite swap_read by exact LV. cbn [obind].
    destruct (IH (with_file self (Some (concat vs ++ tail))) tail HV' HP eq_refl) as (self' & E & H). rewrite E. cbn [obind map]. exists self'. split; [reflexivity|exact H].
Qed.
Theorem C253_round_trip : forall writer reader pg scan vs (w : meta out) (r : meta (list N)) room,
  Forall (fun v => length v = 8) vs -> m_protocol w = PROT_BINARY -> m_protocol r = PROT_BINARY -> m_file w = Some ([], room) -> 8 * length vs <= room ->
  exists w' content left, put_all writer pg w (map (stored writer) vs) = Some (w', repeat VL_ERR_OK (length vs)) /\ m_file w' = Some (content, left) /\
    (m_file r = Some content -> exists r', get_all reader scan (length vs) r = Some (r', map (stored reader) vs)).
Proof.
  intros writer reader pg scan vs w r room HV HW HR HF HL. destruct (put_all_ok writer pg vs w [] room HV HW HF HL) as (w' & E & F'). cbn [app] in F'.
  exists w', (concat vs), (room - 8 * length vs). split; [exact E|]. split; [exact F'|]. intro HC.
  destruct (get_all_ok reader scan vs r [] HV HR) as (r' & E' & _); [now rewrite app_nil_r|]. eauto.
Qed.
Example C253_ex : Forall (fun v : list N => length v = 8) [[63; 240; 0; 0; 0; 0; 0; 0]; [64; 0; 0; 0; 0; 0; 0; 0]]%N /\
  stored false [63; 240; 0; 0; 0; 0; 0; 0]%N = [0; 0; 0; 0; 0; 0; 240; 63]%N.
Proof. split; [repeat constructor|reflexivity]. Qed.

(** C254: with the ASCII protocol an error is returned although the number has been written. *)
Theorem C254_status_refuted : forall big pg (self : meta out) x l room, m_protocol self = PROT_ASCII -> m_file self = Some (l, room) ->
  length (pg x ++ [32%N]) <= room ->
  exists self' room', put_double big pg self x = Some (self', VL_ERR_ALLOC) /\ m_file self' = Some (l ++ pg x ++ [32%N], room').
Proof.
  intros big pg self x l room HP HF HR. unfold put_double. rewrite HF, HP. unfold fprintf. destruct (Nat.leb_spec (length (pg x ++ [32%N])) room); [|lia].
  exists (with_file self (Some (l ++ pg x ++ [32%N], room - length (pg x ++ [32%N])))), (room - length (pg x ++ [32%N])). split; [|reflexivity].
  destruct (Z.eqb_spec (Z.of_nat (length (pg x ++ [32%N]))) 0) as [E|]; [|reflexivity].
  exfalso. rewrite app_length in E. cbn in E. lia.
Qed.
Example C254_ex : put_double false (fun _ => [49%N]) (mk_meta true [] PROT_ASCII [] (Some ([], 10))) [] = Some (mk_meta true [] PROT_ASCII [] (Some ([49; 32]%N, 8)), VL_ERR_ALLOC).
Proof. reflexivity. Qed.

(** C255: at the end of a binary file the error is that of a malformed file, not the end of file. *)
Theorem C255_eof_refuted : forall big scan (self : meta (list N)), m_protocol self = PROT_BINARY -> m_file self = Some [] ->
  exists self', get_double big scan self = Some (self', None, VL_ERR_BAD_ARG).
Proof. intros big scan self HP HF. unfold get_double. rewrite HF, HP. cbn. eauto. Qed.
Example C255_ex : exists s, get_double false (fun _ => Scan_eof) (mk_meta true [] PROT_BINARY [] (Some [])) = Some (s, None, VL_ERR_BAD_ARG).
Proof. apply C255_eof_refuted; reflexivity. Qed.

(** C256: so the sift driver rejects every binary file of frames. *)
Lemma read_binary big scan : forall n fuel (self : meta (list N)) f ikeys, m_protocol self = PROT_BINARY -> m_file self = Some f -> length f <= n -> n < fuel ->
  read_frames big scan fuel self ikeys = Some (inr VL_ERR_IO).
Proof.
  assert (G : forall self f, m_protocol self = PROT_BINARY -> m_file self = Some f ->
    (exists s, get_double big scan self = Some (s, None, VL_ERR_BAD_ARG)) \/
    (exists s x f', get_double big scan self = Some (s, Some x, VL_ERR_OK) /\ m_protocol s = PROT_BINARY /\ m_file s = Some f' /\ length f' < length f)).
  { intros self f HP HF. unfold get_double. rewrite HF, HP. destruct (Nat.ltb_spec (length f) 8) as [L|L]; [left; eauto|right].
    rewrite swap_read by (rewrite firstn_length; lia). cbn [obind]. eexists; eexists; eexists. split; [reflexivity|]. cbn [with_file m_protocol m_file]. split; [exact HP|]. split; [reflexivity|]. rewrite skipn_length. lia. }
  induction n as [|n IH]; intros fuel self f ikeys HP HF L LF; (destruct fuel as [|fuel]; [lia|]); cbn [read_frames];
    (destruct (G self f HP HF) as [(s1 & ->)|(s1 & x1 & f1 & -> & P1 & F1 & L1)]; [reflexivity|]); cbn [obind]; try lia.
  destruct (G s1 f1 P1 F1) as [(s2 & ->)|(s2 & x2 & f2 & -> & P2 & F2 & L2)]; [reflexivity|]. cbn [obind].
  destruct (G s2 f2 P2 F2) as [(s3 & ->)|(s3 & x3 & f3 & -> & P3 & F3 & L3)]; [reflexivity|]. cbn [obind].
  destruct (G s3 f3 P3 F3) as [(s4 & ->)|(s4 & x4 & f4 & -> & P4 & F4 & L4)]; [reflexivity|]. cbn [obind].
  apply (IH fuel s4 f4); auto; lia.
Qed.
Theorem C256_frames_refuted : forall big scan (self : meta (list N)) f, m_protocol self = PROT_BINARY -> m_file self = Some f ->
  read_frames big scan (length f + 1) self [] = Some (inr VL_ERR_IO).
Proof. intros big scan self f HP HF. apply (read_binary big scan (length f) _ self f); auto; lia. Qed.
Example C256_ex : read_frames false (fun _ => Scan_eof) 33 (mk_meta true [] PROT_BINARY [] (Some (repeat 1%N 32))) [] = Some (inr VL_ERR_IO).
Proof. reflexivity. Qed.

(** C257: with the ASCII protocol the frames are the groups of four numbers of the text, in order; a last group of three numbers is dropped, other rests are errors. *)
Inductive scans (scan : list N -> scanned) : list N -> list (list N) -> Prop :=
| scans_end : forall f, scan f = Scan_eof -> scans scan f []
| scans_num : forall f x r xs, scan f = Scan_ok x r -> scans scan r xs -> scans scan f (x :: xs).
Lemma scans_empty scan f : scans scan f [] -> scan f = Scan_eof.
Proof. now inversion 1. Qed.
Lemma scans_cons scan f x xs : scans scan f (x :: xs) -> exists r, scan f = Scan_ok x r /\ scans scan r xs.
Proof. inversion 1; subst; eauto. Qed.
Definition flat (k : frame) : list (list N) := let '(x, y, s, th) := k in [x; y; s; th].
Theorem C257_frames : forall big scan keys rest (self : meta (list N)) f fuel, m_protocol self = PROT_ASCII -> m_file self = Some f ->
  scans scan f (concat (map flat keys) ++ rest) -> length rest < 4 -> length keys < fuel ->
  read_frames big scan fuel self [] = Some (if (length rest =? 0) || (length rest =? 3) then inl keys else inr VL_ERR_IO).
Proof.
  intros big scan. assert (H : forall keys rest (self : meta (list N)) f fuel acc, m_protocol self = PROT_ASCII -> m_file self = Some f ->
    scans scan f (concat (map flat keys) ++ rest) -> length rest < 4 -> length keys < fuel ->
    read_frames big scan fuel self acc = Some (if (length rest =? 0) || (length rest =? 3) then inl (acc ++ keys) else inr VL_ERR_IO)).
  { induction keys as [|[[[x y] s] th] keys IH]; intros rest self f fuel acc HP HF HS LR LF; (destruct fuel as [|fuel]; [cbn in LF; lia|]); cbn [read_frames].
    - cbn [map concat app] in HS. rewrite app_nil_r. unfold get_double.
      destruct rest as [|a rest]; [rewrite HF, HP, (scans_empty _ _ HS); reflexivity|]. destruct (scans_cons _ _ _ _ HS) as (r1 & E1 & S1). rewrite HF, HP, E1. cbn [obind with_file m_file m_protocol]. rewrite HP.
      destruct rest as [|b rest]; [rewrite (scans_empty _ _ S1); reflexivity|]. destruct (scans_cons _ _ _ _ S1) as (r2 & E2 & S2). rewrite E2. cbn [obind with_file m_file m_protocol]. rewrite HP.
      destruct rest as [|c rest]; [rewrite (scans_empty _ _ S2); reflexivity|]. destruct (scans_cons _ _ _ _ S2) as (r3 & E3 & S3). rewrite E3. cbn [obind with_file m_file m_protocol]. rewrite HP.
      destruct rest as [|d rest]; [rewrite (scans_empty _ _ S3); reflexivity|]. cbn in LR. lia.
    - cbn [map concat flat app] in HS. destruct (scans_cons _ _ _ _ HS) as (r1 & E1 & S1). destruct (scans_cons _ _ _ _ S1) as (r2 & E2 & S2).
      destruct (scans_cons _ _ _ _ S2) as (r3 & E3 & S3). destruct (scans_cons _ _ _ _ S3) as (r4 & E4 & S4).
      unfold get_double at 1. rewrite HF, HP, E1. cbn [obind]. unfold get_double at 1. cbn [with_file m_file m_protocol]. rewrite HP, E2. cbn [obind].
      unfold get_double at 1. cbn [with_file m_file m_protocol]. rewrite HP, E3. cbn [obind]. unfold get_double at 1. cbn [with_file m_file m_protocol]. rewrite HP, E4. cbn [obind].
      erewrite IH; [|exact HP|reflexivity|exact S4|exact LR|cbn in LF; lia]. now rewrite <- app_assoc. }
  intros keys rest self f fuel H1 H2 H3 H4 H5. exact (H keys rest self f fuel [] H1 H2 H3 H4 H5).
Qed.
(** a scan of digits *)
Example C257_ex : let scan f := match f with [] => Scan_eof | c :: r => Scan_ok [c] r end in
  read_frames false scan 2 (mk_meta true [] PROT_ASCII [] (Some [1; 2; 3; 4; 5; 6; 7]%N)) [] = Some (inl [([1], [2], [3], [4])%N]) /\
  scans scan [1; 2; 3; 4; 5; 6; 7]%N (concat (map flat [([1], [2], [3], [4])%N]) ++ [[5]; [6]; [7]]%N).
Proof. cbn. split; [reflexivity|]. repeat (eapply scans_num; [reflexivity|]). now constructor. Qed.

Print Assumptions C257_frames.
Print Assumptions C251_parse.
Print Assumptions C252_open.
Print Assumptions C253_round_trip.
Print Assumptions C254_status_refuted.
Print Assumptions C255_eof_refuted.
Print Assumptions C256_frames_refuted.
