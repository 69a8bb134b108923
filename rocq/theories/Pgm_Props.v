(** Properties C12, C13, C58 and C59: PGM files and byte order. *)
From Coq Require Import List NArith ZArith Arith Bool Lia.
From Verif Require Import Base Pgm_Model Pgm_Spec Pgm_Proofs.
Import ListNotations.
Local Open Scope Z_scope.

Lemma npixels_product im : 0 <= p_width im * p_height im < 2 ^ 64 -> npixels im = p_width im * p_height im.
Proof. intro H. unfold npixels, wrap_size. now apply Z.mod_small. Qed.
Lemma bpp_bytes im : bpp im = if 256 <=? p_max im then 2 else 1.
Proof. unfold bpp. destruct (Z.leb_spec 256 (p_max im)); try reflexivity; destruct (Z.ltb_spec (p_max im) 256); try reflexivity; lia. Qed.

(** C12.  What vl_pgm_insert writes is a header followed by a body such that, whatever
    follows, the body read with the same descriptor is exactly the data, and
    the header read back is the descriptor if the maximum value is at least
    65536 and rejected as bad metadata if it is not. *)
Theorem C12_pgm_stream_round_trip : forall le w h m data,
  0 <= w < 2 ^ 31 -> 0 <= h < 2 ^ 31 -> 0 <= m < 2 ^ 31 ->
  let im := mk_pgm w h m true in
  Z.of_nat (length data) = (if 256 <=? m then 2 else 1) * (w * h) ->
  exists head body, insert le im data = Some (head ++ body) /\
    (forall rest, 65536 <= m -> extract_head (head ++ rest) = Some (0, Some im, rest)) /\
    (forall rest, m < 65536 -> extract_head (head ++ rest) = Some (ERR_INV_META, None, rest)) /\
    (forall rest, extract_data le (body ++ rest) im = (0, data, rest)).
Proof.
  intros le w h m data Hw Hh Hm im HL. assert (HL' : Z.of_nat (length data) = bpp im * npixels im) by (rewrite bpp_bytes, npixels_product; [exact HL|cbn; nia]).
  clear HL. rename HL' into HL.
  destruct (stream_round_trip le w h m data Hw Hh Hm HL) as (body & E & H1 & H2).
  exists (pgm_header im), body. split; auto. split; [|split; auto]; intros rest Hx; rewrite H1;
    destruct (Z.leb_spec 65536 m); auto; lia.
Qed.
Print Assumptions C12_pgm_stream_round_trip.

(** ASCII pixels separated by one blank are read back, for any number of pixels. *)
Theorem C12_pgm_ascii_pixels : forall le w h m vs rest,
  let im := mk_pgm w h m false in
  0 <= w * h < 2 ^ 64 -> Z.of_nat (length vs) = w * h ->
  Forall (fun v => 0 <= v < (if 256 <=? m then 65536 else 256)) vs -> vs <> [] ->
  extract_data le (concat (map (fun v => print_nat v ++ [32]) vs) ++ rest) im = (0, vs, 32 :: rest).
Proof.
  intros le w h m vs rest im HW HL' HF' HN. assert (HL : Z.of_nat (length vs) = npixels im) by (rewrite npixels_product; assumption).
  assert (HF : Forall (fun v => 0 <= v < 2 ^ (8 * bpp im)) vs) by (rewrite bpp_bytes; cbn [p_max im]; destruct (256 <=? m); exact HF').
  unfold extract_data. cbn [p_raw im].
  rewrite <- HL, Nat2Z.id.
  pose proof (ascii_ok (bpp im) vs [] rest [] HF (or_introl eq_refl)) as E.
  cbn [app rev] in E. change (mk_pgm w h m false) with im. rewrite E. destruct vs; [contradiction|reflexivity].
Qed.
Print Assumptions C12_pgm_ascii_pixels.

(** The reader terminates with a code on every file, and its header scan never runs away. *)
Theorem C12_pgm_reader_total : forall le f, exists err,
  pgm_read_new le f = Some (err, None) /\
  (err = ERR_INV_HEAD \/ err = ERR_INV_META \/ err = ERR_BAD_ARG).
Proof. exact read_never. Qed.
Print Assumptions C12_pgm_reader_total.

Example C12_example :
  let im := mk_pgm 2 1 70000 true in
  insert true im [1; 2; 3; 4] =
    Some ([80; 53; 10; 50; 10; 49; 10; 55; 48; 48; 48; 48; 10] ++ [2; 1; 4; 3]) /\
  extract_data true [2; 1; 4; 3; 9] im = (0, [1; 2; 3; 4], [9]) /\
  extract_data true [51; 32; 52; 32] (mk_pgm 2 1 255 false) = (0, [3; 4], [32]).
Proof. vm_compute. auto. Qed.

(** C58 is false: no file, in particular none written by vl_pgm_write, is ever
    read back. *)
Theorem C58_pgm_write_read_refuted : forall le data w h f,
  0 <= w < 2 ^ 31 -> 0 <= h < 2 ^ 31 -> pgm_write le data w h = Some f ->
  pgm_read_new le f = Some (ERR_INV_META, None).
Proof. intros. eapply written_rejected; eauto. Qed.
Print Assumptions C58_pgm_write_read_refuted.

Theorem C58_pgm_read_new_never_succeeds_refuted : forall le f err r,
  pgm_read_new le f = Some (err, r) -> r = None /\ err <> 0.
Proof.
  intros le f err r E. destruct (read_never le f) as (err' & E' & H). rewrite E in E'.
  inversion E'; subst. split; auto. destruct H as [->|[->| ->]]; discriminate.
Qed.
Print Assumptions C58_pgm_read_new_never_succeeds_refuted.

Example C58_example :
  let f := [80; 53; 10; 50; 10; 49; 10; 50; 53; 53; 10; 7; 8] in
  pgm_write true [7; 8] 2 1 = Some f /\ pgm_read_new true f = Some (ERR_INV_META, None).
Proof. vm_compute. auto. Qed.

(** C13.  With disjoint buffers, the bytes at the destination become those at the
    source, reversed on a little-endian host, and nothing else changes. *)
Theorem C13_swap_bytes : forall big m dst src,
  (disjoint_ranges m dst src 8 -> exists m', swap_endianness_8 big m dst src = Some m' /\
     replaced m dst (if big then bytes_at m src 8 else rev (bytes_at m src 8)) m') /\
  (disjoint_ranges m dst src 4 -> exists m', swap_endianness_4 big m dst src = Some m' /\
     replaced m dst (if big then bytes_at m src 4 else rev (bytes_at m src 4)) m') /\
  (disjoint_ranges m dst src 2 -> exists m', swap_endianness_2 big m dst src = Some m' /\
     replaced m dst (if big then bytes_at m src 2 else rev (bytes_at m src 2)) m').
Proof. intros big m dst src. repeat split; apply swap_spec. Qed.
Print Assumptions C13_swap_bytes.

(** The destination read as a big-endian number is the source read as a number
    of the host, and conversely. *)
Theorem C13_swap_value : forall n big m dst src m', disjoint_ranges m dst src n ->
  swap_endianness n big m dst src = Some m' ->
  be_value (bytes_at m' dst n) = host_value big (bytes_at m src n) /\
  host_value big (bytes_at m' dst n) = be_value (bytes_at m src n).
Proof.
  intros n big m dst src m' HD E. destruct (swap_spec n big m dst src HD) as (m2 & E2 & HR).
  rewrite E in E2. inversion E2; subst m2. destruct HD as (H1 & H2 & _).
  apply replaced_bytes in HR; [|lia].
  assert (LN : length (if big then bytes_at m src n else rev (bytes_at m src n)) = n)
    by (destruct big; rewrite ?rev_length; apply bytes_at_length; auto).
  rewrite LN in HR. rewrite HR. unfold host_value. destruct big; auto.
  split; [apply be_value_rev|apply le_value_rev].
Qed.
Print Assumptions C13_swap_value.

(** Swapping twice, through a second buffer, restores the bytes. *)
Theorem C13_swap_involution : forall n big m a b c m1 m2,
  disjoint_ranges m b a n -> disjoint_ranges m c b n ->
  swap_endianness n big m b a = Some m1 -> swap_endianness n big m1 c b = Some m2 ->
  bytes_at m2 c n = bytes_at m a n.
Proof.
  intros n big m a b c m1 m2 D1 D2 E1 E2.
  destruct (swap_spec n big m b a D1) as (x & X & HR). rewrite E1 in X. inversion X; subst x.
  destruct D1 as (A1 & A2 & A3). destruct D2 as (B1 & B2 & B3).
  assert (LN : length (if big then bytes_at m a n else rev (bytes_at m a n)) = n)
    by (destruct big; rewrite ?rev_length; apply bytes_at_length; auto).
  assert (LM : length m1 = length m).
  { rewrite HR. rewrite !app_length, skipn_length, firstn_length, LN. lia. }
  apply replaced_bytes in HR; [|lia]. rewrite LN in HR.
  assert (D2 : disjoint_ranges m1 c b n) by (unfold disjoint_ranges; rewrite LM; auto).
  destruct (swap_spec n big m1 c b D2) as (y & Y & HS). rewrite E2 in Y. inversion Y; subst y.
  apply replaced_bytes in HS; [|lia]. rewrite HR in HS.
  replace (length (if big then _ else _)) with n in HS
    by (destruct big; rewrite ?rev_length; rewrite LN || rewrite rev_length in LN; auto).
  rewrite HS. destruct big; [auto|apply rev_involutive].
Qed.
Print Assumptions C13_swap_involution.

Example C13_example : swap_endianness_4 false [1; 2; 3; 4; 0; 0; 0; 0; 5] 4 0 =
  Some [1; 2; 3; 4; 4; 3; 2; 1; 5] /\ disjoint_ranges [1; 2; 3; 4; 0; 0; 0; 0; 5] 4 0 4.
Proof. vm_compute. repeat split; auto; lia. Qed.

(** C59 is false: on a little-endian host the in-place swap destroys half of the
    bytes, leaving a palindrome. *)
Theorem C59_swap_in_place_refuted :
  (forall a b, swap_endianness_2 false [a; b] 0 0 = Some [b; b]) /\
  (forall a b c d, swap_endianness_4 false [a; b; c; d] 0 0 = Some [d; c; c; d]) /\
  (forall a b c d e f g h, swap_endianness_8 false [a; b; c; d; e; f; g; h] 0 0 =
     Some [h; g; f; e; e; f; g; h]).
Proof. repeat split. Qed.
Print Assumptions C59_swap_in_place_refuted.
