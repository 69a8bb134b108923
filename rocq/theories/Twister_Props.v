(** C276-C280: the MATLAB interface of the random number generator. *)
From Coq Require Import List NArith ZArith QArith Qcanon Arith Bool Lia.
Import ListNotations.
From Verif Require Import Base Rat Str_Spec Gauss_Model Gauss_Proofs Random_Model Random_Spec Random_Proofs MexUtil_Model MexUtil_Spec MexUtil_Proofs Twister_Model Twister_Spec Twister_Proofs.
Local Open Scope nat_scope.

Lemma f2_length {A B} (R : A -> B -> Prop) l m : Forall2 R l m -> length l = length m.
Proof. induction 1; cbn; congruence. Qed.
(** C276: the array has the dimensions given, and its elements are the next numbers of the generator, in [0, 1) *)
Inductive asks : list targ -> list nat -> Prop :=
| asks_none : asks [] [1; 1]
| asks_scalars args dims : 2 <= length args < 30 -> Forall2 (fun a d => exists x, double_scalar a x /\ gives x d) args dims -> asks args dims
| asks_vector a v dims : 2 <= length v <= 30 -> double_vector a v -> Forall2 gives v dims -> asks [a] dims
| asks_square a x d : double_vector a [x] -> gives x d -> asks [a] [d; d].
Lemma vector_plain a v : double_vector a v -> length v <= 30 -> is_plain_vector (t_arr a) (-1) = Some true /\ numeric (a_class (t_arr a)) = true.
Proof.
  intros (C & R & S & O & L & _) H. unfold is_plain_vector, is_plain, is_real, is_of_class. rewrite C, R. cbn [numeric class_eqb negb andb]. split; [|reflexivity].
  destruct (is_vector_ok (t_arr a) (-1) ltac:(lia) ltac:(lia)) as (b & -> & B). f_equal. apply B. split; [assumption|]. split; [left; lia|assumption].
Qed.
Lemma asks_ok args dims : asks args dims -> out_dims args = Some (Some dims) /\ match args with a :: _ => numeric (a_class (t_arr a)) = true | [] => True end.
Proof.
  intro H. destruct H as [|args dims L F|a v dims L D F|a x d D G].
  - split; reflexivity.
  - unfold out_dims. destruct (Nat.ltb_spec 1 (length args)); [|lia]. unfold maxNumDimensions. destruct (Nat.leb_spec 30 (length args)); [lia|]. split; [now apply scalar_dims_ok|].
    destruct F as [|a d ? ? (x & (C & _) & _) _]; [exact I|]. rewrite C. reflexivity.
  - destruct (vector_plain a v D ltac:(lia)) as (P & Nn). split; [|assumption]. unfold out_dims. cbn [length]. change (1 <? 1) with false. cbv iota. rewrite P. cbn [obind negb]. cbv zeta.
    destruct D as (_ & _ & _ & _ & L1 & V). rewrite L1. unfold maxNumDimensions. destruct (Nat.ltb_spec 30 (Nat.max 2 (length v))); [lia|]. destruct (Nat.eqb_spec (length v) 1); [lia|].
    assert (L2 : length v = length dims) by (eapply f2_length; eassumption). rewrite V, L2. rewrite (vector_dims_ok v dims 0) by exact F. cbn [obind option_map].
    destruct (Nat.eqb_spec (length dims) 0); [lia|reflexivity].
  - destruct (vector_plain a [x] D ltac:(cbn; lia)) as (P & Nn). split; [|assumption]. unfold out_dims. cbn [length]. change (1 <? 1) with false. cbv iota. rewrite P. cbn [obind negb]. cbv zeta.
    destruct D as (_ & _ & _ & _ & L1 & V). rewrite L1, V. cbn. destruct (gives_size x d G) as (-> & ->). reflexivity.
Qed.
Theorem C276_draw args dims g : asks args dims -> rand_wf g ->
  exists g' w, twister args g = Some (Some (g', Drawn dims (res53_of w))) /\ draws (2 * prod dims) g = Some (g', w) /\
    length (res53_of w) = prod dims /\ Forall (fun x => 0 <= x /\ x < 1)%Q (res53_of w) /\ rand_wf g'.
Proof.
  intros A W. destruct (asks_ok args dims A) as (O & Nn). destruct (draw_all_ok (prod dims) g W) as (g' & w & D & DA & W' & L & B). exists g', w.
  assert (LR : forall n v, length v = 2 * n -> length (res53_of v) = n).
  { induction n as [|n IH]; intros [|p [|q v]] Hv; cbn [length] in *; try lia; [reflexivity|]. cbn [res53_of length]. rewrite IH; lia. }
  split; [|auto]. destruct args as [|a args]; cbn [twister]; [|rewrite Nn; cbn [negb]]; rewrite O; cbn [obind]; rewrite DA; reflexivity.
Qed.
(** C276: the two forms are the same, up to 29 dimensions *)
Theorem C276_forms args a dims g : 2 <= length args < 30 ->
  Forall2 (fun a d => exists x, double_scalar a x /\ gives x d) args dims -> (exists v, double_vector a v /\ Forall2 gives v dims) -> rand_wf g ->
  twister args g = twister [a] g.
Proof.
  intros L F (v & D & G) W. assert (L1 : length args = length dims) by (eapply f2_length; eassumption). assert (L2 : length v = length dims) by (eapply f2_length; eassumption).
  destruct (C276_draw args dims g (asks_scalars args dims L F) W) as (g1 & w1 & -> & D1 & _). destruct (C276_draw [a] dims g (asks_vector a v dims ltac:(lia) D G) W) as (g2 & w2 & -> & D2 & _).
  congruence.
Qed.
Theorem C276_forms_refuted : exists args a dims, length args = 30 /\
  Forall2 (fun a d => exists x, double_scalar a x /\ gives x d) args dims /\ (exists v, double_vector a v /\ Forall2 gives v dims) /\
  forall g, rand_wf g -> twister args g = Some None /\ exists g' x, twister [a] g = Some (Some (g', Drawn dims [x])).
Proof.
  set (one := mk_targ (mk_marray Double false false [1; 1] []) [zq 1] []). set (ones := mk_targ (mk_marray Double false false [1; 30] []) (repeat (zq 1) 30) []).
  assert (S1 : double_scalar one (zq 1)) by (repeat split). assert (G1 : gives (zq 1) 1) by (repeat split; discriminate).
  assert (V1 : double_vector ones (repeat (zq 1) 30)).
  { repeat split. exists 1. intros [|[|[|i]]] d H E; cbn in E; congruence. }
  assert (GV : Forall2 gives (repeat (zq 1) 30) (repeat 1 30)) by (cbn [repeat]; repeat (constructor; [exact G1|]); constructor).
  exists (repeat one 30), ones, (repeat 1 30). split; [reflexivity|]. split; [|split].
  - cbn [repeat]. repeat (constructor; [exists (zq 1); split; [exact S1|exact G1]|]). constructor.
  - exists (repeat (zq 1) 30). auto.
  - intros g W. split; [reflexivity|]. destruct (C276_draw [ones] (repeat 1 30) g (asks_vector ones (repeat (zq 1) 30) (repeat 1 30) ltac:(rewrite repeat_length; lia) V1 GV) W) as (g' & w & E & _ & L & _).
    exists g'. destruct (res53_of w) as [|x [|]]; try discriminate L. exists x. exact E.
Qed.
Print Assumptions C276_draw.
Print Assumptions C276_forms.
Print Assumptions C276_forms_refuted.

(** C277: a state that is read does not change the generator; restored, it gives the same generator, and so the same numbers *)
Theorem C277_read a g : says_state a -> rand_wf g ->
  exists w, twister [a] g = Some (Some (g, State w)) /\ length w = 625 /\ Forall (fun x => x < 4294967296)%N w /\ firstn 624 w = r_mt g /\ nth_error w 624 = Some (N.of_nat (r_mti g)).
Proof.
  intros S ((L & F) & M). exists (r_mt g ++ [N.of_nat (r_mti g)]). rewrite twister_state by assumption. rewrite read_state_ok; [|exact L|unfold mtN in M; lia]. cbn [obind].
  unfold mtN in L, M. split; [reflexivity|]. split; [rewrite app_length, L; reflexivity|]. split.
  - apply Forall_app. split; [exact F|]. constructor; [lia|constructor].
  - split; [rewrite <- L, firstn_app, Nat.sub_diag, firstn_all; cbn [firstn]; apply app_nil_r|]. rewrite nth_error_app2 by lia. rewrite L. reflexivity.
Qed.
Theorem C277_restore a b g h w : says_state a -> rand_wf g -> r_mti g <= 624 -> rand_wf h -> twister [a] g = Some (Some (g, State w)) -> word_vector b w ->
  twister [a; b] h = Some (Some (g, Quiet)).
Proof.
  intros S W M ((LH & _) & _) E V. destruct W as ((L & _) & _). unfold mtN in L, LH. rewrite twister_state in E by assumption. rewrite read_state_ok in E by lia. cbn [obind] in E. injection E as <-.
  rewrite twister_state by assumption. rewrite (set_words_ok b (r_mt g) (N.of_nat (r_mti g)) h V L LH ltac:(lia)). cbn [obind]. rewrite Nat2N.id. destruct g. reflexivity.
Qed.
(** C277: after a number was drawn the state can be restored *)
Theorem C277_after_draw args dims g : asks args dims -> 0 < prod dims -> rand_wf g ->
  exists g' x, twister args g = Some (Some (g', Drawn dims x)) /\ rand_wf g' /\ r_mti g' <= 624.
Proof.
  intros A P W. destruct (C276_draw args dims g A W) as (g' & w & E & D & _ & _ & W'). exists g', (res53_of w). split; [assumption|]. split; [assumption|].
  assert (K : forall n h h' v, rand_wf h -> r_mti h <= 624 -> draws n h = Some (h', v) -> r_mti h' <= 624).
  { assert (U : forall h h' y, rand_wf h -> rand_uint32 h = Some (h', y) -> r_mti h' <= 624).
    { intros h h' y Wh Eh. unfold rand_uint32 in Eh. destruct (Nat.leb_spec mtN (r_mti h)) as [Q|Q].
      - destruct (if r_mti h =? mtN + 1 then rand_seed h 5489 else Some h); [|discriminate]. cbn [obind] in Eh. destruct (refill _); [|discriminate]. cbn [obind] in Eh.
        cbn [r_mt r_mti] in Eh. destruct (aget _ 0); [|discriminate]. cbn [obind] in Eh. injection Eh as <- _. cbn [r_mti]. lia.
      - cbn [obind] in Eh. destruct (aget _ (r_mti h)); [|discriminate]. cbn [obind] in Eh. injection Eh as <- _. cbn [r_mti]. unfold mtN in Q. lia. }
    induction n as [|n IH]; intros h h' v Wh Mh Dh; cbn [draws] in Dh; [injection Dh as <- _; assumption|].
    destruct (uint32_wf h Wh) as (h1 & y & E1 & _ & W1). rewrite E1 in Dh. cbn [obind] in Dh. destruct (draws n h1) as [[h2 ys]|] eqn:D2; [|discriminate]. cbn [obind] in Dh. injection Dh as <- _.
    apply (IH h1 h2 ys W1); [|assumption]. apply (U h h1 y Wh E1). }
  destruct (2 * prod dims) as [|n] eqn:En; [lia|]. cbn [draws] in D. destruct (uint32_wf g W) as (g1 & y & E1 & _ & W1). rewrite E1 in D. cbn [obind] in D.
  destruct (draws n g1) as [[g2 ys]|] eqn:D2; [|discriminate]. cbn [obind] in D. injection D as -> _. apply (K n g1 g' ys W1); [|assumption].
  clear -E1 W. unfold rand_uint32 in E1. destruct (Nat.leb_spec mtN (r_mti g)) as [Q|Q].
  - destruct (if r_mti g =? mtN + 1 then rand_seed g 5489 else Some g); [|discriminate]. cbn [obind] in E1. destruct (refill _); [|discriminate]. cbn [obind r_mt r_mti] in E1.
    destruct (aget _ 0); [|discriminate]. cbn [obind] in E1. injection E1 as <- _. cbn [r_mti]. lia.
  - cbn [obind] in E1. destruct (aget _ (r_mti g)); [|discriminate]. cbn [obind] in E1. injection E1 as <- _. cbn [r_mti]. unfold mtN in Q. lia.
Qed.
Print Assumptions C277_read.
Print Assumptions C277_restore.
Print Assumptions C277_after_draw.
Definition word_arg (s : list N) : targ := mk_targ (mk_marray Char false false [1; length s] s) [] [].
Definition say : targ := word_arg [83; 84; 97; 116; 101]%N.
Definition scalar_arg (z : Z) : targ := mk_targ (mk_marray Double false false [1; 1] []) [zq z] [].
Lemma say_ok : says_state say. Proof. exists [83; 84; 97; 116; 101]%N. split; reflexivity. Qed.
Example C277_ex : says_state say /\ rand_wf (seeded 7) /\ r_mti (seeded 7) <= 624 /\ asks [scalar_arg 2; scalar_arg 3] [2; 3].
Proof.
  split; [apply say_ok|]. split; [apply seeded_wf|]. split; [cbn; unfold mtN; lia|]. apply asks_scalars; [cbn; lia|].
  constructor; [exists (zq 2)|constructor; [exists (zq 3)|constructor]]; repeat split; discriminate.
Qed.

(** C278: the state of a generator that was never used is read, but restoring it does nothing: the numbers are not repeated *)
Theorem C278_fresh_refuted g0 g b w : rand_init g0 = Some g -> twister [say] g = Some (Some (g, State w)) -> word_vector b w ->
  rand_wf g /\ (forall h, rand_wf h -> twister [say; b] h = Some (Some (h, Quiet))) /\
  twister [say; b] (seeded 1) = Some (Some (seeded 1, Quiet)) /\ ~ same_future g (seeded 1).
Proof.
  intros E0 E V. unfold rand_init in E0. assert (Eg : g = mk_rand (repeat 0%N mtN) (mtN + 1)) by congruence. clear E0.
  assert (Lg : length (r_mt g) = 624) by (rewrite Eg; reflexivity). assert (Mg : r_mti g = 625) by (rewrite Eg; reflexivity).
  rewrite twister_state in E by apply say_ok. rewrite read_state_ok in E by lia. cbn [obind] in E.
  assert (Ew : w = r_mt g ++ [N.of_nat (r_mti g)]) by congruence. clear E. subst w.
  assert (Q : forall h, rand_wf h -> twister [say; b] h = Some (Some (h, Quiet))).
  { intros h _. rewrite twister_state by apply say_ok. destruct V as (C & Nn & W). unfold set_state. cbv zeta. unfold is_plain_scalar, is_plain, is_real, is_of_class.
    rewrite C. cbn [numeric class_eqb andb]. rewrite Bool.andb_false_r. cbn [andb]. rewrite W.
    assert (A : aget (r_mt g ++ [N.of_nat (r_mti g)]) 624 = Some 625%N) by (unfold aget; rewrite nth_error_app2 by lia; rewrite Lg, Mg; reflexivity). rewrite A. cbn [obind]. change (625 <=? 624)%N with false.
    destruct (numel (t_arr b) =? 625); reflexivity. }
  split; [|split; [exact Q|split; [apply Q, seeded_wf|]]].
  - split; [split; [exact Lg|]|right; exact Mg]. rewrite Eg. cbn [r_mt]. apply Forall_forall. intros x Hx. apply repeat_spec in Hx. subst x. reflexivity.
  - intro S. specialize (S 1). revert S. rewrite Eg. vm_compute. discriminate.
Qed.
(** C278: whatever is not a seed, a state or a key is ignored without an error *)
Theorem C278_ignored_refuted b g : (a_class (t_arr b) <> Double /\ a_class (t_arr b) <> Uint32 \/ a_class (t_arr b) = Uint32 /\ numel (t_arr b) <> 625 \/ a_class (t_arr b) = Double /\ 624 < numel (t_arr b)) ->
  twister [say; b] g = Some (Some (g, Quiet)).
Proof.
  intro H. rewrite twister_state by apply say_ok. unfold set_state. cbv zeta. unfold is_plain_scalar, is_plain, is_real, is_of_class, is_scalar.
  destruct H as [(H1 & H2)|[(H & Nn)|(H & Nn)]].
  - destruct (a_class (t_arr b)); try contradiction; cbn [numeric class_eqb andb]; rewrite ?Bool.andb_false_r; reflexivity.
  - rewrite H. cbn [numeric class_eqb andb]. rewrite Bool.andb_false_r. cbn [andb]. destruct (Nat.eqb_spec (numel (t_arr b)) 625); [contradiction|]. reflexivity.
  - rewrite H. cbn [numeric class_eqb andb]. destruct (Nat.eqb_spec (numel (t_arr b)) 1); [lia|]. rewrite !Bool.andb_false_r. cbn [andb].
    destruct (Nat.leb_spec (numel (t_arr b)) 624); [lia|]. reflexivity.
Qed.
Print Assumptions C278_fresh_refuted.
Print Assumptions C278_ignored_refuted.

(** C279: a scalar seeds the generator, a vector of up to 624 numbers is a key, both without regard to the past *)
Theorem C279_seed a b x s g : says_state a -> double_scalar b x -> seed_of x s -> rand_wf g ->
  exists g', twister [a; b] g = Some (Some (g', Quiet)) /\ rand_seed g s = Some g' /\ forall h, rand_wf h -> twister [a; b] h = Some (Some (g', Quiet)).
Proof.
  intros S (C & R & Sp & N1 & V) X W.
  assert (E : forall h, rand_wf h -> twister [a; b] h = Some (Some (seeded s, Quiet))).
  { intros h ((L & _) & _). rewrite twister_state by assumption. unfold set_state. cbv zeta. unfold is_plain_scalar, is_plain, is_real, is_of_class, is_scalar. rewrite C, R, Sp, N1, V.
    cbn [numeric class_eqb negb andb Nat.eqb aget nth_error obind]. rewrite (seed_uint32 x s X). cbn [obind]. rewrite rand_seed_eq by exact L. reflexivity. }
  exists (seeded s). split; [now apply E|]. split; [|exact E]. destruct W as ((L & _) & _). now apply rand_seed_eq.
Qed.
Theorem C279_key a b v key g : says_state a -> double_vector b v -> 2 <= length v <= 624 -> Forall2 seed_of v key -> rand_wf g ->
  exists g', twister [a; b] g = Some (Some (g', Quiet)) /\ rand_seed_by_array g key = Some g' /\ rand_wf g' /\ forall h, rand_wf h -> twister [a; b] h = Some (Some (g', Quiet)).
Proof.
  intros S (C & R & Sp & _ & Nn & V) L F W. assert (LK : length v = length key) by (eapply f2_length; eassumption).
  destruct (seed_by_array_ok g key ltac:(apply W) ltac:(destruct key; [cbn in LK; lia|discriminate])) as (g' & E & W').
  assert (Q : forall h, rand_wf h -> twister [a; b] h = Some (Some (g', Quiet))).
  { intros h Wh. rewrite twister_state by assumption. unfold set_state. cbv zeta. unfold is_plain_scalar, is_plain, is_real, is_of_class, is_scalar. rewrite C, R, Sp, Nn, V.
    cbn [numeric class_eqb negb andb obind]. destruct (Nat.eqb_spec (length v) 1); [lia|]. destruct (Nat.leb_spec (length v) 624); [|lia].
    rewrite LK, (key_of_ok v key 0) by exact F. cbn [obind]. rewrite (seed_by_array_indep h g key); [rewrite E; reflexivity|apply Wh|apply W]. }
  exists g'. split; [now apply Q|]. auto.
Qed.
Print Assumptions C279_seed.
Print Assumptions C279_key.
Definition key_arg (l : list Z) : targ := mk_targ (mk_marray Double false false [1; length l] []) (map zq l) [].
Example C279_ex : seed_of (zq 5) 5 /\ double_scalar (scalar_arg 5) (zq 5) /\ double_vector (key_arg [291; 564]%Z) [zq 291; zq 564] /\
  Forall2 seed_of [zq 291; zq 564] [291; 564]%N.
Proof.
  split; [repeat split; discriminate|]. split; [repeat split|]. split.
  - repeat split. exists 1. intros [|[|[|i]]] d H E; cbn in E; congruence.
  - repeat (constructor; [repeat split; discriminate|]). constructor.
Qed.

(** C280: the key is used as it is: if empty, memory that was never written; if sparse, memory after its values; seeds out of range are undefined *)
Theorem C280_safe_refuted g : rand_wf g ->
  twister [say; key_arg []] g = None /\
  (forall n x, 1 < n <= 624 -> twister [say; mk_targ (mk_marray Double false true [1; n] []) [x] []] g = None) /\
  twister [say; scalar_arg (-1)] g = None /\ twister [say; scalar_arg 4294967296] g = None.
Proof.
  intros ((L & F) & M). split; [|split; [|split]].
  - rewrite twister_state by apply say_ok. unfold set_state. cbn [key_arg t_arr t_vals length map numel a_dims prod fold_right].
    change (is_plain_scalar _) with false. cbn [key_of obind andb a_class numeric class_eqb Nat.leb].
    unfold rand_seed_by_array. rewrite rand_seed_eq by exact L. cbn [obind length]. change (Nat.max mtN 0) with 624.
    change (key_loop1 624 (r_mt (seeded 19650218)) [] 1 0) with (key_loop1 (S 623) (r_mt (seeded 19650218)) [] 1 0). cbn [key_loop1].
    repeat match goal with |- context[aget (r_mt (seeded ?s)) ?i] => destruct (aget (r_mt (seeded s)) i); [|reflexivity]; cbn [obind] end. cbn [aget nth_error obind]. reflexivity.
  - intros n x H. rewrite twister_state by apply say_ok. unfold set_state. cbn [t_arr t_vals]. unfold is_plain_scalar, is_plain, is_real, is_of_class, is_scalar, numel.
    cbn [a_class a_complex a_sparse a_dims numeric class_eqb negb andb prod fold_right obind]. replace (1 * (n * 1)) with n by lia. destruct (Nat.leb_spec n 624); [|lia].
    assert (K : key_of [x] n 0 = None). { destruct n as [|[|n]]; [lia..|]. cbn [key_of aget nth_error obind Nat.add]. destruct (to_uint32 x); reflexivity. }
    rewrite K. reflexivity.
  - reflexivity.
  - reflexivity.
Qed.
Print Assumptions C280_safe_refuted.
