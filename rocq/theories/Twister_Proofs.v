From Coq Require Import List NArith ZArith QArith Qcanon Arith Bool Lia.
Import ListNotations.
From Verif Require Import Base Rat Str_Model Str_Spec Str_Proofs Gauss_Model Gauss_Proofs Random_Model Random_Spec Random_Proofs Qsort_Proofs MexUtil_Model MexUtil_Spec MexUtil_Proofs Twister_Model Twister_Spec.
Local Open Scope nat_scope.

(** the numbers drawn *)
Lemma draws_app n m g : draws (n + m) g = do (g1, a) <- draws n g; do (g2, b) <- draws m g1; Some (g2, a ++ b).
Proof.
  revert g. induction n as [|n IH]; intro g; cbn [Nat.add draws obind app].
  - destruct (draws m g) as [[g2 b]|]; reflexivity.
  - destruct (rand_uint32 g) as [[g1 y]|]; [|reflexivity]. cbn [obind]. rewrite IH. destruct (draws n g1) as [[g2 a]|]; [|reflexivity]. cbn [obind].
    destruct (draws m g2) as [[g3 b]|]; reflexivity.
Qed.
Lemma draw_all_ok n : forall g, rand_wf g -> exists g' w, draws (2 * n) g = Some (g', w) /\ draw_all n g = Some (g', res53_of w) /\ rand_wf g' /\ length w = 2 * n /\
  Forall (fun x => 0 <= x /\ x < 1)%Q (res53_of w).
Proof.
  induction n as [|n IH]; intros g W.
  - exists g, []. split; [reflexivity|]. split; [reflexivity|]. split; [assumption|]. split; [reflexivity|constructor].
  - destruct (uint32_wf g W) as (g1 & y & E1 & Y & W1). destruct (uint32_wf g1 W1) as (g2 & z & E2 & Z & W2).
    destruct (IH g2 W2) as (g' & w & D & A & W' & L & B). exists g', (y :: z :: w).
    replace (2 * S n) with (S (S (2 * n))) by lia. cbn [draws draw_all]. unfold rand_res53. rewrite E1. cbn [obind]. rewrite E2. cbn [obind]. rewrite D, A. cbn [obind].
    cbn [res53_of length]. rewrite !N.shiftr_div_pow2. change (2 ^ 5)%N with 32%N. change (2 ^ 6)%N with 64%N.
    split; [reflexivity|]. split; [reflexivity|]. split; [assumption|]. split; [lia|]. constructor; [|assumption].
    assert (Y1 : (y / 32 < 134217728)%N) by (apply N.div_lt_upper_bound; [lia|exact Y]). assert (Z1 : (z / 64 < 67108864)%N) by (apply N.div_lt_upper_bound; [lia|exact Z]).
    generalize dependent (y / 32)%N. generalize dependent (z / 64)%N. intros b Z1 a Y1. unfold Qle, Qlt. cbn [Qnum Qden]. split; lia.
Qed.

(** conversions *)
Lemma to_size_ok x d : to_size x = Some d -> (0 <= x)%Qc -> gives x d.
Proof.
  unfold to_size, gives. intros E P. destruct (qlt x (zq 18446744073709551616)) eqn:L; [|discriminate]. apply qlt_true in L. injection E as <-.
  assert (F : (0 <= qfloor x)%Z).
  { unfold qfloor. change 0%Z with (Qround.Qfloor 0). apply Qround.Qfloor_resp_le. exact P. }
  rewrite Z2Nat.id by exact F. repeat split; try assumption; [apply qfloor_le|apply qfloor_lt].
Qed.
Lemma gives_size x d : gives x d -> to_size x = Some d /\ qlt x 0 = false.
Proof.
  intros (P & A & B & C). unfold to_size. apply qlt_true in C. rewrite C. rewrite (qfloor_unique x (Z.of_nat d) A B), Nat2Z.id. split; [reflexivity|]. now apply qlt_false.
Qed.
Lemma seed_uint32 x s : seed_of x s -> to_uint32 x = Some s.
Proof.
  intros (A & B & C). unfold to_uint32. rewrite (qfloor_unique x _ A B), N2Z.id.
  assert (X : (zq (-1) < x)%Qc) by (apply Qclt_le_trans with (zq (Z.of_N s)); [apply zq_lt; lia|exact A]).
  assert (Y : (x < zq 4294967296)%Qc). { apply Qclt_le_trans with (zq (Z.of_N s) + 1)%Qc; [exact B|]. rewrite <- zq_1, <- zq_plus. apply zq_le. lia. }
  apply qlt_true in X, Y. rewrite X, Y. reflexivity.
Qed.
Lemma skipn_next {A} (l : list A) : forall k x t, skipn k l = x :: t -> skipn (k + 1) l = t.
Proof. induction l as [|y l IH]; intros [|k] x t E; cbn [Nat.add skipn] in *; try discriminate; [congruence|]. now apply (IH k x t). Qed.
Lemma key_of_ok vals : forall key k, Forall2 seed_of (skipn k vals) key -> key_of vals (length key) k = Some key.
Proof.
  intro key. induction key as [|s key IH]; intros k F; [reflexivity|]. inversion F as [|x s' l l' Hx Hl Ex]; subst. cbn [length key_of].
  assert (E : aget vals k = Some x). { unfold aget. rewrite <- (Nat.add_0_r k), <- nth_error_skipn, <- Ex. reflexivity. }
  rewrite E. cbn [obind]. rewrite (seed_uint32 x s Hx). cbn [obind]. rewrite IH; [reflexivity|].
  rewrite (skipn_next vals k x l (eq_sym Ex)). exact Hl.
Qed.
Lemma vector_dims_ok vals : forall dims k, Forall2 gives (skipn k vals) dims -> vector_dims vals (length dims) k = Some (Some dims).
Proof.
  intro dims. induction dims as [|d dims IH]; intros k F; [reflexivity|]. inversion F as [|x s' l l' Hx Hl Ex]; subst. cbn [length vector_dims].
  assert (E : aget vals k = Some x). { unfold aget. rewrite <- (Nat.add_0_r k), <- nth_error_skipn, <- Ex. reflexivity. }
  rewrite E. cbn [obind]. destruct (gives_size x d Hx) as (S1 & S2). rewrite S1, S2. cbn [obind]. rewrite IH; [reflexivity|].
  rewrite (skipn_next vals k x l (eq_sym Ex)). exact Hl.
Qed.
Lemma scalar_dims_ok args dims : Forall2 (fun a d => exists x, double_scalar a x /\ gives x d) args dims -> scalar_dims args = Some (Some dims).
Proof.
  induction 1 as [|a d args dims (x & (C & R & S & N1 & V) & G) F IH]; [reflexivity|]. cbn [scalar_dims].
  unfold is_plain_scalar, is_plain, is_real, is_of_class, is_scalar. rewrite C, R, S, N1, V. cbn [numeric class_eqb negb andb Nat.eqb aget nth_error obind].
  destruct (gives_size x d G) as (S1 & S2). rewrite S1, S2. cbn [obind]. rewrite IH. reflexivity.
Qed.

(** the name *)
Lemma lower_small c l : lower c = l -> (l < 128)%N -> (97 <= l)%N -> c = l \/ c = (l - 32)%N.
Proof. unfold lower. destruct (_ && _) eqn:E; intros <- H H'; [right; lia|left; reflexivity]. Qed.
Lemma says_state_ok a : says_state a -> numeric (a_class (t_arr a)) = false /\ is_string (t_arr a) (-1) = true /\
  exists buff, get_string (t_arr a) 32 = Some buff /\ casei_cmp state_name buff = Some 0%Z.
Proof.
  intros (s & -> & E). assert (L : length s = 5) by (rewrite <- (map_length lower s), E; reflexivity). split; [reflexivity|]. split; [reflexivity|].
  unfold get_string. cbn [a_chars]. rewrite L. cbn [Nat.ltb Nat.leb]. eexists. split; [reflexivity|].
  destruct s as [|c0 [|c1 [|c2 [|c3 [|c4 [|]]]]]]; try discriminate. cbn [map] in E. injection E as E0 E1 E2 E3 E4.
  destruct (lower_small _ _ E0 ltac:(lia) ltac:(lia)) as [-> | ->], (lower_small _ _ E1 ltac:(lia) ltac:(lia)) as [-> | ->], (lower_small _ _ E2 ltac:(lia) ltac:(lia)) as [-> | ->],
    (lower_small _ _ E3 ltac:(lia) ltac:(lia)) as [-> | ->], (lower_small _ _ E4 ltac:(lia) ltac:(lia)) as [-> | ->]; reflexivity.
Qed.
Lemma twister_state a rest g : says_state a -> twister (a :: rest) g =
  match rest with [] => do w <- read_state g; Some (Some (g, State w)) | b :: _ => do g1 <- set_state b g; Some (Some (g1, Quiet)) end.
Proof.
  intro H. destruct (says_state_ok a H) as (A & B & buff & C & D). cbn [twister]. rewrite A, B, C. cbn [negb]. rewrite D. reflexivity.
Qed.

(** the state *)
Definition read_words (mt : list N) : nat -> nat -> option (list N) :=
  fix go (n : nat) (i : nat) {struct n} : option (list N) :=
      match n with O => Some [] | S n => do w <- aget mt i; do r <- go n (i + 1); Some (w :: r) end.
Lemma read_words_ok mt n : forall i, i + n = length mt -> read_words mt n i = Some (skipn i mt).
Proof.
  induction n as [|n IH]; intros i L; cbn [read_words].
  - now rewrite skipn_all2 by lia.
  - destruct (nth_error mt i) as [w|] eqn:E; [|apply nth_error_None in E; lia]. unfold aget. rewrite E. cbn [obind]. rewrite IH by lia. cbn [obind]. f_equal.
    clear -E. revert i E. induction mt as [|x mt IH]; intros [|i] E; cbn in *; try discriminate; [congruence|]. now apply IH.
Qed.
Lemma read_state_ok g : length (r_mt g) = 624 -> r_mti g <= 625 -> read_state g = Some (r_mt g ++ [N.of_nat (r_mti g)]).
Proof.
  intros L M. unfold read_state. change ((do mt <- read_words (r_mt g) 624 0; Some (mt ++ [w32 (N.of_nat (r_mti g))])) = Some (r_mt g ++ [N.of_nat (r_mti g)])).
  rewrite read_words_ok by lia. cbn [obind skipn]. unfold w32. rewrite N.mod_small; [reflexivity|]. change (2 ^ 32)%N with 4294967296%N. lia.
Qed.
Lemma copy_words_ok data n : forall i mt, i + n = length mt -> length mt <= length data -> firstn i mt = firstn i data ->
  copy_words n i data mt = Some (firstn (length mt) data).
Proof.
  induction n as [|n IH]; intros i mt L D F; cbn [copy_words].
  - rewrite Nat.add_0_r in L. subst i. rewrite firstn_all in F. congruence.
  - destruct (nth_error data i) as [w|] eqn:E; [|apply nth_error_None in E; lia]. unfold aget. rewrite E. cbn [obind]. rewrite aset_lt by lia. cbn [obind].
    rewrite (IH (i + 1) (upd mt i w)); rewrite ?upd_length; try lia; [reflexivity|].
    apply nth_error_ext'. intro k. rewrite !nth_error_firstn. destruct (k <? i + 1) eqn:K; [|reflexivity]. apply Nat.ltb_lt in K.
    destruct (Nat.eq_dec k i) as [->|NE]; [rewrite nth_error_upd_eq by lia; congruence|].
    rewrite nth_error_upd. destruct (Nat.eqb_spec k i); [contradiction|]. cbn [andb].
    assert (X : nth_error (firstn i mt) k = nth_error (firstn i data) k) by congruence. rewrite !nth_error_firstn in X. destruct (Nat.ltb_spec k i); [exact X|lia].
Qed.
Lemma set_words_ok a w mti g : word_vector a (w ++ [mti]) -> length w = 624 -> length (r_mt g) = 624 -> (mti <= 624)%N -> set_state a g = Some (mk_rand w (N.to_nat mti)).
Proof.
  intros (C & Nn & W) L LG M. unfold set_state. cbv zeta. unfold is_plain_scalar, is_plain, is_real, is_of_class. rewrite C. cbn [numeric class_eqb andb].
  rewrite Bool.andb_false_r. cbn [andb]. rewrite app_length, L in Nn. cbn [length] in Nn. change (624 + 1) with 625 in Nn. rewrite Nn, W. rewrite Nat.eqb_refl.
  assert (A : aget (w ++ [mti]) 624 = Some mti). { unfold aget. rewrite nth_error_app2 by lia. rewrite L, Nat.sub_diag. reflexivity. }
  rewrite A. cbn [obind]. destruct (N.leb_spec mti 624); [|lia]. rewrite (copy_words_ok (w ++ [mti]) 624 0 (r_mt g)); [|lia|rewrite app_length; lia|reflexivity].
  cbn [obind]. rewrite LG, <- L, firstn_app, Nat.sub_diag, firstn_all. cbn [firstn]. rewrite app_nil_r. reflexivity.
Qed.
