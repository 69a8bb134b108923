From Coq Require Import ZArith Lia Bool Psatz.
From Verif Require Import Isqrt_Model Isqrt_Spec.
Local Open Scope Z_scope.

Lemma fits_true w v : 0 <= v < 2 ^ w -> fits w v = true.
Proof.
  intro. unfold fits. apply andb_true_iff; split; [apply Z.leb_le|apply Z.ltb_lt]; lia.
Qed.

(** Invariant with [n] iterations left out of [N] (w = 2N bits): the original
    argument is x + y^2 * 4^n, and it is below (y+1)^2 * 4^n; y < 2^(N-n). *)
Lemma isqrt_loop_spec : forall n N s x0,
  (n <= N)%nat -> (0 < N)%nat ->
  is_ovf s = false ->
  0 <= is_y s -> is_y s < 2 ^ (Z.of_nat N - Z.of_nat n) ->
  0 <= is_x s -> is_x s < 2 ^ (2 * Z.of_nat N) ->
  x0 = is_x s + is_y s * is_y s * 4 ^ Z.of_nat n ->
  x0 < (is_y s + 1) * (is_y s + 1) * 4 ^ Z.of_nat n ->
  let r := isqrt_loop (2 * Z.of_nat N) n s in
  is_ovf r = false /\ is_floor_sqrt x0 (is_y r).
Proof.
  induction n as [|n IH]; intros N s x0 Hn HN Ho Hy0 Hy Hx0 Hx Heq Hlt.
  - cbn. unfold is_floor_sqrt. change (4 ^ Z.of_nat 0) with 1 in *.
    repeat split; auto; nia.
  - cbn [isqrt_loop].
    set (k := Z.of_nat n) in *.
    assert (Hk : 0 <= k) by lia.
    assert (E4 : 4 ^ Z.of_nat (S n) = 4 * 4 ^ k).
    { unfold k. rewrite Nat2Z.inj_succ, Z.pow_succ_r by lia. reflexivity. }
    assert (E2 : 2 ^ (2 * k) = 4 ^ k).
    { rewrite Z.pow_mul_r; [reflexivity|lia|lia]. }
    rewrite E4 in *.
    assert (P4 : 0 < 4 ^ k) by (apply Z.pow_pos_nonneg; lia).
    set (W := 2 * Z.of_nat N) in *.
    assert (EW : 2 ^ W = 2 ^ (Z.of_nat N - k) * 2 ^ (Z.of_nat N - k) * 4 ^ k).
    { rewrite <- E2, <- !Z.pow_add_r by lia. f_equal. unfold W. lia. }
    assert (EH : 2 ^ (Z.of_nat N - k) = 2 * 2 ^ (Z.of_nat N - Z.of_nat (S n))).
    { rewrite <- Z.pow_succ_r by lia. f_equal. lia. }
    set (h := 2 ^ (Z.of_nat N - Z.of_nat (S n))) in *.
    assert (Hh : 0 < h) by (apply Z.pow_pos_nonneg; lia).
    set (H2 := 2 ^ (Z.of_nat N - k)) in *.
    set (y := is_y s) in *. set (x := is_x s) in *.
    assert (B1 : 0 <= 2 * y < 2 ^ W) by nia.
    assert (B2 : 0 <= 2 * (2 * y) + 1 < 2 * H2) by lia.
    assert (B2' : H2 >= 2) by lia.
    assert (B3 : 0 <= (2 * (2 * y) + 1) * 2 ^ (2 * k) < 2 ^ W).
    { rewrite E2, EW. split; [nia|].
      apply Z.mul_lt_mono_pos_r; [lia|]. nia. }
    set (s' := isqrt_step W (2 * k) s).
    assert (Hs' : (is_ovf s' = false) /\
       ((2 * (2 * y) + 1) * 4 ^ k <= x /\ is_x s' = x - (2 * (2 * y) + 1) * 4 ^ k /\ is_y s' = 2 * y + 1
        \/ x < (2 * (2 * y) + 1) * 4 ^ k /\ is_x s' = x /\ is_y s' = 2 * y)).
    { unfold s', isqrt_step. fold y x.
      rewrite (Z.mod_small (2 * y)) by lia.
      rewrite (Z.mod_small ((2 * (2 * y) + 1) * 2 ^ (2 * k))) by lia.
      rewrite Ho, (fits_true W (2 * y)) by lia.
      rewrite (fits_true W ((2 * (2 * y) + 1) * 2 ^ (2 * k))) by lia.
      rewrite E2 in *. cbn [orb negb].
      destruct (Z.leb_spec ((2 * (2 * y) + 1) * 4 ^ k) x) as [L|L].
      - cbn [is_ovf is_x is_y].
        assert (0 <= x - (2 * (2 * y) + 1) * 4 ^ k < 2 ^ W) by lia.
        assert (0 <= 2 * y + 1 < 2 ^ W) by nia.
        rewrite !fits_true by lia.
        rewrite !Z.mod_small by lia.
        split; [reflexivity|]. left. repeat split; auto.
      - cbn [is_ovf is_x is_y]. split; [reflexivity|]. right. repeat split; auto. }
    destruct Hs' as [Ho' Hs'].
    apply (IH N s' x0); try lia; fold k; fold H2.
    all: destruct Hs' as [(L & Ex & Ey)|(L & Ex & Ey)]; rewrite ?Ex, ?Ey; fold W; try exact Ho'; try lia; try nia.
Qed.

Lemma vl_fast_sqrt_correct bytes x :
  (0 < bytes)%nat -> 0 <= x < 2 ^ (8 * Z.of_nat bytes) ->
  is_ovf (vl_fast_sqrt bytes x) = false /\
  is_floor_sqrt x (is_y (vl_fast_sqrt bytes x)).
Proof.
  intros Hb Hx. unfold vl_fast_sqrt.
  replace (8 * Z.of_nat bytes) with (2 * Z.of_nat (4 * bytes)) in * by lia.
  apply isqrt_loop_spec; cbn [is_x is_y is_ovf]; try lia.
  - assert (E : 4 ^ Z.of_nat (4 * bytes) = 2 ^ (2 * Z.of_nat (4 * bytes))).
    { rewrite Z.pow_mul_r by lia. reflexivity. }
    rewrite E. lia.
Qed.
