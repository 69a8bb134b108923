(** C47, C75: the homogeneous kernel map. *)
From Coq Require Import List Arith ZArith Lia Bool QArith Qcanon Qcabs Lqa.
From Verif Require Import Base Loop MserSort_Proofs Rat Gauss_Model Gauss_Proofs Homker_Model Homker_Spec Homker_Proofs.
Import ListNotations.
Local Open Scope nat_scope.

(** the constructor fills its block without leaving it: the loop over the spectrum
    ends after retaining order+1 frequencies and row (e, i) of the table holds the
    features of 2^(e-20) (1 + i/n), with n = 8 + 8 order, e = 0..28, i = 0..n-1 *)
Theorem C47_table sqrt_ log_ cos_ sin_ pow_ spectrum gamma two_pi period order block :
  let l := (two_pi / period)%Qc in
  let n := 8 + 8 * order in
  let dim := 2 * order + 1 in
  length block = dim * (n * 29) + 2 * (1 + order) ->
  exists table fr, new_table sqrt_ log_ cos_ sin_ pow_ spectrum gamma two_pi period order block = Some table /\
    length table = length block /\ frequencies spectrum l order fr /\
    forall e i k, e < 29 -> i < n -> k < dim ->
      nth_error table ((e * n + i) * dim + k) =
      Some (feature sqrt_ log_ cos_ sin_ pow_ gamma l (fun a => spectrum (nq (fr a) * l)%Qc) (fun a => nq (fr a))
              (two_to (Z.of_nat e - 20) * (1 + nq i / nq n))%Qc k).
Proof.
  intros l n dim Hb.
  destruct (new_table_ok sqrt_ log_ cos_ sin_ pow_ spectrum gamma two_pi period order block Hb) as (t & fr & E & L & F & V).
  exists t, fr. split; [exact E|]. split; [exact L|]. split; [exact F|]. intros e i k Le Li Lk.
  assert (Lp : (e * n + i) * dim + k < length t).
  { rewrite L, Hb. assert ((e * n + i + 1) * dim <= n * 29 * dim) by (apply Nat.mul_le_mono_r; nia). nia. }
  rewrite (nth_error_nth' t 0%Qc Lp). f_equal. specialize (V e i k Le Li Lk).
  unfold grid in V. unfold min_exponent in V. replace (Z.of_nat e - 20)%Z with (-20 + Z.of_nat e)%Z by lia. exact V.
Qed.
Print Assumptions C47_table.

(** rounded arithmetic: whatever the subdivision s, the error bound and the
    rounded subtraction, if (n+1)(s - err) >= 1 then the evaluation reads only
    inside its table, ends, and writes exactly 2 order + 1 values, at multiples of
    the stride.  Doubles satisfy it with s = 1/n rounded and err = 2^-54 for every
    order below 2^22. *)
Theorem C47_stays_in_tables order table x fm fe stride dst (s err : Qc) (sub : Qc -> Qc -> Qc) :
  let n := 8 + 8 * order in
  let dim := 2 * order + 1 in
  is_frexp x fm fe -> 0 < stride -> (dim - 1) * stride < length dst -> dim * (n * 29) <= length table ->
  (0 <= err)%Qc -> (1 <= nq (n + 1) * (s - err))%Qc ->
  (forall m, (s <= m)%Qc -> (m < 1)%Qc -> (sub m s <= m - s + err)%Qc) ->
  exists dst' val, evaluate order s sub table fm fe stride dst = Some dst' /\ written dim stride val dst dst'.
Proof.
  intros n dim Hf Hs Hd Ht He Hn Hsub.
  destruct (Qclt_le_dec [x] (two_to (-19))) as [R|R].
  { destruct (evaluate_zero order table x fm fe stride dst Hf Hs Hd s sub) as (d & E & W); [auto|]. eauto. }
  destruct (Qclt_le_dec [x] (two_to 8)) as [R'|R'].
  2:{ destruct (evaluate_zero order table x fm fe stride dst Hf Hs Hd s sub) as (d & E & W); [auto|]. eauto. }
  assert (Nx : x <> 0%Qc) by (intros ->; discriminate R || (revert R; vm_compute; congruence)).
  destruct (mantissa_range x fm fe Hf Nx) as [B1 B2].
  destruct (find_row_rounded order s sub err (zq 2 * [fm] - 1)%Qc (Z.to_nat (fe - 1 - min_exponent) * n)) as (m' & row' & E & B); auto.
  { qc_lra. }
  destruct (evaluate_inside order table x fm fe stride dst Hf Hs Hd Ht s sub R R' m' row' E B) as (d & E' & W).
  eauto.
Qed.
Print Assumptions C47_stays_in_tables.

(** zeros outside of the exponent range *)
Theorem C47_zero_outside_range order table x fm fe stride dst s sub :
  let dim := 2 * order + 1 in
  is_frexp x fm fe -> 0 < stride -> (dim - 1) * stride < length dst ->
  ([x] < two_to (-19) \/ two_to 8 <= [x])%Qc ->
  exists dst', evaluate order s sub table fm fe stride dst = Some dst' /\ written dim stride (fun _ => 0%Qc) dst dst'.
Proof. intros dim Hf Hs Hd R. exact (evaluate_zero order table x fm fe stride dst Hf Hs Hd s sub R). Qed.
Print Assumptions C47_zero_outside_range.

(** exact arithmetic, inside the range: |x| lies between two neighbouring grid
    points and the output interpolates their features linearly, with the sign of x *)
Theorem C47_interpolates sqrt_ log_ cos_ sin_ pow_ spectrum gamma two_pi period order block table x fm fe stride dst :
  let l := (two_pi / period)%Qc in
  let n := 8 + 8 * order in
  let dim := 2 * order + 1 in
  length block = dim * (n * 29) + 2 * (1 + order) ->
  new_table sqrt_ log_ cos_ sin_ pow_ spectrum gamma two_pi period order block = Some table ->
  is_frexp x fm fe -> 0 < stride -> (dim - 1) * stride < length dst ->
  (two_to (-19) <= [x])%Qc -> ([x] < two_to 8)%Qc ->
  exists fr e i w dst', frequencies spectrum l order fr /\ i < n /\ (0 <= w)%Qc /\ (w < 1)%Qc /\
    [x]%Qc = (two_to e * (1 + (nq i + w) / nq n))%Qc /\
    evaluate order (1 / nq n)%Qc Qcminus table fm fe stride dst = Some dst' /\
    let f := feature sqrt_ log_ cos_ sin_ pow_ gamma l (fun a => spectrum (nq (fr a) * l)%Qc) (fun a => nq (fr a)) in
    written dim stride (fun k =>
      (if Qclt_le_dec x 0 then - (1) else 1) *
      ((1 - w) * f (two_to e * (1 + nq i / nq n)) k + w * f (two_to e * (1 + nq (i + 1) / nq n)) k))%Qc dst dst'.
Proof.
  intros l n dim Hb Ht Hf Hs Hd R1 R2.
  destruct (new_table_ok sqrt_ log_ cos_ sin_ pow_ spectrum gamma two_pi period order block Hb) as (t & fr & E & L & F & V).
  rewrite Ht in E. injection E as <-. fold l in V.
  assert (Nx : x <> 0%Qc) by (intros ->; revert R1; vm_compute; congruence).
  destruct (mantissa_range x fm fe Hf Nx) as [B1 B2].
  destruct (find_row_exact order (zq 2 * [fm] - 1)%Qc (Z.to_nat (fe - 1 - min_exponent) * n)) as (i & Er & Li & C1 & C2); [qc_lra|qc_lra|].
  change (num_subdivisions order) with n in Er, Li, C1, C2.
  assert (Nz : nq n <> 0%Qc) by (apply qc_pos_neq, nq_pos, nsub_pos).
  assert (Lt : dim * (n * 29) <= length table) by (rewrite L, Hb; lia).
  destruct (evaluate_inside order table x fm fe stride dst Hf Hs Hd Lt (1 / nq n)%Qc Qcminus R1 R2 _ _ Er) as (d & Ed & W); [split; [apply Nat.le_add_r|apply Nat.add_le_mono_l, Nat.lt_le_incl; exact Li]|].
  change (num_subdivisions order) with n in Ed, W.
  assert (Re : (-20 < fe - 1 < 8)%Z).
  { destruct (Z.lt_ge_cases (-20) (fe - 1)) as [X|X]; [destruct (Z.lt_ge_cases (fe - 1) 8) as [Y|Y]; [lia|]|]; exfalso;
    (assert (Q : ([x] < two_to (-19) \/ two_to 8 <= [x])%Qc) by (apply (out_of_range x fm fe Hf); unfold min_exponent, max_exponent; auto));
    (destruct Q as [Q|Q]; [exact (Qclt_not_le _ _ Q R1)|exact (Qclt_not_le _ _ R2 Q)]). }
  exists fr, (fe - 1)%Z, i, (nq n * (zq 2 * [fm] - 1) - nq i)%Qc, d.
  split; [exact F|]. split; [exact Li|].
  split; [revert C1; generalize (nq n * (zq 2 * [fm] - 1))%Qc; intros; qc_lra|].
  split; [revert C2; generalize (nq n * (zq 2 * [fm] - 1))%Qc; intros; qc_lra|]. split.
  { rewrite (abs_x x fm fe Hf). field. exact Nz. }
  split; [exact Ed|]. cbv zeta.
  set (f := feature sqrt_ log_ cos_ sin_ pow_ gamma l (fun a => spectrum (nq (fr a) * l)%Qc) (fun a => nq (fr a))) in *.
  pose (e0 := Z.to_nat (fe - 1 - min_exponent)). fold e0 in W.
  assert (Ee : forall j, grid order e0 j = (two_to (fe - 1) * (1 + nq j / nq n))%Qc).
  { intro j. unfold grid. change (num_subdivisions order) with n. f_equal. f_equal. unfold e0, min_exponent. lia. }
  assert (Le : e0 <= 27) by (unfold e0, min_exponent; lia).
  assert (T1 : forall k, k < dim -> nth ((e0 * n + i) * dim + k) table 0%Qc = f (two_to (fe - 1) * (1 + nq i / nq n))%Qc k).
  { intros k Lk. pose proof (V e0 i k ltac:(lia) Li Lk) as V0. rewrite Ee in V0. exact V0. }
  assert (T2 : forall k, k < dim -> nth ((e0 * n + i + 1) * dim + k) table 0%Qc = f (two_to (fe - 1) * (1 + nq (i + 1) / nq n))%Qc k).
  { intros k Lk. destruct (Nat.eq_dec (i + 1) n) as [Ei|Ni].
    - pose proof (V (e0 + 1) 0 k ltac:(lia) (nsub_pos order) Lk) as V0. 
      replace (e0 * n + i + 1) with ((e0 + 1) * n + 0) by lia. transitivity (f (grid order (e0 + 1) 0) k); [exact V0|].
      f_equal. unfold grid. change (num_subdivisions order) with n. rewrite Ei. change (nq 0) with 0%Qc.
      replace (min_exponent + Z.of_nat (e0 + 1))%Z with (fe - 1 + 1)%Z by (unfold e0, min_exponent; lia).
      rewrite two_to_succ. change (zq 2) with (1 + 1)%Qc. field. exact Nz.
    - pose proof (V e0 (i + 1) k ltac:(lia) ltac:(change (num_subdivisions order) with n; lia) Lk) as V0. rewrite Ee in V0.
      replace (e0 * n + i + 1) with (e0 * n + (i + 1)) by lia. exact V0. }
  assert (Sg : (if qlt fm 0 then - (1) else 1)%Qc = (if Qclt_le_dec x 0 then - (1) else 1)%Qc).
  { destruct Hf as (Ex & _ & _). pose proof (two_to_pos fe) as P.
    destruct (qlt fm 0) eqn:Q, (Qclt_le_dec x 0) as [D|D]; try reflexivity; exfalso.
    - apply qlt_true in Q. apply (Qclt_not_le x 0); [|exact D]. rewrite Ex.
      rewrite <- (Qcmult_0_l (two_to fe)). apply Qcmult_lt_compat_r; auto.
    - apply qlt_false in Q. apply (Qclt_not_le _ _ D). rewrite Ex.
      rewrite <- (Qcmult_0_l (two_to fe)). apply Qcmult_le_compat_r; [exact Q|now apply Qclt_le_weak]. }
  change (2 * order + 1) with dim in W. destruct W as (W1 & W2 & W3). split; [exact W1|]. split; [|exact W3].
  intros k Lk. rewrite (W2 k Lk). f_equal. rewrite (T1 k Lk), (T2 k Lk), <- Sg. field. exact Nz.
Qed.
Print Assumptions C47_interpolates.

(** ** example: order 1 with functions that are easy to follow *)
Definition ex_new (block : list Qc) := new_table (fun x => x) (fun x => x) (fun x => x) (fun x => 1 - x)%Qc (fun x _ => x)
  (fun w => if qlt w (zq 3) then 1 else 0)%Qc 1%Qc 1%Qc 1%Qc 1 block.
Definition ex_table : list Qc := match ex_new (repeat 0%Qc (3 * (16 * 29) + 4)) with Some t => t | None => [] end.
Example C47_ex_frexp : is_frexp (- Q2Qc (11#4))%Qc (- Q2Qc (11#16))%Qc 2.
Proof. split; [apply Qc_is_canon; reflexivity|]. split; intro H; [discriminate|]. split; [|reflexivity]. vm_compute. congruence. Qed.
Example C47_ex_evaluate : length ex_table = 3 * (16 * 29) + 4 /\
  option_map (map this) (evaluate 1 (1 / nq 16)%Qc Qcminus ex_table (- Q2Qc (11#16))%Qc 2 2 (repeat (zq 7) 6)) =
  Some [-11#4; 7; -121#8; 7; 77#8; 7]%Q.
Proof. split; vm_compute; reflexivity. Qed.
(** doubles: s = 1/16 is exact, subtraction rounded within 2^-54 *)
Example C47_ex_rounding : (0 <= two_to (-54))%Qc /\ (1 <= nq (8 + 8 * 1 + 1) * (1 / nq 16 - two_to (-54)))%Qc.
Proof. split; vm_compute; congruence. Qed.

(** ** C75: the default period *)
(** homkermap.c:318-320: "The period should be non-negative; specifying a negative
    or null value causes the function to switch to a default value".  A null value
    is kept, and L = 2 pi / 0 is computed with it. *)
Theorem C75_null_period_refuted : forall default, choose_period default 0 = 0%Qc.
Proof. intro default. reflexivity. Qed.
Print Assumptions C75_null_period_refuted.

(** what holds: a negative value is replaced by the default, at least one *)
Theorem C75_negative_period_partial default period : (period < 0)%Qc ->
  (1 <= choose_period default period)%Qc /\ ((1 <= default)%Qc -> choose_period default period = default).
Proof.
  intro H. unfold choose_period. rewrite (proj2 (qlt_true period 0) H).
  destruct (qlt default 1) eqn:Q; [|apply qlt_false in Q; auto].
  apply qlt_true in Q. split; [apply Qcle_refl|]. intro X. destruct (Qclt_not_le _ _ Q X).
Qed.
Print Assumptions C75_negative_period_partial.
Example C75_ex : choose_period (zq 4) (zq (-1)) = zq 4.
Proof. reflexivity. Qed.
