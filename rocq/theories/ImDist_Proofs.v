(** Proofs about vl_image_distance_transform. *)
From Coq Require Import List Arith ZArith QArith Lia Lqa Bool.
From Verif Require Import Base Loop MserSort_Proofs ImOp_Spec ImOp_Proofs ImDist_Model ImDist_Spec.
Import ListNotations.
Local Open Scope nat_scope.

(** t >= s and t < s *)
Definition ge (t : Q) (s : ext) : Prop := ext_leb s (Fin t) = true.
Definition lt (t : Q) (s : ext) : Prop := ext_leb s (Fin t) = false.
Lemma ge_lt_dec t s : {ge t s} + {lt t s}.
Proof. unfold ge, lt. destruct (ext_leb s (Fin t)); auto. Qed.

Lemma ext_leb_trans a b c : ext_leb a b = true -> ext_leb b c = true -> ext_leb a c = true.
Proof.
  destruct a, b, c; cbn; auto; try discriminate. rewrite !Qle_bool_iff. intros. lra.
Qed.
Lemma ext_leb_total a b : ext_leb a b = false -> ext_leb b a = true.
Proof.
  destruct a, b; cbn; auto; try discriminate. intro H. apply Qle_bool_iff.
  assert (~ (q <= q0)%Q) by (intro X; apply Qle_bool_iff in X; congruence). lra.
Qed.
Lemma ge_le t a b : ext_leb b a = true -> ge t a -> ge t b.
Proof. unfold ge. apply ext_leb_trans. Qed.
Lemma lt_le t a b : ext_leb a b = true -> lt t a -> lt t b.
Proof.
  unfold lt. intros H L. destruct (ext_leb b (Fin t)) eqn:E; auto.
  rewrite (ext_leb_trans _ _ _ H E) in L. discriminate.
Qed.
Lemma ge_NInf t : ge t NInf.
Proof. reflexivity. Qed.
Lemma lt_PInf t : lt t PInf.
Proof. reflexivity. Qed.

Section Disttf.
Variables (c o eps : Q).
Hypothesis Hc : (0 <= eps)%Q /\ ((eps < c)%Q \/ (c == 0)%Q).

Definition par (r : Q) (u : nat) (t : Q) : Q := (r + c * ((t - q_of u - o) * (t - q_of u - o)))%Q.

Lemma q_of_add a b : (q_of (a + b) == q_of a + q_of b)%Q.
Proof. unfold q_of. rewrite Nat2Z.inj_add. now rewrite inject_Z_plus. Qed.
Lemma q_of_mul a b : (q_of (a * b) == q_of a * q_of b)%Q.
Proof. unfold q_of. rewrite Nat2Z.inj_mul. now rewrite inject_Z_mult. Qed.
Lemma q_of_sub a b : b <= a -> (q_of (a - b) == q_of a - q_of b)%Q.
Proof. intro L. assert (E := q_of_add (a - b) b). replace (a - b + b) with a in E by lia. lra. Qed.
Lemma q_of_lt a b : a < b -> (q_of a < q_of b)%Q.
Proof. intro L. unfold q_of. rewrite <- Zlt_Qlt. lia. Qed.

Lemma par_flat r u t : (c == 0)%Q -> (par r u t == r)%Q.
Proof. intro E. unfold par. rewrite E. ring. Qed.

(** the sign of the difference of two parabolas *)
Lemma par_diff x u r r' t :
  (par r x t - par r' u t == ((r - r') + c * (q_of x * q_of x - q_of u * q_of u)) - (t - o) * ((2 # 1) * c) * (q_of x - q_of u))%Q.
Proof. unfold par. ring. Qed.

Lemma inters_ok x u r r' : u < x -> let s := inters c o eps x u r r' in
  (forall t, ge t s -> (par r x t <= par r' u t)%Q) /\ (forall t, lt t s -> (par r' u t <= par r x t)%Q).
Proof.
  intros L s. unfold s, inters. clear s. destruct Hc as [He Hc'].
  assert (D : (0 < q_of x - q_of u)%Q) by (apply q_of_lt in L; lra).
  destruct (Qeq_bool r r') eqn:E.
  - apply Qeq_bool_iff in E. unfold ge, lt. cbn.
    assert (Ed : forall t, (par r x t - par r' u t == (c * (q_of x - q_of u)) * ((q_of (x + u)) - (2 # 1) * (t - o)))%Q).
    { intro t. rewrite par_diff, q_of_add, E. ring. }
    assert (C : (0 <= c * (q_of x - q_of u))%Q) by (apply Qmult_le_0_compat; lra).
    set (K := (c * (q_of x - q_of u))%Q) in *.
    assert (Es : (q_of (x + u) / (2 # 1) + o == q_of (x + u) * (1 # 2) + o)%Q) by (unfold Qdiv; reflexivity).
    split; intros t Ht.
    + apply Qle_bool_iff in Ht. specialize (Ed t).
      assert (0 <= K * ((2 # 1) * (t - o) - q_of (x + u)))%Q by (apply Qmult_le_0_compat; lra). lra.
    + assert (Ht' : (t < q_of (x + u) / (2 # 1) + o)%Q).
      { apply Qnot_le_lt. intro X. apply Qle_bool_iff in X. congruence. }
      specialize (Ed t).
      assert (0 <= K * (q_of (x + u) - (2 # 1) * (t - o)))%Q by (apply Qmult_le_0_compat; lra). lra.
  - destruct (Qle_bool c eps) eqn:Ec; cbn [negb].
    + apply Qle_bool_iff in Ec. destruct Hc' as [X|Z0]; [lra|].
      destruct (Qle_bool r' r) eqn:Er; cbn [negb].
      * apply Qle_bool_iff in Er. split; intros t Ht; [discriminate Ht|].
        rewrite !par_flat by exact Z0. exact Er.
      * split; intros t Ht; [|discriminate Ht].
        rewrite !par_flat by exact Z0. apply Qlt_le_weak. apply Qnot_le_lt. intro X. apply Qle_bool_iff in X. congruence.
    + assert (C : (eps < c)%Q). { apply Qnot_le_lt. intro X. apply Qle_bool_iff in X. congruence. }
      unfold ge, lt. cbn.
      set (N := ((r - r') + c * (q_of (x * x) - q_of (u * u)))%Q).
      assert (EN : (N == (r - r') + c * (q_of x * q_of x - q_of u * q_of u))%Q) by (unfold N; rewrite !q_of_mul; reflexivity).
      assert (Ex : (q_of (x - u) == q_of x - q_of u)%Q) by (apply q_of_sub; lia).
      set (P := ((q_of x - q_of u) * ((2 # 1) * c))%Q).
      assert (P0 : (0 < P)%Q) by (unfold P; apply Qmult_lt_0_compat; lra).
      assert (Es : (N / q_of (x - u) / ((2 # 1) * c) + o == N / P + o)%Q).
      { rewrite Ex. unfold P. field. split; lra. }
      split; intros t Ht.
      * apply Qle_bool_iff in Ht. rewrite Es in Ht.
        assert (Y : (N <= (t - o) * P)%Q).
        { apply Qmult_lt_0_le_reg_r with (/ P)%Q; [now apply Qinv_lt_0_compat|].
          assert (Y1 : ((t - o) * P * / P == t - o)%Q) by (field; lra). rewrite Y1. unfold Qdiv in Ht. lra. }
        pose proof (par_diff x u r r' t) as Ed. unfold P in Y. lra.
      * assert (Ht' : (t < N / P + o)%Q).
        { apply Qnot_le_lt. intro X. rewrite <- Es in X. apply Qle_bool_iff in X. rewrite X in Ht. discriminate. }
        assert (Y : ((t - o) * P <= N)%Q).
        { apply Qmult_lt_0_le_reg_r with (/ P)%Q; [now apply Qinv_lt_0_compat|].
          assert (Y1 : ((t - o) * P * / P == t - o)%Q) by (field; lra). rewrite Y1. unfold Qdiv in Ht'. lra. }
        pose proof (par_diff x u r r' t) as Ed. unfold P in Y. lra.
Qed.

(** ** One row *)
Section Row.
Variables (image : list Q) (width cs rs y : nat) (indexes : option (list nat)).
Hypothesis Him : forall x, x < width -> at_ cs rs y x < length image.
Hypothesis Hix : forall l, indexes = Some l -> forall x, x < width -> at_ cs rs y x < length l.
Let f (x : nat) : Q := nth (at_ cs rs y x) image 0%Q.
Let ix (x : nat) : nat := match indexes with Some l => nth (at_ cs rs y x) l 0 | None => 0 end.

Definition sized (e : env) : Prop :=
  length (e_from e) = width + 1 /\ length (e_base e) = width /\ length (e_bidx e) = width /\ length (e_which e) = width.

Let F (e : env) k := nth k (e_from e) PInf.
Let W (e : env) k := nth k (e_which e) 0.

(** k is optimal among the first n parabolas at t *)
Let best (n u : nat) (t : Q) : Prop := forall i, i < n -> (par (f u) u t <= par (f i) i t)%Q.

Record stack (n num : nat) (e : env) : Prop := {
  sk_size : sized e;
  sk_num : num <= n;
  sk_pos : 0 < n -> 0 < num;
  sk_which : forall k, k < num -> W e k < n;
  sk_base : forall k, k < num -> nth k (e_base e) 0%Q = f (W e k);
  sk_bidx : indexes <> None -> forall k, k < num -> nth k (e_bidx e) 0 = ix (W e k);
  sk_first : 0 < num -> F e 0 = NInf;
  sk_mono : forall k, k + 1 < num -> ext_leb (F e (k + 1)) (F e k) = false }.

Definition optimal (n num : nat) (e : env) (T : ext) : Prop :=
  forall k t, k < num -> ge t (F e k) -> (k + 1 < num -> lt t (F e (k + 1))) -> (k + 1 = num -> lt t T) -> best n (W e k) t.

Lemma mono_le n num e k : stack n num e -> forall d, k + d < num -> ext_leb (F e k) (F e (k + d)) = true.
Proof.
  intros St. induction d as [|d IH]; intros L.
  - rewrite Nat.add_0_r. destruct (F e k); cbn; auto. apply Qle_bool_iff. lra.
  - apply ext_leb_trans with (F e (k + d)); [apply IH; lia|].
    apply ext_leb_total. replace (k + S d) with (k + d + 1) by lia. apply (sk_mono _ _ _ St). lia.
Qed.

(** what [pop] returns *)
Lemma pop_ok n e : n < width -> forall num0, stack n num0 e ->
  forall num T, num <= num0 -> optimal n num e T -> (forall t, ge t T -> best n n t) ->
  (num = 0 -> n = 0 \/ T = NInf) ->
  exists num' s, pop c o eps image cs rs y e n (f n) num = Some (num', s) /\ num' <= num /\
    (num' = 0 -> s = NInf) /\ (0 < num' -> ext_leb s (F e (num' - 1)) = false) /\
    (forall t, ge t s -> best (S n) n t) /\
    (forall k t, k < num' -> ge t (F e k) -> (k + 1 < num' -> lt t (F e (k + 1))) -> (k + 1 = num' -> lt t s) -> best (S n) (W e k) t).
Proof.
  intros Ln num0 St. destruct (sk_size _ _ _ St) as (Lf & Lb & Lbi & Lw).
  pose proof (sk_num _ _ _ St) as Sn.
  induction num as [|num IH]; intros T Lnum Op Hn Hz; cbn [pop].
  - exists 0, NInf. split; [reflexivity|]. split; [lia|]. split; [auto|]. split; [lia|]. split; [|intros; lia].
    intros t _ i Li. destruct (Nat.eq_dec i n) as [->|]; [lra|].
    destruct (Hz eq_refl) as [->| ->]; [lia|]. apply Hn; [reflexivity|lia].
  - assert (Wn : W e num < n) by (apply (sk_which _ _ _ St); lia).
    rewrite (aget_nth _ _ 0) by lia. cbn [obind]. fold (W e num).
    rewrite (aget_nth image _ 0%Q) by (apply Him; lia). cbn [obind]. fold (f (W e num)).
    rewrite (aget_nth (e_from e) num PInf) by lia. cbn [obind]. fold (F e num).
    destruct (inters_ok n (W e num) (f n) (f (W e num)) Wn) as [I1 I2].
    set (s := inters c o eps n (W e num) (f n) (f (W e num))) in *.
    destruct (ext_leb s (F e num)) eqn:Es.
    + destruct (IH (F e num)) as (num' & s' & E & L' & R).
      * lia.
      * intros k t Lk G1 G2 G3. apply Op; [lia|exact G1| |lia].
        intro X. destruct (Nat.eq_dec (k + 1) num) as [Y|Y]; [rewrite Y; auto|apply G2; lia].
      * intros t G i Li. destruct (ge_lt_dec t T) as [X|X]; [apply Hn; auto|].
        pose proof (Op num t ltac:(lia) G ltac:(lia) ltac:(auto) i Li) as Y.
        pose proof (I1 t (ge_le _ _ _ Es G)). lra.
      * intros ->. right. apply (sk_first _ _ _ St). lia.
      * exists num', s'. split; [exact E|]. split; [lia|exact R].
    + exists (S num), s. split; [reflexivity|]. split; [lia|]. split; [lia|].
      split; [intros _; replace (S num - 1) with num by lia; exact Es|]. split.
      * intros t G i Li. destruct (Nat.eq_dec i n) as [->|Ni]; [lra|].
        destruct (ge_lt_dec t T) as [X|X]; [apply Hn; auto; lia|].
        pose proof (Op num t ltac:(lia) (ge_le _ _ _ (ext_leb_total _ _ Es) G) ltac:(lia) ltac:(auto) i ltac:(lia)) as Y.
        pose proof (I1 t G). lra.
      * intros k t Lk G1 G2 G3 i Li.
        assert (Ls : lt t s).
        { destruct (Nat.eq_dec (k + 1) (S num)) as [Y|Y]; [auto|].
          apply lt_le with (F e num); [now apply ext_leb_total|].
          apply lt_le with (F e (k + 1)); [|apply G2; lia].
          replace num with (k + 1 + (num - k - 1)) by lia. apply (mono_le _ _ _ _ St). lia. }
        pose proof (I2 t Ls) as Z1.
        destruct (Nat.eq_dec k num) as [->|Nk].
        -- assert (Bt : best n (W e num) t).
           { destruct (ge_lt_dec t T) as [X|X].
             - intros j Lj. pose proof (Hn t X j Lj). lra.
             - apply Op; auto; lia. }
           destruct (Nat.eq_dec i n) as [->|Ni]; [exact Z1|apply Bt; lia].
        -- assert (Bt : best n (W e k) t) by (apply Op; auto; lia).
           destruct (Nat.eq_dec i n) as [->|Ni]; [|apply Bt; lia].
           pose proof (Bt (W e num) Wn). lra.
Qed.

Lemma scan_col_ok n e num : n < width -> stack n num e -> optimal n num e PInf ->
  exists e' num', scan_col c o eps image cs rs y indexes n (e, num) = Some (e', num') /\
    stack (S n) num' e' /\ optimal (S n) num' e' PInf.
Proof.
  intros Ln St Op. unfold scan_col.
  rewrite (aget_nth image _ 0%Q) by (apply Him; lia). cbn [obind]. fold (f n).
  destruct (pop_ok n e Ln num St num PInf ltac:(lia) Op) as (num' & s & E & L' & R1 & R2 & R3 & R4).
  { intros t G. discriminate G. }
  { intros ->. left. destruct n; auto. exfalso. pose proof (sk_pos _ _ _ St). lia. }
  rewrite E. cbn [obind]. clear E.
  pose proof (sk_size _ _ _ St) as (Lf & Lb & Lbi & Lw). pose proof (sk_num _ _ _ St) as Sn.
  rewrite aset_lt by lia. cbn [obind]. rewrite aset_lt by lia. cbn [obind]. rewrite aset_lt by lia. cbn [obind].
  assert (BI : exists bi, match indexes with
           | Some l => do i <- aget l (at_ cs rs y n); aset (e_bidx e) num' i
           | None => Some (e_bidx e)
           end = Some bi /\ length bi = width /\
           (indexes <> None -> bi = upd (e_bidx e) num' (ix n))).
  { unfold ix. case_eq indexes; [intros l El|intros El].
    - rewrite (aget_nth l _ 0) by (apply (Hix l El); lia). cbn [obind]. rewrite aset_lt by lia.
      eexists. split; [reflexivity|]. split; [now rewrite upd_length|auto].
    - eexists. split; [reflexivity|]. split; [exact Lbi|congruence]. }
  destruct BI as (bi & -> & Lbi' & Ebi). cbn [obind].
  eexists _, _. split; [reflexivity|].
  assert (WE : forall k, nth k (upd (e_which e) num' n) 0 = if Nat.eq_dec k num' then n else W e k).
  { intro k. rewrite nth_upd by lia. destruct (Nat.eq_dec k num') as [->|N0].
    - now rewrite Nat.eqb_refl.
    - apply Nat.eqb_neq in N0. first [now rewrite N0 | (rewrite Nat.eqb_sym in N0; now rewrite N0)]. }
  assert (FE : forall k, nth k (upd (e_from e) num' s) PInf = if Nat.eq_dec k num' then s else F e k).
  { intro k. rewrite nth_upd by lia. destruct (Nat.eq_dec k num') as [->|N0].
    - now rewrite Nat.eqb_refl.
    - apply Nat.eqb_neq in N0. first [now rewrite N0 | (rewrite Nat.eqb_sym in N0; now rewrite N0)]. }
  split.
  - constructor; cbn [e_from e_base e_bidx e_which].
    + unfold sized. cbn. rewrite !upd_length. auto.
    + lia.
    + lia.
    + intros k Lk. unfold W. cbn. rewrite WE. destruct (Nat.eq_dec k num'); [lia|].
      pose proof (sk_which _ _ _ St k). lia.
    + intros k Lk. unfold W. cbn. rewrite WE. rewrite nth_upd by lia. destruct (Nat.eq_dec k num') as [->|N0].
      * now rewrite Nat.eqb_refl.
      * assert (N1 := N0). apply Nat.eqb_neq in N0.
        first [rewrite N0 | (rewrite Nat.eqb_sym in N0; rewrite N0)]. apply (sk_base _ _ _ St). lia.
    + intros Ni k Lk. unfold W. cbn. rewrite WE, (Ebi Ni). rewrite nth_upd by lia. destruct (Nat.eq_dec k num') as [->|N0].
      * now rewrite Nat.eqb_refl.
      * assert (N1 := N0). apply Nat.eqb_neq in N0.
        first [rewrite N0 | (rewrite Nat.eqb_sym in N0; rewrite N0)]. apply (sk_bidx _ _ _ St); auto. lia.
    + intros _. unfold F. cbn. rewrite FE. destruct (Nat.eq_dec 0 num') as [Z|Z]; [auto|].
      apply (sk_first _ _ _ St). lia.
    + intros k Lk. unfold F. cbn. rewrite !FE. destruct (Nat.eq_dec k num') as [Z|Z]; [lia|].
      destruct (Nat.eq_dec (k + 1) num') as [Y|Y].
      * replace k with (num' - 1) by lia. apply R2. lia.
      * apply (sk_mono _ _ _ St). lia.
  - intros k t Lk. unfold F, W. cbn. rewrite !FE, WE. intros G1 G2 G3.
    destruct (Nat.eq_dec k num') as [->|N0]; [apply R3; exact G1|].
    apply R4; [lia|exact G1| |].
    + intro X. destruct (Nat.eq_dec (k + 1) num'); [lia|apply G2; lia].
    + intro X. specialize (G2 ltac:(lia)). destruct (Nat.eq_dec (k + 1) num'); [exact G2|lia].
Qed.

Lemma scan_ok e : sized e -> exists e' num,
  iter width (scan_col c o eps image cs rs y indexes) (e, 0) = Some (e', num) /\
  stack width num e' /\ optimal width num e' PInf.
Proof.
  intro Sz.
  destruct (iter_inv (fun n s => stack n (snd s) (fst s) /\ optimal n (snd s) (fst s) PInf)
    (scan_col c o eps image cs rs y indexes) width (e, 0)) as ((e', num) & E & R).
  - split; cbn.
    + constructor; try lia; auto.
    + intros k t Lk. lia.
  - intros n (e1, num1) Ln (St & Op). cbn in *. rewrite Nat.add_1_r.
    destruct (scan_col_ok n e1 num1 Ln St Op) as (e2 & num2 & E2 & R). exists (e2, num2). auto.
  - exists e', num. auto.
Qed.

(** ** Filling the row in *)
Lemma advance_ok e n num : sized e -> n <= width -> F e n = PInf ->
  forall x, num < n -> ge (q_of x) (F e num) ->
  exists num', advance e x num = Some num' /\ num <= num' < n /\ ge (q_of x) (F e num') /\ lt (q_of x) (F e (num' + 1)).
Proof.
  intros (Lf & _) Ln En x. unfold advance.
  assert (G : forall fuel num, n - num < fuel -> num < n -> ge (q_of x) (F e num) -> exists num',
    (fix go (fuel num : nat) : option nat :=
     match fuel with
     | O => None
     | S fuel => do f <- aget (e_from e) (num + 1);
                 if ext_leb f (Fin (q_of x)) then go fuel (num + 1) else Some num
     end) fuel num = Some num' /\ num <= num' < n /\ ge (q_of x) (F e num') /\ lt (q_of x) (F e (num' + 1))).
  { induction fuel as [|fuel IH]; intros num1 L1 L2 G; [lia|].
    rewrite (aget_nth _ _ PInf) by lia. cbn [obind]. fold (F e (num1 + 1)).
    destruct (ext_leb (F e (num1 + 1)) (Fin (q_of x))) eqn:E1.
    - destruct (IH (num1 + 1)) as (num' & E & B & R); [lia| |exact E1|].
      + destruct (Nat.eq_dec (num1 + 1) n) as [Y|]; [|lia]. rewrite Y, En in E1. discriminate.
      + exists num'. split; [exact E|]. split; [lia|exact R].
    - exists num1. split; [reflexivity|]. split; [lia|]. split; [exact G|exact E1]. }
  intros L G1. apply (G (S (length (e_from e))) num); auto. lia.
Qed.

(** the result at column x *)
Definition filled_at (x : nat) (dt : list Q) (ix' : option (list nat)) : Prop :=
  exists u, lower_envelope c o width f x u (nth (at_ cs rs y x) dt 0%Q) /\
    forall l, ix' = Some l -> nth (at_ cs rs y x) l 0 = ix u.

Hypothesis Hinj : forall x x', x < width -> x' < width -> at_ cs rs y x = at_ cs rs y x' -> x = x'.

Lemma fill_ok e num dt : stack width num e -> optimal width num e PInf -> F e num = PInf ->
  (forall x, x < width -> at_ cs rs y x < length dt) ->
  exists r dt' ix', iter width (fill_col c o cs rs y e) (0, dt, indexes) = Some (r, dt', ix') /\
    length dt' = length dt /\ option_map (@length nat) ix' = option_map (@length nat) indexes /\
    (forall x, x < width -> filled_at x dt' ix') /\
    (forall i, (forall x, x < width -> i <> at_ cs rs y x) ->
       nth i dt' 0%Q = nth i dt 0%Q /\ forall l l', indexes = Some l -> ix' = Some l' -> nth i l' 0 = nth i l 0).
Proof.
  intros St Op En Hdt.
  pose proof (sk_size _ _ _ St) as (Lf & Lb & Lbi & Lw). pose proof (sk_num _ _ _ St) as Sn.
  destruct (iter_inv (fun n s => let '(k, dt', ix') := s in
      (0 < width -> k < num /\ (0 < n -> ge (q_of (n - 1)) (F e k)) /\ (n = 0 -> k = 0)) /\
      length dt' = length dt /\ option_map (@length nat) ix' = option_map (@length nat) indexes /\
      (forall x, x < n -> filled_at x dt' ix') /\
      (forall i, (forall x, x < n -> i <> at_ cs rs y x) ->
        nth i dt' 0%Q = nth i dt 0%Q /\ forall l l', indexes = Some l -> ix' = Some l' -> nth i l' 0 = nth i l 0))
    (fill_col c o cs rs y e) width (0, dt, indexes)) as (((r, dt'), ix') & E & I).
  - split; [intro; split; [apply (sk_pos _ _ _ St); auto|split; lia]|]. split; [auto|]. split; [auto|]. split; [lia|].
    intros i _. split; [auto|]. congruence.
  - intros n ((k, dt1), ix1) Ln (I1 & I2 & I3 & I4 & I5). rewrite Nat.add_1_r. unfold fill_col.
    destruct (I1 ltac:(lia)) as (Lk & Gk & Zk).
    assert (G : ge (q_of n) (F e k)).
    { destruct n as [|n].
      - rewrite Zk by auto. rewrite (sk_first _ _ _ St) by lia. reflexivity.
      - specialize (Gk ltac:(lia)). unfold ge in *. eapply ext_leb_trans; [exact Gk|].
        cbn. apply Qle_bool_iff. apply Qlt_le_weak. apply q_of_lt. lia. }
    destruct (advance_ok e num k (sk_size _ _ _ St) Sn En n Lk G) as (k' & -> & Bk & Gk' & Lt'). cbn [obind].
    rewrite (aget_nth _ _ 0) by lia. cbn [obind]. rewrite (aget_nth _ _ 0%Q) by lia. cbn [obind].
    rewrite (sk_base _ _ _ St) by lia. fold (W e k').
    rewrite aset_lt by (rewrite I2; auto). cbn [obind].
    set (v := (f (W e k') + c * (q_of n - q_of (W e k') - o) * (q_of n - q_of (W e k') - o))%Q).
    assert (Wk : W e k' < width) by (apply (sk_which _ _ _ St); lia).
    assert (LE : lower_envelope c o width f n (W e k') v).
    { assert (Ev : (v == par (f (W e k')) (W e k') (q_of n))%Q) by (unfold v, par; ring).
      split; [exact Wk|]. split; [exact Ev|]. intros u' Lu. rewrite Ev.
      apply (Op k' (q_of n)); [lia|exact Gk'| |intros; apply lt_PInf|exact Lu]. intros; exact Lt'. }
    assert (IX : exists ix2, match ix1 with
                | Some l => do i <- aget (e_bidx e) k'; do l <- aset l (at_ cs rs y n) i; Some (Some l)
                | None => Some None
                end = Some ix2 /\ option_map (@length nat) ix2 = option_map (@length nat) indexes /\
                (forall l, ix2 = Some l -> exists l1, ix1 = Some l1 /\ at_ cs rs y n < length l1 /\ l = upd l1 (at_ cs rs y n) (ix (W e k')))).
    { destruct ix1 as [l1|].
      - assert (X0 : exists l0, indexes = Some l0 /\ length l1 = length l0).
        { clear - I3. revert I3. generalize indexes. intros [l0|] I3; [|discriminate]. injection I3 as I3. exists l0. auto. }
        destruct X0 as (l0 & E0 & X0).
        rewrite (aget_nth _ _ 0) by lia. cbn [obind].
        assert (Ll : at_ cs rs y n < length l1) by (rewrite X0; apply (Hix l0); auto).
        rewrite aset_lt by exact Ll. cbn [obind]. eexists. split; [reflexivity|].
        split; [rewrite <- I3; cbn; now rewrite upd_length|]. intros l El. injection El as <-.
        exists l1. split; [auto|]. split; [auto|].
        rewrite (sk_bidx _ _ _ St); [reflexivity|congruence|lia].
      - exists None. split; [auto|]. split; [auto|]. discriminate. }
    destruct IX as (ix2 & -> & I3' & X2). cbn [obind]. eexists. split; [reflexivity|].
    split; [intros _; split; [lia|]; split; [intros _; replace (S n - 1) with n by lia; exact Gk'|lia]|].
    split; [now rewrite upd_length|]. split; [exact I3'|]. split.
    + intros x Lx. destruct (Nat.eq_dec x n) as [->|Nx].
      * exists (W e k'). split.
        -- rewrite nth_upd, Nat.eqb_refl by (rewrite I2; auto). exact LE.
        -- intros l El. destruct (X2 l El) as (l1 & _ & Ll & ->). now rewrite nth_upd, Nat.eqb_refl by exact Ll.
      * destruct (I4 x ltac:(lia)) as (u & U1 & U2).
        assert (Na : at_ cs rs y n <> at_ cs rs y x).
        { intro X. apply Hinj in X; lia. }
        exists u. split.
        -- rewrite nth_upd by (rewrite I2; auto). destruct (Nat.eqb_spec (at_ cs rs y x) (at_ cs rs y n)); [congruence|].
           exact U1.
        -- intros l El. destruct (X2 l El) as (l1 & El1 & Ll & ->).
           rewrite nth_upd by exact Ll. destruct (Nat.eqb_spec (at_ cs rs y x) (at_ cs rs y n)); [congruence|].
           apply U2; auto.
    + intros i Hi. destruct (I5 i) as (J1 & J2); [intros; apply Hi; lia|].
      pose proof (Hi n ltac:(lia)). split.
      * rewrite nth_upd by (rewrite I2; auto). destruct (Nat.eqb_spec i (at_ cs rs y n)); [congruence|]. auto.
      * intros l l' El El'. destruct (X2 l' El') as (l1 & El1 & Ll & ->).
        rewrite nth_upd by exact Ll. destruct (Nat.eqb_spec i (at_ cs rs y n)); [congruence|]. auto.
  - exists r, dt', ix'. split; [exact E|]. tauto.
Qed.
End Row.

(** ** The whole image *)
Section Image.
Variables (image : option (list Q)) (width height cs rs : nat).
Hypothesis Hinj : forall x x' y y', x < width -> x' < width -> y < height -> y' < height ->
  at_ cs rs y x = at_ cs rs y' x' -> x = x' /\ y = y'.

Definition idx_at (l : option (list nat)) (i : nat) : nat := match l with Some l => nth i l 0 | None => 0 end.

Lemma disttf_ok buf dt indexes :
  sized width buf ->
  (forall x y, x < width -> y < height -> at_ cs rs y x < length dt) ->
  (forall l, image = Some l -> forall x y, x < width -> y < height -> at_ cs rs y x < length l) ->
  (forall l, indexes = Some l -> forall x y, x < width -> y < height -> at_ cs rs y x < length l) ->
  exists dt' indexes',
    disttf c o eps image width height cs rs buf dt indexes = Some (dt', indexes') /\
    length dt' = length dt /\ option_map (@length nat) indexes' = option_map (@length nat) indexes /\
    (forall x y, x < width -> y < height -> exists u,
       lower_envelope c o width (fun i => nth (at_ cs rs y i) (match image with Some l => l | None => dt end) 0%Q)
         x u (nth (at_ cs rs y x) dt' 0%Q) /\
       idx_at indexes' (at_ cs rs y x) = idx_at indexes (at_ cs rs y u)) /\
    (forall i, (forall x y, x < width -> y < height -> i <> at_ cs rs y x) ->
       nth i dt' 0%Q = nth i dt 0%Q /\ idx_at indexes' i = idx_at indexes i).
Proof.
  intros Sz Hdt Him Hix. unfold disttf.
  set (im0 := match image with Some l => l | None => dt end).
  destruct (iter_inv (fun n s => let '(e, dt1, ix1) := s in
      sized width e /\ length dt1 = length dt /\ option_map (@length nat) ix1 = option_map (@length nat) indexes /\
      (forall x y, x < width -> y < n -> exists u,
        lower_envelope c o width (fun i => nth (at_ cs rs y i) im0 0%Q) x u (nth (at_ cs rs y x) dt1 0%Q) /\
        idx_at ix1 (at_ cs rs y x) = idx_at indexes (at_ cs rs y u)) /\
      (forall i, (forall x y, x < width -> y < n -> i <> at_ cs rs y x) ->
        nth i dt1 0%Q = nth i dt 0%Q /\ idx_at ix1 i = idx_at indexes i))
    (disttf_row c o eps image width cs rs) height (buf, dt, indexes)) as (((e, dt'), ix') & E & I).
  - split; [exact Sz|]. split; [auto|]. split; [auto|]. split; [lia|]. auto.
  - intros n ((e, dt1), ix1) Ln (I1 & I2 & I3 & I4 & I5). rewrite Nat.add_1_r. unfold disttf_row.
    set (im := match image with Some l => l | None => dt1 end).
    assert (Lix : forall l, ix1 = Some l -> forall x y, x < width -> y < height -> at_ cs rs y x < length l).
    { intros l -> x y Lx Ly. destruct indexes as [l0|]; [|discriminate]. cbn in I3. injection I3 as I3.
      rewrite I3. apply (Hix l0); auto. }
    assert (Lim : forall x, x < width -> at_ cs rs n x < length im).
    { intros x Lx. unfold im. case_eq image; [intros l El; apply (Him l El); auto|intros _; rewrite I2; auto]. }
    assert (Eim : forall x, x < width -> nth (at_ cs rs n x) im 0%Q = nth (at_ cs rs n x) im0 0%Q).
    { intros x Lx. unfold im, im0. case_eq image; [auto|intros _].
      apply I5. intros x' y' Lx' Ly' X. apply Hinj in X; lia. }
    assert (Eix : forall x, x < width -> idx_at ix1 (at_ cs rs n x) = idx_at indexes (at_ cs rs n x)).
    { intros x Lx. apply I5. intros x' y' Lx' Ly' X. apply Hinj in X; lia. }
    destruct (scan_ok im width cs rs n ix1 Lim ltac:(intros; apply (Lix l); auto) e I1) as (e1 & num & -> & St & Op).
    cbn [obind].
    pose proof (sk_size _ _ _ _ _ _ _ _ _ St) as (Lf & Lb & Lbi & Lw). pose proof (sk_num _ _ _ _ _ _ _ _ _ St) as Sn.
    rewrite aset_lt by lia. cbn [obind].
    set (e2 := mk_env (upd (e_from e1) num PInf) (e_base e1) (e_bidx e1) (e_which e1)).
    assert (FE : forall k, k < num -> nth k (e_from e2) PInf = nth k (e_from e1) PInf).
    { intros k Lk. unfold e2. cbn. rewrite nth_upd by lia. destruct (Nat.eqb_spec k num); [lia|auto]. }
    assert (St2 : stack im width cs rs n ix1 width num e2).
    { destruct St as [S1 S2 S3 S4 S5 S6 S7 S8]. constructor; auto.
      - unfold sized, e2. cbn. rewrite upd_length. auto.
      - intro P. rewrite FE by lia. auto.
      - intros k Lk. rewrite !FE by lia. apply S8. lia. }
    assert (Op2 : optimal im cs rs n width num e2 PInf).
    { intros k t Lk G1 G2 G3. apply (Op k t Lk); auto.
      - rewrite FE in G1 by lia. exact G1.
      - intro X. specialize (G2 X). rewrite FE in G2 by lia. exact G2. }
    destruct (fill_ok im width cs rs n ix1 ltac:(intros; apply (Lix l); auto)
      ltac:(intros x x' Lx Lx' X; apply Hinj in X; lia) e2 num dt1 St2 Op2) as (r & dt2 & ix2 & -> & L2 & L3 & R1 & R2).
    { unfold e2. cbn. rewrite nth_upd, Nat.eqb_refl by lia. reflexivity. }
    { intros x Lx. rewrite I2. auto. }
    cbn [obind]. eexists. split; [reflexivity|]. split; [exact (sk_size _ _ _ _ _ _ _ _ _ St2)|].
    split; [congruence|]. split; [congruence|].
    assert (Same : forall i, (forall x, x < width -> i <> at_ cs rs n x) ->
      nth i dt2 0%Q = nth i dt1 0%Q /\ idx_at ix2 i = idx_at ix1 i).
    { intros i Hi. destruct (R2 i Hi) as (J1 & J2). split; [exact J1|].
      destruct ix1 as [l1|], ix2 as [l2|]; try discriminate; cbn; auto. }
    split.
    + intros x y Lx Ly. destruct (Nat.eq_dec y n) as [->|Ny].
      * destruct (R1 x Lx) as (u & (U1 & U2 & U3) & U4). exists u. split.
        -- split; [exact U1|]. split; [now rewrite <- Eim by exact U1|]. intros u' Lu'. rewrite <- Eim by exact Lu'. auto.
        -- destruct ix2 as [l2|]; cbn.
           ++ rewrite (U4 l2 eq_refl). rewrite <- Eix by exact U1. destruct ix1 as [l1|]; cbn; auto.
           ++ rewrite <- Eix by exact U1. destruct ix1; [discriminate|auto].
      * destruct (I4 x y Lx ltac:(lia)) as (u & U1 & U2).
        destruct (Same (at_ cs rs y x)) as (Q1 & Q2).
        { intros x' Lx' X. apply Hinj in X; lia. }
        exists u. rewrite Q1, Q2. auto.
    + intros i Hi. destruct (Same i) as (Q1 & Q2); [intros; apply Hi; auto; lia|].
      rewrite Q1, Q2. apply I5. intros; apply Hi; auto; lia.
  - rewrite E. cbn [obind]. exists dt', ix'. split; [reflexivity|]. tauto.
Qed.
End Image.
End Disttf.
