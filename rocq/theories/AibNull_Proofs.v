From Coq Require Import List Arith Lia Bool.
From Verif Require Import Base Loop MserSort_Proofs Kmeans_Spec KmeansUpdate_Proofs Aib_Spec AibRun_Proofs AibNull_Model AibNull_Spec.
Import ListNotations.

Lemma count_0 p : count 0 p = 0. Proof. reflexivity. Qed.
Lemma count_bound N p : count N p <= N.
Proof. induction N as [|N IH]; [reflexivity|]. rewrite <- Nat.add_1_r, count_S. destruct (p N); lia. Qed.
Lemma count_mono n N p : n <= N -> count n p <= count N p.
Proof. induction 1 as [|N H IH]; [lia|]. rewrite <- Nat.add_1_r, count_S. destruct (p N); lia. Qed.
Lemma count_lt x N p : x < N -> p x = true -> count x p < count N p.
Proof. intros H P. pose proof (count_mono (x + 1) N p ltac:(lia)). rewrite count_S, P in H0. lia. Qed.
Lemma count_neg N p : count N (fun x => negb (p x)) = N - count N p.
Proof.
  induction N as [|N IH]; [reflexivity|]. rewrite <- Nat.add_1_r, !count_S, IH. pose proof (count_bound N p). destruct (p N); cbn [negb]; lia.
Qed.
Lemma count_at p : forall N r, r < count N p -> exists x, x < N /\ p x = true /\ count x p = r.
Proof.
  induction N as [|N IH]; intros r H; [rewrite count_0 in H; lia|]. rewrite <- Nat.add_1_r, count_S in H. destruct (lt_dec r (count N p)) as [L|L].
  - destruct (IH r L) as (x & Hx & P). exists x. split; [lia|assumption].
  - exists N. destruct (p N) eqn:E; [|lia]. split; [lia|]. split; [reflexivity|lia].
Qed.
Lemma count_inj p x y : p x = true -> p y = true -> count x p = count y p -> x = y.
Proof.
  intros Px Py E. destruct (lt_eq_lt_dec x y) as [[L|L]|L]; [|assumption|].
  - pose proof (count_lt x y p L Px). lia.
  - pose proof (count_lt y x p L Py). lia.
Qed.
Lemma count_2 M f : count M f = 2 -> exists a b, a < M /\ b < M /\ a <> b /\ forall x, x < M -> (f x = true <-> x = a \/ x = b).
Proof.
  intro H. destruct (count_at f M 0 ltac:(lia)) as (a & La & Fa & Ca). destruct (count_at f M 1 ltac:(lia)) as (b & Lb & Fb & Cb). exists a, b.
  split; [assumption|]. split; [assumption|]. split; [intros ->; lia|]. intros x Lx. split; [|intros [-> | ->]; assumption]. intro Fx.
  pose proof (count_lt x M f Lx Fx). destruct (Nat.eq_dec (count x f) 0) as [E|E]; [left|right]; apply (count_inj f); try assumption; lia.
Qed.

(** ** the loops *)
Lemma count_null_ok N ps : N <= length ps -> count_null N ps = Some (count N (fun x => 2 * N - 1 <=? nth x ps 0)).
Proof.
  intro L. unfold count_null. destruct (iter_inv (fun j k => k = count j (fun x => 2 * N - 1 <=? nth x ps 0)) (fun n k => do p <- aget ps n; Some (if 2 * N - 1 <=? p then k + 1 else k)) N 0) as (s & E & ->).
  - reflexivity.
  - intros j s Lj ->. rewrite (aget_nth ps j 0) by lia. cbn [obind]. eexists. split; [reflexivity|]. rewrite count_S. destruct (_ <=? _); lia.
  - exact E.
Qed.
Lemma find_first_ok N ps : N <= length ps -> (exists x, x < N /\ nth x ps 0 = N) -> 2 <= N -> (forall x, x < N -> N <= nth x ps 0) ->
  exists f, find_first N ps = Some (f, N) /\ f < N /\ nth f ps 0 = N.
Proof.
  intros L (x0 & L0 & E0) N2 LB. unfold find_first.
  destruct (iter_inv (fun j s => (forall x, x < j -> nth x ps 0 <= 2 * N - 2 -> snd s <= nth x ps 0) /\
      (((forall x, x < j -> 2 * N - 2 < nth x ps 0) /\ snd s = 2 * N - 2) \/ (fst s < j /\ nth (fst s) ps 0 = snd s)))
    (fun n s => do p <- aget ps n; let '(first, first_parent) := s in Some (if (p <=? 2 * N - 2) && negb (p =? 1) then if p <=? first_parent then (n, p) else s else s)) N (0, 2 * N - 2)) as (s & E & I1 & I2).
  - split; [intros; lia|]. left. split; [intros; lia|reflexivity].
  - intros j [f q] Lj (A & B). cbn [fst snd] in *. rewrite (aget_nth ps j 0) by lia. cbn [obind]. eexists. split; [reflexivity|]. pose proof (LB j Lj).
    destruct (Nat.leb_spec (nth j ps 0) (2 * N - 2)) as [H1|H1]; cbn [andb].
    + destruct (Nat.eqb_spec (nth j ps 0) 1); [lia|]. cbn [negb]. destruct (Nat.leb_spec (nth j ps 0) q) as [H2|H2]; cbn [fst snd].
      * split; [|right; split; [lia|reflexivity]]. intros x Lx Hx. destruct (Nat.eq_dec x j) as [->|NE]; [lia|]. specialize (A x ltac:(lia) Hx). lia.
      * split; [intros x Lx Hx; destruct (Nat.eq_dec x j) as [->|NE]; [lia|apply A; lia]|]. destruct B as [(B & ->)|B]; [lia|]. right. split; [lia|tauto].
    + cbn [fst snd]. split; [intros x Lx Hx; destruct (Nat.eq_dec x j) as [->|NE]; [lia|apply A; lia]|]. destruct B as [(B & ->)|(B1 & B2)]; [left|right; split; [lia|assumption]].
      split; [|reflexivity]. intros x Lx. destruct (Nat.eq_dec x j) as [->|NE]; [assumption|apply B; lia].
  - rewrite E. destruct s as [f q]. cbn [fst snd] in *. specialize (I1 x0 L0 ltac:(lia)). destruct I2 as [(B & _)|(B1 & B2)]; [specialize (B x0 L0); lia|].
    pose proof (LB f B1). assert (q = N) by lia. exists f. split; [congruence|]. split; [assumption|congruence].
Qed.
Lemma shift_parents_ok N nn ps : length ps = 2 * N - 1 -> 
  exists ps', shift_parents N nn ps = Some ps' /\ length ps' = 2 * N - 1 /\
    forall x, nth x ps' 0 = if (x <? 2 * N - 2) && (nth x ps 0 <=? 2 * N - 2) && negb (nth x ps 0 =? 0) then nth x ps 0 + nn else nth x ps 0.
Proof.
  intro L. unfold shift_parents.
  destruct (iter_inv (fun j l => length l = 2 * N - 1 /\ forall x, nth x l 0 = if (x <? j) && (nth x ps 0 <=? 2 * N - 2) && negb (nth x ps 0 =? 0) then nth x ps 0 + nn else nth x ps 0)
    (fun n l => do p <- aget l n; if (p <=? 2 * N - 2) && negb (p =? 0) then aset l n (p + nn) else Some l) (2 * N - 2) ps) as (s & E & I1 & I2).
  - split; [assumption|]. intro x. reflexivity.
  - intros j l Lj (A & B). rewrite (aget_nth l j 0) by lia. cbn [obind]. pose proof (B j) as Bj. destruct (Nat.ltb_spec j j); [lia|]. cbn [andb] in Bj. rewrite Bj.
    destruct ((nth j ps 0 <=? 2 * N - 2) && negb (nth j ps 0 =? 0)) eqn:Q.
    + rewrite aset_lt by lia. eexists. split; [reflexivity|]. split; [now rewrite upd_length|]. intro x. rewrite nth_upd by lia. destruct (Nat.eqb_spec x j) as [->|NE].
      * destruct (Nat.ltb_spec j (j + 1)); [|lia]. cbn [andb]. rewrite Q. reflexivity.
      * rewrite B. destruct (Nat.ltb_spec x j), (Nat.ltb_spec x (j + 1)); try lia; reflexivity.
    + eexists. split; [reflexivity|]. split; [assumption|]. intro x. rewrite B. destruct (Nat.eq_dec x j) as [->|NE].
      * destruct (Nat.ltb_spec j j), (Nat.ltb_spec j (j + 1)); try lia. cbn [andb]. rewrite Q. reflexivity.
      * destruct (Nat.ltb_spec x j), (Nat.ltb_spec x (j + 1)); try lia; reflexivity.
  - exists s. auto.
Qed.
Lemma move_up_ok {A} (d : A) cnt last nn l : last < length l -> cnt + nn <= last + 1 -> 0 < nn ->
  exists l', move_up cnt last nn l = Some l' /\ length l' = length l /\ forall x, nth x l' d = if (last + 1 - cnt <=? x) && (x <=? last) then nth (x - nn) l d else nth x l d.
Proof.
  intros L C P. unfold move_up.
  destruct (iter_inv (fun k m => length m = length l /\ forall x, nth x m d = if (last + 1 - k <=? x) && (x <=? last) then nth (x - nn) l d else nth x l d)
    (fun k l => do v <- aget l (last - k - nn); aset l (last - k) v) cnt l) as (s & E & I1 & I2).
  - split; [reflexivity|]. intro x. destruct (Nat.leb_spec (last + 1 - 0) x), (Nat.leb_spec x last); try lia; reflexivity.
  - intros k m Lk (B & D). rewrite (aget_nth m _ d) by lia. cbn [obind]. rewrite aset_lt by lia. eexists. split; [reflexivity|]. split; [now rewrite upd_length|]. intro x.
    rewrite nth_upd by lia. rewrite !D. destruct (Nat.leb_spec (last + 1 - k) (last - k - nn)); [lia|]. cbn [andb]. destruct (Nat.eqb_spec x (last - k)) as [->|NE].
    + destruct (Nat.leb_spec (last + 1 - (k + 1)) (last - k)), (Nat.leb_spec (last - k) last); try lia. reflexivity.
    + destruct (Nat.leb_spec (last + 1 - k) x), (Nat.leb_spec (last + 1 - (k + 1)) x), (Nat.leb_spec x last); try lia; reflexivity.
  - exists s. auto.
Qed.
Lemma find_null_ok N ps : N <= length ps -> forall fuel n, n <= N -> N - n < fuel -> (forall x, x < n -> (2 * N - 2 <? nth x ps 0) = false) ->
  exists k, find_null fuel N n ps = Some k /\ k <= N /\ (forall x, x < k -> (2 * N - 2 <? nth x ps 0) = false) /\ (k < N -> (2 * N - 2 <? nth k ps 0) = true).
Proof.
  intros L. induction fuel as [|fuel IH]; intros n Ln F B; [lia|]. cbn [find_null]. destruct (Nat.ltb_spec n N) as [H|H].
  - rewrite (aget_nth ps n 0) by lia. cbn [obind]. destruct (2 * N - 2 <? nth n ps 0) eqn:E.
    + exists n. auto.
    + apply IH; [lia|lia|]. intros x Hx. destruct (Nat.eq_dec x n) as [->|NE]; [assumption|apply B; lia].
  - exists n. split; [reflexivity|]. split; [assumption|]. split; [assumption|lia].
Qed.
(** the null nodes are chained *)
Lemma chain_ok N null ps n0 : length ps = 2 * N - 1 -> 2 <= N -> n0 < N -> (forall x, x < N -> null x = (2 * N - 2 <? nth x ps 0)) ->
  (forall x, x < n0 -> null x = false) -> null n0 = true ->
  exists ps', chain N n0 (upd ps n0 N) = Some (N + count N null - 1, ps') /\ length ps' = 2 * N - 1 /\
    (forall x, x < N -> nth x ps' 0 = if null x then N + (count x null - 1) else nth x ps 0) /\
    (forall y, N <= y -> nth y ps' 0 = if y <? N + count N null - 1 then y + 1 else nth y ps 0).
Proof.
  intros L N1 L0 HN B0 T0. unfold chain. assert (C0 : count n0 null = 0).
  { clear -B0. induction n0 as [|n IH]; [reflexivity|]. rewrite <- Nat.add_1_r, count_S, (B0 n ltac:(lia)), IH; [reflexivity|]. intros x Hx. apply B0. lia. }
  destruct (iter_from_inv (fun n s => fst s = N + (count n null - 1) /\ length (snd s) = 2 * N - 1 /\
      (forall x, x < N -> nth x (snd s) 0 = if null x && ((x <? n) || (x =? n0)) then N + (count x null - 1) else nth x ps 0) /\
      (forall y, N <= y -> nth y (snd s) 0 = if y <? fst s then y + 1 else nth y ps 0))
    (fun n s => let '(last, ps) := s in do p <- aget ps n; if 2 * N - 2 <? p then do ps <- aset ps n last; do ps <- aset ps last (last + 1); Some (last + 1, ps) else Some s)
    N (N - n0) n0 (N, upd ps n0 N)) as (s & E & I1 & I2 & I3 & I4).
  - lia.
  - cbn [fst snd]. rewrite C0, upd_length. split; [lia|]. split; [assumption|]. split.
    + intros x Lx. rewrite nth_upd by lia. destruct (Nat.eqb_spec x n0) as [->|NE].
      * rewrite T0, orb_true_r. cbn [andb]. rewrite C0. lia.
      * rewrite orb_false_r. destruct (Nat.ltb_spec x n0); [rewrite (B0 x) by assumption|rewrite andb_false_r]; reflexivity.
    + intros y Ly. rewrite nth_upd by lia. destruct (Nat.eqb_spec y n0); [lia|]. destruct (Nat.ltb_spec y N); [lia|reflexivity].
  - intros n [last m] Ln Hn (A & B & C & D). cbn [fst snd] in *. subst last. rewrite (aget_nth m n 0) by lia. cbn [obind]. rewrite (C n Hn).
    pose proof (count_mono n N null ltac:(lia)) as M1. pose proof (count_bound N null) as M2.
    destruct (Nat.eq_dec n n0) as [->|NE].
    + rewrite T0, Nat.eqb_refl, orb_true_r. cbn [andb]. rewrite C0. cbn [Nat.sub]. rewrite Nat.add_0_r. destruct (Nat.ltb_spec (2 * N - 2) N) as [Q|Q].
      * lia.
      * eexists. split; [reflexivity|]. cbn [fst snd]. rewrite count_S, T0, C0. split; [lia|]. split; [assumption|]. split.
        -- intros x Lx. rewrite C by assumption. destruct (Nat.eqb_spec x n0) as [->|NX]; [rewrite !orb_true_r; reflexivity|]. rewrite !orb_false_r.
           destruct (Nat.ltb_spec x n0), (Nat.ltb_spec x (n0 + 1)); try lia; reflexivity.
        -- intros y Ly. rewrite D by assumption. rewrite C0. cbn [Nat.sub]. rewrite Nat.add_0_r. reflexivity.
    + assert (R1 : 1 <= count n null) by (pose proof (count_lt n0 n null ltac:(lia) T0); lia).
      destruct (Nat.ltb_spec n n); [lia|]. destruct (Nat.eqb_spec n n0); [contradiction|]. cbn [orb]. rewrite andb_false_r. rewrite <- (HN n Hn). destruct (null n) eqn:En.
      * pose proof (count_lt n N null Hn En). rewrite aset_lt by lia. cbn [obind]. rewrite aset_lt by (rewrite upd_length; lia). cbn [obind]. eexists. split; [reflexivity|]. cbn [fst snd].
        rewrite count_S, En, !upd_length. split; [lia|]. split; [assumption|]. split.
        -- intros x Lx. rewrite nth_upd by (rewrite upd_length; lia). destruct (Nat.eqb_spec x (N + (count n null - 1))); [lia|]. rewrite nth_upd by lia.
           destruct (Nat.eqb_spec x n) as [->|NX].
           ++ rewrite En. destruct (Nat.ltb_spec n (n + 1)); [|lia]. reflexivity.
           ++ rewrite C by assumption. destruct (Nat.ltb_spec x n), (Nat.ltb_spec x (n + 1)); try lia; reflexivity.
        -- intros y Ly. rewrite nth_upd by (rewrite upd_length; lia). destruct (Nat.eqb_spec y (N + (count n null - 1))) as [->|NY].
           ++ destruct (Nat.ltb_spec (N + (count n null - 1)) (N + (count n null - 1) + 1)); [reflexivity|lia].
           ++ rewrite nth_upd by lia. destruct (Nat.eqb_spec y n); [lia|]. rewrite D by assumption.
              destruct (Nat.ltb_spec y (N + (count n null - 1))), (Nat.ltb_spec y (N + (count n null - 1) + 1)); try lia; reflexivity.
      * eexists. split; [reflexivity|]. cbn [fst snd]. rewrite count_S, En, Nat.add_0_r. split; [reflexivity|]. split; [assumption|]. split; [|assumption].
        intros x Lx. rewrite C by assumption. destruct (Nat.eq_dec x n) as [->|NX]; [rewrite En; reflexivity|].
        destruct (Nat.ltb_spec x n), (Nat.ltb_spec x (n + 1)); try lia; reflexivity.
  - rewrite E. destruct s as [last m]. cbn [fst snd] in *. subst last. pose proof (count_lt n0 N null L0 T0).
    replace (N + (count N null - 1)) with (N + count N null - 1) in * by lia. exists m. split; [reflexivity|]. split; [assumption|]. split; [|assumption].
    intros x Lx. rewrite I3 by assumption. destruct (Nat.ltb_spec x N); [|lia]. cbn [orb]. rewrite andb_true_r. reflexivity.
Qed.

Section Tree.
Variables (N K : nat) (used : nat -> bool) (ps : list nat).
Hypothesis T : binary_tree N K used ps.
Hypothesis HK : 2 <= K.
Hypothesis HN : K < N.
Hypothesis HU : count N used = K.

Lemma first_leaves : exists a b, a <> b /\ a < N /\ b < N /\ used a = true /\ used b = true /\ nth a ps 0 = N /\ nth b ps 0 = N /\
  forall x, x < 2 * N - 1 -> nth x ps 0 = N -> x = a \/ x = b.
Proof.
  destruct T as (L & R & T1 & T2 & T3 & T4). destruct (count_2 _ _ (T3 N ltac:(lia))) as (a & b & La & Lb & Nab & Q).
  assert (G : forall x, x < 2 * N - 1 -> nth x ps 0 = N -> x < N /\ used x = true).
  { intros x Lx E. destruct (lt_dec x N) as [H|H].
    - split; [assumption|]. destruct (used x) eqn:U; [reflexivity|]. specialize (T4 x Lx (or_introl (conj H U))). lia.
    - destruct (lt_eq_lt_dec x (N + K - 2)) as [[H1|H1]|H1].
      + specialize (T2 x ltac:(lia) H1). lia.
      + subst x. lia.
      + specialize (T4 x Lx (or_intror H1)). lia. }
  assert (Ea : nth a ps 0 = N) by (apply Nat.eqb_eq, Q; auto). assert (Eb : nth b ps 0 = N) by (apply Nat.eqb_eq, Q; auto).
  exists a, b. destruct (G a La Ea), (G b Lb Eb). repeat (split; [assumption|]). intros x Lx E. apply Q; [assumption|]. now apply Nat.eqb_eq.
Qed.

Theorem cluster_joins : exists new first, cluster_parents N ps = Some new /\ joins N K used ps new first.
Proof.
  destruct first_leaves as (a & b & Nab & La & Lb & Ua & Ub & Pa & Pb & _). destruct T as (L & R & T1 & T2 & T3 & T4).
  assert (CN : count N (fun y => negb (used y)) = N - K) by (rewrite count_neg, HU; reflexivity).
  assert (LN : forall x, x < N -> used x = false -> nth x ps 0 = 2 * N) by (intros x Lx U; apply T4; [lia|left; auto]).
  unfold cluster_parents. rewrite count_null_ok by lia. cbn [obind].
  rewrite (count_ext N (fun x => 2 * N - 1 <=? nth x ps 0) (fun y => negb (used y))).
  2:{ intros x Lx. destruct (used x) eqn:U; cbn [negb]; [apply Nat.leb_gt; specialize (T1 x Lx U); lia|apply Nat.leb_le; rewrite (LN x Lx U); lia]. }
  rewrite CN. destruct (Nat.eqb_spec (N - K) 0); [lia|]. cbv zeta.
  destruct (find_first_ok N ps) as (f & Ef & Lf & Pf); [lia|exists a; auto|lia| |].
  { intros x Lx. destruct (used x) eqn:U; [apply T1; assumption|rewrite (LN x Lx U); lia]. }
  rewrite Ef. cbn [obind].
  destruct (shift_parents_ok N (N - K) ps L) as (ps1 & E1 & L1 & V1). rewrite E1. cbn [obind].
  destruct (move_up_ok 0 (2 * N - 1 - (N + (N - K))) (2 * N - 2) (N - K) ps1) as (ps2 & E2 & L2 & V2); [lia|lia|lia|]. rewrite E2. cbn [obind].
  (* the nodes after the move *)
  assert (A1 : forall x, x < N -> used x = true -> nth x ps2 0 = nth x ps 0 + (N - K)).
  { intros x Lx U. rewrite V2, (V1 x). specialize (T1 x Lx U). destruct (Nat.leb_spec (2 * N - 2 + 1 - (2 * N - 1 - (N + (N - K)))) x); [lia|]. cbn [andb].
    destruct (Nat.ltb_spec x (2 * N - 2)); [|lia]. destruct (Nat.leb_spec (nth x ps 0) (2 * N - 2)); [|lia]. destruct (Nat.eqb_spec (nth x ps 0) 0); [lia|reflexivity]. }
  assert (A2 : forall x, x < N -> used x = false -> nth x ps2 0 = 2 * N).
  { intros x Lx U. rewrite V2, (V1 x), (LN x Lx U). destruct (Nat.leb_spec (2 * N - 2 + 1 - (2 * N - 1 - (N + (N - K)))) x); [lia|]. cbn [andb].
    destruct (Nat.leb_spec (2 * N) (2 * N - 2)); [lia|]. rewrite andb_false_r. reflexivity. }
  assert (A3 : forall x, N <= x -> x < N + K - 2 -> nth (x + (N - K)) ps2 0 = nth x ps 0 + (N - K)).
  { intros x Lx Hx. rewrite V2, V1. specialize (T2 x Lx Hx). destruct (Nat.leb_spec (2 * N - 2 + 1 - (2 * N - 1 - (N + (N - K)))) (x + (N - K))); [|lia].
    destruct (Nat.leb_spec (x + (N - K)) (2 * N - 2)); [|lia]. cbn [andb]. replace (x + (N - K) - (N - K)) with x by lia.
    destruct (Nat.ltb_spec x (2 * N - 2)); [|lia]. destruct (Nat.leb_spec (nth x ps 0) (2 * N - 2)); [|lia]. destruct (Nat.eqb_spec (nth x ps 0) 0); [lia|reflexivity]. }
  assert (A4 : nth (2 * N - 2) ps2 0 = 0).
  { rewrite V2, V1. destruct (Nat.leb_spec (2 * N - 2 + 1 - (2 * N - 1 - (N + (N - K)))) (2 * N - 2)); [|lia]. destruct (Nat.leb_spec (2 * N - 2) (2 * N - 2)); [|lia]. cbn [andb].
    replace (2 * N - 2 - (N - K)) with (N + K - 2) by lia. rewrite R. cbn [Nat.eqb negb]. rewrite andb_false_r. reflexivity. }
  assert (HNull : forall x, x < N -> negb (used x) = (2 * N - 2 <? nth x ps2 0)).
  { intros x Lx. destruct (used x) eqn:U; cbn [negb]; symmetry; [apply Nat.ltb_ge; rewrite A1 by assumption; specialize (T1 x Lx U); lia|apply Nat.ltb_lt; rewrite A2 by assumption; lia]. }
  destruct (find_null_ok N ps2 ltac:(lia) (N + 1) 0 ltac:(lia) ltac:(lia) ltac:(intros; lia)) as (n0 & E3 & L3 & B3 & C3). rewrite E3. cbn [obind].
  destruct (count_at (fun y => negb (used y)) N 0 ltac:(lia)) as (z & Lz & Uz & _). cbv beta in Uz.
  destruct (Nat.ltb_spec n0 N) as [Hn0|Hn0]; [|rewrite HNull, B3 in Uz by lia; discriminate].
  rewrite aset_lt by lia. cbn [obind].
  destruct (chain_ok N (fun y => negb (used y)) ps2 n0) as (ps4 & E4 & L4 & V4 & W4); [lia|lia|assumption|exact HNull| | |].
  { intros x Hx. rewrite HNull by lia. apply B3. assumption. }
  { rewrite HNull by assumption. apply C3. assumption. }
  rewrite E4, CN in *. cbn [obind]. rewrite aset_lt by lia. cbn [obind]. rewrite aset_lt by (rewrite upd_length; lia).
  eexists. exists f. split; [reflexivity|].
  assert (Uf : used f = true). { destruct (used f) eqn:U; [reflexivity|]. rewrite (LN f Lf U) in Pf. lia. }
  assert (Z : forall x, nth x (upd (upd ps4 (N + (N - K) - 1) (N + (N - K))) f (N + (N - K) - 1)) 0
                = if x =? f then N + (N - K) - 1 else if x =? N + (N - K) - 1 then N + (N - K) else nth x ps4 0).
  { intro x. rewrite nth_upd by (rewrite upd_length; lia). rewrite nth_upd by lia. reflexivity. }
  constructor.
  - rewrite !upd_length. assumption.
  - split; [assumption|]. split; [assumption|]. split; [assumption|]. rewrite Z, Nat.eqb_refl. reflexivity.
  - intros x Lx U NF. rewrite Z. destruct (Nat.eqb_spec x f); [contradiction|]. destruct (Nat.eqb_spec x (N + (N - K) - 1)); [lia|]. rewrite V4, U by assumption. cbn [negb]. apply A1; assumption.
  - intros x Lx U. rewrite Z. destruct (Nat.eqb_spec x f); [congruence|]. destruct (Nat.eqb_spec x (N + (N - K) - 1)); [lia|]. rewrite V4, U by assumption. reflexivity.
  - intros j Hj. rewrite Z. destruct (Nat.eqb_spec (N + j) f); [lia|]. destruct (Nat.eqb_spec (N + j) (N + (N - K) - 1)); [lia|]. rewrite W4 by lia.
    destruct (Nat.ltb_spec (N + j) (N + (N - K) - 1)); [reflexivity|lia].
  - intros x Lx Hx. rewrite Z. destruct (Nat.eqb_spec (x + (N - K)) f); [lia|]. destruct (Nat.eqb_spec (x + (N - K)) (N + (N - K) - 1)); [lia|]. rewrite W4 by lia.
    destruct (Nat.ltb_spec (x + (N - K)) (N + (N - K) - 1)); [lia|]. apply A3; assumption.
  - rewrite Z. destruct (Nat.eqb_spec (2 * N - 2) f); [lia|]. destruct (Nat.eqb_spec (2 * N - 2) (N + (N - K) - 1)); [lia|]. rewrite W4 by lia.
    destruct (Nat.ltb_spec (2 * N - 2) (N + (N - K) - 1)); [lia|]. assumption.
Qed.

(** the new tree is a full binary tree of all the leaves *)
Theorem joins_tree new first : joins N K used ps new first -> binary_tree N N (fun _ => true) new.
Proof.
  intro J. destruct J as [JL (Lf & Uf & Pf & Qf) J1 J2 J3 J4 J5].
  destruct first_leaves as (a & b & Nab & La & Lb & Ua & Ub & Pa & Pb & Only). destruct T as (L & R & T1 & T2 & T3 & T4).
  set (null := fun y => negb (used y)) in *.
  assert (CN : count N null = N - K) by (unfold null; rewrite count_neg, HU; reflexivity).
  assert (RK : forall x, x < N -> used x = false -> count x null < N - K).
  { intros x Lx U. rewrite <- CN. apply count_lt; [assumption|]. unfold null. rewrite U. reflexivity. }
  set (g := if first =? a then b else a).
  assert (G : g < N /\ used g = true /\ nth g ps 0 = N /\ g <> first).
  { unfold g. destruct (Only first ltac:(lia) Pf) as [E|E]; destruct (Nat.eqb_spec first a); try congruence; repeat (split; [assumption|]); congruence. }
  assert (G2 : forall x, x < 2 * N - 1 -> nth x ps 0 = N -> x = first \/ x = g).
  { intros x Lx E. unfold g. destruct (Only x Lx E) as [->| ->], (Only first ltac:(lia) Pf) as [->| ->]; destruct (Nat.eqb_spec a a), (Nat.eqb_spec b a); try congruence; auto. }
  destruct G as (Lg & Ug & Pg & Ngf).
  unfold binary_tree. cbv zeta. replace (N + N - 2) with (2 * N - 2) by lia.
  (* internal nodes *)
  assert (IN : forall y, N <= y -> y < 2 * N - 2 -> y < nth y new 0 <= 2 * N - 2 /\ (nth y new 0 = y + 1 /\ y < N + (N - K) \/ exists x, N <= x /\ x < N + K - 2 /\ y = x + (N - K) /\ nth y new 0 = nth x ps 0 + (N - K))).
  { intros y Ly Hy. destruct (lt_dec y (N + (N - K))) as [H|H].
    - pose proof (J3 (y - N) ltac:(lia)) as E. replace (N + (y - N)) with y in E by lia. split; [lia|]. left. split; lia.
    - pose proof (J4 (y - (N - K)) ltac:(lia) ltac:(lia)) as E. replace (y - (N - K) + (N - K)) with y in E by lia. specialize (T2 (y - (N - K)) ltac:(lia) ltac:(lia)).
      split; [lia|]. right. exists (y - (N - K)). split; [lia|]. split; [lia|]. split; [lia|assumption]. }
  split; [assumption|]. split; [assumption|]. split; [|split; [|split]].
  - intros x Lx _. destruct (used x) eqn:U; [|rewrite (J2 x Lx U); specialize (RK x Lx U); lia]. destruct (Nat.eq_dec x first) as [->|NF]; [lia|].
    rewrite J1 by assumption. specialize (T1 x Lx U). lia.
  - intros x Lx Hx. apply IN; assumption.
  - intros p (P1 & P2).
    assert (CL : forall x, x < 2 * N - 1 ->
      (x = first /\ nth x new 0 = N + (N - K) - 1) \/ (x < N /\ used x = true /\ x <> first /\ nth x new 0 = nth x ps 0 + (N - K)) \/
      (x < N /\ used x = false /\ nth x new 0 = N + (count x null - 1) /\ count x null < N - K) \/ (N <= x /\ x < N + (N - K) /\ nth x new 0 = x + 1) \/
      (x = 2 * N - 2 /\ nth x new 0 = 0) \/ (exists y, N <= y /\ y < N + K - 2 /\ x = y + (N - K) /\ nth x new 0 = nth y ps 0 + (N - K) /\ y < nth y ps 0)).
    { intros x Lx. destruct (lt_dec x N) as [H|H].
      - destruct (Nat.eq_dec x first) as [->|NF]; [left; auto|]. destruct (used x) eqn:U; [right; left; auto|]. right; right; left. auto.
      - destruct (Nat.eq_dec x (2 * N - 2)) as [->|NR]; [right; right; right; right; left; auto|]. destruct (IN x ltac:(lia) ltac:(lia)) as (_ & [(E1 & E2)|(y & Y1 & Y2 & Y3 & Y4)]).
        + right; right; right; left. split; [lia|auto].
        + do 5 right. exists y. specialize (T2 y Y1 Y2). repeat (split; [assumption|]). lia. }
    destruct (lt_eq_lt_dec p (N + (N - K))) as [[HP|HP]|HP].
    + (* a node of the chain *)
      destruct (Nat.eq_dec p N) as [->|NP].
      * (* the first one: the first null leaf, and the second one or the first merged leaf *)
        destruct (count_at null N 0 ltac:(lia)) as (z & Lz & Uz & Cz). assert (Uz' : used z = false) by (unfold null in Uz; destruct (used z); [discriminate|reflexivity]).
        destruct (Nat.eq_dec (N - K) 1) as [E1|E1].
        -- apply (count_two _ _ z first); [lia|lia|congruence|]. intros x Lx. rewrite Nat.eqb_eq. split.
           ++ intro E. destruct (CL x Lx) as [(-> & _)|[(X1 & X2 & X3 & X4)|[(X1 & X2 & X3 & X4)|[(X1 & X2 & X3)|[(X1 & X2)|(y & Y1 & Y2 & Y3 & Y4 & Y5)]]]]]; [now right| | |lia|lia|lia].
              ** specialize (T1 x X1 X2). lia.
              ** left. apply (count_inj null); [unfold null; now rewrite X2|assumption|lia].
           ++ intros [-> | ->]; [rewrite (J2 z Lz Uz'), Cz; lia|lia].
        -- destruct (count_at null N 1 ltac:(lia)) as (w & Lw & Uw & Cw). assert (Uw' : used w = false) by (unfold null in Uw; destruct (used w); [discriminate|reflexivity]).
           apply (count_two _ _ z w); [lia|lia|intros ->; lia|]. intros x Lx. rewrite Nat.eqb_eq. split.
           ++ intro E. destruct (CL x Lx) as [(-> & X)|[(X1 & X2 & X3 & X4)|[(X1 & X2 & X3 & X4)|[(X1 & X2 & X3)|[(X1 & X2)|(y & Y1 & Y2 & Y3 & Y4 & Y5)]]]]]; [lia| | |lia|lia|lia].
              ** specialize (T1 x X1 X2). lia.
              ** assert (Nx : null x = true) by (unfold null; now rewrite X2). destruct (Nat.eq_dec (count x null) 0); [left|right]; apply (count_inj null); try assumption; lia.
           ++ intros [-> | ->]; [rewrite (J2 z Lz Uz'), Cz; lia|rewrite (J2 w Lw Uw'), Cw; lia].
      * (* another one: the previous one, and a null leaf or the first merged leaf *)
        destruct (Nat.eq_dec p (N + (N - K) - 1)) as [E1|E1].
        -- apply (count_two _ _ (p - 1) first); [lia|lia|lia|]. intros x Lx. rewrite Nat.eqb_eq. split.
           ++ intro E. destruct (CL x Lx) as [(-> & _)|[(X1 & X2 & X3 & X4)|[(X1 & X2 & X3 & X4)|[(X1 & X2 & X3)|[(X1 & X2)|(y & Y1 & Y2 & Y3 & Y4 & Y5)]]]]]; [now right| |lia|left; lia|lia|lia].
              specialize (T1 x X1 X2). lia.
           ++ intros [-> | ->]; [|lia]. pose proof (J3 (p - 1 - N) ltac:(lia)) as E. replace (N + (p - 1 - N)) with (p - 1) in E by lia. lia.
        -- destruct (count_at null N (p - N + 1) ltac:(lia)) as (w & Lw & Uw & Cw). assert (Uw' : used w = false) by (unfold null in Uw; destruct (used w); [discriminate|reflexivity]).
           apply (count_two _ _ (p - 1) w); [lia|lia|lia|]. intros x Lx. rewrite Nat.eqb_eq. split.
           ++ intro E. destruct (CL x Lx) as [(-> & X)|[(X1 & X2 & X3 & X4)|[(X1 & X2 & X3 & X4)|[(X1 & X2 & X3)|[(X1 & X2)|(y & Y1 & Y2 & Y3 & Y4 & Y5)]]]]]; [lia| | |left; lia|lia|lia].
              ** specialize (T1 x X1 X2). lia.
              ** right. apply (count_inj null); [unfold null; now rewrite X2|assumption|lia].
           ++ intros [-> | ->]; [|rewrite (J2 w Lw Uw'), Cw; lia]. pose proof (J3 (p - 1 - N) ltac:(lia)) as E. replace (N + (p - 1 - N)) with (p - 1) in E by lia. lia.
    + (* the node of the first merge *)
      apply (count_two _ _ (p - 1) g); [lia|lia|lia|]. intros x Lx. rewrite Nat.eqb_eq. split.
      * intro E. destruct (CL x Lx) as [(-> & X)|[(X1 & X2 & X3 & X4)|[(X1 & X2 & X3 & X4)|[(X1 & X2 & X3)|[(X1 & X2)|(y & Y1 & Y2 & Y3 & Y4 & Y5)]]]]]; [lia| |lia|left; lia|lia|lia].
        right. destruct (G2 x Lx ltac:(lia)); [contradiction|assumption].
      * intros [-> | ->]; [|rewrite J1 by assumption; lia]. pose proof (J3 (p - 1 - N) ltac:(lia)) as E. replace (N + (p - 1 - N)) with (p - 1) in E by lia. lia.
    + (* the node of a later merge *)
      destruct (count_2 _ _ (T3 (p - (N - K)) ltac:(lia))) as (u & v & Lu & Lv & Nuv & Q).
      assert (U1 : nth u ps 0 = p - (N - K)) by (apply Nat.eqb_eq, Q; auto). assert (V1 : nth v ps 0 = p - (N - K)) by (apply Nat.eqb_eq, Q; auto).
      assert (Place : forall x, x < 2 * N - 1 -> nth x ps 0 = p - (N - K) -> (x < N /\ used x = true /\ x <> first) \/ (N <= x /\ x < N + K - 2)).
      { intros x Lx E. destruct (lt_dec x N) as [H|H].
        - left. split; [assumption|]. destruct (used x) eqn:U; [|rewrite (T4 x Lx) in E by auto; lia]. split; [reflexivity|]. intros ->. lia.
        - right. split; [lia|]. destruct (lt_eq_lt_dec x (N + K - 2)) as [[H1|H1]|H1]; [assumption|subst x; lia|rewrite (T4 x Lx) in E by auto; lia]. }
      assert (NEW : forall x, x < 2 * N - 1 -> nth x ps 0 = p - (N - K) -> nth (if x <? N then x else x + (N - K)) new 0 = p /\ (if x <? N then x else x + (N - K)) < 2 * N - 1).
      { intros x Lx E. destruct (Place x Lx E) as [(H1 & H2 & H3)|(H1 & H2)]; destruct (Nat.ltb_spec x N); try lia; split; try lia; [rewrite J1|rewrite J4]; try assumption; lia. }
      destruct (NEW u Lu U1) as (Nu & Mu), (NEW v Lv V1) as (Nv & Mv).
      apply (count_two _ _ (if u <? N then u else u + (N - K)) (if v <? N then v else v + (N - K))); [assumption|assumption| |].
      { destruct (Nat.ltb_spec u N), (Nat.ltb_spec v N); try lia. }
      intros x Lx. rewrite Nat.eqb_eq. split; [|intros [-> | ->]; assumption]. intro E.
      destruct (CL x Lx) as [(-> & X)|[(X1 & X2 & X3 & X4)|[(X1 & X2 & X3 & X4)|[(X1 & X2 & X3)|[(X1 & X2)|(y & Y1 & Y2 & Y3 & Y4 & Y5)]]]]]; [lia| |lia|lia|lia|].
      * assert (W : x = u \/ x = v) by (apply Q; [assumption|apply Nat.eqb_eq; lia]). destruct W as [-> | ->]; [left|right]; (destruct (Nat.ltb_spec u N) || idtac); (destruct (Nat.ltb_spec v N) || idtac); lia.
      * assert (W : y = u \/ y = v) by (apply Q; [lia|apply Nat.eqb_eq; lia]). destruct W as [-> | ->]; [left; destruct (Nat.ltb_spec u N); lia|right; destruct (Nat.ltb_spec v N); lia].
  - intros x Lx [(_ & H)|H]; [discriminate|lia].
Qed.
End Tree.

Theorem no_null N ps : N <= length ps -> (forall x, x < N -> nth x ps 0 < 2 * N - 1) -> cluster_parents N ps = Some ps.
Proof.
  intros L H. unfold cluster_parents. rewrite count_null_ok by assumption. cbn [obind].
  rewrite (count_ext N (fun x => 2 * N - 1 <=? nth x ps 0) (fun _ => false)); [|intros x Lx; apply Nat.leb_gt, H; assumption].
  assert (E : forall M, count M (fun _ : nat => false) = 0) by (induction M as [|M IH]; [reflexivity|rewrite <- Nat.add_1_r, count_S, IH; reflexivity]). rewrite E. reflexivity.
Qed.

(** ** costs *)
Theorem costs_moved {A} (d : A) N K cost : length cost = N -> 2 <= K -> K < N ->
  exists new, cluster_costs N (N - K) cost = Some new /\ length new = N /\
    nth 0 new d = nth 0 cost d /\ (forall x, 1 <= x -> x <= N - K -> nth x new d = nth 1 cost d) /\ (forall x, N - K < x -> x < N -> nth x new d = nth (x - (N - K)) cost d).
Proof.
  intros L HK HN. unfold cluster_costs. destruct (Nat.eqb_spec (N - K) 0); [lia|]. cbv zeta.
  destruct (move_up_ok d (2 * N - 1 - (N + (N - K))) (2 * N - 2 - (N - 1)) (N - K) cost) as (c1 & E1 & L1 & V1); [lia|lia|lia|]. rewrite E1. cbn [obind].
  replace (2 * N - 2 - (N - 1) + 1 - (2 * N - 1 - (N + (N - K)))) with (N - K + 1) in V1 by lia. replace (2 * N - 2 - (N - 1)) with (N - 1) in V1 by lia.
  assert (X1 : nth (N - K + 1) c1 d = nth 1 cost d).
  { rewrite V1. destruct (Nat.leb_spec (N - K + 1) (N - K + 1)), (Nat.leb_spec (N - K + 1) (N - 1)); try lia. cbn [andb]. f_equal. lia. }
  destruct (iter_inv (fun k c => length c = N /\ forall x, nth x c d = if (N - K + 1 - k <=? x) && (x <=? N - K) then nth 1 cost d else nth x c1 d)
    (fun k cost => do v <- aget cost (N + (N - K) - (N - 1)); aset cost (N + (N - K) - 1 - k - (N - 1)) v) (N - K) c1) as (s & E & I1 & I2).
  - split; [lia|]. intro x. destruct (Nat.leb_spec (N - K + 1 - 0) x), (Nat.leb_spec x (N - K)); try lia; reflexivity.
  - intros k c Lk (B & D). rewrite (aget_nth c _ d) by lia. cbn [obind]. rewrite aset_lt by lia. eexists. split; [reflexivity|]. split; [now rewrite upd_length|]. intro x.
    rewrite nth_upd by lia. rewrite !D. replace (N + (N - K) - (N - 1)) with (N - K + 1) by lia. replace (N + (N - K) - 1 - k - (N - 1)) with (N - K - k) by lia.
    destruct (Nat.leb_spec (N - K + 1) (N - K)); [lia|]. rewrite andb_false_r, X1. destruct (Nat.eqb_spec x (N - K - k)) as [->|NE].
    + destruct (Nat.leb_spec (N - K + 1 - (k + 1)) (N - K - k)), (Nat.leb_spec (N - K - k) (N - K)); try lia. reflexivity.
    + destruct (Nat.leb_spec (N - K + 1 - k) x), (Nat.leb_spec (N - K + 1 - (k + 1)) x), (Nat.leb_spec x (N - K)); try lia; reflexivity.
  - exists s. split; [exact E|]. split; [assumption|]. split; [|split].
    + rewrite I2, V1. destruct (Nat.leb_spec (N - K + 1 - (N - K)) 0); [lia|]. destruct (Nat.leb_spec (N - K + 1) 0); [lia|]. reflexivity.
    + intros x X2 X3. rewrite I2. destruct (Nat.leb_spec (N - K + 1 - (N - K)) x), (Nat.leb_spec x (N - K)); try lia. reflexivity.
    + intros x X2 X3. rewrite I2, V1. destruct (Nat.leb_spec x (N - K)); [lia|]. rewrite andb_false_r. destruct (Nat.leb_spec (N - K + 1) x), (Nat.leb_spec x (N - 1)); try lia. reflexivity.
Qed.

(** ** no tree: the parents are written past their end *)
Lemma nth_repeat_lt {A} (v d : A) : forall n i, i < n -> nth i (repeat v n) d = v.
Proof. induction n as [|n IH]; intros [|i] H; try lia; cbn; [reflexivity|apply IH; lia]. Qed.
Theorem no_tree N : 1 <= N -> cluster_parents N (repeat (2 * N) (2 * N - 1)) = None.
Proof.
  intro H1. destruct (Nat.eq_dec N 1) as [->|NE]; [reflexivity|]. set (ps := repeat (2 * N) (2 * N - 1)).
  assert (L : length ps = 2 * N - 1) by apply repeat_length. assert (V : forall x, x < 2 * N - 1 -> nth x ps 0 = 2 * N) by (intros x Lx; apply nth_repeat_lt; assumption).
  assert (CA : forall M, count M (fun _ : nat => true) = M) by (induction M as [|M IH]; [reflexivity|rewrite <- Nat.add_1_r, count_S, IH; reflexivity]).
  unfold cluster_parents. rewrite count_null_ok by lia. cbn [obind].
  rewrite (count_ext N (fun x => 2 * N - 1 <=? nth x ps 0) (fun _ => true)) by (intros x Lx; rewrite V by lia; apply Nat.leb_le; lia). rewrite CA.
  destruct (Nat.eqb_spec N 0); [lia|]. cbv zeta. destruct (find_first N ps) as [[f q]|]; [cbn [obind]|reflexivity].
  destruct (shift_parents_ok N N ps L) as (ps1 & E1 & L1 & V1). rewrite E1. cbn [obind].
  assert (W : forall x, x < 2 * N - 1 -> nth x ps1 0 = 2 * N).
  { intros x Lx. rewrite V1, V by assumption. destruct (Nat.leb_spec (2 * N) (2 * N - 2)); [lia|]. rewrite andb_false_r. reflexivity. }
  replace (2 * N - 1 - (N + N)) with 0 by lia. unfold move_up. cbn [iter iter_from obind].
  change (iter 0 (fun k l => do v <- aget l (2 * N - 2 - k - N); aset l (2 * N - 2 - k) v) ps1) with (Some ps1). cbn [obind].
  destruct (find_null_ok N ps1 ltac:(lia) (N + 1) 0 ltac:(lia) ltac:(lia) ltac:(intros; lia)) as (n0 & E3 & L3 & B3 & C3). rewrite E3. cbn [obind].
  assert (n0 = 0). { destruct n0 as [|n0]; [reflexivity|]. specialize (B3 0 ltac:(lia)). rewrite W in B3 by lia. apply Nat.ltb_ge in B3. lia. } subst n0.
  destruct (Nat.ltb_spec 0 N); [|lia]. rewrite aset_lt by lia. cbn [obind].
  destruct (chain_ok N (fun _ => true) ps1 0) as (ps4 & E4 & L4 & _); [assumption|lia|lia| |intros; lia|reflexivity|].
  { intros x Lx. rewrite W by lia. symmetry. apply Nat.ltb_lt. lia. }
  rewrite E4, CA. cbn [obind]. unfold aset at 1. destruct (Nat.ltb_spec (N + N - 1) (length ps4)); [lia|]. reflexivity.
Qed.
