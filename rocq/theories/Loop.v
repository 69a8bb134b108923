(** Counted loops shared by the later models.  [iter_from n i body s] is
    "for (; n > 0; --n, ++i) s = body(i, s)", [for_step] is
    "for (; y < stop; y += step) s = body(y, s)". *)
From Coq Require Import List Arith Lia ZArith Bool.
From Verif Require Import Base.
Import ListNotations.

Fixpoint iter_from {S} (n i : nat) (body : nat -> S -> option S) (s : S) : option S :=
  match n with
  | O => Some s
  | Datatypes.S n' => do s <- body i s; iter_from n' (i + 1) body s
  end.
Definition iter {S} (n : nat) (body : nat -> S -> option S) (s : S) : option S := iter_from n 0 body s.

Fixpoint for_step {S} (fuel y stop step : nat) (body : nat -> S -> option S) (s : S) : option S :=
  match fuel with
  | O => None
  | Datatypes.S fuel' =>
    if y <? stop then do s <- body y s; for_step fuel' (y + step) stop step body s else Some s
  end.

Lemma iter_from_inv {S} (I : nat -> S -> Prop) (body : nat -> S -> option S) n0 : forall n i s,
  i + n = n0 -> I i s ->
  (forall j s, i <= j -> j < n0 -> I j s -> exists s', body j s = Some s' /\ I (j + 1) s') ->
  exists s', iter_from n i body s = Some s' /\ I n0 s'.
Proof.
  induction n as [|n IH]; intros i s E H B; cbn [iter_from].
  - exists s. split; [reflexivity|]. now replace n0 with i by lia.
  - destruct (B i s) as (s1 & E1 & H1); [lia|lia|auto|]. rewrite E1. cbn [obind].
    apply IH; [lia|auto|]. intros j s' L1 L2 X. apply B; auto. lia.
Qed.

Lemma iter_inv {S} (I : nat -> S -> Prop) (body : nat -> S -> option S) n s : I 0 s ->
  (forall j s, j < n -> I j s -> exists s', body j s = Some s' /\ I (j + 1) s') ->
  exists s', iter n body s = Some s' /\ I n s'.
Proof. intros H B. apply iter_from_inv; auto. Qed.

Lemma for_step_inv {S} (I : nat -> S -> Prop) (body : nat -> S -> option S) stop step n :
  (forall j, j * step < stop <-> j < n) ->
  forall fuel k s, k <= n -> n - k < fuel -> I k s ->
  (forall j s, k <= j -> j < n -> I j s -> exists s', body (j * step) s = Some s' /\ I (j + 1) s') ->
  exists s', for_step fuel (k * step) stop step body s = Some s' /\ I n s'.
Proof.
  intro N. induction fuel as [|fuel IH]; intros k s L F H B; [lia|].
  cbn [for_step]. destruct (Nat.ltb_spec (k * step) stop) as [X|X].
  - apply N in X. destruct (B k s) as (s1 & E1 & H1); [lia|lia|auto|]. rewrite E1. cbn [obind].
    replace (k * step + step) with ((k + 1) * step) by lia.
    apply IH; [lia|lia|auto|]. intros j s' L1 L2 Y. apply B; auto. lia.
  - exists s. split; [reflexivity|]. replace n with k; auto.
    destruct (Nat.eq_dec k n); auto. assert (Y : k * step < stop) by (apply N; lia). lia.
Qed.

(** number of rounds of "for (y = 0; y < stop; y += step)" *)
Lemma for_step_count stop step : 0 < step -> 0 < stop ->
  forall j, j * step < stop <-> j < (stop - 1) / step + 1.
Proof.
  intros P Q j. pose proof (Nat.div_mod (stop - 1) step ltac:(lia)) as E.
  pose proof (Nat.mod_upper_bound (stop - 1) step ltac:(lia)) as U. split; intro L.
  - assert (step * j <= stop - 1) as X by lia. apply Nat.div_le_mono with (c := step) in X; [|lia].
    rewrite Nat.mul_comm, Nat.div_mul in X by lia. lia.
  - assert (j <= (stop - 1) / step) as X by lia. apply Nat.mul_le_mono_l with (p := step) in X. lia.
Qed.

(** "while (cond(s)) s = body(s)", [None] when the fuel does not suffice. *)
Fixpoint while {S} (fuel : nat) (cond : S -> bool) (body : S -> option S) (s : S) : option S :=
  match fuel with
  | O => None
  | Datatypes.S fuel' => if cond s then do s <- body s; while fuel' cond body s else Some s
  end.

Lemma while_inv {S} (I : nat -> S -> Prop) (cond : S -> bool) (body : S -> option S) n :
  (forall j s, I j s -> j <= n) ->
  (forall j s, j < n -> I j s -> cond s = true /\ exists s', body s = Some s' /\ I (j + 1) s') ->
  (forall s, I n s -> cond s = false) ->
  forall fuel k s, n - k < fuel -> I k s ->
  exists s', while fuel cond body s = Some s' /\ I n s'.
Proof.
  intros B St En. induction fuel as [|fuel IH]; intros k s F H; [lia|].
  cbn [while]. pose proof (B _ _ H). destruct (Nat.eq_dec k n) as [->|X].
  - rewrite (En _ H). eauto.
  - destruct (St k s) as (C & s1 & E1 & H1); [lia|auto|]. rewrite C, E1. cbn [obind].
    apply IH with (k := k + 1); auto. lia.
Qed.

(** "for (y = a; y < b; ++y)" and "for (y = a; y >= b; --y)" over signed
    indices. *)
Definition zup {S} (a b : Z) (body : Z -> S -> option S) (s : S) : option S :=
  iter (Z.to_nat (b - a)) (fun j => body (a + Z.of_nat j)%Z) s.
Definition zdown {S} (a b : Z) (body : Z -> S -> option S) (s : S) : option S :=
  iter (Z.to_nat (a - b + 1)) (fun j => body (a - Z.of_nat j)%Z) s.

Lemma zup_inv {S} (I : Z -> S -> Prop) body a b s : (a <= b)%Z -> I a s ->
  (forall y s, (a <= y < b)%Z -> I y s -> exists s', body y s = Some s' /\ I (y + 1)%Z s') ->
  exists s' : S, zup a b body s = Some s' /\ I b s'.
Proof.
  intros L H B. unfold zup.
  destruct (iter_inv (fun j s => I (a + Z.of_nat j)%Z s) (fun j => body (a + Z.of_nat j)%Z) (Z.to_nat (b - a)) s)
    as (s' & E & X).
  - now rewrite Z.add_0_r.
  - intros j s1 Lj Hj. destruct (B (a + Z.of_nat j)%Z s1) as (s2 & E2 & H2); [lia|auto|].
    exists s2. split; auto. replace (a + Z.of_nat (j + 1))%Z with (a + Z.of_nat j + 1)%Z by lia. auto.
  - exists s'. split; auto. replace (a + Z.of_nat (Z.to_nat (b - a)))%Z with b in X by lia. auto.
Qed.

Lemma zdown_inv {S} (I : Z -> S -> Prop) body a b s : (b - 1 <= a)%Z -> I a s ->
  (forall y s, (b <= y <= a)%Z -> I y s -> exists s', body y s = Some s' /\ I (y - 1)%Z s') ->
  exists s' : S, zdown a b body s = Some s' /\ I (b - 1)%Z s'.
Proof.
  intros L H B. unfold zdown.
  destruct (iter_inv (fun j s => I (a - Z.of_nat j)%Z s) (fun j => body (a - Z.of_nat j)%Z) (Z.to_nat (a - b + 1)) s)
    as (s' & E & X).
  - now rewrite Z.sub_0_r.
  - intros j s1 Lj Hj. destruct (B (a - Z.of_nat j)%Z s1) as (s2 & E2 & H2); [lia|auto|].
    exists s2. split; auto. replace (a - Z.of_nat (j + 1))%Z with (a - Z.of_nat j - 1)%Z by lia. auto.
  - exists s'. split; auto. replace (a - Z.of_nat (Z.to_nat (a - b + 1)))%Z with (b - 1)%Z in X by lia. auto.
Qed.
