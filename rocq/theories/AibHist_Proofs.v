(** Lemmas on the check of the links and the walks of the AIB histogram. *)
From Coq Require Import List Arith Bool ZArith Lia.
Import ListNotations.
From Verif Require Import Base AibHist_Model AibHist_Spec.
Local Open Scope Z_scope.

Lemma zget_some {A} (l : list A) z v : zget l z = Some v <-> 0 <= z /\ nth_error l (Z.to_nat z) = Some v.
Proof. unfold zget, aget. destruct (Z.ltb_spec z 0); split; intros H1; try discriminate; try (split; [lia|assumption]); [destruct H1; lia|tauto]. Qed.
Lemma check_ok P : 1 <= P -> forall l i m, 0 <= m -> 0 <= i ->
  (forall n p, nth_error l n = Some p -> p = 0 \/ p = 1 \/ (i + Z.of_nat n < p <= P)) -> exists m', check P l i m = Some m' /\ 0 <= m' <= m.
Proof.
  intros HP. induction l as [|p l IH]; intros i m M I H; cbn [check]; [exists m; split; [reflexivity|lia]|].
  pose proof (H 0%nat p eq_refl) as Hp. destruct (Z.ltb_spec P p); [lia|]. replace (negb (p =? 0) && negb (p =? 1) && (p <? i)) with false.
  2:{ destruct (Z.eqb_spec p 0); [reflexivity|]. destruct (Z.eqb_spec p 1); [reflexivity|]. cbn. symmetry. apply Z.ltb_ge. lia. }
  destruct (IH (i + 1) (if negb (p =? 0) && negb (p =? 1) then Z.min p m else m)) as (m' & E & B).
  - destruct (negb (p =? 0) && negb (p =? 1)); lia.
  - lia.
  - intros n q Q. specialize (H (S n) q Q). lia.
  - exists m'. split; [exact E|]. destruct (negb (p =? 0) && negb (p =? 1)); lia.
Qed.
Lemma check_min P : forall l i m m', check P l i m = Some m' -> 0 <= i -> 0 <= m -> (forall p, In p l -> 0 <= p) -> 0 <= m' <= m.
Proof.
  induction l as [|p l IH]; intros i m m' E I M H; cbn [check] in E; [injection E as <-; lia|]. destruct (P <? p); [discriminate|]. destruct (negb (p =? 0) && negb (p =? 1) && (p <? i)); [discriminate|].
  specialize (H p (or_introl eq_refl)) as Hp. apply IH in E; [|lia| |intros q Q; apply H; now right]; destruct (negb (p =? 0) && negb (p =? 1)); lia.
Qed.
Lemma proper_check parents : proper parents -> check (Z.of_nat (length parents)) parents 0 0 = Some 0.
Proof.
  intros H. destruct parents as [|p0 l] eqn:E; [reflexivity|]. rewrite <- E in *. assert (HP : 1 <= Z.of_nat (length parents)) by (rewrite E; cbn; lia). clear E.
  destruct (check_ok _ HP parents 0 0) as (m & C & B); [lia|lia| |rewrite C; f_equal; lia].
  intros n p N. assert (L : (n < length parents)%nat) by (apply nth_error_Some; congruence). destruct (H (Z.of_nat n + 1) p) as [A|[A|[A|A]]]; [split; [lia|]; now replace (Z.to_nat (Z.of_nat n + 1 - 1)) with n by lia|tauto|tauto|lia|lia].
Qed.

(** the counts of a node: [v] modulo 2^32 *)
Lemma u32_step v : u32 (u32 v + 1) = u32 (v + 1).
Proof. unfold u32. now rewrite Zplus_mod_idemp_l. Qed.
Lemma above_le parents : proper parents -> forall x k, above parents x k -> x <= k.
Proof. intros H x k A. induction A as [|k p A IH Q N0 N1]; [lia|]. destruct (H k p Q); lia. Qed.
Lemma above_step parents x p k : parent parents x p -> p <> 0 -> p <> 1 -> above parents p k -> above parents x k.
Proof. intros Q N0 N1 A. induction A; [apply (above_up _ _ x); auto; constructor|]. eapply above_up; eassumption. Qed.
Lemma above_inv parents x p k : parent parents x p -> above parents x k -> k = x \/ (p <> 0 /\ p <> 1 /\ above parents p k).
Proof.
  intros Q A. induction A as [|k q A IH R N0 N1]; [now left|]. right. destruct IH as [->|(M0 & M1 & A')].
  - destruct Q as [_ Q], R as [_ R]. rewrite Q in R. injection R as <-. repeat split; auto. constructor.
  - repeat split; auto. eapply above_up; eassumption.
Qed.
Lemma above_root parents x p : parent parents x p -> p = x \/ p = 0 \/ p = 1 -> forall k, above parents x k -> k = x.
Proof. intros Q H k A. induction A as [|k q A IH R N0 N1]; [reflexivity|]. subst k. destruct Q as [_ Q], R as [_ R]. rewrite Q in R. injection R as <-. lia. Qed.
(** one walk adds one to the nodes above *)
Lemma walk_ok parents : proper parents -> forall fuel x tree, 1 <= x <= Z.of_nat (length parents) -> Z.of_nat (length parents) - x < Z.of_nat fuel -> length tree = length parents ->
  exists tree', walk parents fuel x tree = Some (Done tree') /\ length tree' = length parents /\
    forall k t, 1 <= k -> nth_error tree (Z.to_nat (k - 1)) = Some t -> exists t', nth_error tree' (Z.to_nat (k - 1)) = Some t' /\ (above parents x k -> t' = u32 (t + 1)) /\ (~ above parents x k -> t' = t).
Proof.
  intros HP. induction fuel as [|fuel IH]; intros x tree X F L; [lia|]. cbn [walk].
  destruct (nth_error parents (Z.to_nat (x - 1))) as [p|] eqn:Q; [|apply nth_error_None in Q; lia]. assert (QP : parent parents x p) by (split; [lia|exact Q]).
  destruct (nth_error tree (Z.to_nat (x - 1))) as [t0|] eqn:T; [|apply nth_error_None in T; lia].
  rewrite (proj2 (zget_some parents (x - 1) p)) by (split; [lia|exact Q]). cbn [obind]. rewrite (proj2 (zget_some tree (x - 1) t0)) by (split; [lia|exact T]). cbn [obind].
  unfold zset. destruct (Z.ltb_spec (x - 1) 0); [lia|]. unfold aset. assert (LT : (Z.to_nat (x - 1) < length tree)%nat) by lia. apply Nat.ltb_lt in LT. rewrite LT. apply Nat.ltb_lt in LT. cbn [obind].
  set (tree1 := upd tree (Z.to_nat (x - 1)) (u32 (t0 + 1))). assert (L1 : length tree1 = length parents) by (unfold tree1; rewrite upd_length; exact L).
  assert (U1 : nth_error tree1 (Z.to_nat (x - 1)) = Some (u32 (t0 + 1))) by (apply nth_error_upd_eq; exact LT).
  assert (U2 : forall k, 1 <= k -> k <> x -> nth_error tree1 (Z.to_nat (k - 1)) = nth_error tree (Z.to_nat (k - 1))) by (intros k K N; apply nth_error_upd_neq; lia).
  destruct ((p =? x) || (p =? 0) || (p =? 1)) eqn:E.
  - exists tree1. split; [reflexivity|]. split; [exact L1|]. intros k t K Tk. assert (S : above parents x k -> k = x) by (rewrite !orb_true_iff, !Z.eqb_eq in E; apply (above_root _ _ _ QP); tauto).
    destruct (Z.eq_dec k x) as [->|N].
    + rewrite T in Tk. injection Tk as <-. exists (u32 (t0 + 1)). split; [exact U1|]. split; [reflexivity|]. intros NA. exfalso. apply NA. constructor.
    + exists t. split; [rewrite U2; assumption|]. split; [intros A; exfalso; auto|reflexivity].
  - rewrite !orb_false_iff, !Z.eqb_neq in E. destruct E as [[E1 E2] E3]. destruct (HP x p QP) as [A|[A|[A|A]]]; [lia|lia|lia|].
    destruct (IH p tree1) as (tree' & -> & L' & H'); [lia|lia|exact L1|]. exists tree'. split; [reflexivity|]. split; [exact L'|]. intros k t K Tk. destruct (Z.eq_dec k x) as [->|N].
    + rewrite T in Tk. injection Tk as <-. destruct (H' x (u32 (t0 + 1)) K U1) as (t' & T' & _ & D). exists t'. split; [exact T'|]. split; [|intros NA; exfalso; apply NA; constructor]. intros _. apply D. intros B. apply (above_le _ HP) in B. lia.
    + rewrite <- U2 in Tk by assumption. destruct (H' k t K Tk) as (t' & T' & C & D). exists t'. split; [exact T'|]. split.
      * intros B. apply C. destruct (above_inv _ _ _ _ QP B) as [B'|(_ & _ & B')]; [contradiction|exact B'].
      * intros B. apply D. intros B'. apply B. eapply above_step; eassumption.
Qed.
Lemma above_dec parents : proper parents -> forall x k, 1 <= x -> above parents x k \/ ~ above parents x k.
Proof.
  intros HP. assert (W : forall n x k, 1 <= x -> Z.of_nat (length parents) - x < Z.of_nat n -> above parents x k \/ ~ above parents x k).
  { induction n as [|n IH]; intros x k X F.
    - destruct (Z.eq_dec k x) as [->|N]; [left; constructor|]. right. intros A. destruct A as [|k p A Q N0 N1]; [lia|]. pose proof (above_le _ HP _ _ A). destruct Q as [_ Q]. assert (Z.to_nat (k - 1) < length parents)%nat by (apply nth_error_Some; congruence). lia.
    - destruct (Z.eq_dec k x) as [->|N]; [left; constructor|]. destruct (nth_error parents (Z.to_nat (x - 1))) as [p|] eqn:E.
      + assert (Q : parent parents x p) by (split; [lia|exact E]). destruct (Z.eq_dec p 0) as [->|P0]; [right; intros A; destruct (above_inv _ _ _ _ Q A); lia|]. destruct (Z.eq_dec p 1) as [->|P1]; [right; intros A; destruct (above_inv _ _ _ _ Q A); lia|].
        destruct (Z.eq_dec p x) as [->|PX].
        * right. intros A. assert (S : forall k, above parents x k -> k = x). { intros k' A'. induction A' as [|k' q A' IHA R M0 M1]; [reflexivity|]. subst k'. destruct Q as [_ Q], R as [_ R]. rewrite Q in R. now injection R. } apply S in A. contradiction.
        * destruct (HP x p Q) as [H|[H|[H|H]]]; [lia|lia|lia|]. destruct (IH p k) as [A|A]; [lia|lia|left; eapply above_step; eassumption|right]. intros B. destruct (above_inv _ _ _ _ Q B) as [B'|(_ & _ & B')]; contradiction.
      + right. intros A. destruct A as [|k p A Q N0 N1]; [lia|]. pose proof (above_le _ HP _ _ A). destruct Q as [_ Q]. assert (Z.to_nat (k - 1) < length parents)%nat by (apply nth_error_Some; congruence). apply nth_error_None in E. lia. }
  intros x k X. apply (W (Z.to_nat (Z.of_nat (length parents) - x + 1)) x k X). lia.
Qed.
Lemma above_bound parents x k : proper parents -> 1 <= x <= Z.of_nat (length parents) -> above parents x k -> 1 <= k <= Z.of_nat (length parents).
Proof. intros HP X A. induction A as [|k p A IH Q N0 N1]; [exact X|]. destruct (HP k p Q); lia. Qed.

(** all the data *)
Lemma push_ok parents fuel last : proper parents -> Z.of_nat (length parents) <= Z.of_nat fuel -> Z.of_nat (length parents) <= last -> forall data i tree,
  (forall x, In x data -> 1 <= x <= Z.of_nat (length parents)) -> length tree = length parents ->
  exists tree', push parents fuel false last data i tree = Some (Done tree') /\ length tree' = length parents /\
    forall k t, 1 <= k -> nth_error tree (Z.to_nat (k - 1)) = Some t -> exists t' n, nth_error tree' (Z.to_nat (k - 1)) = Some t' /\ counts (fun x => above parents x k) data n /\ (n = 0 /\ t' = t \/ 0 < n /\ t' = u32 (t + n)).
Proof.
  intros HP HF HL. induction data as [|x data IH]; intros i tree HD LT; cbn [push].
  - exists tree. repeat split; auto. intros k t K T. exists t, 0. split; [exact T|]. split; [constructor|]. left. auto.
  - assert (X : 1 <= x <= Z.of_nat (length parents)) by (apply HD; now left). destruct (Z.ltb_spec x 1); [lia|]. destruct (Z.ltb_spec last x); [lia|]. cbn [orb].
    destruct (walk_ok parents HP fuel x tree X) as (tree1 & -> & L1 & H1); [lia|exact LT|]. cbn [obind].
    destruct (IH (i + 1) tree1) as (tree' & E & L' & H'); [intros; apply HD; now right|exact L1|]. exists tree'. split; [exact E|]. split; [exact L'|]. intros k t K T.
    destruct (H1 k t K T) as (t1 & T1 & A1 & B1). destruct (H' k t1 K T1) as (t' & n & T' & C & V). destruct (above_dec parents HP x k) as [A|A]; [lia| |].
    + exists t', (n + 1). split; [exact T'|]. split; [constructor; assumption|]. right. rewrite (A1 A) in V. destruct V as [[-> ->]|[N ->]]; [split; [lia|f_equal; lia]|]. split; [lia|]. unfold u32. rewrite Zplus_mod_idemp_l. f_equal. lia.
    + exists t', n. split; [exact T'|]. split; [constructor; assumption|]. rewrite (B1 A) in V. exact V.
Qed.
Lemma counts_unique {A} (Q : A -> Prop) l n : counts Q l n -> forall m, counts Q l m -> n = m.
Proof. intros H. induction H; intros m M; inversion M; subst; try contradiction; try (f_equal; auto); auto. Qed.
Lemma counts_pos {A} (Q : A -> Prop) l n : counts Q l n -> 0 <= n.
Proof. intros H. induction H; lia. Qed.
