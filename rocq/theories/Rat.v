(** Rational numbers with canonical representatives (Qc): order reasoning by
    [qc_lra] and the conversion of integers. *)
From Coq Require Import ZArith QArith Qcanon Qround Lqa Lia.
Local Open Scope Qc_scope.

Lemma this_plus (a b : Qc) : (this (a + b) == this a + this b)%Q.
Proof. apply Qred_correct. Qed.
Lemma this_mult (a b : Qc) : (this (a * b) == this a * this b)%Q.
Proof. apply Qred_correct. Qed.
Lemma this_opp (a : Qc) : (this (- a) == - this a)%Q.
Proof. apply Qred_correct. Qed.
Lemma this_minus (a b : Qc) : (this (a - b) == this a - this b)%Q.
Proof. unfold Qcminus. rewrite this_plus, this_opp. reflexivity. Qed.
Lemma this_inv (a : Qc) : (this (/ a) == / this a)%Q.
Proof. apply Qred_correct. Qed.
Lemma this_div (a b : Qc) : (this (a / b) == this a / this b)%Q.
Proof. unfold Qcdiv. rewrite this_mult, this_inv. reflexivity. Qed.
Lemma this_Q (q : Q) : (this (Q2Qc q) == q)%Q.
Proof. apply Qred_correct. Qed.
Lemma qc_eq (a b : Qc) : a = b <-> (this a == this b)%Q.
Proof. split; [intros ->; reflexivity|apply Qc_is_canon]. Qed.
Lemma qc_neq (a b : Qc) : a <> b <-> ~ (this a == this b)%Q.
Proof. rewrite qc_eq. reflexivity. Qed.

Ltac qc_prep :=
  repeat match goal with
  | H : @eq Qc _ _ |- _ => apply qc_eq in H
  | H : (_ < _)%Qc |- _ => unfold Qclt in H
  | H : (_ <= _)%Qc |- _ => unfold Qcle in H
  | |- @eq Qc _ _ => apply qc_eq
  | |- (_ < _)%Qc => unfold Qclt
  | |- (_ <= _)%Qc => unfold Qcle
  end;
  repeat first [rewrite !this_plus in * | rewrite !this_minus in * | rewrite !this_mult in *
    | rewrite !this_opp in * | rewrite !this_Q in *].
Ltac qc_lra := qc_prep; lra.

Definition zq (z : Z) : Qc := Q2Qc (inject_Z z).

Lemma zq_plus a b : zq (a + b) = zq a + zq b.
Proof. apply Qc_is_canon. rewrite this_plus. unfold zq. rewrite !this_Q. rewrite inject_Z_plus; reflexivity. Qed.
Lemma zq_opp a : zq (- a) = - zq a.
Proof. apply Qc_is_canon. rewrite this_opp. unfold zq. rewrite !this_Q. rewrite inject_Z_opp; reflexivity. Qed.
Lemma zq_minus a b : zq (a - b) = zq a - zq b.
Proof. unfold Z.sub. rewrite zq_plus, zq_opp. reflexivity. Qed.
Lemma zq_mult a b : zq (a * b) = zq a * zq b.
Proof. apply Qc_is_canon. rewrite this_mult. unfold zq. rewrite !this_Q. rewrite inject_Z_mult; reflexivity. Qed.
Lemma zq_0 : zq 0 = 0.
Proof. reflexivity. Qed.
Lemma zq_1 : zq 1 = 1.
Proof. reflexivity. Qed.
Lemma zq_le a b : zq a <= zq b <-> (a <= b)%Z.
Proof. unfold Qcle, zq. rewrite !this_Q. rewrite <- Zle_Qle; reflexivity. Qed.
Lemma zq_lt a b : zq a < zq b <-> (a < b)%Z.
Proof. unfold Qclt, zq. rewrite !this_Q. rewrite <- Zlt_Qlt; reflexivity. Qed.
Lemma zq_le_inv a b : zq a <= zq b -> (a <= b)%Z.
Proof. exact (proj1 (zq_le a b)). Qed.
Lemma zq_lt_inv a b : zq a < zq b -> (a < b)%Z.
Proof. exact (proj1 (zq_lt a b)). Qed.
Lemma zq_inj a b : zq a = zq b <-> a = b.
Proof. split; [|now intros ->]. intro E. assert (X : zq a <= zq b) by (rewrite E; apply Qcle_refl).
  assert (Y : zq b <= zq a) by (rewrite E; apply Qcle_refl). apply zq_le_inv in X, Y. lia. Qed.

Definition nq (n : nat) : Qc := zq (Z.of_nat n).

(** the largest integer not above a rational *)
Definition qfloor (q : Qc) : Z := Qfloor (this q).
Lemma qfloor_le q : zq (qfloor q) <= q.
Proof. unfold Qcle, zq, qfloor. rewrite this_Q. apply Qfloor_le. Qed.
Lemma qfloor_lt q : q < zq (qfloor q) + 1.
Proof. unfold Qclt. rewrite this_plus. unfold zq, qfloor. rewrite !this_Q.
  pose proof (Qlt_floor (this q)) as H. rewrite inject_Z_plus in H. exact H. Qed.
Lemma qfloor_unique q z : zq z <= q -> q < zq z + 1 -> qfloor q = z.
Proof.
  intros A B. pose proof (qfloor_le q). pose proof (qfloor_lt q).
  assert (zq z < zq (qfloor q) + zq 1) by (rewrite zq_1; qc_lra).
  assert (zq (qfloor q) < zq z + zq 1) by (rewrite zq_1; qc_lra).
  rewrite <- zq_plus in *. apply zq_lt_inv in H1, H2. lia.
Qed.
