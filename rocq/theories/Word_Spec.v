(** Integers modulo n as a ring with Leibniz equality, the arithmetic of the
    unsigned C types (n = 2^32, 2^64). *)
From Coq Require Import ZArith Lia Bool Ring_theory Eqdep_dec.
Local Open Scope Z_scope.

Section Word.
Variable n : Z.
Hypothesis Hn : 0 < n.

Definition word : Type := { z : Z | (z mod n =? z) = true }.

Lemma mod_norm z : ((z mod n) mod n =? z mod n) = true.
Proof. apply Z.eqb_eq. apply Z.mod_mod. lia. Qed.
Definition of_Z (z : Z) : word := exist _ (z mod n) (mod_norm z).
Definition to_Z (w : word) : Z := proj1_sig w.

Definition wadd (a b : word) : word := of_Z (to_Z a + to_Z b).
Definition wmul (a b : word) : word := of_Z (to_Z a * to_Z b).
Definition wsub (a b : word) : word := of_Z (to_Z a - to_Z b).
Definition wopp (a : word) : word := of_Z (- to_Z a).

Lemma word_eq (a b : word) : to_Z a = to_Z b -> a = b.
Proof.
  destruct a as [x p], b as [y q]. cbn. intros ->. f_equal. apply UIP_dec. apply bool_dec.
Qed.
Lemma to_Z_mod (a : word) : to_Z a mod n = to_Z a.
Proof. destruct a as [x p]. cbn. now apply Z.eqb_eq. Qed.
Lemma to_of z : to_Z (of_Z z) = z mod n.
Proof. reflexivity. Qed.

Lemma word_ring : ring_theory (of_Z 0) (of_Z 1) wadd wmul wsub wopp eq.
Proof.
  split; intros; apply word_eq; unfold wadd, wmul, wsub, wopp; rewrite ?to_of;
    repeat (rewrite ?Zplus_mod_idemp_l, ?Zplus_mod_idemp_r, ?Zmult_mod_idemp_l, ?Zmult_mod_idemp_r, ?Zminus_mod_idemp_l, ?Zminus_mod_idemp_r).
  - rewrite Z.add_0_l. apply to_Z_mod.
  - f_equal. ring.
  - f_equal. ring.
  - rewrite Z.mul_1_l. apply to_Z_mod.
  - f_equal. ring.
  - f_equal. ring.
  - f_equal. ring.
  - f_equal.
  - f_equal. ring.
Qed.
End Word.
