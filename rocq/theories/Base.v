(** Checked arrays shared by all models.

    A C array is a list.  Reads and writes outside the list give [None], which
    stands for undefined behaviour in the C program.  Nothing here models a
    particular piece of /repo code. *)
From Coq Require Import List ZArith Lia Permutation Bool Arith.
Import ListNotations.

(** Monadic notation for the "undefined behaviour" outcome. *)
Definition obind {A B} (m : option A) (f : A -> option B) : option B :=
  match m with Some x => f x | None => None end.

Notation "'do' x <- m ; k" := (obind m (fun x => k))
  (at level 200, x pattern, m at level 100, k at level 200, right associativity).

(** Checked read [a[i]]. *)
Definition aget {A} (l : list A) (i : nat) : option A := nth_error l i.

(** Total update, identity when out of bounds; only used under a bound check. *)
Fixpoint upd {A} (l : list A) (i : nat) (v : A) : list A :=
  match l, i with
  | [], _ => []
  | _ :: t, O => v :: t
  | h :: t, S j => h :: upd t j v
  end.

(** Checked write [a[i] = v]. *)
Definition aset {A} (l : list A) (i : nat) (v : A) : option (list A) :=
  if i <? length l then Some (upd l i v) else None.

(** Checked exchange of [a[i]] and [a[j]]. *)
Definition aswap {A} (l : list A) (i j : nat) : option (list A) :=
  do x <- aget l i; do y <- aget l j; do l1 <- aset l i y; aset l1 j x.

(** Checked accesses at a signed index. *)
Definition zget {A} (l : list A) (i : Z) : option A :=
  if (i <? 0)%Z then None else aget l (Z.to_nat i).
Definition zset {A} (l : list A) (i : Z) (v : A) : option (list A) :=
  if (i <? 0)%Z then None else aset l (Z.to_nat i) v.

Section Arrays.
  Context {A : Type}.
  Implicit Types l : list A.

  Lemma upd_length l i v : length (upd l i v) = length l.
  Proof. revert i; induction l; destruct i; cbn; auto. Qed.

  Lemma nth_error_upd l i j v :
    nth_error (upd l i v) j =
    if (j =? i) && (i <? length l) then Some v else nth_error l j.
  Proof.
    revert i j; induction l as [|h t IH]; intros i j.
    - cbn. rewrite andb_false_r. destruct j; reflexivity.
    - destruct i, j; cbn [upd nth_error Nat.eqb length andb]; auto.
      rewrite IH. change (S i <? S (length t)) with (i <? length t). reflexivity.
  Qed.

  Lemma nth_error_upd_eq l i v : i < length l -> nth_error (upd l i v) i = Some v.
  Proof.
    intro H. rewrite nth_error_upd, Nat.eqb_refl.
    apply Nat.ltb_lt in H; rewrite H; reflexivity.
  Qed.

  Lemma nth_error_upd_neq l i j v : i <> j -> nth_error (upd l i v) j = nth_error l j.
  Proof.
    intro H. rewrite nth_error_upd.
    destruct (Nat.eqb_spec j i); [congruence|reflexivity].
  Qed.

  Lemma upd_id l i x : nth_error l i = Some x -> upd l i x = l.
  Proof.
    revert i; induction l; destruct i; cbn; intros; try congruence.
    f_equal; auto.
  Qed.

  Lemma upd_upd l i v w : upd (upd l i v) i w = upd l i w.
  Proof. revert i; induction l; destruct i; cbn; auto; intros; f_equal; auto. Qed.

  Lemma upd_comm l i j v w : i <> j -> upd (upd l i v) j w = upd (upd l j w) i v.
  Proof.
    revert i j; induction l; destruct i, j; cbn; intros; auto; try congruence.
    f_equal; apply IHl; lia.
  Qed.

  Lemma upd_app_l l r i v : i < length l -> upd (l ++ r) i v = upd l i v ++ r.
  Proof.
    revert i; induction l; destruct i; cbn; intros; try lia; auto.
    f_equal; apply IHl; lia.
  Qed.

  Lemma upd_app_r l r i v : length l <= i -> upd (l ++ r) i v = l ++ upd r (i - length l) v.
  Proof.
    revert i; induction l; cbn; intros.
    - f_equal; lia.
    - destruct i; [lia|]. cbn. f_equal. apply IHl; lia.
  Qed.

  Lemma upd_split l i v : i < length l -> upd l i v = firstn i l ++ v :: skipn (S i) l.
  Proof.
    revert i; induction l; destruct i; cbn; intros; try lia; auto.
    f_equal; apply IHl; lia.
  Qed.

  Lemma split_at l i x : nth_error l i = Some x -> l = firstn i l ++ x :: skipn (S i) l.
  Proof.
    revert i; induction l as [|h t IH]; destruct i; cbn [nth_error firstn skipn app]; intros; try congruence.
    f_equal. apply IH. assumption.
  Qed.

  Lemma aget_Some_lt l i x : aget l i = Some x -> i < length l.
  Proof. intro H. apply nth_error_Some. unfold aget in H. congruence. Qed.

  Lemma aget_lt l i : i < length l -> exists x, aget l i = Some x.
  Proof.
    intro H. apply nth_error_Some in H. unfold aget.
    destruct (nth_error l i); [eauto|congruence].
  Qed.

  Lemma aget_None l i : aget l i = None <-> length l <= i.
  Proof. apply nth_error_None. Qed.

  Lemma aset_Some l i v l' : aset l i v = Some l' <-> i < length l /\ l' = upd l i v.
  Proof.
    unfold aset. destruct (Nat.ltb_spec i (length l)); split; intros; try lia.
    - inversion H0; auto.
    - destruct H0; subst; auto.
    - discriminate.
  Qed.

  Lemma aset_lt l i v : i < length l -> aset l i v = Some (upd l i v).
  Proof. intro; apply aset_Some; auto. Qed.

  Lemma aset_length l i v l' : aset l i v = Some l' -> length l' = length l.
  Proof. intro H; apply aset_Some in H as [_ ->]; apply upd_length. Qed.

  Lemma upd_swap_perm l i j x y :
    nth_error l i = Some x -> nth_error l j = Some y ->
    Permutation (upd (upd l i y) j x) l.
  Proof.
    revert i j; induction l as [|h t IH]; intros i j Hi Hj; [destruct i; discriminate|].
    destruct i, j; cbn in *.
    - inversion Hi; subst. reflexivity.
    - inversion Hi; subst x.
      assert (P : Permutation (h :: t) (y :: upd t j h)).
      { clear -Hj. revert j Hj; induction t as [|k t IH]; intros j Hj; [destruct j; discriminate|].
        destruct j; cbn in *.
        - inversion Hj; subst. apply perm_swap.
        - rewrite perm_swap. rewrite (perm_swap k y). apply perm_skip.
          auto. }
      symmetry; exact P.
    - inversion Hj; subst y.
      assert (P : Permutation (h :: t) (x :: upd t i h)).
      { clear -Hi. revert i Hi; induction t as [|k t IH]; intros j Hj; [destruct j; discriminate|].
        destruct j; cbn in *.
        - inversion Hj; subst. apply perm_swap.
        - rewrite perm_swap. rewrite (perm_swap k x). apply perm_skip.
          auto. }
      symmetry; exact P.
    - apply perm_skip; auto.
  Qed.

  Lemma aswap_spec l i j l' : aswap l i j = Some l' ->
    exists x y, nth_error l i = Some x /\ nth_error l j = Some y
      /\ l' = upd (upd l i y) j x.
  Proof.
    unfold aswap, obind, aget.
    destruct (nth_error l i) as [x|] eqn:Hx; [|discriminate].
    destruct (nth_error l j) as [y|] eqn:Hy; [|discriminate].
    destruct (aset l i y) as [l1|] eqn:H1; [|discriminate].
    intro H2. apply aset_Some in H1 as [_ ->]. apply aset_Some in H2 as [_ ->].
    eauto.
  Qed.

  Lemma aswap_Some l i j : i < length l -> j < length l ->
    exists l', aswap l i j = Some l'.
  Proof.
    intros Hi Hj. unfold aswap, obind.
    destruct (aget_lt _ _ Hi) as [x ->]. destruct (aget_lt _ _ Hj) as [y ->].
    rewrite aset_lt by auto. rewrite aset_lt by (rewrite upd_length; auto). eauto.
  Qed.

  Lemma aswap_perm l i j l' : aswap l i j = Some l' -> Permutation l' l.
  Proof.
    intro H; apply aswap_spec in H as (x & y & Hx & Hy & ->).
    apply upd_swap_perm; auto.
  Qed.

  Lemma aswap_length l i j l' : aswap l i j = Some l' -> length l' = length l.
  Proof. intro H; apply aswap_perm in H; apply Permutation_length; auto. Qed.

  Lemma aswap_bounds l i j l' : aswap l i j = Some l' -> i < length l /\ j < length l.
  Proof.
    intro H; apply aswap_spec in H as (x & y & Hx & Hy & _).
    split; apply nth_error_Some; congruence.
  Qed.

  (** contents after an exchange *)
  Lemma aswap_nth l i j l' k : aswap l i j = Some l' ->
    nth_error l' k = if k =? j then nth_error l i
                     else if k =? i then nth_error l j else nth_error l k.
  Proof.
    intro H. pose proof (aswap_bounds _ _ _ _ H) as [Hi Hj].
    apply aswap_spec in H as (x & y & Hx & Hy & ->).
    rewrite !nth_error_upd, upd_length.
    apply Nat.ltb_lt in Hi, Hj; rewrite Hi, Hj, !andb_true_r.
    destruct (Nat.eqb_spec k j); subst; [congruence|].
    destruct (Nat.eqb_spec k i); subst; congruence.
  Qed.

  Lemma zget_Some l i x : zget l i = Some x -> (0 <= i < Z.of_nat (length l))%Z.
  Proof.
    unfold zget. destruct (Z.ltb_spec i 0); [discriminate|].
    intro H0; apply aget_Some_lt in H0; lia.
  Qed.

  Lemma zget_in l i : (0 <= i < Z.of_nat (length l))%Z -> exists x, zget l i = Some x.
  Proof.
    intro H. unfold zget. destruct (Z.ltb_spec i 0); [lia|]. apply aget_lt; lia.
  Qed.

  Lemma zget_None_iff l i : zget l i = None <-> (i < 0 \/ Z.of_nat (length l) <= i)%Z.
  Proof.
    unfold zget. destruct (Z.ltb_spec i 0); [split; auto|].
    rewrite aget_None. lia.
  Qed.

  (** two lists with equal entries at all positions are equal *)
  Lemma nth_error_ext' l1 l2 :
    (forall i, nth_error l1 i = nth_error l2 i) -> l1 = l2.
  Proof.
    revert l2; induction l1 as [|a l1 IH]; intros [|b l2] H; auto.
    - specialize (H 0); discriminate.
    - specialize (H 0); discriminate.
    - pose proof (H 0) as H0; cbn in H0; inversion H0; subst.
      f_equal. apply IH. intro i; exact (H (S i)).
  Qed.
End Arrays.

Ltac oinv H :=
  match type of H with
  | obind ?m _ = Some _ =>
      let E := fresh "E" in destruct m eqn:E; cbn [obind] in H; [|discriminate H]
  end.
