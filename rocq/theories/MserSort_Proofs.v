(** The counting sort of MSER is a stable sort. *)
From Coq Require Import List Arith Permutation Sorted Lia Bool.
From Verif Require Import Base Mser_Model Mser_Spec.
Import ListNotations.

Notation occ := (count_occ Nat.eq_dec).
Definition lt_count (im : list nat) (v : nat) : nat := length (filter (fun x => x <? v) im).

Lemma lt_count_S im v : lt_count im (S v) = lt_count im v + occ im v.
Proof.
  unfold lt_count. induction im as [|x im IH]; [reflexivity|]. cbn [filter count_occ].
  destruct (Nat.ltb_spec x (S v)), (Nat.ltb_spec x v), (Nat.eq_dec x v); cbn [length]; lia.
Qed.

Lemma lt_count_0 im : lt_count im 0 = 0.
Proof. unfold lt_count. induction im as [|x im IH]; [reflexivity|]. cbn [filter Nat.ltb Nat.leb]. exact IH. Qed.

Lemma lt_count_le im v w : v <= w -> lt_count im v <= lt_count im w.
Proof. induction 1; auto. rewrite lt_count_S. lia. Qed.

Lemma lt_count_length im v : lt_count im v <= length im.
Proof.
  unfold lt_count. induction im as [|x im IH]; cbn [filter length]; auto. destruct (x <? v); cbn [length]; lia.
Qed.

Lemma aget_nth {A} (l : list A) i d : i < length l -> aget l i = Some (nth i l d).
Proof. intro H. unfold aget. now apply nth_error_nth'. Qed.

Lemma aset_some {A} (l : list A) i v : i < length l -> aset l i v = Some (upd l i v).
Proof. intro H. unfold aset. destruct (Nat.ltb_spec i (length l)); [reflexivity|lia]. Qed.

Lemma nth_upd {A} (l : list A) i j v d : i < length l ->
  nth j (upd l i v) d = if j =? i then v else nth j l d.
Proof.
  intro H. destruct (Nat.eqb_spec j i) as [->|N].
  - apply nth_error_nth. now apply nth_error_upd_eq.
  - destruct (nth_error l j) as [x|] eqn:E.
    + rewrite (nth_error_nth _ _ _ E). apply nth_error_nth. rewrite nth_error_upd_neq; auto.
    + apply nth_error_None in E. rewrite !nth_overflow; auto. now rewrite upd_length.
Qed.

Lemma count_pixels_ok : forall im b, Forall (fun v => v < length b) im ->
  exists b', count_pixels im b = Some b' /\ length b' = length b /\
    forall v, v < length b -> nth v b' 0 = nth v b 0 + occ im v.
Proof.
  induction im as [|x im IH]; intros b HF; cbn [count_pixels].
  - exists b. cbn. repeat split; auto.
  - inversion HF as [|? ? Hx HF']; subst.
    rewrite (aget_nth b x 0) by auto. cbn [obind]. rewrite (aset_some b x) by auto. cbn [obind].
    destruct (IH (upd b x (nth x b 0 + 1))) as (b' & -> & L & N).
    { now rewrite upd_length. }
    rewrite upd_length in *. exists b'. split; [reflexivity|]. split; [auto|].
    intros v Hv. rewrite N, nth_upd by auto. cbn [count_occ].
    destruct (Nat.eqb_spec v x), (Nat.eq_dec x v); subst; lia.
Qed.

Lemma cumulate_ok im : forall n i b, 0 < i -> i + n = length b ->
  (forall j, j < i -> nth j b 0 = lt_count im (S j)) ->
  (forall j, i <= j -> j < length b -> nth j b 0 = occ im j) ->
  exists b', cumulate n i b = Some b' /\ length b' = length b /\
    forall j, j < length b -> nth j b' 0 = lt_count im (S j).
Proof.
  induction n as [|n IH]; intros i b Hi HL H1 H2; cbn [cumulate].
  - exists b. split; [reflexivity|]. split; [reflexivity|]. intros j Hj. apply H1. lia.
  - rewrite (aget_nth b i 0) by lia. cbn [obind]. rewrite (aget_nth b (i - 1) 0) by lia. cbn [obind].
    rewrite (aset_some b i) by lia. cbn [obind].
    destruct (IH (i + 1) (upd b i (nth i b 0 + nth (i - 1) b 0))) as (b' & -> & L & N); try lia.
    + rewrite upd_length; lia.
    + intros j Hj. rewrite nth_upd by lia. destruct (Nat.eqb_spec j i) as [->|].
      * rewrite H2, H1 by lia. replace (S (i - 1)) with i by lia. rewrite lt_count_S. lia.
      * apply H1. lia.
    + intros j Hj Hj'. rewrite upd_length in Hj'. rewrite nth_upd by lia.
      destruct (Nat.eqb_spec j i); [lia|]. apply H2; lia.
    + rewrite upd_length in *. exists b'. auto.
Qed.

(** The place of pixel k in the order. *)
Definition pos (im : list nat) (k : nat) : nat :=
  lt_count im (nth k im 0) + occ (firstn k im) (nth k im 0).

Lemma firstn_S_nth (l : list nat) k : k < length l -> firstn (S k) l = firstn k l ++ [nth k l 0].
Proof.
  revert k; induction l as [|x l IH]; intros k H; [cbn in H; lia|].
  destruct k; cbn [firstn nth app]; [reflexivity|]. f_equal. apply IH. cbn in H. lia.
Qed.

Lemma occ_firstn_S l k v : k < length l ->
  occ (firstn (S k) l) v = occ (firstn k l) v + (if nth k l 0 =? v then 1 else 0).
Proof.
  intro H. rewrite firstn_S_nth, count_occ_app by auto. cbn [count_occ].
  destruct (Nat.eq_dec (nth k l 0) v), (Nat.eqb_spec (nth k l 0) v); lia.
Qed.

Lemma occ_firstn_mono l v k k' : k <= k' -> occ (firstn k l) v <= occ (firstn k' l) v.
Proof.
  induction 1; auto. destruct (Nat.lt_ge_cases m (length l)).
  - rewrite occ_firstn_S by auto. lia.
  - rewrite (firstn_all2 (n := S m)) by lia. rewrite (firstn_all2 (n := m)) in IHle by lia. auto.
Qed.

Lemma occ_firstn_le l v k : occ (firstn k l) v <= occ l v.
Proof.
  rewrite <- (firstn_skipn k l) at 2. rewrite count_occ_app. lia.
Qed.

Lemma occ_strict im k : k < length im -> occ (firstn k im) (nth k im 0) < occ im (nth k im 0).
Proof.
  intro H. pose proof (occ_firstn_le im (nth k im 0) (S k)) as X.
  rewrite occ_firstn_S, Nat.eqb_refl in X by auto. lia.
Qed.

Lemma pos_lt im k : k < length im -> pos im k < length im.
Proof.
  intro H. unfold pos. pose proof (occ_strict im k H). pose proof (lt_count_length im (S (nth k im 0))).
  rewrite lt_count_S in *. lia.
Qed.

Definition lex (im : list nat) (i j : nat) : Prop :=
  nth i im 0 < nth j im 0 \/ (nth i im 0 = nth j im 0 /\ i < j).

Lemma pos_lex im i j : i < length im -> j < length im -> lex im i j -> pos im i < pos im j.
Proof.
  intros Hi Hj [H|[E H]]; unfold pos.
  - pose proof (occ_strict im i Hi). pose proof (lt_count_le im (S (nth i im 0)) (nth j im 0) H).
    rewrite lt_count_S in *. lia.
  - rewrite <- E. pose proof (occ_firstn_mono im (nth i im 0) (S i) j H) as M.
    rewrite occ_firstn_S, Nat.eqb_refl in M by auto. lia.
Qed.

Lemma lex_total im i j : i <> j -> lex im i j \/ lex im j i.
Proof. unfold lex. lia. Qed.

Lemma pos_inj im i j : i < length im -> j < length im -> pos im i = pos im j -> i = j.
Proof.
  intros Hi Hj E. destruct (Nat.eq_dec i j) as [|N]; auto. exfalso.
  destruct (lex_total im i j N) as [H|H]; apply pos_lex in H; auto; lia.
Qed.

Lemma empty_buckets_ok im : forall i b perm, i <= length im -> length perm = length im ->
  Forall (fun v => v < length b) im ->
  (forall v, v < length b -> nth v b 0 = lt_count im v + occ (firstn i im) v) ->
  (forall k, i <= k -> k < length im -> nth (pos im k) perm 0 = k) ->
  exists perm', empty_buckets i im b perm = Some perm' /\ length perm' = length im /\
    forall k, k < length im -> nth (pos im k) perm' 0 = k.
Proof.
  induction i as [|i IH]; intros b perm Hi HL HF Hb Hp; cbn [empty_buckets].
  - exists perm. repeat split; auto. intros; apply Hp; auto; lia.
  - rewrite (aget_nth im i 0) by lia. cbn [obind].
    assert (Hv : nth i im 0 < length b).
    { rewrite Forall_forall in HF. apply HF. apply nth_In. lia. }
    rewrite (aget_nth b _ 0) by auto. cbn [obind].
    rewrite Hb, occ_firstn_S, Nat.eqb_refl by (auto; lia).
    replace (lt_count im (nth i im 0) + (occ (firstn i im) (nth i im 0) + 1)) with (S (pos im i))
      by (unfold pos; lia).
    rewrite (aset_some b) by auto. cbn [obind].
    rewrite (aset_some perm) by (rewrite HL; apply pos_lt; lia). cbn [obind].
    apply IH; rewrite ?upd_length; auto; try lia.
    + intros v Hv'. rewrite nth_upd by auto. destruct (Nat.eqb_spec v (nth i im 0)) as [->|N].
      * reflexivity.
      * rewrite Hb, occ_firstn_S by (auto; lia). destruct (Nat.eqb_spec (nth i im 0) v); lia.
    + intros k Hk Hk'. rewrite nth_upd by (rewrite HL; apply pos_lt; lia).
      destruct (Nat.eqb_spec (pos im k) (pos im i)) as [E|N].
      * apply pos_inj in E; auto; lia.
      * apply Hp; auto. assert (k <> i) by (intros ->; auto). lia.
Qed.

Lemma strongly_sorted_nth (R : nat -> nat -> Prop) : forall l,
  (forall a b, a < b -> b < length l -> R (nth a l 0) (nth b l 0)) -> StronglySorted R l.
Proof.
  induction l as [|x l IH]; intro H; constructor.
  - apply IH. intros a b Hab Hb. apply (H (S a) (S b)); cbn; lia.
  - apply Forall_forall. intros y Hy. destruct (In_nth _ _ 0 Hy) as (k & Hk & <-).
    apply (H 0 (S k)); cbn; lia.
Qed.

Lemma sort_pixels_ok im perm : Forall (fun v => v < MAXVAL) im -> length perm = length im ->
  exists perm', sort_pixels im perm = Some perm' /\ in_stable_order im perm'.
Proof.
  intros HF HL. unfold sort_pixels.
  destruct (count_pixels_ok im (repeat 0 MAXVAL)) as (b1 & -> & L1 & N1).
  { now rewrite repeat_length. }
  rewrite repeat_length in *. cbn [obind].
  destruct (cumulate_ok im (MAXVAL - 1) 1 b1) as (b2 & -> & L2 & N2).
  { lia. } { rewrite L1. reflexivity. }
  { intros j Hj. assert (j = 0) by lia. subst j. rewrite N1, nth_repeat, lt_count_S by (unfold MAXVAL; lia).
    rewrite lt_count_0. reflexivity. }
  { intros j _ Hj. rewrite N1, nth_repeat by lia. reflexivity. }
  cbn [obind].
  destruct (empty_buckets_ok im (length im) b2 perm) as (p & -> & LP & NP); auto.
  { rewrite L2, L1. auto. }
  { intros v Hv. rewrite N2, lt_count_S, firstn_all by lia. reflexivity. }
  { intros; lia. }
  exists p. split; [reflexivity|].
  assert (P : Permutation p (seq 0 (length im))).
  { symmetry. apply NoDup_Permutation_bis; [apply seq_NoDup|rewrite seq_length; lia|].
    intros k Hk. apply in_seq in Hk. rewrite <- (NP k) by lia. apply nth_In.
    rewrite LP. apply pos_lt. lia. }
  split; [exact P|]. apply strongly_sorted_nth. intros a b Hab Hb. fold (lex im (nth a p 0) (nth b p 0)).
  assert (ND : NoDup p) by (eapply Permutation_NoDup; [symmetry; exact P|apply seq_NoDup]).
  assert (A : forall c, c < length p -> nth c p 0 < length im /\ pos im (nth c p 0) = c).
  { intros c Hc. assert (X : nth c p 0 < length im).
    { assert (In (nth c p 0) (seq 0 (length im))) as I.
      { eapply Permutation_in; [exact P|]. now apply nth_In. }
      apply in_seq in I. lia. }
    split; auto. apply (proj1 (NoDup_nth p 0) ND); [rewrite LP; now apply pos_lt|auto|now apply NP]. }
  destruct (A a) as [A1 A2]; [lia|]. destruct (A b) as [B1 B2]; [lia|].
  assert (N : nth a p 0 <> nth b p 0) by (intro E; rewrite E, B2 in A2; lia).
  destruct (lex_total im _ _ N) as [|X]; auto. apply pos_lex in X; auto. lia.
Qed.
