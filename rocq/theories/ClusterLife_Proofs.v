(** Life of the objects of k-means and Gaussian mixtures: lemmas. *)
From Coq Require Import List Arith ZArith Lia Bool QArith Qcanon Permutation.
Import ListNotations.
From Verif Require Import Base Loop Rat Varray_Model ClusterLife_Model ClusterLife_Spec.
Local Open Scope nat_scope.

Lemma allocated_perm h0 h l l' : Permutation l l' -> allocated h0 h l -> allocated h0 h l'.
Proof.
  intros P (K & N & I). split; [exact K|]. split; [exact (Permutation_NoDup P N)|]. intro p. rewrite <- I. split; apply Permutation_in; [now apply Permutation_sym|exact P].
Qed.
Lemma free_live h p : live h p -> free p h = Some (upd h p None).
Proof.
  intros (b & E). unfold free, aget. rewrite E. cbn [obind]. apply aset_lt. apply nth_error_Some. rewrite E. discriminate.
Qed.
Lemma free_allocated h0 h l p : allocated h0 h (p :: l) -> exists h', free p h = Some h' /\ allocated h0 h' l /\ length h' = length h /\ forall q, q <> p -> nth_error h' q = nth_error h q.
Proof.
  intros ((L & K) & N & I). inversion N as [|? ? N1 N2]; subst. destruct (proj1 (I p) (or_introl eq_refl)) as [G V]. exists (upd h p None). split; [now apply free_live|].
  assert (Q : forall q, q <> p -> nth_error (upd h p None) q = nth_error h q) by (intros q D; apply nth_error_upd_neq; congruence).
  split; [|split; [apply upd_length|exact Q]]. split; [|split; [exact N2|]].
  - split; [now rewrite upd_length|]. intros q Lq. rewrite Q by lia. now apply K.
  - intro q. destruct (Nat.eq_dec q p) as [->|D].
    + split; [contradiction|]. intros (_ & b & E). destruct V as (b' & E'). rewrite nth_error_upd_eq in E by (apply nth_error_Some; rewrite E'; discriminate). discriminate.
    + split.
      * intro J. destruct (proj1 (I q) (or_intror J)) as (G' & b & E). split; [exact G'|]. exists b. now rewrite Q.
      * intros (G' & b & E). rewrite Q in E by exact D. destruct (proj2 (I q) (conj G' (ex_intro _ b E))) as [X|X]; [congruence|exact X].
Qed.
Lemma malloc_allocated h0 h l junk size : allocated h0 h l -> exists h', malloc junk size h = (length h, h') /\ allocated h0 h' (length h :: l) /\ nth_error h' (length h) = Some (Some (repeat junk (Z.to_nat size))) /\ length h' = S (length h) /\ forall q, q < length h -> nth_error h' q = nth_error h q.
Proof.
  intros ((L & K) & N & I). unfold malloc. eexists. split; [reflexivity|].
  set (b := repeat junk (Z.to_nat size)).
  assert (Q : forall q, q < length h -> nth_error (h ++ [Some b]) q = nth_error h q) by (intros q Lq; now apply nth_error_app1).
  assert (E : nth_error (h ++ [Some b]) (length h) = Some (Some b)) by (rewrite nth_error_app2 by lia; now rewrite Nat.sub_diag).
  assert (LL : length (h ++ [Some b]) = S (length h)) by (rewrite app_length; cbn; lia).
  split; [|split; [exact E|split; [exact LL|exact Q]]]. split; [|split].
  - split; [lia|]. intros q Lq. rewrite Q by lia. now apply K.
  - constructor; [|exact N]. intro J. apply I in J as (_ & c & J). assert (length h < length h); [|lia]. apply nth_error_Some. rewrite J. discriminate.
  - intro q. split.
    + intros [<-|J]; [split; [exact L|now exists b]|]. apply I in J as (G & c & J). split; [exact G|]. exists c. rewrite Q; [exact J|]. apply nth_error_Some. rewrite J. discriminate.
    + intros (G & c & J). destruct (Nat.lt_trichotomy q (length h)) as [D|[D|D]]; [right; apply I; split; [exact G|exists c; now rewrite <- (Q q D)]|now left|].
      assert (q < length (h ++ [Some b])) by (apply nth_error_Some; rewrite J; discriminate). lia.
Qed.
Lemma write_allocated h0 h l p b : allocated h0 h l -> In p l -> exists h', aset h p (Some b) = Some h' /\ allocated h0 h' l /\ nth_error h' p = Some (Some b) /\ length h' = length h /\ forall q, q <> p -> nth_error h' q = nth_error h q.
Proof.
  intros ((L & K) & N & I) J. destruct (proj1 (I p) J) as (G & c & E). assert (Lp : p < length h) by (apply nth_error_Some; rewrite E; discriminate).
  exists (upd h p (Some b)). split; [now apply aset_lt|].
  assert (Q : forall q, q <> p -> nth_error (upd h p (Some b)) q = nth_error h q) by (intros q D; apply nth_error_upd_neq; congruence).
  assert (Q0 : nth_error (upd h p (Some b)) p = Some (Some b)) by (now apply nth_error_upd_eq).
  split; [|split; [exact Q0|split; [apply upd_length|exact Q]]]. split; [|split; [exact N|]].
  - split; [now rewrite upd_length|]. intros q Lq. rewrite Q by lia. now apply K.
  - intro q. rewrite I. destruct (Nat.eq_dec q p) as [->|D]; [split; intros _; (split; [exact G|]); [now exists b|now exists c]|]. unfold live. now rewrite (Q q D).
Qed.
Definition opt (p : option nat) : list nat := match p with Some p => [p] | None => [] end.
Lemma free_if_allocated h0 h l p : allocated h0 h (opt p ++ l) -> exists h', free_if p h = Some h' /\ allocated h0 h' l /\ length h' = length h /\ forall q, ~ In q (opt p) -> nth_error h' q = nth_error h q.
Proof.
  destruct p as [p|]; cbn [opt app]; intro A.
  - destruct (free_allocated _ _ _ _ A) as (h' & E & A' & L & Q). exists h'. cbn [free_if]. split; [exact E|]. split; [exact A'|]. split; [exact L|]. intros q D. apply Q. intro X. apply D. now left.
  - exists h. cbn [free_if]. split; [reflexivity|]. split; [exact A|]. split; [reflexivity|]. reflexivity.
Qed.

Definition kptrs (k : kobj) : list nat := opt (k_centers k) ++ opt (k_distances k).
Lemma reset_allocated h0 h l k : allocated h0 h (kptrs k ++ l) -> exists h', kmeans_reset k h = Some (with_data k 0 0 None None, h') /\ allocated h0 h' l /\ length h' = length h /\ forall q, ~ In q (kptrs k) -> nth_error h' q = nth_error h q.
Proof.
  unfold kptrs. rewrite <- app_assoc. intro A. destruct (free_if_allocated _ _ _ _ A) as (h1 & E1 & A1 & L1 & Q1). destruct (free_if_allocated _ _ _ _ A1) as (h2 & E2 & A2 & L2 & Q2).
  exists h2. unfold kmeans_reset. rewrite E1. cbn [obind]. rewrite E2. cbn [obind]. split; [reflexivity|]. split; [exact A2|]. split; [congruence|]. intros q D. rewrite Q2 by (intro X; apply D; apply in_or_app; now right). apply Q1. intro X. apply D. apply in_or_app. now left.
Qed.
Lemma delete_allocated h0 h l k self : allocated h0 h (kptrs k ++ self :: l) -> exists h', kmeans_delete self k h = Some h' /\ allocated h0 h' l /\ length h' = length h /\ forall q, ~ In q (kptrs k) -> q <> self -> nth_error h' q = nth_error h q.
Proof.
  intro A. destruct (reset_allocated _ _ _ _ A) as (h1 & E1 & A1 & L1 & Q1). destruct (free_allocated _ _ _ _ A1) as (h2 & E2 & A2 & L2 & Q2).
  exists h2. unfold kmeans_delete. rewrite E1. cbn [obind]. split; [exact E2|]. split; [exact A2|]. split; [congruence|]. intros q D1 D2. rewrite Q2 by exact D2. now apply Q1.
Qed.
(** a block holds at least [len] bytes *)
Definition holds (h : heap) (p : nat) (len : Z) : Prop := exists b, nth_error h p = Some (Some b) /\ (Z.to_nat len <= length b).
Lemma copy_allocated h0 h l dst src len s d : allocated h0 h l -> In dst l -> nth_error h src = Some (Some s) -> nth_error h dst = Some (Some d) -> length d = Z.to_nat len -> Z.to_nat len <= length s ->
  exists h', copy_block dst src len h = Some h' /\ allocated h0 h' l /\ nth_error h' dst = Some (Some (firstn (Z.to_nat len) s)) /\ length h' = length h /\ forall q, q <> dst -> nth_error h' q = nth_error h q.
Proof.
  intros A J Es Ed Ld Ls. unfold copy_block, aget. rewrite Es. cbn [obind]. rewrite Ed. cbn [obind]. cbv zeta.
  destruct (Nat.ltb_spec (length s) (Z.to_nat len)); [lia|]. destruct (Nat.ltb_spec (length d) (Z.to_nat len)); [lia|]. cbn [orb].
  rewrite (skipn_all2 d) by lia. rewrite app_nil_r. destruct (write_allocated _ _ _ _ (firstn (Z.to_nat len) s) A J) as (h' & E & R). exists h'. split; [exact E|exact R].
Qed.
Lemma set_allocated junk h0 h l k src dim num s : allocated h0 h (kptrs k ++ l) -> (k_type k = TFloat \/ k_type k = TDouble) ->
  nth_error h src = Some (Some s) -> ~ In src (kptrs k) -> Z.to_nat (bytes3 (type_size (k_type k)) dim num) <= length s ->
  exists h', kmeans_set_centers junk k src dim num h = Some (with_data k dim num (Some (length h)) None, h') /\ allocated h0 h' (length h :: l) /\
    nth_error h' (length h) = Some (Some (firstn (Z.to_nat (bytes3 (type_size (k_type k)) dim num)) s)) /\ forall q, ~ In q (kptrs k) -> q < length h -> nth_error h' q = nth_error h q.
Proof.
  intros A T Es D Ls. destruct (reset_allocated _ _ _ _ A) as (h1 & E1 & A1 & L1 & Q1). unfold kmeans_set_centers. rewrite E1. cbn [obind]. change (k_type (with_data k 0 0 None None)) with (k_type k).
  set (len := bytes3 (type_size (k_type k)) dim num) in *. destruct (malloc_allocated _ _ _ junk len A1) as (h2 & E2 & A2 & N2 & L2 & Q2).
  assert (Lsrc : src < length h1) by (rewrite L1; apply nth_error_Some; rewrite Es; discriminate).
  destruct (copy_allocated h0 h2 _ (length h1) src len s (repeat junk (Z.to_nat len)) A2 (or_introl eq_refl)) as (h3 & E3 & A3 & N3 & L3 & Q3); [rewrite (Q2 _ Lsrc), (Q1 _ D); exact Es|exact N2|apply repeat_length|exact Ls|].
  exists h3. rewrite L1 in *. split; [|split; [exact A3|split; [exact N3|]]].
  - destruct T as [T|T]; rewrite T in *; fold len; rewrite E2, E3; reflexivity.
  - intros q Dq Lq. rewrite Q3 by lia. rewrite (Q2 q Lq). now apply Q1.
Qed.

Lemma allocated_lt h0 h l p : allocated h0 h l -> In p l -> p < length h.
Proof. intros (_ & _ & I) J. apply I in J as (_ & b & E). apply nth_error_Some. rewrite E. discriminate. Qed.
Lemma copy_if_allocated junk h0 h l p len s : allocated h0 h l -> (forall q, p = Some q -> nth_error h q = Some (Some s) /\ Z.to_nat len <= length s) ->
  exists p' h', copy_if junk p len h = Some (p', h') /\ allocated h0 h' (opt p' ++ l) /\ length h <= length h' /\ (forall q, q < length h -> nth_error h' q = nth_error h q) /\
    (p = None -> p' = None) /\ (p <> None -> exists q', p' = Some q' /\ nth_error h' q' = Some (Some (firstn (Z.to_nat len) s))).
Proof.
  intros A V. destruct p as [p|]; cbn [copy_if].
  - destruct (V p eq_refl) as [Es Ls]. destruct (malloc_allocated _ _ _ junk len A) as (h1 & E1 & A1 & N1 & L1 & Q1). rewrite E1.
    assert (Lp : p < length h) by (apply nth_error_Some; rewrite Es; discriminate).
    destruct (copy_allocated h0 h1 _ (length h) p len s (repeat junk (Z.to_nat len)) A1 (or_introl eq_refl)) as (h2 & E2 & A2 & N2 & L2 & Q2); [now rewrite Q1|exact N1|apply repeat_length|exact Ls|].
    rewrite E2. cbn [obind]. exists (Some (length h)), h2. split; [reflexivity|]. split; [exact A2|]. split; [lia|]. split; [intros q Lq; rewrite Q2 by lia; now apply Q1|]. split; [discriminate|]. intros _. exists (length h). now split.
  - exists None, h. split; [reflexivity|]. split; [exact A|]. split; [lia|]. split; [reflexivity|]. split; [reflexivity|]. intro X. now elim X.
Qed.
Lemma NoDup_app_disjoint_helper (a b : list nat) q : NoDup (a ++ b) -> In q a -> In q b -> False.
Proof. induction a as [|x a IH]; cbn; [contradiction|]. intros N J1 J2. inversion N as [|? ? N1 N2]; subst. destruct J1 as [->|J1]; [apply N1; apply in_or_app; now right|now apply IH]. Qed.
Lemma NoDup_app_right_helper (a b : list nat) : NoDup (a ++ b) -> NoDup b.
Proof. induction a as [|x a IH]; cbn; [auto|]. intro N. inversion N; subst. now apply IH. Qed.
Lemma copy_if_fresh junk p len h p' h' : copy_if junk p len h = Some (p', h') -> forall q, In q (opt p') -> length h <= q /\ q = length h.
Proof.
  destruct p as [p|]; cbn [copy_if]; unfold malloc; [|injection 1 as <- <-; contradiction]. destruct (copy_block _ _ _ _); [|discriminate]. cbn [obind]. injection 1 as <- <-. intros q [<-|[]]. split; reflexivity.
Qed.
