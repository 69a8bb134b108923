(** The means of the labelled data. *)
From Coq Require Import List Arith ZArith Lia Bool.
Import ListNotations.
From Verif Require Import Base Loop MserSort_Proofs Ikm_Model Ikm_Spec IkmDist_Proofs.
Local Open Scope nat_scope.

Definition labels (K N : nat) (asgn : list Z) : Prop := forall x, x < N -> exists c, c < K /\ nth x asgn 0%Z = Z.of_nat c.

Lemma zget_nth (l : list Z) i : i < length l -> zget l (Z.of_nat i) = Some (nth i l 0%Z).
Proof. intro L. unfold zget. destruct (Z.ltb_spec (Z.of_nat i) 0); [lia|]. rewrite Nat2Z.id. now apply aget_nth. Qed.
Lemma zset_upd (l : list Z) i v : i < length l -> zset l (Z.of_nat i) v = Some (upd l i v).
Proof. intro L. unfold zset. destruct (Z.ltb_spec (Z.of_nat i) 0); [lia|]. rewrite Nat2Z.id. now apply aset_lt. Qed.
Lemma cell_row (M K c i : nat) : c < K -> i < M -> c * M + i < M * K.
Proof. nia. Qed.
Lemma cell_inj (M c i c' i' : nat) : i < M -> i' < M -> c * M + i = c' * M + i' -> c = c' /\ i = i'.
Proof. intros A B E. split; [destruct (Nat.lt_trichotomy c c') as [L|[L|L]]; nia|]. assert (c = c') by (destruct (Nat.lt_trichotomy c c') as [L|[L|L]]; nia). subst. lia. Qed.
Lemma coord_upd M K l c i c' i' v : length l = M * K -> c < K -> i < M -> i' < M ->
  coord M (upd l (c * M + i) v) c' i' = if (c' =? c) && (i' =? i) then v else coord M l c' i'.
Proof.
  intros L Hc Hi Hi'. unfold coord. rewrite nth_upd by (rewrite L; now apply cell_row).
  destruct (Nat.eqb_spec (c' * M + i') (c * M + i)) as [E|E].
  - destruct (cell_inj M c' i' c i Hi' Hi E) as [-> ->]. now rewrite !Nat.eqb_refl.
  - destruct (Nat.eqb_spec c' c) as [->|]; [|reflexivity]. destruct (Nat.eqb_spec i' i) as [->|]; [congruence|reflexivity].
Qed.

Lemma accumulate_ok M K N data asgn : K <= N -> N * M <= length data -> length asgn = N -> labels K N asgn ->
  exists sums counts, accumulate M N data asgn (repeat 0%Z (M * K), repeat 0%Z N) = Some (sums, counts) /\
    length sums = M * K /\ length counts = N /\ (forall c, c < K -> nth c counts 0%Z = members N asgn c) /\
    forall c i, c < K -> i < M -> coord M sums c i = total M N data asgn c i.
Proof.
  intros KN LD LA HA. unfold accumulate.
  match goal with |- context [iter N ?f ?s] => destruct (iter_inv (fun j (st : list Z * list Z) => let (sums, counts) := st in
    length sums = M * K /\ length counts = N /\ (forall c, c < K -> nth c counts 0%Z = members j asgn c) /\
    forall c i, c < K -> i < M -> coord M sums c i = total M j data asgn c i) f N s) as ([sums counts] & -> & I) end.
  - cbv beta iota. rewrite !repeat_length. split; [reflexivity|]. split; [reflexivity|]. split.
    + intros c Hc. apply nth_repeat.
    + intros c i Hc Hi. apply nth_repeat.
  - intros x [sums counts] Lx (A & B & C & D). cbv beta iota. rewrite Nat.add_1_r.
    rewrite (aget_nth asgn _ 0%Z) by lia. cbn [obind]. destruct (HA x Lx) as (cx & Hcx & E). rewrite E.
    rewrite zget_nth by lia. cbn [obind]. rewrite zset_upd by lia. cbn [obind].
    match goal with |- context [iter M ?f ?s] => destruct (iter_inv (fun j (t : list Z) => length t = M * K /\
      forall c i, c < K -> i < M -> coord M t c i = (coord M sums c i + (if ((c =? cx) && (i <? j))%nat then coord M data x i else 0))%Z) f M s) as (t & -> & It) end.
    + split; [assumption|]. intros c i Hc Hi. change (i <? 0) with false. rewrite andb_false_r. lia.
    + intros i t Li [Lt It]. cbv beta. rewrite Nat.add_1_r. rewrite (aget_nth data _ 0%Z) by nia. cbn [obind].
      replace (Z.of_nat cx * Z.of_nat M + Z.of_nat i)%Z with (Z.of_nat (cx * M + i)) by lia.
      pose proof (cell_row M K cx i Hcx Li). rewrite zget_nth by lia. cbn [obind]. rewrite zset_upd by lia.
      eexists. split; [reflexivity|]. rewrite upd_length. split; [assumption|]. intros c i' Hc Hi'.
      rewrite (coord_upd M K) by assumption. fold (coord M t cx i). fold (coord M data x i).
      destruct (Nat.eqb_spec c cx) as [->|Nc]; cbn [andb].
      * destruct (Nat.eqb_spec i' i) as [->|Ni].
        -- rewrite It by assumption. rewrite Nat.eqb_refl. cbn [andb]. destruct (Nat.ltb_spec i i); [lia|]. destruct (Nat.ltb_spec i (S i)); [lia|lia].
        -- rewrite It by assumption. rewrite Nat.eqb_refl. cbn [andb]. destruct (Nat.ltb_spec i' i); destruct (Nat.ltb_spec i' (S i)); lia.
      * rewrite It by assumption. destruct (Nat.eqb_spec c cx); [contradiction|]. cbn [andb]. lia.
    + cbn [obind]. eexists. split; [reflexivity|]. cbv beta iota. destruct It as [Lt It]. rewrite upd_length.
      split; [assumption|]. split; [assumption|]. split.
      * intros c Hc. rewrite nth_upd by lia. unfold members. cbn [zsum]. fold (members x asgn c). unfold of_label. rewrite E.
        destruct (Nat.eqb_spec c cx) as [->|]; [rewrite Z.eqb_refl, C by assumption; lia|].
        destruct (Z.eqb_spec (Z.of_nat cx) (Z.of_nat c)); [lia|]. rewrite C by assumption. lia.
      * intros c i Hc Hi. rewrite It by assumption. unfold total. cbn [zsum]. fold (total M x data asgn c i). rewrite D by assumption.
        unfold of_label. rewrite E. destruct (Nat.ltb_spec i M); [|lia]. rewrite andb_true_r.
        destruct (Nat.eqb_spec c cx) as [->|]; [now rewrite Z.eqb_refl|]. destruct (Z.eqb_spec (Z.of_nat cx) (Z.of_nat c)); [lia|reflexivity].
  - exists sums, counts. split; [reflexivity|exact I].
Qed.

Lemma normalize_ok M K N counts sums : K <= N -> length counts = N -> length sums = M * K ->
  exists cs, normalize M K counts sums = Some cs /\ length cs = M * K /\
    forall c i, c < K -> i < M -> coord M cs c i = if (0 <? nth c counts 0%Z)%Z then Z.quot (coord M sums c i) (nth c counts 0%Z) else coord M sums c i.
Proof.
  intros KN LC LS. unfold normalize.
  match goal with |- context [iter K ?f ?s] => destruct (iter_inv (fun j (t : list Z) => length t = M * K /\
    forall c i, c < K -> i < M -> coord M t c i = if (c <? j) && (0 <? nth c counts 0%Z)%Z then Z.quot (coord M sums c i) (nth c counts 0%Z) else coord M sums c i) f K s) as (t & -> & Lt & It) end.
  - split; [assumption|]. intros. reflexivity.
  - intros c t Lc [Lt It]. cbv beta. rewrite Nat.add_1_r. rewrite (aget_nth counts _ 0%Z) by lia. cbn [obind].
    destruct (Z.ltb_spec 0 (nth c counts 0%Z)) as [Pc|Pc].
    + match goal with |- context [iter M ?f ?s] => destruct (iter_inv (fun j (r : list Z) => length r = M * K /\
        forall c' i, c' < K -> i < M -> coord M r c' i = if (c' =? c) && (i <? j) then Z.quot (coord M t c' i) (nth c counts 0%Z) else coord M t c' i) f M s) as (r & -> & Lr & Ir) end.
      * split; [assumption|]. intros. change (i <? 0) with false. now rewrite andb_false_r.
      * intros i r Li [Lr Ir]. cbv beta. rewrite Nat.add_1_r. pose proof (cell_row M K c i Lc Li).
        rewrite (aget_nth r _ 0%Z) by lia. cbn [obind]. rewrite aset_lt by lia. eexists. split; [reflexivity|].
        rewrite upd_length. split; [assumption|]. intros c' i' Hc Hi. rewrite (coord_upd M K) by assumption. fold (coord M r c i).
        destruct (Nat.eqb_spec c' c) as [->|]; cbn [andb]; [|rewrite Ir by assumption; now destruct (Nat.eqb_spec c' c)].
        destruct (Nat.eqb_spec i' i) as [->|].
        -- rewrite Ir by assumption. rewrite Nat.eqb_refl. cbn [andb]. destruct (Nat.ltb_spec i i); [lia|]. destruct (Nat.ltb_spec i (S i)); [reflexivity|lia].
        -- rewrite Ir by assumption. rewrite Nat.eqb_refl. cbn [andb]. destruct (Nat.ltb_spec i' i); destruct (Nat.ltb_spec i' (S i)); try lia; reflexivity.
      * eexists. split; [reflexivity|]. split; [assumption|]. intros c' i Hc Hi. rewrite Ir, It by assumption.
        destruct (Nat.ltb_spec i M); [|lia]. rewrite andb_true_r. destruct (Nat.eqb_spec c' c) as [->|].
        -- destruct (Nat.ltb_spec c c); [lia|]. destruct (Nat.ltb_spec c (S c)); [|lia]. cbn [andb]. destruct (Z.ltb_spec 0 (nth c counts 0%Z)); [reflexivity|lia].
        -- destruct (Nat.ltb_spec c' c); destruct (Nat.ltb_spec c' (S c)); try lia; reflexivity.
    + eexists. split; [reflexivity|]. split; [assumption|]. intros c' i Hc Hi. rewrite It by assumption.
      destruct (Nat.ltb_spec c' c); destruct (Nat.ltb_spec c' (S c)); try lia; try reflexivity. assert (c' = c) by lia. subst. cbn [andb].
      destruct (Z.ltb_spec 0 (nth c counts 0%Z)); [lia|reflexivity].
  - exists t. split; [reflexivity|]. split; [assumption|]. intros c i Hc Hi. rewrite It by assumption. destruct (Nat.ltb_spec c K); [reflexivity|lia].
Qed.

Lemma byte_nth l i : bytes l -> (0 <= nth i l 0 < 256)%Z.
Proof.
  intro B. destruct (Nat.lt_ge_cases i (length l)) as [L|L].
  - unfold bytes in B. rewrite Forall_forall in B. apply B. now apply nth_In.
  - rewrite nth_overflow by assumption. lia.
Qed.
Lemma bytes_nth M K l : length l = M * K -> (forall c i, c < K -> i < M -> (0 <= coord M l c i < 256)%Z) -> bytes l.
Proof.
  intros L H. apply Forall_forall. intros v Hv. apply (In_nth _ _ 0%Z) in Hv. destruct Hv as (n & Ln & <-).
  destruct (Nat.eq_dec M 0) as [->|]; [nia|].
  specialize (H (n / M) (n mod M) ltac:(apply Nat.div_lt_upper_bound; lia) ltac:(apply Nat.mod_upper_bound; assumption)).
  unfold coord in H. rewrite Nat.mul_comm, <- Nat.div_mod in H by assumption. exact H.
Qed.
Lemma total_bounds M N data asgn c i : bytes data -> (0 <= total M N data asgn c i <= 255 * members N asgn c)%Z.
Proof.
  intro B. unfold total, members. induction N as [|N IH]; cbn [zsum]; [lia|].
  pose proof (byte_nth data (N * M + i) B) as Q. fold (coord M data N i) in Q. destruct (of_label asgn c N); lia.
Qed.

Lemma members_nonneg N asgn c : (0 <= members N asgn c)%Z.
Proof. apply zsum_nonneg. intros. destruct (of_label asgn c i); lia. Qed.
Lemma means_ok M K N data asgn : K <= N -> N * M <= length data -> length asgn = N -> labels K N asgn -> bytes data ->
  exists cs, means M K N data asgn = Some cs /\ length cs = M * K /\ are_means M K N data asgn cs /\ bytes cs.
Proof.
  intros KN LD LA HA B. unfold means, clear_counts. destruct (Nat.leb_spec K N); [|lia]. cbn [obind].
  destruct (accumulate_ok M K N data asgn KN LD LA HA) as (sums & counts & -> & LS & LC & C & T). cbn [obind].
  destruct (normalize_ok M K N counts sums KN LC LS) as (cs & -> & Lcs & Q). exists cs. split; [reflexivity|]. split; [assumption|].
  assert (A : are_means M K N data asgn cs).
  { intros c i Hc Hi. rewrite Q, C, T by assumption. pose proof (total_bounds M N data asgn c i B) as TB.
    destruct (Z.ltb_spec 0 (members N asgn c)); [apply Z.quot_div_nonneg; lia|].
    pose proof (members_nonneg N asgn c). lia. }
  split; [assumption|]. apply (bytes_nth M K); [assumption|]. intros c i Hc Hi. rewrite A by assumption.
  pose proof (total_bounds M N data asgn c i B) as TB. destruct (Z.ltb_spec 0 (members N asgn c)); [|lia]. split.
  - apply Z.div_pos; lia.
  - apply Z.div_lt_upper_bound; lia.
Qed.
