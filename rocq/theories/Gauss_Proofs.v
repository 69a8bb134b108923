(** Proofs about Gaussian elimination. *)
From Coq Require Import List Arith ZArith Lia Bool QArith Qcanon Qcabs.
From Verif Require Import Base Loop MserSort_Proofs ImOp_Spec ImOp_Proofs Gauss_Model Gauss_Spec.
Import ListNotations.
Local Open Scope Qc_scope.

Notation qsum := (sum 0 Qcplus).
Lemma qsum_ext n f g : (forall i, (i < n)%nat -> f i = g i) -> qsum n f = qsum n g.
Proof. apply sum_ext. Qed.
Lemma qsum_add n f g : qsum n (fun i => f i + g i) = qsum n f + qsum n g.
Proof. apply (sum_add _ _ _ _ _ _ Qcrt). Qed.
Lemma qsum_scale n c f : qsum n (fun i => c * f i) = c * qsum n f.
Proof. apply (sum_scale _ _ _ _ _ _ Qcrt). Qed.
Lemma qsum_lin n a b f g : qsum n (fun i => a * f i + b * g i) = a * qsum n f + b * qsum n g.
Proof. rewrite qsum_add, !qsum_scale. reflexivity. Qed.

Lemma qlt_true x y : qlt x y = true <-> x < y.
Proof.
  unfold qlt. destruct (x ?= y) eqn:E.
  - apply Qceq_alt in E. subst. split; [discriminate|]. intro H. destruct (Qclt_not_eq _ _ H eq_refl).
  - split; [intros _|reflexivity]. now apply Qclt_alt.
  - apply Qcgt_alt in E. split; [discriminate|]. intro H.
    destruct (Qclt_not_eq _ _ (Qclt_trans _ _ _ E H) eq_refl).
Qed.
Lemma qlt_false x y : qlt x y = false <-> y <= x.
Proof.
  split; intro H.
  - destruct (Qclt_le_dec x y) as [L|L]; [|exact L]. apply qlt_true in L. congruence.
  - destruct (qlt x y) eqn:E; [|reflexivity]. apply qlt_true in E. destruct (Qclt_not_le _ _ E H).
Qed.
Lemma tiny_pos : 0 < tiny.
Proof. reflexivity. Qed.

Section Gauss.
Variables (n c : nat).
Hypothesis Hnc : (n <= c)%nat.
Notation e := (entry n).
Definition sized (m : list Qc) : Prop := (n * c <= length m)%nat.

Lemma mget_ok m i j : sized m -> (i < n)%nat -> (j < c)%nat -> mget n m i j = Some (e m i j).
Proof. intros S Li Lj. unfold mget, entry. apply aget_nth. unfold sized in S. nia. Qed.

Lemma mset_ok m i j v : sized m -> (i < n)%nat -> (j < c)%nat ->
  exists m', mset n m i j v = Some m' /\ length m' = length m /\
    forall a b, (a < n)%nat -> e m' a b = if ((a =? i) && (b =? j))%nat then v else e m a b.
Proof.
  intros S Li Lj. unfold mset. assert (L : (i + j * n < length m)%nat) by (unfold sized in S; nia).
  rewrite aset_lt by exact L. eexists; split; [reflexivity|]. split; [apply upd_length|].
  intros a b La. unfold entry. rewrite nth_upd by exact L.
  destruct (Nat.eqb_spec (a + b * n) (i + j * n)) as [E|E].
  - destruct (inj_cols n n (b + j + 1)%nat (le_n _) a b i j) as [-> ->]; try lia.
    now rewrite !Nat.eqb_refl.
  - destruct (Nat.eqb_spec a i) as [->|]; [|reflexivity]. destruct (Nat.eqb_spec b j) as [->|]; [congruence|reflexivity].
Qed.

(** a loop over columns that changes column jj as a function of column jj *)
Lemma column_map (F : (nat -> Qc) -> nat -> Qc) body lo m : (lo <= c)%nat ->
  (forall f g a, (forall i, (i < n)%nat -> f i = g i) -> (a < n)%nat -> F f a = F g a) ->
  (forall jj m, sized m -> (lo <= jj)%nat -> (jj < c)%nat -> exists m', body jj m = Some m' /\ length m' = length m /\
    forall a b, (a < n)%nat -> (b < c)%nat -> e m' a b = if (b =? jj)%nat then F (fun i => e m i jj) a else e m a b) ->
  sized m ->
  exists m', iter_from (c - lo) lo body m = Some m' /\ length m' = length m /\
    forall a b, (a < n)%nat -> (b < c)%nat ->
      e m' a b = if (lo <=? b)%nat then F (fun i => e m i b) a else e m a b.
Proof.
  intros Ll Fx B S.
  destruct (iter_from_inv (fun jj m' => length m' = length m /\ forall a b, (a < n)%nat -> (b < c)%nat ->
      e m' a b = if ((lo <=? b) && (b <? jj))%nat then F (fun i => e m i b) a else e m a b)
      body c (c - lo) lo m) as (m' & E & L & V).
  - lia.
  - split; [reflexivity|]. intros a b La Lb. destruct (Nat.leb_spec lo b); [|reflexivity].
    destruct (Nat.ltb_spec b lo); [lia|reflexivity].
  - intros jj m1 L1 L2 (L & V). destruct (B jj m1) as (m2 & E2 & L3 & V2); [unfold sized in *; lia|lia|lia|].
    exists m2. split; [exact E2|]. split; [lia|]. intros a b La Lb. rewrite V2 by auto.
    destruct (Nat.eqb_spec b jj) as [->|N].
    + replace ((lo <=? jj) && (jj <? jj + 1))%nat with true
        by (symmetry; apply andb_true_iff; split; [apply Nat.leb_le|apply Nat.ltb_lt]; lia).
      apply Fx; [|exact La]. intros i Li. rewrite V by auto. rewrite Nat.ltb_irrefl, andb_false_r. reflexivity.
    + rewrite V by auto. replace (b <? jj + 1)%nat with (b <? jj)%nat; [reflexivity|].
      destruct (Nat.ltb_spec b jj), (Nat.ltb_spec b (jj + 1)); lia.
  - exists m'. split; [exact E|]. split; [exact L|]. intros a b La Lb. rewrite V by auto.
    replace (b <? c)%nat with true by (symmetry; apply Nat.ltb_lt; exact Lb). now rewrite andb_true_r.
Qed.

(** ** the pivot *)
Lemma pivot_ok m j : sized m -> (j < n)%nat ->
  exists a b p, pivot n m j = Some (a, b, p) /\
    (forall r, (j <= r < n)%nat -> Qcabs (e m r j) <= b) /\
    match p with
    | None => b = 0
    | Some i => (j <= i < n)%nat /\ a = e m i j /\ b = Qcabs a
    end.
Proof.
  intros S Lj. unfold pivot.
  destruct (iter_from_inv (fun i '(a, b, p) => (forall r, (j <= r < i)%nat -> Qcabs (e m r j) <= b) /\
    0 <= b /\
    match p with
    | None => b = 0
    | Some i' => (j <= i' < i)%nat /\ a = e m i' j /\ b = Qcabs a
    end) (pivot_step n m j) n (n - j) j (0, 0, None)) as ([[a b] p] & E & H1 & _ & H2).
  - lia.
  - split; [intros; lia|]. split; [apply Qcle_refl|reflexivity].
  - intros i [[a b] p] L1 L2 (H1 & H0 & H2). unfold pivot_step. rewrite mget_ok by (auto; lia). cbn [obind].
    destruct (qlt b (Qcabs (e m i j))) eqn:Q.
    + apply qlt_true in Q. eexists; split; [reflexivity|]. split; [|split; [apply Qcabs_nonneg|split; [lia|auto]]].
      intros r Lr. destruct (Nat.eq_dec r i) as [->|]; [apply Qcle_refl|].
      eapply Qcle_trans; [apply H1; lia|]. now apply Qclt_le_weak.
    + apply qlt_false in Q. eexists; split; [reflexivity|]. split; [|split; [exact H0|]].
      * intros r Lr. destruct (Nat.eq_dec r i) as [->|]; [exact Q|apply H1; lia].
      * destruct p; [|exact H2]. destruct H2 as (? & ? & ?). split; [lia|auto].
  - exists a, b, p. split; [exact E|]. split; [exact H1|exact H2].
Qed.

(** ** exchange and normalisation *)
Lemma swap_ok m i j q : sized m -> (j < n)%nat -> (i < n)%nat ->
  exists m', iter_from (c - j) j (swap_step n i j q) m = Some m' /\ length m' = length m /\
    forall a b, (a < n)%nat -> (b < c)%nat ->
      e m' a b = if (j <=? b)%nat then
                   (if (a =? j)%nat then e m i b / q else if (a =? i)%nat then e m j b else e m a b)
                 else e m a b.
Proof.
  intros S Lj Li.
  apply (column_map (fun f a => if (a =? j)%nat then f i / q else if (a =? i)%nat then f j else f a)); auto; [lia| |].
  - intros f g a H La. rewrite (H i), (H j), (H a) by auto. reflexivity.
  - intros jj m1 S1 L1 L2. unfold swap_step.
    rewrite mget_ok by auto. cbn [obind]. rewrite mget_ok by auto. cbn [obind].
    destruct (mset_ok m1 i jj (e m1 j jj) S1 Li L2) as (m2 & E2 & L2' & V2). rewrite E2. cbn [obind].
    assert (S2 : sized m2) by (unfold sized in *; lia).
    destruct (mset_ok m2 j jj (e m1 i jj) S2 Lj L2) as (m3 & E3 & L3' & V3). rewrite E3. cbn [obind].
    assert (S3 : sized m3) by (unfold sized in *; lia).
    rewrite mget_ok by auto. cbn [obind].
    destruct (mset_ok m3 j jj (e m3 j jj / q) S3 Lj L2) as (m4 & E4 & L4' & V4). rewrite E4.
    exists m4. split; [reflexivity|]. split; [lia|]. intros a b La Lb. rewrite V4 by auto.
    rewrite !V3 by auto. rewrite !V2 by auto. rewrite !Nat.eqb_refl. cbn [andb].
    destruct (Nat.eqb_spec a j) as [->|Na]; destruct (Nat.eqb_spec b jj) as [->|Nb]; cbn [andb].
    + reflexivity.
    + rewrite andb_false_r. reflexivity.
    + rewrite andb_true_r. reflexivity.
    + rewrite andb_false_r. reflexivity.
Qed.

(** ** elimination *)
Lemma elim_ok m j : sized m -> (j < n)%nat ->
  exists m', iter_from (n - (j + 1)) (j + 1) (elim_row n c j) m = Some m' /\ length m' = length m /\
    forall a b, (a < n)%nat -> (b < c)%nat ->
      e m' a b = if ((j <? a) && (j <=? b))%nat then e m a b - e m a j * e m j b else e m a b.
Proof.
  intros S Lj.
  destruct (iter_from_inv (fun ii m' => length m' = length m /\ forall a b, (a < n)%nat -> (b < c)%nat ->
      e m' a b = if ((j <? a) && (a <? ii) && (j <=? b))%nat then e m a b - e m a j * e m j b else e m a b)
      (elim_row n c j) n (n - (j + 1)) (j + 1) m) as (m' & E & L & V).
  - lia.
  - split; [reflexivity|]. intros a b La Lb.
    destruct (Nat.ltb_spec j a), (Nat.ltb_spec a (j + 1)); try lia; reflexivity.
  - intros ii m1 L1 L2 (L & V). unfold elim_row.
    assert (S1 : sized m1) by (unfold sized in *; lia).
    rewrite mget_ok by (auto; lia). cbn [obind].
    destruct (column_map (fun f a => if (a =? ii)%nat then f ii - e m1 ii j * f j else f a)
       (elim_cell n ii j (e m1 ii j)) j m1) as (m2 & E2 & L3 & V2); auto; [lia| | |].
    + intros f g a H La. rewrite (H ii), (H j), (H a) by auto. reflexivity.
    + intros jj m3 S3 M1 M2. unfold elim_cell. rewrite mget_ok by auto. cbn [obind].
      rewrite mget_ok by auto. cbn [obind].
      destruct (mset_ok m3 ii jj (e m3 ii jj - e m1 ii j * e m3 j jj) S3 L2 M2) as (m4 & E4 & L4 & V4).
      exists m4. split; [exact E4|]. split; [exact L4|]. intros a b La Lb. rewrite V4 by auto.
      destruct (Nat.eqb_spec a ii) as [->|]; destruct (Nat.eqb_spec b jj) as [->|]; reflexivity.
    + exists m2. split; [exact E2|]. split; [lia|]. intros a b La Lb. rewrite V2 by auto.
      destruct (Nat.leb_spec j b) as [Jb|Jb].
      * rewrite !V by (auto; lia).
        destruct (Nat.eqb_spec a ii) as [->|Na].
        -- destruct (Nat.ltb_spec j ii); [|lia]. rewrite Nat.ltb_irrefl. cbn [andb].
           rewrite Nat.ltb_irrefl. cbn [andb]. destruct (Nat.ltb_spec ii (ii + 1)); [|lia]. cbn [andb].
           destruct (Nat.leb_spec j b); [reflexivity|lia].
        -- replace (a <? ii + 1)%nat with (a <? ii)%nat; [destruct (Nat.leb_spec j b); [reflexivity|lia]|].
           destruct (Nat.ltb_spec a ii), (Nat.ltb_spec a (ii + 1)); lia.
      * rewrite V by auto. destruct (Nat.leb_spec j b); [lia|]. now rewrite !andb_false_r.
  - exists m'. split; [exact E|]. split; [exact L|]. intros a b La Lb. rewrite V by auto.
    replace (a <? n)%nat with true by (symmetry; apply Nat.ltb_lt; exact La). now rewrite andb_true_r.
Qed.

(** ** systems *)
Definition residual (m : list Qc) (k : nat) (v : nat -> Qc) (i : nat) : Qc :=
  qsum n (fun j => e m i j * v j) + (- (1)) * e m i k.

Lemma solves_residual m k v : solves n m k v <-> forall i, (i < n)%nat -> residual m k v i = 0.
Proof.
  unfold solves, residual. split; intros H i Li; specialize (H i Li).
  - rewrite H. ring.
  - assert (X : forall x y : Qc, x + (- (1)) * y = 0 -> x = y).
    { intros x y E. transitivity (x + (- (1)) * y + y); [ring|]. rewrite E. ring. }
    now apply X.
Qed.

Lemma residual_lin m1 m2 k v i p q a b : (k < c)%nat -> 
  (forall j, (j < c)%nat -> e m1 i j = a * e m2 p j + b * e m2 q j) ->
  residual m1 k v i = a * residual m2 k v p + b * residual m2 k v q.
Proof.
  intros Lk H. unfold residual. rewrite (H k Lk).
  rewrite (qsum_ext n _ (fun j => a * (e m2 p j * v j) + b * (e m2 q j * v j)))
    by (intros j Lj; rewrite (H j) by lia; ring).
  rewrite qsum_lin. ring.
Qed.

(** columns 0..j-1 are those of a unit upper triangular matrix *)
Definition reduced (m : list Qc) (j : nat) : Prop :=
  forall a b, (a < n)%nat -> (b < j)%nat -> (a = b -> e m a b = 1) /\ ((b < a)%nat -> e m a b = 0).

Lemma qsum_single r x m : (r < m)%nat -> qsum m (fun j => if (j =? r)%nat then x else 0) = x.
Proof.
  induction m as [|m IH]; intro L; [lia|]. cbn [sum]. destruct (Nat.eqb_spec m r) as [->|N].
  - rewrite (qsum_ext r _ (fun _ => 0)).
    + rewrite (sum_zero _ _ _ _ _ _ Qcrt). ring.
    + intros j Lj. destruct (Nat.eqb_spec j r); [lia|reflexivity].
  - rewrite IH by lia. ring.
Qed.
(** the product of row i and a vector *)
Definition rowv (m : list Qc) (v : nat -> Qc) (i : nat) : Qc := qsum n (fun j => e m i j * v j).
Lemma rowv_lin m1 m2 v i p q a b :
  (forall j, (j < c)%nat -> e m1 i j = a * e m2 p j + b * e m2 q j) ->
  rowv m1 v i = a * rowv m2 v p + b * rowv m2 v q.
Proof.
  intros H. unfold rowv. rewrite (qsum_ext n _ (fun j => a * (e m2 p j * v j) + b * (e m2 q j * v j)))
    by (intros j Lj; rewrite (H j) by lia; ring).
  apply qsum_lin.
Qed.
(** a vector killed by row j has the products with the rows of [m] among those with the rows of [m'] *)
Definition row_step (m m' : list Qc) (j : nat) : Prop :=
  forall v, (forall a, (a < j)%nat -> rowv m' v a = rowv m v a) /\
    (rowv m' v j = 0 -> forall a, (j <= a < n)%nat -> rowv m v a = 0 \/ exists a', (j < a' < n)%nat /\ rowv m v a = rowv m' v a').
Lemma column_ok m j : sized m -> (j < n)%nat -> reduced m j ->
  exists ok m', column n c j m = Some (ok, m') /\ length m' = length m /\
    (ok = true -> (reduced m' (j + 1) /\ forall k v, (n <= k < c)%nat -> (solves n m k v <-> solves n m' k v)) /\ row_step m m' j) /\
    (ok = false -> m' = m /\ forall r, (j <= r < n)%nat -> Qcabs (e m r j) < tiny).
Proof.
  intros S Lj R. unfold column.
  destruct (pivot_ok m j S Lj) as (q & qa & p & E & M & P). rewrite E. cbn [obind].
  destruct (qlt qa tiny) eqn:Q.
  { exists false, m. split; [reflexivity|]. split; [reflexivity|]. split; [discriminate|]. intros _. split; [reflexivity|].
    intros r Lr. apply qlt_true in Q. eapply Qcle_lt_trans; [apply M; exact Lr|exact Q]. }
  apply qlt_false in Q.
  destruct p as [i|].
  2: { subst qa. pose proof tiny_pos as T. destruct (Qclt_not_le _ _ T Q). }
  destruct P as ((Li1 & Li2) & Eq & Ea). cbn [obind].
  assert (Nq : q <> 0).
  { intro X. subst qa. rewrite X in Q. pose proof tiny_pos as T. destruct (Qclt_not_le _ _ T Q). }
  destruct (swap_ok m i j q S Lj Li2) as (m1 & E1 & L1 & V1). rewrite E1. cbn [obind].
  assert (S1 : sized m1) by (unfold sized in *; lia).
  destruct (elim_ok m1 j S1 Lj) as (m2 & E2 & L2 & V2). rewrite E2. cbn [obind].
  exists true, m2. split; [reflexivity|]. split; [lia|]. split; [|discriminate]. intros _.
  (* full rows after the exchange: the columns before j vanish in rows j and i *)
  assert (W1 : forall a b, (a < n)%nat -> (b < c)%nat ->
     e m1 a b = if (a =? j)%nat then e m i b / q else if (a =? i)%nat then e m j b else e m a b).
  { intros a b La Lb. rewrite V1 by auto. destruct (Nat.leb_spec j b) as [Jb|Jb]; [reflexivity|].
    destruct (Nat.eqb_spec a j) as [->|].
    - rewrite (proj2 (R j b Lj Jb) Jb). rewrite (proj2 (R i b Li2 Jb)) by lia. unfold Qcdiv. ring.
    - destruct (Nat.eqb_spec a i) as [->|]; [|reflexivity].
      rewrite (proj2 (R j b Lj Jb) Jb). now rewrite (proj2 (R i b Li2 Jb)) by lia. }
  assert (Wj : forall b, (b < c)%nat -> e m1 j b = e m i b / q) by (intros b Lb; rewrite W1 by auto; now rewrite Nat.eqb_refl).
  assert (J1 : e m1 j j = 1).
  { rewrite Wj by lia. rewrite <- Eq. unfold Qcdiv. now apply Qcmult_inv_r. }
  assert (Z1 : forall a b, (a < n)%nat -> (b < j)%nat -> (j <= a)%nat -> e m1 a b = 0).
  { intros a b La Lb Ja. rewrite W1 by (auto; lia). destruct (Nat.eqb_spec a j).
    - rewrite (proj2 (R i b Li2 Lb)) by lia. unfold Qcdiv. ring.
    - destruct (Nat.eqb_spec a i); [apply (R j b Lj Lb); lia|apply (R a b La Lb); lia]. }
  assert (W2 : forall a b, (a < n)%nat -> (b < c)%nat ->
     e m2 a b = if (j <? a)%nat then e m1 a b - e m1 a j * e m1 j b else e m1 a b).
  { intros a b La Lb. rewrite V2 by auto. destruct (Nat.ltb_spec j a); cbn [andb]; [|reflexivity].
    destruct (Nat.leb_spec j b) as [Jb|Jb]; [reflexivity|]. rewrite (Z1 j b) by auto. ring. }
  split; [split|].
  - intros a b La Lb. rewrite W2 by (auto; lia). destruct (Nat.eq_dec b j) as [->|Nb].
    + destruct (Nat.ltb_spec j a) as [X|X].
      * split; [intro; lia|]. intros _. rewrite J1. ring.
      * split; [intros ->; exact J1|lia].
    + assert (Bj : (b < j)%nat) by lia. split.
      * intros ->. destruct (Nat.ltb_spec j b); [lia|]. rewrite W1 by (auto; lia).
        destruct (Nat.eqb_spec b j); [lia|]. destruct (Nat.eqb_spec b i); [lia|].
        exact (proj1 (R b b La Bj) eq_refl).
      * intro Lba. destruct (Nat.ltb_spec j a) as [X|X].
        -- rewrite !(Z1 _ b) by (auto; lia). ring.
        -- rewrite W1 by (auto; lia). destruct (Nat.eqb_spec a j) as [->|].
           { rewrite (proj2 (R i b Li2 Bj)) by lia. unfold Qcdiv. ring. }
           destruct (Nat.eqb_spec a i); [lia|]. apply (R a b La Bj). exact Lba.
  - intros k v Lk. rewrite !solves_residual.
    (* residuals after the exchange *)
    assert (Rj : residual m1 k v j = / q * residual m k v i + 0 * residual m k v i).
    { apply residual_lin; [lia|]. intros b Lb. rewrite Wj by auto. unfold Qcdiv. ring. }
    assert (Ri : i <> j -> residual m1 k v i = 1 * residual m k v j + 0 * residual m k v j).
    { intro N. apply residual_lin; [lia|]. intros b Lb. rewrite W1 by auto.
      destruct (Nat.eqb_spec i j); [lia|]. rewrite Nat.eqb_refl. ring. }
    assert (Ro : forall a, (a < n)%nat -> a <> i -> a <> j -> residual m1 k v a = 1 * residual m k v a + 0 * residual m k v a).
    { intros a La N1 N2. apply residual_lin; [lia|]. intros b Lb. rewrite W1 by auto.
      destruct (Nat.eqb_spec a j); [lia|]. destruct (Nat.eqb_spec a i); [lia|]. ring. }
    assert (X1 : (forall a, (a < n)%nat -> residual m k v a = 0) <-> (forall a, (a < n)%nat -> residual m1 k v a = 0)).
    { split; intros H a La.
      - destruct (Nat.eq_dec a j) as [->|Na]; [rewrite Rj, H by auto; ring|].
        destruct (Nat.eq_dec a i) as [->|Ni]; [rewrite Ri, H by auto; ring|].
        rewrite Ro, H by auto. ring.
      - assert (Hi : residual m k v i = 0).
        { transitivity (q * residual m1 k v j); [|rewrite H by auto; ring].
          rewrite Rj. transitivity ((q * / q) * residual m k v i); [rewrite Qcmult_inv_r by auto; ring|ring]. }
        destruct (Nat.eq_dec a i) as [->|Na]; [exact Hi|].
        destruct (Nat.eq_dec a j) as [->|Nj].
        + assert (Nij : i <> j) by congruence. specialize (Ri Nij). rewrite H in Ri by auto.
          rewrite Ri. ring.
        + specialize (Ro a La Na Nj). rewrite H in Ro by auto. rewrite Ro. ring. }
    rewrite X1.
    assert (T : forall a, (a < n)%nat -> (j < a)%nat ->
       residual m2 k v a = 1 * residual m1 k v a + (- e m1 a j) * residual m1 k v j).
    { intros a La Ja. apply residual_lin; [lia|]. intros b Lb. rewrite W2 by auto.
      destruct (Nat.ltb_spec j a); [ring|lia]. }
    assert (T' : forall a, (a < n)%nat -> (a <= j)%nat ->
       residual m2 k v a = 1 * residual m1 k v a + 0 * residual m1 k v a).
    { intros a La Ja. apply residual_lin; [lia|]. intros b Lb. rewrite W2 by auto.
      destruct (Nat.ltb_spec j a); [lia|ring]. }
    split; intros H a La.
    + destruct (Nat.lt_ge_cases j a) as [Ja|Ja].
      * rewrite T, !H by auto. ring.
      * rewrite T', !H by auto. ring.
    + assert (Hj : residual m1 k v j = 0).
      { pose proof (T' j Lj (le_n _)) as Q2. rewrite H in Q2 by auto. rewrite Q2. ring. }
      destruct (Nat.lt_ge_cases j a) as [Ja|Ja].
      * pose proof (T a La Ja) as Q2. rewrite H, Hj in Q2 by auto.
        transitivity (1 * residual m1 k v a + - e m1 a j * 0); [ring|]. rewrite <- Q2. reflexivity.
      * pose proof (T' a La Ja) as Q2. rewrite H in Q2 by auto. rewrite Q2. ring.
  - intros v. assert (P0 : forall a, (a < j)%nat -> rowv m2 v a = rowv m v a).
    { intros a La. rewrite (rowv_lin m2 m v a a a 1 0); [ring|]. intros b Lb. rewrite W2 by (auto; lia).
      destruct (Nat.ltb_spec j a); [lia|]. rewrite W1 by (auto; lia). destruct (Nat.eqb_spec a j); [lia|]. destruct (Nat.eqb_spec a i); [lia|]. ring. }
    split; [exact P0|]. intros Z a La.
    assert (Pj : rowv m2 v j = / q * rowv m v i + 0 * rowv m v i).
    { apply rowv_lin. intros b Lb. rewrite W2 by auto. rewrite Nat.ltb_irrefl, Wj by auto. unfold Qcdiv. ring. }
    assert (Zi : rowv m v i = 0).
    { transitivity ((q * / q) * rowv m v i); [rewrite Qcmult_inv_r by auto; ring|]. transitivity (q * rowv m2 v j); [rewrite Pj; ring|rewrite Z; ring]. }
    assert (T : forall a', (a' < n)%nat -> (j < a')%nat -> rowv m2 v a' = rowv m1 v a').
    { intros a' La' Ja. rewrite (rowv_lin m2 m1 v a' a' j 1 (- e m1 a' j)).
      - rewrite (rowv_lin m1 m2 v j j j 1 0), Z; [ring|]. intros b Lb. rewrite W2 by auto. rewrite Nat.ltb_irrefl. ring.
      - intros b Lb. rewrite W2 by auto. destruct (Nat.ltb_spec j a'); [ring|lia]. }
    destruct (Nat.eq_dec a i) as [->|Na]; [now left|]. right.
    destruct (Nat.eq_dec a j) as [->|Nj].
    + exists i. split; [lia|]. rewrite T by lia. rewrite (rowv_lin m1 m v i j j 1 0); [ring|]. intros b Lb. rewrite W1 by auto.
      destruct (Nat.eqb_spec i j); [lia|]. rewrite Nat.eqb_refl. ring.
    + exists a. split; [lia|]. rewrite T by lia. rewrite (rowv_lin m1 m v a a a 1 0); [ring|]. intros b Lb. rewrite W1 by (auto; lia).
      destruct (Nat.eqb_spec a j); [lia|]. destruct (Nat.eqb_spec a i); [lia|]. ring.
Qed.

(** a vector killed by the first rows of a unit upper triangular matrix *)
Lemma kernel m j : reduced m j -> (j < n)%nat ->
  exists v, v j = 1 /\ (forall b, (j < b)%nat -> v b = 0) /\ forall a, (a < j)%nat -> rowv m v a = 0.
Proof.
  intros R Lj.
  assert (H : forall k, (k <= j)%nat -> exists v, v j = 1 /\ (forall b, (j < b)%nat -> v b = 0) /\ forall a, (j - k <= a < j)%nat -> rowv m v a = 0).
  { induction k as [|k IH]; intro L.
    - exists (fun b => if (b =? j)%nat then 1 else 0). split; [now rewrite Nat.eqb_refl|]. split; [|intros; lia].
      intros b Lb. destruct (Nat.eqb_spec b j); [lia|reflexivity].
    - destruct (IH ltac:(lia)) as (v & V1 & V2 & V3). set (p := (j - S k)%nat).
      set (v' := fun b => v b + if (b =? p)%nat then - rowv m v p else 0). exists v'.
      assert (X : forall a, rowv m v' a = rowv m v a + e m a p * (- rowv m v p)).
      { intros a. unfold rowv at 1, v'. rewrite <- (qsum_single p (e m a p * - rowv m v p) n) by (unfold p; lia).
        unfold rowv at 2. rewrite <- qsum_add. apply qsum_ext. intros b Lb. destruct (Nat.eqb_spec b p) as [->|]; ring. }
      split; [unfold v'; destruct (Nat.eqb_spec j p); [unfold p in *; lia|rewrite V1; ring]|].
      split; [intros b Lb; unfold v'; destruct (Nat.eqb_spec b p); [unfold p in *; lia|rewrite V2 by lia; ring]|].
      intros a La. rewrite X. destruct (Nat.eq_dec a p) as [->|N].
      + rewrite (proj1 (R p p ltac:(unfold p; lia) ltac:(unfold p; lia)) eq_refl). ring.
      + rewrite V3 by (unfold p in *; lia). rewrite (proj2 (R a p ltac:(lia) ltac:(unfold p; lia))) by (unfold p in *; lia). ring. }
  destruct (H j (le_n _)) as (v & V1 & V2 & V3). exists v. split; [exact V1|]. split; [exact V2|]. intros a La. apply V3. lia.
Qed.

(** the products of a vector with the rows of the initial matrix [m0] are among those with the rows of [m] *)
Definition rows_from (m0 m : list Qc) (j : nat) : Prop :=
  forall v, (forall a, (a < j)%nat -> rowv m v a = 0) ->
  forall a, (a < n)%nat -> rowv m0 v a = 0 \/ exists a', (j <= a' < n)%nat /\ rowv m0 v a = rowv m v a'.
Lemma columns_loop_ok m0 k : forall j m, (j + k = n)%nat -> sized m -> reduced m j -> rows_from m0 m j ->
  exists ok m', columns_loop n k c j m = Some (ok, m') /\ length m' = length m /\
    (ok = true -> reduced m' n /\ forall k v, (n <= k < c)%nat -> (solves n m k v <-> solves n m' k v)) /\
    (ok = false -> nearly_singular n m0).
Proof.
  induction k as [|k IH]; intros j m E S R F; cbn [columns_loop].
  - exists true, m. split; [reflexivity|]. split; [reflexivity|]. split; [|discriminate]. intros _.
    replace n with j at 1 by lia. split; [exact R|]. intros; reflexivity.
  - destruct (column_ok m j S ltac:(lia) R) as (ok & m1 & E1 & L1 & H1 & B1). rewrite E1. cbn [obind].
    destruct ok.
    + destruct (H1 eq_refl) as [[R1 Q1] RS].
      assert (F1 : rows_from m0 m1 (j + 1)).
      { intros v Z a La. destruct (RS v) as [RA RB].
        destruct (F v ltac:(intros b Lb; rewrite <- RA by exact Lb; apply Z; lia) a La) as [X|(a' & La' & X)]; [now left|].
        destruct (RB (Z j ltac:(lia)) a' La') as [Y|(a2 & La2 & Y)]; [left; congruence|]. right. exists a2. split; [lia|congruence]. }
      destruct (IH (j + 1)%nat m1) as (ok2 & m2 & E2 & L2 & H2 & B2); [lia|unfold sized in *; lia|exact R1|exact F1|].
      exists ok2, m2. split; [exact E2|]. split; [lia|]. split; [|exact B2]. intro X. destruct (H2 X) as [R2 Q2].
      split; [exact R2|]. intros k0 v Lk. rewrite Q1 by exact Lk. now apply Q2.
    + exists false, m1. split; [reflexivity|]. split; [exact L1|]. split; [discriminate|]. intros _.
      destruct (B1 eq_refl) as [_ T]. destruct (kernel m j R ltac:(lia)) as (v & V1 & V2 & V3).
      exists v, j. split; [lia|]. split; [exact V1|]. intros a La.
      assert (Z0 : Qcabs 0 < tiny) by reflexivity.
      change (Qcabs (rowv m0 v a) < tiny). destruct (F v V3 a La) as [->|(a' & La' & ->)]; [exact Z0|].
      enough (X : rowv m v a' = e m a' j) by (rewrite X; now apply T).
      unfold rowv. rewrite <- (qsum_single j (e m a' j) n) by lia. apply qsum_ext. intros b Lb.
      destruct (Nat.eqb_spec b j) as [->|N]; [rewrite V1; ring|].
      destruct (Nat.lt_ge_cases b j) as [Bj|Bj]; [rewrite (proj2 (R a' b ltac:(lia) Bj)) by lia; ring|rewrite V2 by lia; ring].
Qed.

(** ** backward substitution *)

(** the coefficients still to be substituted when the unknowns i..n-1 are
    known *)
Definition remaining (m : list Qc) (i r j : nat) : Qc :=
  if (j =? r)%nat then 1 else if ((r <? j) && (j <? i))%nat then e m r j else 0.
Definition solves_rest (m : list Qc) (i k : nat) (v : nat -> Qc) : Prop :=
  forall r, (r < n)%nat -> qsum n (fun j => remaining m i r j * v j) = e m r k.


Lemma back_row_ok m i s : sized m -> (0 < i < n)%nat -> (s < i)%nat ->
  exists m', back_row n c i s m = Some m' /\ length m' = length m /\
    forall a b, (a < n)%nat -> (b < c)%nat ->
      e m' a b = if ((n <=? b) && (a =? i - 1 - s))%nat then e m a b - e m a i * e m i b else e m a b.
Proof.
  intros S Li Ls. unfold back_row. set (ii := (i - 1 - s)%nat). assert (Lii : (ii < i)%nat) by (unfold ii; lia).
  rewrite mget_ok by (auto; lia). cbn [obind].
  destruct (column_map (fun f a => if (a =? ii)%nat then f ii - e m ii i * f i else f a)
     (back_cell n ii i (e m ii i)) n m) as (m2 & E2 & L3 & V2); auto.
  - intros f g a H La. rewrite (H ii), (H i), (H a) by (auto; lia). reflexivity.
  - intros jj m3 S3 M1 M2. unfold back_cell. rewrite mget_ok by (auto; lia). cbn [obind].
    rewrite mget_ok by (auto; lia). cbn [obind].
    destruct (mset_ok m3 ii jj (e m3 ii jj - e m ii i * e m3 i jj) S3) as (m4 & E4 & L4 & V4); [lia|lia|].
    exists m4. split; [exact E4|]. split; [exact L4|]. intros a b La Lb. rewrite V4 by auto.
    destruct (Nat.eqb_spec a ii) as [->|]; destruct (Nat.eqb_spec b jj) as [->|]; reflexivity.
  - exists m2. split; [exact E2|]. split; [exact L3|]. intros a b La Lb. rewrite V2 by auto.
    destruct (Nat.leb_spec n b); cbn [andb]; [|reflexivity].
    destruct (Nat.eqb_spec a ii) as [->|]; reflexivity.
Qed.

Lemma back_rows_ok m i : sized m -> (0 < i < n)%nat ->
  exists m', iter i (back_row n c i) m = Some m' /\ length m' = length m /\
    forall a b, (a < n)%nat -> (b < c)%nat ->
      e m' a b = if ((n <=? b) && (a <? i))%nat then e m a b - e m a i * e m i b else e m a b.
Proof.
  intros S Li.
  destruct (iter_inv (fun s m' => length m' = length m /\ forall a b, (a < n)%nat -> (b < c)%nat ->
      e m' a b = if ((n <=? b) && ((a <? i) && (i <=? a + s)))%nat then e m a b - e m a i * e m i b else e m a b)
      (back_row n c i) i m) as (m' & E & L & V).
  - split; [reflexivity|]. intros a b La Lb. rewrite Nat.add_0_r.
    destruct (Nat.ltb_spec a i), (Nat.leb_spec i a); try lia; cbn [andb]; now rewrite andb_false_r.
  - intros s m1 Ls (L & V).
    destruct (back_row_ok m1 i s) as (m2 & E2 & L2 & V2); [unfold sized in *; lia|lia|lia|].
    exists m2. split; [exact E2|]. split; [lia|]. intros a b La Lb. rewrite V2 by auto.
    rewrite !V by (auto; lia).
    destruct (Nat.leb_spec n b) as [Nb|Nb]; cbn [andb]; [|reflexivity].
    rewrite Nat.ltb_irrefl. cbn [andb].
    destruct (Nat.leb_spec n i); [lia|]. cbn [andb].
    destruct (Nat.eqb_spec a (i - 1 - s)) as [->|Na].
    + destruct (Nat.ltb_spec (i - 1 - s) i); [|lia]. cbn [andb].
      destruct (Nat.leb_spec i (i - 1 - s + s)); [lia|].
      destruct (Nat.leb_spec i (i - 1 - s + (s + 1))); [reflexivity|lia].
    + replace (i <=? a + (s + 1))%nat with (i <=? a + s)%nat; [reflexivity|].
      destruct (Nat.leb_spec i (a + s)), (Nat.leb_spec i (a + (s + 1))); lia.
  - exists m'. split; [exact E|]. split; [exact L|]. intros a b La Lb. rewrite V by auto.
    destruct (Nat.leb_spec i (a + i)); [|lia]. now rewrite andb_true_r.
Qed.

Lemma solves_reduced m k v : reduced m n -> (solves n m k v <-> solves_rest m n k v).
Proof.
  intro R. unfold solves, solves_rest.
  assert (X : forall r, (r < n)%nat -> qsum n (fun j => e m r j * v j) = qsum n (fun j => remaining m n r j * v j)).
  { intros r Lr. apply qsum_ext. intros j Lj. f_equal. unfold remaining.
    destruct (Nat.eqb_spec j r) as [->|N]; [exact (proj1 (R r r Lr Lr) eq_refl)|].
    destruct (Nat.ltb_spec r j); cbn [andb].
    - destruct (Nat.ltb_spec j n); [reflexivity|lia].
    - apply (R r j Lr Lj). lia. }
  split; intros H r Lr; [rewrite <- X by auto|rewrite X by auto]; now apply H.
Qed.

(** once i is substituted *)
Lemma rest_step m m' i k v : (0 < i < n)%nat -> (n <= k < c)%nat ->
  (forall a b, (a < n)%nat -> (b < c)%nat ->
      e m' a b = if ((n <=? b) && (a <? i))%nat then e m a b - e m a i * e m i b else e m a b) ->
  (solves_rest m (i + 1) k v <-> solves_rest m' i k v).
Proof.
  intros Li Lk V.
  assert (Er : forall r j, (r < n)%nat -> (j < n)%nat -> remaining m' i r j = remaining m i r j).
  { intros r j Lr Lj. unfold remaining. rewrite V by (auto; lia). destruct (Nat.leb_spec n j); [lia|reflexivity]. }
  (* rows from i on only mention one unknown *)
  assert (Hi : forall M q r, (r < n)%nat -> (q <= r + 1)%nat -> qsum n (fun j => remaining M q r j * v j) = v r).
  { intros M q r Lr Lq. rewrite (qsum_ext n _ (fun j => if (j =? r)%nat then v r else 0)); [now apply qsum_single|].
    intros j Lj. unfold remaining. destruct (Nat.eqb_spec j r) as [->|]; [ring|].
    destruct (Nat.ltb_spec r j), (Nat.ltb_spec j q); try lia; cbn [andb]; ring. }
  assert (Hr : forall r, (r < i)%nat -> qsum n (fun j => remaining m (i + 1) r j * v j) =
     qsum n (fun j => remaining m' i r j * v j) + e m r i * v i).
  { intros r Lr. rewrite <- (qsum_single i (e m r i * v i) n) by lia. rewrite <- qsum_add.
    apply qsum_ext. intros j Lj. rewrite Er by lia. unfold remaining.
    destruct (Nat.eqb_spec j r) as [->|].
    - destruct (Nat.eqb_spec r i); [lia|ring].
    - destruct (Nat.ltb_spec r j); cbn [andb].
      + destruct (Nat.eqb_spec j i) as [->|].
        * rewrite Nat.ltb_irrefl. destruct (Nat.ltb_spec i (i + 1)); [ring|lia].
        * replace (j <? i + 1)%nat with (j <? i)%nat; [ring|].
          destruct (Nat.ltb_spec j i), (Nat.ltb_spec j (i + 1)); lia.
      + destruct (Nat.eqb_spec j i); [lia|ring]. }
  assert (Vi : forall r, (r < n)%nat -> (i <= r)%nat -> e m' r k = e m r k).
  { intros r Lr Ir. rewrite V by (auto; lia). destruct (Nat.ltb_spec r i); [lia|]. now rewrite andb_false_r. }
  assert (Vr : forall r, (r < i)%nat -> e m' r k = e m r k - e m r i * e m i k).
  { intros r Lr. rewrite V by lia. destruct (Nat.leb_spec n k); [|lia].
    destruct (Nat.ltb_spec r i); [reflexivity|lia]. }
  unfold solves_rest. split; intros H r Lr.
  - destruct (Nat.lt_ge_cases r i) as [X|X].
    + pose proof (H r Lr) as Q. rewrite Hr in Q by exact X.
      pose proof (H i ltac:(lia)) as Qi. rewrite Hi in Qi by lia.
      rewrite Vr by exact X. rewrite <- Q, <- Qi. ring.
    + rewrite Hi by lia. rewrite Vi by auto. rewrite <- (H r Lr). now rewrite Hi by lia.
  - destruct (Nat.lt_ge_cases r i) as [X|X].
    + pose proof (H r Lr) as Q. rewrite Vr in Q by exact X.
      pose proof (H i ltac:(lia)) as Qi. rewrite Hi in Qi by lia. rewrite Vi in Qi by lia.
      rewrite Hr by exact X. rewrite Q, Qi. ring.
    + rewrite Hi by lia. rewrite <- Vi by auto. rewrite <- (H r Lr). now rewrite Hi by lia.
Qed.

Lemma back_ok m : sized m -> (0 < n)%nat ->
  exists m', back n c m = Some m' /\ length m' = length m /\
    forall k v, (n <= k < c)%nat -> (solves_rest m n k v <-> solves_rest m' 1 k v).
Proof.
  intros S Ln. unfold back.
  destruct (iter_inv (fun t m' => length m' = length m /\
     forall k v, (n <= k < c)%nat -> (solves_rest m n k v <-> solves_rest m' (n - t) k v))
     (fun t m => let i := (n - 1 - t)%nat in iter i (back_row n c i) m) (n - 1) m) as (m' & E & L & H).
  - split; [reflexivity|]. intros k v _. rewrite Nat.sub_0_r. reflexivity.
  - intros t m1 Lt (L & H). set (i := (n - 1 - t)%nat). cbv zeta.
    destruct (back_rows_ok m1 i) as (m2 & E2 & L2 & V2); [unfold sized in *; lia|lia|].
    exists m2. split; [exact E2|]. split; [lia|]. intros k v Lk. rewrite H by exact Lk.
    replace (n - t)%nat with (i + 1)%nat by lia. replace (n - (t + 1))%nat with i by lia.
    apply rest_step; auto; lia.
  - exists m'. split; [exact E|]. split; [exact L|]. intros k v Lk. rewrite H by exact Lk.
    replace (n - (n - 1))%nat with 1%nat by lia. reflexivity.
Qed.

Lemma gaussian_ok m : sized m ->
  exists ok m', gaussian_elimination n c m = Some (ok, m') /\ length m' = length m /\
    (ok = true -> forall k v, (n <= k < c)%nat ->
      (solves n m k v <-> forall i, (i < n)%nat -> v i = e m' i k)) /\
    (ok = false -> nearly_singular n m).
Proof.
  intro S. unfold gaussian_elimination.
  destruct (columns_loop_ok m n 0 m ltac:(lia) S) as (ok & m1 & E1 & L1 & H1 & B1).
  { intros a b _ Lb. lia. }
  { intros v _ a La. right. exists a. split; [lia|reflexivity]. }
  rewrite E1. cbn [obind]. destruct ok.
  2: { exists false, m1. split; [reflexivity|]. split; [exact L1|]. split; [discriminate|exact B1]. }
  destruct (H1 eq_refl) as [R Q].
  destruct (Nat.eq_dec n 0) as [N0|N0].
  { exists true, m1. unfold back. replace (n - 1)%nat with 0%nat by lia. cbn [iter iter_from obind].
    split; [reflexivity|]. split; [exact L1|]. split; [|discriminate]. intros _ k v Lk. split; intros H i Li; lia. }
  destruct (back_ok m1) as (m2 & E2 & L2 & H2); [unfold sized in *; lia|lia|].
  rewrite E2. cbn [obind]. exists true, m2. split; [reflexivity|]. split; [lia|]. split; [|discriminate].
  intros _ k v Lk. rewrite Q by exact Lk. rewrite solves_reduced by exact R. rewrite H2 by exact Lk.
  unfold solves_rest.
  assert (Hi : forall r, (r < n)%nat -> qsum n (fun j => remaining m2 1 r j * v j) = v r).
  { intros r Lr. rewrite (qsum_ext n _ (fun j => if (j =? r)%nat then v r else 0)); [now apply qsum_single|].
    intros j Lj. unfold remaining. destruct (Nat.eqb_spec j r) as [->|]; [ring|].
    destruct (Nat.ltb_spec r j), (Nat.ltb_spec j 1); try lia; cbn [andb]; ring. }
  split; intros H i Li; [rewrite <- Hi by auto|rewrite Hi by auto]; auto.
Qed.
End Gauss.
