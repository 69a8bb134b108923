(** Lloyd's training, and the initial centers. *)
From Coq Require Import List Arith ZArith Lia Bool.
Import ListNotations.
From Verif Require Import Base Loop MserSort_Proofs MserUnion_Proofs Ikm_Model Ikm_Spec IkmDist_Proofs IkmMean_Proofs IkmElkan_Proofs.
Local Open Scope nat_scope.

(** ** Lloyd *)
Definition all_first (M K N : nat) (data cs asgn : list Z) : Prop :=
  forall x, x < N -> exists k, nth x asgn 0%Z = Z.of_nat k /\ first_nearest M K cs (coord M data x) k.
Lemma all_first_labels M K N data cs asgn : all_first M K N data cs asgn -> labels K N asgn.
Proof. intros A x Hx. destruct (A x Hx) as (k & E & F). exists k. split; [apply F|assumption]. Qed.
Lemma upd_same (l : list Z) i v : nth i l 0%Z = v -> i < length l -> upd l i v = l.
Proof. revert i. induction l as [|h t IH]; intros [|i] E L; cbn in *; [reflexivity..|subst; reflexivity|]. now rewrite IH by (try assumption; lia). Qed.
Lemma lloyd_assign_ok M K N cs data asgn : N * M <= length data -> length cs = M * K -> length asgn = N -> (0 < N -> 0 < K) -> (Z.of_nat K < no_center)%Z ->
  exists asgn' done, lloyd_assign M K N cs data asgn = Some (asgn', done) /\ length asgn' = N /\ all_first M K N data cs asgn' /\ (done = true <-> asgn' = asgn).
Proof.
  intros LD LC LA HK HB. unfold lloyd_assign.
  match goal with |- context [iter N ?f ?s] => destruct (iter_inv (fun j (st : list Z * bool) => let (a, done) := st in length a = N /\ all_first M K j data cs a /\
    (forall x, j <= x -> nth x a 0%Z = nth x asgn 0%Z) /\ (done = true <-> forall x, x < j -> nth x a 0%Z = nth x asgn 0%Z)) f N s) as ([a done] & -> & I1 & I2 & I3 & I4) end.
  - cbv beta iota. split; [assumption|]. split; [intros x Hx; lia|]. split; [auto|]. split; [intros _ x Hx; lia|auto].
  - intros j [a done] Lj (I1 & I2 & I3 & I4). cbv beta iota. rewrite Nat.add_1_r.
    destruct (push_one_ok M K cs data (j * M) LC ltac:(nia)) as [_ P]. destruct (P ltac:(apply HK; lia)) as (k & -> & F). cbn [obind].
    rewrite (aget_nth a _ 0%Z) by lia. cbn [obind]. assert (Kk : k < K) by apply F.
    destruct (Z.eqb_spec (Z.of_nat k) no_center); [lia|]. cbn [negb]. rewrite andb_true_r.
    destruct (Z.eqb_spec (nth j a 0%Z) (Z.of_nat k)) as [E|E].
    + eexists. split; [reflexivity|]. cbv beta iota. split; [assumption|]. split; [|split; [intros; apply I3; lia|]].
      * intros x Hx. destruct (Nat.eq_dec x j) as [->|]; [|apply I2; lia]. exists k. split; assumption.
      * rewrite I4. split; intros H x Hx; [|apply H; lia]. destruct (Nat.eq_dec x j) as [->|]; [apply I3; lia|apply H; lia].
    + rewrite aset_lt by lia. cbn [obind]. eexists. split; [reflexivity|]. cbv beta iota. rewrite upd_length. split; [assumption|]. split; [|split].
      * intros x Hx. rewrite nth_upd by lia. destruct (Nat.eqb_spec x j) as [->|]; [exists k; split; auto|apply I2; lia].
      * intros x Hx. rewrite nth_upd by lia. destruct (Nat.eqb_spec x j); [lia|]. apply I3. lia.
      * split; [discriminate|]. intro H. specialize (H j ltac:(lia)). rewrite nth_upd, Nat.eqb_refl in H by lia. rewrite (I3 j) in E by lia. congruence.
  - exists a, done. split; [reflexivity|]. split; [assumption|]. split; [assumption|]. rewrite I4. split.
    + intro H. apply (nth_ext _ _ 0%Z 0%Z); [lia|]. intros x Hx. apply H. lia.
    + intros ->. auto.
Qed.
Lemma lloyd_loop_ok M K N nit data : K <= N -> (0 < N -> 0 < K) -> (Z.of_nat K < no_center)%Z -> N * M <= length data -> bytes data ->
  forall fuel it cs asgn, it + fuel = nit + 1 -> 0 < fuel -> length cs = M * K -> length asgn = N -> bytes cs -> (0 < it -> are_means M K N data asgn cs) ->
  exists cs' asgn' done p, lloyd_loop fuel M K N nit data it cs asgn = Some (cs', asgn', done, p) /\ it <= p <= nit /\ (done = true \/ p = nit) /\
    length cs' = M * K /\ bytes cs' /\ length asgn' = N /\ all_first M K N data cs' asgn' /\ (done = true -> 0 < p -> are_means M K N data asgn' cs').
Proof.
  intros KN HK HB LD B. induction fuel as [|fuel IH]; intros it cs asgn F P LC LA Bc Am; [lia|]. cbn [lloyd_loop].
  destruct (lloyd_assign_ok M K N cs data asgn LD LC LA HK HB) as (a & done & -> & La & Fa & Dn). cbn [obind].
  destruct (done || (it =? nit)) eqn:E.
  - exists cs, a, done, it. split; [reflexivity|]. split; [lia|]. split.
    { apply orb_prop in E. destruct E as [E|E]; [now left|right]. now apply Nat.eqb_eq. }
    repeat split; try assumption. intros Dt Pi. rewrite (proj1 Dn Dt). now apply Am.
  - apply orb_false_elim in E. destruct E as [_ E]. apply Nat.eqb_neq in E.
    destruct (means_ok M K N data a KN LD La (all_first_labels _ _ _ _ _ _ Fa) B) as (cs1 & -> & L1 & A1 & B1). cbn [obind].
    destruct (IH (it + 1) cs1 a) as (cs2 & a2 & dn & p & H1 & H2 & H3); try assumption; try lia; [auto|].
    exists cs2, a2, dn, p. split; [assumption|]. split; [lia|assumption].
Qed.

(** ** Training by either method *)
Lemma train_ok f data N asgn : fK f <= N -> (0 < N -> 0 < fK f) -> (Z.of_nat (fK f) < no_center)%Z -> N * fM f <= length data -> bytes data ->
  ready f -> bytes (centers f) -> length asgn = N ->
  exists f' a done p, train f data N asgn = Some (f', a, done, p) /\
    elkan f' = elkan f /\ fM f' = fM f /\ fK f' = fK f /\ niters f' = niters f /\ ready f' /\ bytes (centers f') /\ p <= niters f /\ (done = true \/ p = niters f) /\
    length a = N /\ labels (fK f) N a /\ (elkan f = false -> all_first (fM f) (fK f) N data (centers f') a) /\
    (done = true -> (forall x, x < N -> nearest_at (fM f) (fK f) data (centers f') a x) /\
       (elkan f = true \/ 0 < p -> are_means (fM f) (fK f) N data a (centers f'))).
Proof.
  intros KN HK HB LD B [LC T] Bc LA. unfold train. destruct (elkan f) eqn:El.
  - destruct (elkan_train_ok (fM f) (fK f) N (niters f) data (centers f) (inter f) asgn KN HK LD B LC (proj1 (T eq_refl)) LA) as (cs & d & b & done & p & -> & H1 & H2 & H3 & H4 & H5 & H6 & H7 & H8).
    cbn [obind]. eexists _, _, _, _. split; [reflexivity|]. cbn [elkan fM fK niters centers inter]. do 4 (split; [reflexivity|]).
    split; [split; cbn [elkan fM fK niters centers inter]; [assumption|intros _; assumption]|].
    do 5 (split; [assumption|]). split; [discriminate|]. intro Dt. destruct (H8 Dt) as [A1 A2]. split; [assumption|]. intros _. exact A1.
  - destruct (lloyd_loop_ok (fM f) (fK f) N (niters f) data KN HK HB LD B (niters f + 1) 0 (centers f) asgn) as (cs & a & done & p & -> & H1 & H2 & H3 & H4 & H5 & H6 & H7); try assumption; try lia.
    cbn [obind]. eexists _, _, _, _. split; [reflexivity|]. cbn [elkan fM fK niters centers inter]. do 4 (split; [reflexivity|]).
    split; [split; cbn [elkan fM fK niters centers inter]; [assumption|discriminate]|].
    split; [assumption|]. split; [lia|]. do 2 (split; [assumption|]). split; [now apply (all_first_labels (fM f) (fK f) N data cs a)|]. split; [auto|].
    intro Dt. split.
    + intros x Hx. destruct (H6 x Hx) as (k & E & F). exists k. split; [assumption|]. split; apply F.
    + intros [X|X]; [discriminate|]. now apply H7.
Qed.

(** ** The initial centers *)
Definition row (M : nat) (l : list Z) (k : nat) : list Z := map (coord M l k) (seq 0 M).
Lemma row_eq M l k l' k' : row M l k = row M l' k' <-> forall i, i < M -> coord M l k i = coord M l' k' i.
Proof.
  unfold row. split.
  - intros E i L. apply (f_equal (fun r => nth i r 0%Z)) in E.
    rewrite (nth_indep _ 0%Z (coord M l k 0)), map_nth, (nth_indep _ 0%Z (coord M l' k' 0)), map_nth, seq_nth in E by (rewrite ?map_length, ?seq_length; assumption).
    exact E.
  - intro E. apply map_ext_in. intros i Hi. apply in_seq in Hi. apply E. lia.
Qed.
Lemma dup_ok M K cs data k p N : N * M <= length data -> length cs = M * K -> k <= K -> p < N ->
  exists d, dup M cs data k (p * M) = Some d /\ (d = true <-> exists c, c < k /\ row M cs c = row M data p).
Proof.
  intros LD LC Hk Hp. unfold dup.
  match goal with |- context [iter k ?f ?s] => destruct (iter_inv (fun j (d : bool) => d = true <-> exists c, c < j /\ row M cs c = row M data p) f k s) as (d & -> & I) end.
  - split; [discriminate|]. intros (c & L & _). lia.
  - intros j d Lj I. cbv beta. rewrite Nat.add_1_r. destruct d.
    + exists true. split; [reflexivity|]. split; [|reflexivity]. intros _. destruct (proj1 I eq_refl) as (c & L & E). exists c. split; [lia|assumption].
    + rewrite dist2_ok by (pose proof (row_fits M K j); nia). cbn [obind]. eexists. split; [reflexivity|].
      change (fun i => nth (j * M + i) cs 0%Z) with (coord M cs j). change (fun i => nth (p * M + i) data 0%Z) with (coord M data p). rewrite Z.eqb_eq. split.
      * intro E. exists j. split; [lia|]. apply row_eq. now apply sqdist_zero.
      * intros (c & L & E). assert (c = j).
        { destruct (Nat.eq_dec c j) as [->|]; [reflexivity|]. assert (false = true); [|discriminate]. apply I. exists c. split; [lia|assumption]. }
        subst c. pose proof (proj1 (row_eq _ _ _ _ _) E) as E'. rewrite (sqdist_ext M _ (coord M data p) _ (coord M data p)) by auto. apply sqdist_self.
  - exists d. split; [reflexivity|exact I].
Qed.
Definition taken (M : nat) (cs data : list Z) (k p : nat) : Prop := exists c, c < k /\ row M cs c = row M data p.
Lemma search_ok M K cs data order N k : N * M <= length data -> length cs = M * K -> k <= K -> permutes N order -> 0 < N -> forall fuel j, j <= N - 1 -> N - j <= fuel -> 0 < fuel ->
  exists j', search fuel M cs data order (Z.of_nat N - 1) k j = Some j' /\ j <= j' <= N - 1 /\
    (forall q, j <= q -> q < j' -> taken M cs data k (nth q order 0)) /\ (j' < N - 1 -> ~ taken M cs data k (nth j' order 0)).
Proof.
  intros LD LC Hk (Lo & _ & Ho) HN. induction fuel as [|fuel IH]; intros j Lj F P; [lia|]. cbn [search].
  destruct (Z.ltb_spec (Z.of_nat j) (Z.of_nat N - 1)) as [L|L].
  - rewrite (aget_nth order _ 0) by lia. cbn [obind]. assert (Hp : nth j order 0 < N) by (apply Ho, nth_In; lia).
    destruct (dup_ok M K cs data k (nth j order 0) N LD LC Hk Hp) as (d & -> & Dp). cbn [obind]. destruct d.
    + destruct (IH (j + 1)) as (j' & E & R1 & R2 & R3); try lia. exists j'. split; [exact E|]. split; [lia|]. split; [|exact R3].
      intros q A B. destruct (Nat.eq_dec q j) as [->|]; [now apply Dp|]. apply R2; lia.
    + exists j. split; [reflexivity|]. split; [lia|]. split; [lia|]. intros _ T. apply Dp in T. discriminate.
  - exists j. split; [reflexivity|]. split; [lia|]. split; lia.
Qed.
Lemma copy_row_ok M K cs data k p N : N * M <= length data -> length cs = M * K -> k < K -> p < N ->
  exists cs', iter M (fun i cs => do v <- aget data (p * M + i); aset cs (k * M + i) v) cs = Some cs' /\ length cs' = M * K /\
    row M cs' k = row M data p /\ forall c, c < K -> c <> k -> row M cs' c = row M cs c.
Proof.
  intros LD LC Hk Hp.
  match goal with |- context [iter M ?f ?s] => destruct (iter_inv (fun j (t : list Z) => length t = M * K /\
    forall c i, c < K -> i < M -> coord M t c i = if (c =? k) && (i <? j) then coord M data p i else coord M cs c i) f M s) as (t & -> & I1 & I2) end.
  - split; [assumption|]. intros. change (i <? 0) with false. now rewrite andb_false_r.
  - intros i t Li [I1 I2]. cbv beta. rewrite Nat.add_1_r. rewrite (aget_nth data _ 0%Z) by nia. cbn [obind]. pose proof (cell_row M K k i Hk Li). rewrite aset_lt by lia.
    eexists. split; [reflexivity|]. rewrite upd_length. split; [assumption|]. intros c i' Hc Hi. fold (coord M data p i). rewrite (coord_upd M K) by assumption.
    rewrite I2 by assumption. destruct (Nat.eqb_spec c k) as [->|]; cbn [andb]; [|reflexivity].
    destruct (Nat.ltb_spec i' i); destruct (Nat.ltb_spec i' (S i)); destruct (Nat.eqb_spec i' i) as [Ei|]; try subst i'; try lia; reflexivity.
  - exists t. split; [reflexivity|]. split; [assumption|]. split.
    + apply row_eq. intros i Li. rewrite I2 by assumption. rewrite Nat.eqb_refl. destruct (Nat.ltb_spec i M); [reflexivity|lia].
    + intros c Hc Ne. apply row_eq. intros i Li. rewrite I2 by assumption. now destruct (Nat.eqb_spec c k).
Qed.

Definition distinct (M : nat) (cs : list Z) (k : nat) : Prop := NoDup (map (row M cs) (seq 0 k)).
Lemma distinct_ext M cs cs' k : (forall c, c < k -> row M cs' c = row M cs c) -> distinct M cs k -> distinct M cs' k.
Proof.
  intros E. unfold distinct. replace (map (row M cs') (seq 0 k)) with (map (row M cs) (seq 0 k)); [auto|].
  apply map_ext_in. intros c Hc. apply in_seq in Hc. symmetry. apply E. lia.
Qed.
Lemma distinct_S M cs k p data : distinct M cs k -> row M cs k = row M data p -> ~ taken M cs data k p -> distinct M cs (S k).
Proof.
  intros Dk E T. unfold distinct. rewrite seq_S, map_app. cbn [map Nat.add]. apply nodup_app; [assumption|repeat constructor; auto|].
  intros r Hr [<-|[]]. apply in_map_iff in Hr. destruct Hr as (c & Er & Hc). apply in_seq in Hc. apply T. exists c. split; [lia|]. congruence.
Qed.
Lemma perm_all N order p : permutes N order -> p < N -> exists q, q < N /\ nth q order 0 = p.
Proof.
  intros (L & ND & H) Hp. assert (I : incl (seq 0 N) order).
  { apply NoDup_length_incl; [assumption|rewrite seq_length; lia|]. intros q Hq. apply in_seq. specialize (H q Hq). lia. }
  assert (Hin : In p order) by (apply I, in_seq; lia). apply (In_nth _ _ 0) in Hin. destruct Hin as (q & Lq & E). exists q. split; [lia|assumption].
Qed.
Lemma init_rand_centers M N K data order : (0 < K -> 0 < N) -> N * M <= length data -> permutes N order ->
  exists cs j, iter K (pick M N data order) (repeat 0%Z (M * K), 0) = Some (cs, j) /\ length cs = M * K /\
    (forall c, c < K -> exists p, p < N /\ row M cs c = row M data p) /\
    ((exists ps, length ps = K /\ NoDup (map (row M data) ps) /\ forall p, In p ps -> p < N) -> distinct M cs K).
Proof.
  intros HN LD PO.
  match goal with |- context [iter K ?f ?s] => destruct (iter_inv (fun k (st : list Z * nat) => let (cs, j) := st in length cs = M * K /\ j <= N - 1 /\
    (forall c, c < k -> exists p, p < N /\ row M cs c = row M data p) /\ (forall q, q < j -> taken M cs data k (nth q order 0)) /\
    (distinct M cs k \/ exists k0, k0 < k /\ forall p, p < N -> taken M cs data k0 p)) f K s) as ([cs j] & -> & I1 & I2 & I3 & I4 & I5) end.
  - cbv beta iota. rewrite repeat_length. split; [reflexivity|]. split; [lia|]. split; [lia|]. split; [lia|]. left. constructor.
  - intros k [cs j] Hk (I1 & I2 & I3 & I4 & I5). assert (HN' : 0 < N) by (apply HN; lia). unfold pick. cbv beta iota zeta. rewrite !Nat.add_1_r.
    destruct (Nat.eqb_spec N 0); [lia|].
    destruct (search_ok M K cs data order N k LD I1 ltac:(lia) PO HN' (S N) j I2 ltac:(lia) ltac:(lia)) as (j' & -> & [R0 R1] & R2 & R3). cbn [obind].
    destruct PO as (Lo & NDo & Ho). rewrite (aget_nth order _ 0) by lia. cbn [obind]. set (p := nth j' order 0) in *. assert (Hp : p < N) by (apply Ho, nth_In; lia).
    destruct (copy_row_ok M K cs data k p N LD I1 Hk Hp) as (cs' & E & L' & Rk & Ro).
    match goal with |- context [iter M ?f cs] => replace (iter M f cs) with (Some cs') by (symmetry; exact E) end. cbn [obind]. clear E.
    assert (TK : forall k0 q, k0 <= k -> taken M cs data k0 q -> taken M cs' data k0 q).
    { intros k0 q L0 (c & Lc & Ec). exists c. split; [assumption|]. rewrite Ro by lia. assumption. }
    eexists. split; [reflexivity|]. cbv beta iota. split; [assumption|]. split; [destruct (Z.ltb_spec (Z.of_nat j') (Z.of_nat N - 1)); lia|]. split; [|split].
    + intros c Hc. destruct (Nat.eq_dec c k) as [->|]; [exists p; auto|]. rewrite Ro by lia. apply I3. lia.
    + assert (C' : forall q, q < j' -> taken M cs' data k (nth q order 0)).
      { intros q Hq. apply TK; [lia|]. destruct (Nat.lt_ge_cases q j); [now apply I4|apply R2; lia]. }
      assert (W : forall q, taken M cs' data k q -> taken M cs' data (S k) q) by (intros q (c & Lc & Ec); exists c; split; [lia|assumption]).
      intros q Hq. destruct (Nat.eq_dec q j') as [->|]; [exists k; split; [lia|exact Rk]|]. apply W, C'.
      destruct (Z.ltb_spec (Z.of_nat j') (Z.of_nat N - 1)); lia.
    + destruct I5 as [Dk|(k0 & L0 & T0)]; [|right; exists k0; split; [lia|intros; apply TK; [lia|now apply T0]]].
      assert (Dk' : distinct M cs' k) by (apply (distinct_ext M cs); [intros; apply Ro; lia|assumption]).
      assert (DT : {taken M cs data k p} + {~ taken M cs data k p}).
      { destruct (in_dec (list_eq_dec Z.eq_dec) (row M data p) (map (row M cs) (seq 0 k))) as [H|H].
        - left. apply in_map_iff in H. destruct H as (c & Ec & Hc). apply in_seq in Hc. exists c. split; [lia|assumption].
        - right. intros (c & Lc & Ec). apply H. rewrite <- Ec. apply in_map, in_seq. lia. }
      destruct DT as [T|T].
      * right. exists k. split; [lia|]. assert (j' = N - 1) by (destruct (Nat.eq_dec j' (N - 1)); [assumption|exfalso; apply R3; [lia|exact T]]). subst j'.
        intros p' Hp'. apply TK; [lia|]. destruct (perm_all N order p' (conj Lo (conj NDo Ho)) Hp') as (q & Hq & <-).
        destruct (Nat.eq_dec q (N - 1)) as [->|]; [exact T|]. destruct (Nat.lt_ge_cases q j); [now apply I4|apply R2; lia].
      * left. apply (distinct_S M cs' k p data Dk' Rk). intros (c & Lc & Ec). apply T. exists c. split; [assumption|]. now rewrite <- Ro by lia.
  - exists cs, j. split; [reflexivity|]. split; [assumption|]. split; [assumption|].
    intros (ps & Lp & NDp & Hp). destruct I5 as [Dk|(k0 & L0 & T0)]; [assumption|exfalso].
    assert (X : length (map (row M data) ps) <= length (map (row M cs) (seq 0 k0))).
    { apply NoDup_incl_length; [assumption|]. intros r Hr. apply in_map_iff in Hr. destruct Hr as (p & <- & Hin).
      destruct (T0 p (Hp p Hin)) as (c & Lc & Ec). rewrite <- Ec. apply in_map, in_seq. lia. }
    rewrite !map_length, seq_length in X. lia.
Qed.
Lemma init_ok el cs M K nit junk : length cs = M * K -> length junk = K * K -> exists f, init el cs M K nit junk = Some f /\ ready f /\ elkan f = el /\ fM f = M /\ fK f = K /\ centers f = cs /\ niters f = nit.
Proof.
  intros LC LJ. unfold init. destruct el.
  - destruct (update_inter_ok M K cs junk LC LJ) as (d & -> & Cur). cbn [obind]. eexists. split; [reflexivity|]. split; [split; [assumption|intros _; assumption]|]. repeat split.
  - eexists. split; [reflexivity|]. split; [split; [assumption|discriminate]|]. repeat split.
Qed.
Lemma init_rand_data_ok el data M N K nit order junk : (0 < K -> 0 < N) -> N * M <= length data -> permutes N order -> length junk = K * K ->
  exists f, init_rand_data el data M N K nit order junk = Some f /\ ready f /\ elkan f = el /\ fM f = M /\ fK f = K /\ niters f = nit /\
    (forall c, c < K -> exists p, p < N /\ row M (centers f) c = row M data p) /\
    ((exists ps, length ps = K /\ NoDup (map (row M data) ps) /\ forall p, In p ps -> p < N) -> distinct M (centers f) K).
Proof.
  intros HN LD PO LJ. unfold init_rand_data. destruct (init_rand_centers M N K data order HN LD PO) as (cs & j & -> & LC & H1 & H2). cbn [obind].
  destruct (init_ok el cs M K nit junk LC LJ) as (f & -> & R & E1 & E2 & E3 & E4 & E5). exists f. split; [reflexivity|]. rewrite E4. auto 10.
Qed.
Lemma rows_bytes M N K cs data : length cs = M * K -> bytes data -> (forall c, c < K -> exists p, p < N /\ row M cs c = row M data p) -> bytes cs.
Proof.
  intros LC B H. apply (bytes_nth M K); [assumption|]. intros c i Hc Hi. destruct (H c Hc) as (p & _ & E).
  rewrite (proj1 (row_eq _ _ _ _ _) E i Hi). now apply byte_nth.
Qed.
