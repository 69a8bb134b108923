(** Proofs about the LIOP permutation index. *)
From Coq Require Import List Arith ZArith Lia Bool Permutation.
From Verif Require Import Base Loop MserSort_Proofs Liop_Model Liop_Spec.
Import ListNotations.

Lemma factorial_loop_ok : forall fuel num result, num <= fuel -> factorial_loop fuel num result = fact num * result.
Proof.
  induction fuel as [|fuel IH]; intros num result L; cbn [factorial_loop].
  - replace num with 0 by lia. cbn. lia.
  - destruct (Nat.ltb_spec 1 num) as [X|X].
    + rewrite IH by lia. destruct num as [|n]; [lia|]. rewrite Nat.sub_succ, Nat.sub_0_r. cbn [fact]. lia.
    + destruct num as [|[|]]; [cbn; lia|cbn; lia|lia].
Qed.
Lemma factorial_ok n : factorial n = fact n.
Proof. unfold factorial. rewrite factorial_loop_ok by lia. lia. Qed.
Lemma fact_pos n : 0 < fact n.
Proof. induction n; cbn [fact]; nia. Qed.

Definition gap (x y : nat) : nat := if x <? y then y - 1 else y.

Fixpoint rank (n acc : nat) (p : list nat) : nat :=
  match n, p with
  | S n', x :: t => rank n' (acc * n + x) (map (gap x) t)
  | _, _ => acc
  end.

(** ** the loops compute the rank *)
Lemma close_gaps (i size : nat) (p : list nat) x : i < size -> length p = size -> nth i p 0 = x ->
  exists p', iter_from (size - (i + 1)) (i + 1) (close_gap i) p = Some p' /\ length p' = size /\
    forall k, k < size -> nth k p' 0 = if i <? k then gap x (nth k p 0) else nth k p 0.
Proof.
  intros Li Lp Ex.
  destruct (iter_from_inv (fun j p' => length p' = size /\
     forall k, k < size -> nth k p' 0 = if (i <? k) && (k <? j) then gap x (nth k p 0) else nth k p 0)
     (close_gap i) size (size - (i + 1)) (i + 1) p) as (p' & E & L & V).
  - lia.
  - split; [exact Lp|]. intros k Lk. destruct (Nat.ltb_spec i k), (Nat.ltb_spec k (i + 1)); try lia; reflexivity.
  - intros j q L1 L2 (L & V). unfold close_gap.
    rewrite (aget_nth q j 0) by lia. cbn [obind]. rewrite (aget_nth q i 0) by lia. cbn [obind].
    rewrite !V by lia. replace ((i <? i) && (i <? j)) with false by (rewrite Nat.ltb_irrefl; reflexivity).
    replace ((i <? j) && (j <? j)) with false by (rewrite Nat.ltb_irrefl, andb_false_r; reflexivity).
    rewrite Ex.
    assert (S : forall k, k < size -> k <> j ->
       ((i <? k) && (k <? j)) = ((i <? k) && (k <? j + 1))).
    { intros k Lk N. f_equal. destruct (Nat.ltb_spec k j), (Nat.ltb_spec k (j + 1)); lia. }
    assert (T : (i <? j) && (j <? j + 1) = true)
      by (apply andb_true_iff; split; apply Nat.ltb_lt; lia).
    destruct (x <? nth j p 0) eqn:X.
    + rewrite aset_lt by lia. eexists; split; [reflexivity|]. split; [rewrite upd_length; exact L|].
      intros k Lk. rewrite nth_upd by lia. destruct (Nat.eqb_spec k j) as [->|N].
      * rewrite T. unfold gap. now rewrite X.
      * rewrite V by lia. now rewrite S.
    + eexists; split; [reflexivity|]. split; [exact L|]. intros k Lk. rewrite V by lia.
      destruct (Nat.eq_dec k j) as [->|N]; [|now rewrite S].
      rewrite T. rewrite Nat.ltb_irrefl, andb_false_r. unfold gap. now rewrite X.
  - exists p'. split; [exact E|]. split; [exact L|]. intros k Lk. rewrite V by exact Lk.
    destruct (Nat.ltb_spec k size); [|lia]. now rewrite andb_true_r.
Qed.

Lemma skipn_map_gap (i : nat) (p p' : list nat) x : length p' = length p -> 
  (forall k, i <= k -> k < length p -> nth k p' 0 = gap x (nth k p 0)) ->
  skipn i p' = map (gap x) (skipn i p).
Proof.
  intros L V. apply nth_ext with (d := 0) (d' := gap x 0).
  - rewrite map_length, !skipn_length. lia.
  - intros k Lk. rewrite skipn_length in Lk. rewrite map_nth.
    assert (X : forall (l : list nat) d, nth k (skipn i l) d = nth (i + k) l d).
    { clear. revert k. induction i as [|i IH]; intros k l d; [reflexivity|].
      destruct l; [now destruct k|]. cbn [skipn]. rewrite IH. reflexivity. }
    rewrite !X. apply V; lia.
Qed.

Lemma index_loop (size : nat) : forall k i acc p, i + k = size -> length p = size ->
  exists q, iter_from k i (index_step size) (acc, p) = Some (rank k acc (skipn i p), q).
Proof.
  induction k as [|k IH]; intros i acc p E Lp; cbn [iter_from].
  - exists p. cbn [rank]. destruct (skipn i p); reflexivity.
  - unfold index_step at 1. rewrite (aget_nth p i 0) by lia. cbn [obind].
    destruct (close_gaps i size p (nth i p 0)) as (p' & E1 & L1 & V1); [lia|auto|reflexivity|].
    rewrite E1. cbn [obind].
    destruct (IH (i + 1) (acc * (size - i) + nth i p 0) p') as (q & Eq); [lia|auto|].
    exists q. rewrite Eq. f_equal. f_equal.
    assert (X : skipn i p = nth i p 0 :: skipn (i + 1) p).
    { assert (Li : i < length p) by lia. clear - Li. revert i Li. induction p as [|a p IH]; intros [|i] L; cbn in *; try lia; auto.
      rewrite Nat.add_comm in *. cbn. rewrite IH by lia. now rewrite Nat.add_comm. }
    rewrite X. cbn [rank]. replace (S k) with (size - i) by lia. f_equal.
    apply skipn_map_gap; [lia|]. intros j L2 L3. rewrite V1 by lia.
    destruct (Nat.ltb_spec i j); [reflexivity|lia].
Qed.

Lemma permutation_index_rank p size : length p = size -> permutation_index p size = Some (rank size 0 p).
Proof.
  intro L. unfold permutation_index, iter. destruct (index_loop size size 0 0 p eq_refl L) as (q & E).
  rewrite E. reflexivity.
Qed.

(** ** the rank of a permutation *)
Lemma rank_acc n : forall acc p, length p = n -> rank n acc p = acc * fact n + rank n 0 p.
Proof.
  induction n as [|n IH]; intros acc p L; destruct p as [|x t]; try discriminate; [cbn; lia|].
  cbn [rank]. rewrite (IH (acc * S n + x)) by (rewrite map_length; cbn in L; lia).
  rewrite (IH (0 * S n + x)) by (rewrite map_length; cbn in L; lia). cbn [fact]. lia.
Qed.
Lemma rank_cons n x t : length t = n -> rank (S n) 0 (x :: t) = x * fact n + rank n 0 (map (gap x) t).
Proof. intro L. cbn [rank]. rewrite rank_acc by (rewrite map_length; exact L). lia. Qed.

Lemma is_perm_iff n p : is_perm n p <-> NoDup p /\ length p = n /\ (forall y, In y p -> y < n).
Proof.
  unfold is_perm. split.
  - intro P. split; [apply (Permutation_NoDup (Permutation_sym P)), seq_NoDup|].
    split; [rewrite (Permutation_length P), seq_length; reflexivity|].
    intros y I. apply (Permutation_in _ P) in I. apply in_seq in I. lia.
  - intros (N & L & B). apply NoDup_Permutation_bis; auto.
    + rewrite seq_length. lia.
    + intros y I. apply in_seq. specialize (B y I). lia.
Qed.

Lemma gap_inj x y z : y <> x -> z <> x -> gap x y = gap x z -> y = z.
Proof. unfold gap. destruct (Nat.ltb_spec x y), (Nat.ltb_spec x z); lia. Qed.
Lemma gap_lt x y z : y <> x -> z <> x -> y < z -> gap x y < gap x z.
Proof. unfold gap. destruct (Nat.ltb_spec x y), (Nat.ltb_spec x z); lia. Qed.

Lemma is_perm_tail n x t : is_perm (S n) (x :: t) -> x <= n /\ length t = n /\ ~ In x t /\ is_perm n (map (gap x) t).
Proof.
  rewrite !is_perm_iff. intros (N & L & B). inversion N as [|? ? Nx Nt]; subst.
  assert (Lx : x < S n) by (apply B; left; reflexivity).
  split; [lia|]. split; [cbn in L; lia|]. split; [exact Nx|]. split; [|split].
  - clear - Nx Nt. induction t as [|y t IH]; [constructor|]. cbn. inversion Nt; subst. constructor.
    + intro I. apply in_map_iff in I as (z & E & Iz).
      assert (y = z); [|subst; contradiction].
      apply gap_inj with (x := x); [intro; subst; apply Nx; left; auto|intro; subst; apply Nx; right; auto|auto].
    + apply IH; auto. intro I. apply Nx. right. exact I.
  - rewrite map_length. cbn in L. lia.
  - intros y I. apply in_map_iff in I as (z & <- & Iz). specialize (B z (or_intror Iz)).
    assert (z <> x) by (intro; subst; contradiction). unfold gap. destruct (Nat.ltb_spec x z); lia.
Qed.

Lemma rank_bound n : forall p, is_perm n p -> rank n 0 p < fact n.
Proof.
  induction n as [|n IH]; intros p P.
  - assert (length p = 0) by (apply is_perm_iff in P; tauto). destruct p; [cbn; lia|discriminate].
  - destruct p as [|x t]; [apply is_perm_iff in P; destruct P as (_ & X & _); discriminate|].
    destruct (is_perm_tail n x t P) as (Lx & Lt & _ & P'). rewrite rank_cons by exact Lt.
    specialize (IH _ P'). cbn [fact]. nia.
Qed.

Lemma lex_map x p q : lex_lt p q -> ~ In x p -> ~ In x q -> lex_lt (map (gap x) p) (map (gap x) q).
Proof.
  induction 1 as [a b p q L|a p q L IH]; intros Np Nq; cbn [map].
  - apply lex_here. apply gap_lt; [intro; subst; apply Np; left; auto|intro; subst; apply Nq; left; auto|exact L].
  - apply lex_next. apply IH; intro I; [apply Np|apply Nq]; right; exact I.
Qed.

Lemma rank_mono n : forall p q, is_perm n p -> is_perm n q -> lex_lt p q -> rank n 0 p < rank n 0 q.
Proof.
  induction n as [|n IH]; intros p q P Q L.
  - assert (length p = 0) by (apply is_perm_iff in P; tauto). destruct p; [inversion L|discriminate].
  - inversion L as [x y t u Lxy|x t u Ltu]; subst.
    + destruct (is_perm_tail n x t P) as (Lx & Lt & _ & P'). destruct (is_perm_tail n y u Q) as (Ly & Lu & _ & Q').
      rewrite !rank_cons by auto. pose proof (rank_bound n _ P'). nia.
    + destruct (is_perm_tail n x t P) as (Lx & Lt & Nt & P'). destruct (is_perm_tail n x u Q) as (_ & Lu & Nu & Q').
      rewrite !rank_cons by auto. specialize (IH _ _ P' Q' (lex_map x t u Ltu Nt Nu)). lia.
Qed.

Lemma lex_total : forall p q, length p = length q -> p = q \/ lex_lt p q \/ lex_lt q p.
Proof.
  induction p as [|x p IH]; intros [|y q] L; try discriminate; [left; reflexivity|].
  destruct (Nat.lt_trichotomy x y) as [H|[H|H]].
  - right. left. now apply lex_here.
  - subst. injection L as L. destruct (IH q L) as [->|[H|H]].
    + left. reflexivity.
    + right. left. now apply lex_next.
    + right. right. now apply lex_next.
  - right. right. now apply lex_here.
Qed.

Lemma rank_lex n p q : is_perm n p -> is_perm n q -> (rank n 0 p < rank n 0 q <-> lex_lt p q).
Proof.
  intros P Q. split; [|now apply rank_mono]. intro L.
  destruct (lex_total p q) as [->|[X|X]].
  - apply is_perm_iff in P, Q. lia.
  - lia.
  - exact X.
  - pose proof (rank_mono n q p Q P X). lia.
Qed.

Lemma rank_inj n p q : is_perm n p -> is_perm n q -> rank n 0 p = rank n 0 q -> p = q.
Proof.
  intros P Q E. destruct (lex_total p q) as [X|[X|X]]; auto.
  - apply is_perm_iff in P, Q. lia.
  - pose proof (rank_mono n p q P Q X). lia.
  - pose proof (rank_mono n q p Q P X). lia.
Qed.

Definition open_gap (x y : nat) : nat := if y <? x then y else y + 1.
Lemma gap_open x y : gap x (open_gap x y) = y.
Proof. unfold gap, open_gap. destruct (Nat.ltb_spec y x); [destruct (Nat.ltb_spec x y)|destruct (Nat.ltb_spec x (y + 1))]; lia. Qed.

Lemma rank_onto n : forall r, r < fact n -> exists p, is_perm n p /\ rank n 0 p = r.
Proof.
  induction n as [|n IH]; intros r L.
  - exists []. split; [apply Permutation_refl|]. cbn in *. lia.
  - pose proof (fact_pos n) as F. cbn [fact] in L.
    destruct (IH (r mod fact n)) as (t & P & E); [apply Nat.mod_upper_bound; lia|].
    set (x := r / fact n). assert (Lx : x < S n) by (apply Nat.div_lt_upper_bound; lia).
    exists (x :: map (open_gap x) t). apply is_perm_iff in P as (N & Lt & B). split.
    + apply is_perm_iff. split; [|split].
      * constructor.
        -- intro I. apply in_map_iff in I as (y & Ey & _). unfold open_gap in Ey.
           destruct (Nat.ltb_spec y x); lia.
        -- clear - N. induction N as [|y t Ny N IH]; [constructor|]. cbn. constructor; [|exact IH].
           intro I. apply in_map_iff in I as (z & Ez & Iz). assert (z = y); [|subst; contradiction].
           rewrite <- (gap_open x z), <- (gap_open x y). now rewrite Ez.
      * cbn. rewrite map_length. lia.
      * intros y [<-|I]; [exact Lx|]. apply in_map_iff in I as (z & <- & Iz). specialize (B z Iz).
        unfold open_gap. destruct (Nat.ltb_spec z x); lia.
    + rewrite rank_cons by (rewrite map_length; exact Lt). rewrite map_map.
      rewrite (map_ext _ (fun y => y)) by (intro; apply gap_open). rewrite map_id, E.
      pose proof (Nat.div_mod r (fact n) ltac:(lia)). unfold x. lia.
Qed.

(** ** the histogram *)

Lemma liop_process_ok (neighbours bins patch_size : nat) (perm : nat -> list nat) (weight : nat -> Z) :
  0 < bins -> (forall i, i < patch_size -> is_perm neighbours (perm i)) ->
  exists desc, liop_process neighbours bins patch_size perm weight = Some desc /\
    length desc = fact neighbours * bins /\
    forall b p, b < bins -> is_perm neighbours p ->
      nth (b * fact neighbours + rank neighbours 0 p) desc 0%Z =
      weighted_count patch_size (fun i => (spatial_bin bins (patch_size / bins) i =? b) &&
        if list_eq_dec Nat.eq_dec (perm i) p then true else false) weight.
Proof.
  intros Hb Hp. unfold liop_process. destruct (Nat.eqb_spec bins 0); [lia|].
  set (area := patch_size / bins). set (F := fact neighbours).
  assert (PF : 0 < F) by apply fact_pos. rewrite factorial_ok. fold F.
  destruct (iter_inv (fun i '(bend, bindex, offset, desc) =>
     bend = (bindex + 1) * area /\ offset = bindex * F /\ bindex < bins /\
     (0 < i -> bindex = spatial_bin bins area (i - 1)) /\ (i = 0 -> bindex = 0) /\
     length desc = F * bins /\
     forall b p, b < bins -> is_perm neighbours p ->
      nth (b * F + rank neighbours 0 p) desc 0%Z =
      weighted_count i (fun i => (spatial_bin bins area i =? b) &&
        if list_eq_dec Nat.eq_dec (perm i) p then true else false) weight)
    (pixel_step neighbours bins area perm weight) patch_size (area, 0, 0, repeat 0%Z (F * bins)))
    as ([[[bend bindex] offset] desc] & E & _ & _ & _ & _ & _ & L & V).
  - split; [lia|]. split; [lia|]. split; [lia|]. split; [lia|]. split; [reflexivity|].
    split; [apply repeat_length|]. intros b p _ _. cbn [weighted_count]. apply nth_repeat.
  - intros i [[[bend bindex] offset] desc] Li (-> & -> & Lb & Hs & H0 & L & V). unfold pixel_step.
    set (adv := ((bindex + 1) * area <=? i) && (Z.of_nat bindex <? Z.of_nat bins - 1)%Z).
    set (b' := if adv then bindex + 1 else bindex).
    assert (Eb : b' = spatial_bin bins area i).
    { unfold b', adv, spatial_bin.
      destruct (Nat.eqb_spec area 0) as [A0|A0].
      - rewrite A0, Nat.mul_0_r. cbn [Nat.leb andb].
        destruct (Nat.eq_dec i 0) as [->|Ni].
        + rewrite (H0 eq_refl). destruct (Z.ltb_spec (Z.of_nat 0) (Z.of_nat bins - 1)); lia.
        + specialize (Hs ltac:(lia)). unfold spatial_bin in Hs. rewrite A0 in Hs. cbn [Nat.eqb] in Hs.
          destruct (Z.ltb_spec (Z.of_nat bindex) (Z.of_nat bins - 1)); lia.
      - destruct (Nat.eq_dec i 0) as [->|Ni].
        + rewrite (H0 eq_refl). rewrite Nat.div_0_l by exact A0.
          destruct (Nat.leb_spec ((0 + 1) * area) 0); [lia|]. cbn [andb]. lia.
        + specialize (Hs ltac:(lia)). unfold spatial_bin in Hs.
          destruct (Nat.eqb_spec area 0); [contradiction|].
          pose proof (Nat.div_mod (i - 1) area A0) as D1. pose proof (Nat.mod_upper_bound (i - 1) area A0) as U1.
          pose proof (Nat.div_mod i area A0) as D2. pose proof (Nat.mod_upper_bound i area A0) as U2.
          assert (M1 : (i - 1) / area <= i / area) by (apply Nat.div_le_mono; lia).
          assert (M2 : i / area <= (i - 1) / area + 1).
          { apply Nat.lt_succ_r. apply Nat.div_lt_upper_bound; [exact A0|]. nia. }
          destruct (Z.ltb_spec (Z.of_nat bindex) (Z.of_nat bins - 1)) as [Z1|Z1].
          * assert (X : bindex = (i - 1) / area) by lia.
            destruct (Nat.leb_spec ((bindex + 1) * area) i) as [Y|Y]; cbn [andb].
            -- assert (bindex + 1 <= i / area); [|lia].
               apply Nat.div_le_lower_bound; [exact A0|lia].
            -- assert (i / area < bindex + 1); [|lia].
               apply Nat.div_lt_upper_bound; [exact A0|lia].
          * rewrite andb_false_r. lia. }
    assert (Ln : length (perm i) = neighbours) by (specialize (Hp i Li); apply is_perm_iff in Hp; tauto).
    assert (Lb' : b' < bins).
    { rewrite Eb. unfold spatial_bin. lia. }
    pose proof (rank_bound neighbours (perm i) (Hp i Li)) as Lr. fold F in Lr.
    set (r := rank neighbours 0 (perm i)) in *.
    assert (Lpos : r + b' * F < length desc) by (rewrite L; nia).
    assert (Ep : (if adv then ((bindex + 1) * area + area, bindex + 1, bindex * F + factorial neighbours)
                  else ((bindex + 1) * area, bindex, bindex * F)) = ((b' + 1) * area, b', b' * F)).
    { rewrite factorial_ok. fold F. unfold b'. destruct adv; (apply f_equal2; [apply f_equal2|]); lia. }
    rewrite Ep. rewrite permutation_index_rank by exact Ln. cbn [obind]. fold r.
    rewrite (aget_nth desc _ 0%Z) by exact Lpos. cbn [obind]. rewrite aset_lt by exact Lpos. cbn [obind].
    eexists; split; [reflexivity|].
    split; [reflexivity|]. split; [reflexivity|]. split; [exact Lb'|].
    split; [intros _; rewrite Nat.add_sub; exact Eb|]. split; [lia|].
    split; [rewrite upd_length; exact L|].
    intros b p Lbb P. rewrite nth_upd by exact Lpos. rewrite Nat.add_1_r. cbn [weighted_count].
    rewrite <- (V b p Lbb P). rewrite <- Eb.
    pose proof (rank_bound neighbours p P) as Lp. fold F in Lp.
    destruct (Nat.eqb_spec (b * F + rank neighbours 0 p) (r + b' * F)) as [X|X].
    + assert (b = b') by nia. subst b. assert (rank neighbours 0 p = r) by lia.
      rewrite Nat.eqb_refl. cbn [andb].
      destruct (list_eq_dec Nat.eq_dec (perm i) p) as [Y|Y].
      * f_equal. f_equal. lia.
      * destruct Y. apply (rank_inj neighbours); auto.
    + destruct (Nat.eqb_spec b' b) as [->|]; cbn [andb]; [|lia].
      destruct (list_eq_dec Nat.eq_dec (perm i) p) as [Y|Y]; [|lia].
      exfalso. apply X. unfold r. rewrite Y. lia.
  - rewrite E. cbn [obind]. exists desc. split; [reflexivity|]. split; [exact L|exact V].
Qed.
