(** Proofs about orientations and Laplacian scales. *)
From Coq Require Import List Arith ZArith Lia Bool QArith Qcanon Qcabs Permutation.
From Verif Require Import Base Loop Rat Gauss_Model Gauss_Proofs MserSort_Proofs Kmeans_Spec ImOp_Spec Homker_Proofs KmeansEnergy_Proofs Sift_Model Sift_Proofs SiftDescr_Model SiftDescr_Spec SiftDescr_Proofs
  CovdetOri_Model CovdetOri_Spec.
Import ListNotations.
Local Open Scope nat_scope.
Local Notation "l @ i" := (nth i l 0%Qc) (at level 9).

Lemma vote_ok pi m a w hist : (0 < pi)%Qc -> length hist = 36 -> (0 <= a)%Qc -> (a <= nq 2 * pi)%Qc ->
  exists hist', vote pi m a w hist = Some hist' /\ adds 36 (fun b => (m * w * tent (wrap 36 (nq 36 * a / (nq 2 * pi) - nq b)))%Qc) hist hist'.
Proof.
  intros Hp L A0 A1. unfold vote, bin_extent. assert (NP : pi <> 0%Qc) by now apply qc_pos_neq.
  replace (a / (nq 2 * pi / nq 36))%Qc with (nq 36 * a / (nq 2 * pi))%Qc by (field; repeat split; auto; discriminate).
  destruct (scaled_angle a pi 36 Hp A0 A1) as [S0 S1]. set (t := (nq 36 * a / (nq 2 * pi))%Qc) in *. cbv zeta. set (f := qfloor t).
  assert (Hf : (0 <= f < 37)%Z) by (apply floor_range; [exact S0|]; apply Qcle_lt_trans with (nq 36); [exact S1|reflexivity]).
  assert (R1 : Z.rem (f + 36) 36 = (f mod 36)%Z) by (rewrite Z.rem_mod_nonneg by lia; rewrite <- (Z_mod_plus_full f 1 36); f_equal; lia).
  assert (R2 : Z.rem (f + 36 + 1) 36 = ((f + 1) mod 36)%Z) by (rewrite Z.rem_mod_nonneg by lia; rewrite <- (Z_mod_plus_full (f + 1) 1 36); f_equal; lia). rewrite R1, R2.
  pose proof (Z.mod_pos_bound f 36 ltac:(lia)). pose proof (Z.mod_pos_bound (f + 1) 36 ltac:(lia)).
  match goal with |- context [hadd hist (f mod 36) ?v] => destruct (hadd_ok 36 hist (f mod 36) v L ltac:(lia)) as (h1 & E1 & X1) end. rewrite E1. cbn [obind].
  match goal with |- context [hadd h1 _ ?v] => destruct (hadd_ok 36 h1 ((f + 1) mod 36) v (proj1 X1) ltac:(lia)) as (h2 & E2 & X2) end.
  exists h2. split; [exact E2|]. eapply adds_ext; [|eapply adds_trans; [exact X1|exact X2]]. intros b Hb. cbv beta.
  change (nq b) with (zq (Z.of_nat b)). rewrite (tent_circle 36 t (Z.of_nat b)) by lia. fold f. change (Z.of_nat 36) with 36%Z.
  rewrite !(Z.eqb_sym _ (Z.of_nat b)). destruct (_ =? _)%Z, (_ =? _)%Z; ring.
Qed.
Lemma votes_ok pi n m a w : (0 < pi)%Qc -> n <= length m -> n <= length a -> n <= length w -> (forall k, k < n -> (0 <= a@k)%Qc /\ (a@k <= nq 2 * pi)%Qc) ->
  exists hist, votes pi n m a w = Some hist /\ length hist = 36 /\ forall b, b < 36 -> hist@b = direction_bin pi n (fun k => m@k) (fun k => a@k) (fun k => w@k) b.
Proof.
  intros Hp Lm La Lw B. unfold votes, direction_bin.
  match goal with |- context [iter n ?bb ?ss] => destruct (iter_inv (fun i hist => length hist = 36 /\ forall b, b < 36 ->
    hist@b = ksum i (fun k => (m@k * w@k * tent (wrap 36 (nq 36 * a@k / (nq 2 * pi) - nq b)))%Qc)) bb n ss) as (hist & E & H) end.
  - split; [reflexivity|]. intros b Hb. cbn [sum]. apply nth_repeat.
  - intros k hist Hk [LH HH]. rewrite !(aget_nth _ _ 0%Qc) by lia. cbn [obind]. destruct (B k Hk) as [B0 B1].
    destruct (vote_ok pi (m@k) (a@k) (w@k) hist Hp LH B0 B1) as (h' & E & LA & A). exists h'. split; [exact E|]. split; [exact LA|].
    intros b Hb. rewrite A, HH by exact Hb. rewrite Nat.add_1_r. reflexivity.
  - exists hist. tauto.
Qed.

Lemma peaks_ok pi theta0 transposed max_num hist out : length hist = 36 ->
  let all := filter (peakb hist) (seq 0 36) in let k := Nat.min (Nat.max 1 max_num) (length all) in
  k <= length out -> exists left_,
  peaks pi theta0 transposed max_num hist out = Some (k, map (fun b => (direction pi theta0 transposed (fun b => hist@b) b, hist@b)) (firstn k all) ++ skipn k out, left_).
Proof.
  intros L all k LO. set (g := fun b => (direction pi theta0 transposed (fun b => hist@b) b, hist@b)). unfold peaks. set (M := Nat.max 1 max_num) in *.
  match goal with |- context [iter 36 ?bb ?ss] => destruct (iter_inv (fun i (st : nat * list (Qc * Qc) * bool) => let ps := filter (peakb hist) (seq 0 i) in let k := Nat.min M (length ps) in
    st = (k, map g (firstn k ps) ++ skipn k out, M <=? length ps)) bb 36 ss) as (st & E & H) end.
  - cbn. unfold M. destruct max_num; reflexivity.
  - intros i st Hi ->. cbv zeta.
    assert (SQ : seq 0 (i + 1) = seq 0 i ++ [i]) by (rewrite Nat.add_1_r, seq_S; reflexivity). rewrite SQ, filter_app. cbn [filter]. set (ps := filter (peakb hist) (seq 0 i)).
    assert (LP : length ps <= length all \/ True) by auto.
    assert (Pre : exists r, all = ps ++ (if peakb hist i then [i] else []) ++ r).
    { unfold all, ps. exists (filter (peakb hist) (seq (i + 1) (36 - (i + 1)))). replace 36 with (i + (1 + (36 - (i + 1)))) at 1 by lia. rewrite !seq_app, !filter_app. cbn [seq filter Nat.add]. now replace (S i) with (i + 1) by lia. }
    destruct Pre as (r & Pre). clear LP SQ.
    destruct (Nat.leb_spec M (length ps)) as [St|St].
    { eexists. split; [reflexivity|]. rewrite app_length. replace (Nat.min M (length ps + length (if peakb hist i then [i] else []))) with M by lia.
      rewrite (Nat.min_l M) by lia. rewrite firstn_app_full by lia. destruct (Nat.leb_spec M (length ps + length (if peakb hist i then [i] else []))); [reflexivity|lia]. }
    rewrite (Nat.min_r M) by lia. rewrite firstn_all.
    assert (M1 : (i + 35) mod 36 < 36) by (apply Nat.mod_upper_bound; lia). assert (M2 : (i + 1 + 36) mod 36 < 36) by (apply Nat.mod_upper_bound; lia).
    rewrite !(aget_nth hist _ 0%Qc) by lia. cbn [obind]. fold (peakb hist i). destruct (peakb hist i) eqn:PK.
    + assert (LL : length ps < length out).
      { assert (X := LO). unfold k in X. rewrite Pre, !app_length in X. cbn [length] in X. lia. }
      rewrite aset_lt by (rewrite app_length, map_length, skipn_length; lia). cbn [obind]. eexists. split; [reflexivity|].
      rewrite app_length. cbn [length]. rewrite (Nat.min_r M (length ps + 1)) by lia. rewrite (firstn_all2 (ps ++ [i])) by (rewrite app_length; cbn [length]; lia).
      assert (Lv : (M <=? length ps + 1) = (max_num <=? length ps + 1)).
      { unfold M. destruct (Nat.leb_spec (Nat.max 1 max_num) (length ps + 1)), (Nat.leb_spec max_num (length ps + 1)); auto; lia. }
      rewrite Lv. f_equal. f_equal. rewrite map_app. cbn [map]. rewrite <- app_assoc. cbn [app].
      rewrite <- skipn_more. rewrite <- (map_length g ps) at 2. rewrite upd_app by (rewrite skipn_length, map_length; lia). do 2 f_equal. unfold g. f_equal.
      assert (PI : peak (fun b => hist@b) i) by (apply peak_bool; assumption). destruct (vertex_bounds _ _ PI) as (_ & _ & N). unfold direction, vertex, bin_extent, half.
      replace ((i + 1 + 36) mod 36) with ((i + 1) mod 36) by (replace (i + 1 + 36) with (i + 1 + 1 * 36) by lia; now rewrite Nat.mod_add by lia).
      set (hm := hist@((i + 35) mod 36)) in *. set (hp := hist@((i + 1) mod 36)) in *. set (h0 := hist@i) in *. clearbody hm hp h0. clear - N.
      assert (N' : (hp + hm - nq 2 * h0 <> 0)%Qc) by (intros Z; apply N; replace (nq 2 * h0 - hm - hp)%Qc with (- (hp + hm - nq 2 * h0))%Qc by ring; rewrite Z; reflexivity).
      destruct transposed; field; repeat split; first [exact N|exact N'|discriminate].
    + eexists. split; [reflexivity|]. rewrite app_nil_r. rewrite (Nat.min_r M) by lia. rewrite firstn_all. destruct (Nat.leb_spec M (length ps)); [lia|reflexivity].
  - exists (M <=? length all). rewrite E. f_equal. exact H.
Qed.

(** *** Laplacian scales *)
Lemma lap_scores_ok pow root si ac n laplacians patch : 10 * n <= length laplacians -> n <= length patch ->
  exists scores, lap_scores pow root si ac n laplacians patch = Some scores /\ length scores = 10 /\
    forall k, k < 10 -> scores@k = (lap_sigma pow root si ac (nq k) * lap_sigma pow root si ac (nq k) * ksum n (fun q => laplacians@(k * n + q) * patch@q))%Qc.
Proof.
  intros LL LP. unfold lap_scores.
  match goal with |- context [iter 10 ?bb ?ss] => destruct (iter_inv (fun i (st : nat * list Qc) => fst st = i * n /\ length (snd st) = 10 /\ forall k, k < i ->
    (snd st)@k = (lap_sigma pow root si ac (nq k) * lap_sigma pow root si ac (nq k) * ksum n (fun q => laplacians@(k * n + q) * patch@q))%Qc) bb 10 ss) as ((pt & scores) & E & H1 & H2 & H3) end.
  - cbn. repeat split; intros; lia.
  - intros k (pt & scores) Hk (H1 & H2 & H3). cbn [fst snd] in *. subst pt.
    match goal with |- context [iter n ?bb ?ss] => destruct (iter_inv (fun q (st : nat * Qc) => st = (k * n + q, ksum q (fun q => laplacians@(k * n + q) * patch@q)%Qc)) bb n ss) as (st & E & ->) end.
    + cbn. now rewrite Nat.add_0_r.
    + intros q st Hq ->. assert (k * n + q < length laplacians) by nia. rewrite !(aget_nth _ _ 0%Qc) by lia. cbn [obind]. eexists. split; [reflexivity|]. rewrite (Nat.add_1_r q). cbn [sum]. apply f_equal2; [lia|reflexivity].
    + rewrite E. cbn [obind]. rewrite aset_lt by lia. cbn [obind]. eexists. split; [reflexivity|]. cbn [fst snd]. split; [lia|]. split; [now rewrite upd_length|].
      intros j Hj. rewrite nth_upd by lia. destruct (Nat.eqb_spec j k) as [->|Ne]; [ring|]. apply H3. lia.
  - cbn [fst snd] in *. rewrite E. cbn [obind]. exists scores. auto.
Qed.
Definition extremumb (t : Qc) (scores : list Qc) (k : nat) : bool :=
  ((qlt (scores@(k - 1)) (scores@k) && qlt (scores@(k + 1)) (scores@k)) || (qlt (scores@k) (scores@(k - 1)) && qlt (scores@k) (scores@(k + 1)))) && negb (qlt (Qcabs (scores@k)) t).
Lemma extremumb_iff t scores k : 1 <= k <= 8 -> extremumb t scores k = true <-> extremum t (fun k => scores@k) k.
Proof. intros Hk. unfold extremumb, extremum. rewrite andb_true_iff, orb_true_iff, !andb_true_iff, !qlt_true, negb_true_iff, qlt_false. tauto. Qed.
Lemma top_bounds t s k : extremum t s k -> (- (1 / nq 2) < top s k)%Qc /\ (top s k < 1 / nq 2)%Qc /\ (nq 2 * s k - s (k - 1)%nat - s (k + 1)%nat <> 0)%Qc.
Proof.
  intros (_ & O & _). unfold top. set (a := s (k - 1)) in *. set (c := s (k + 1)) in *. set (b := s k) in *. clearbody a b c.
  assert (Up : forall a b c : Qc, (a < b)%Qc -> (c < b)%Qc -> (- (1 / nq 2) < (c - a) / (nq 2 * (nq 2 * b - a - c)))%Qc /\ ((c - a) / (nq 2 * (nq 2 * b - a - c)) < 1 / nq 2)%Qc /\ (nq 2 * b - a - c <> 0)%Qc).
  { clear. intros a b c A B. set (d := (nq 2 * b - a - c)%Qc). assert (D : d = ((b - a) + (b - c))%Qc) by (unfold d; change (nq 2) with (1 + 1)%Qc; ring).
    assert (P : (0 < d)%Qc) by (rewrite D; clear - A B; qn). assert (N : d <> 0%Qc) by now apply qc_pos_neq.
    assert (PI : (0 < / (nq 2 * d))%Qc) by (apply Qcinv_pos, Qc_mul_pos; [reflexivity|exact P]).
    split; [|split; [|exact N]].
    - rewrite <- (half_of d (nq 2) N) by discriminate. replace (- (d * / (nq 2 * d)))%Qc with (- d * / (nq 2 * d))%Qc by ring. unfold Qcdiv. apply Qcmult_lt_compat_r; [exact PI|]. rewrite D. clear - A B. qn.
    - rewrite <- (half_of d (nq 2) N) by discriminate. unfold Qcdiv. apply Qcmult_lt_compat_r; [exact PI|]. rewrite D. clear - A B. qn. }
  destruct O as [[A B]|[A B]]; [now apply Up|].
  destruct (Up (- a) (- b) (- c))%Qc as (X & Y & N); [clear - A; qn|clear - B; qn|].
  assert (N' : (nq 2 * b - a - c <> 0)%Qc) by (intros Z; apply N; replace (nq 2 * - b - - a - - c)%Qc with (- (nq 2 * b - a - c))%Qc by ring; rewrite Z; reflexivity).
  replace ((- c - - a) / (nq 2 * (nq 2 * - b - - a - - c)))%Qc with ((c - a) / (nq 2 * (nq 2 * b - a - c)))%Qc in * by (field; repeat split; first [exact N|exact N'|discriminate]). auto.
Qed.
Lemma lap_extrema_ok pow root si ac t scores out : length scores = 10 -> 4 <= length out ->
  let all := filter (extremumb t scores) (seq 1 8) in let k := Nat.min 4 (length all) in let s := fun k => scores@k in
  lap_extrema pow root si ac t scores out =
    Some (k, map (fun k => (lap_sigma pow root si ac (nq k + top s k)%Qc, (s k + 1 / nq 2 * (s (k + 1)%nat - s (k - 1)%nat) * top s k)%Qc)) (firstn 4 all) ++ skipn k out).
Proof.
  intros L LO all k s. unfold lap_extrema. set (g := fun k => (lap_sigma pow root si ac (nq k + top s k)%Qc, (s k + 1 / nq 2 * (s (k + 1)%nat - s (k - 1)%nat) * top s k)%Qc)).
  match goal with |- iter_from 8 1 ?bb ?ss = _ => destruct (iter_from_inv (fun i (st : nat * list (Qc * Qc)) => let ps := filter (extremumb t scores) (seq 1 (i - 1)) in
    st = (Nat.min 4 (length ps), map g (firstn 4 ps) ++ skipn (Nat.min 4 (length ps)) out)) bb 9 8 1 ss) as (st & E & H) end.
  - lia.
  - reflexivity.
  - intros i st Hi1 Hi2 ->. cbv zeta. assert (SQ : seq 1 (i + 1 - 1) = seq 1 (i - 1) ++ [i]) by (replace (i + 1 - 1) with ((i - 1) + 1) by lia; rewrite seq_app; cbn; do 2 f_equal; lia).
    rewrite SQ, filter_app. cbn [filter]. set (ps := filter (extremumb t scores) (seq 1 (i - 1))).
    rewrite !(aget_nth scores _ 0%Qc) by lia. cbn [obind]. fold (extremumb t scores i). destruct (extremumb t scores i) eqn:PK.
    + destruct (Nat.ltb_spec (Nat.min 4 (length ps)) 4) as [S|S].
      * assert (LP : length ps < 4) by lia. rewrite (Nat.min_r 4 (length ps)) by lia. rewrite (firstn_all2 ps) by lia. rewrite aset_lt by (rewrite app_length, map_length, skipn_length; lia). cbn [obind]. eexists. split; [reflexivity|].
        rewrite app_length. cbn [length]. rewrite (Nat.min_r 4 (length ps + 1)) by lia. rewrite (firstn_all2 (ps ++ [i])) by (rewrite app_length; cbn [length]; lia).
        f_equal. rewrite map_app. cbn [map]. rewrite <- app_assoc. cbn [app].
        rewrite <- skipn_more. rewrite <- (map_length g ps) at 2. rewrite upd_app by (rewrite skipn_length, map_length; lia). do 2 f_equal. unfold g.
        destruct (top_bounds t s i) as (_ & _ & N); [apply extremumb_iff; [lia|exact PK]|].
        assert (D : (- half 1 * (scores@(i + 1) - scores@(i - 1)) / (scores@(i + 1) + scores@(i - 1) - nq 2 * scores@i))%Qc = top s i).
        { unfold top, half. fold (s i) (s (i - 1)) (s (i + 1)). set (b := s i) in *. set (a := s (i - 1)) in *. set (c := s (i + 1)) in *. clearbody a b c. clear - N.
          assert (N' : (c + a - nq 2 * b <> 0)%Qc) by (intros Z; apply N; replace (nq 2 * b - a - c)%Qc with (- (c + a - nq 2 * b))%Qc by ring; rewrite Z; reflexivity).
          field. repeat split; first [exact N|exact N'|discriminate]. }
        rewrite D. reflexivity.
      * eexists. split; [reflexivity|]. rewrite app_length. cbn [length]. rewrite (Nat.min_l 4 (length ps)), (Nat.min_l 4 (length ps + 1)) by lia. rewrite firstn_app_full by lia. reflexivity.
    + eexists. split; [reflexivity|]. now rewrite app_nil_r.
  - rewrite E. f_equal. exact H.
Qed.
