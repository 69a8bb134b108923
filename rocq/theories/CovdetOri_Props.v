(** Properties of orientations and Laplacian scales of one frame. *)
From Coq Require Import List Arith ZArith Lia Bool QArith Qcanon Qcabs Permutation Sorted.
From Verif Require Import Base Loop Rat Gauss_Model Gauss_Proofs MserSort_Proofs Kmeans_Spec ImOp_Spec Homker_Proofs KmeansEnergy_Proofs Sift_Model Sift_Proofs SiftDescr_Model SiftDescr_Spec SiftDescr_Proofs
  CovdetOri_Model CovdetOri_Spec CovdetOri_Proofs.
Import ListNotations.
Local Open Scope nat_scope.
Local Notation "l @ i" := (nth i l 0%Qc) (at level 9).

Lemma peak_same g g' : (forall b, b < 36 -> g b = g' b) -> forall b, peak g b <-> peak g' b.
Proof.
  assert (X : forall g g', (forall b, b < 36 -> g b = g' b) -> forall b, peak g b -> peak g' b).
  { clear. intros g g' Eg b' (A1 & A2 & A3 & A4 & A5). assert (M1 : (b' + 35) mod 36 < 36) by (apply Nat.mod_upper_bound; lia). assert (M2 : (b' + 1) mod 36 < 36) by (apply Nat.mod_upper_bound; lia).
    unfold peak. rewrite <- !Eg by assumption. repeat (split; [assumption|]). split; [|split; assumption]. intros b2 Hb2. rewrite <- !Eg by assumption. now apply A3. }
  intros E b. split; apply X; auto. intros; symmetry; auto.
Qed.
Lemma direction_same pi t tr g g' b : b < 36 -> (forall b, b < 36 -> g b = g' b) -> direction pi t tr g b = direction pi t tr g' b.
Proof.
  intros Hb E. unfold direction, vertex. rewrite !E; auto; apply Nat.mod_upper_bound; lia.
Qed.
Lemma seq_sorted a n : StronglySorted lt (seq a n).
Proof. revert a. induction n as [|n IH]; intros a; [constructor|]. cbn [seq]. constructor; [apply IH|]. apply Forall_forall. intros x Hx. apply in_seq in Hx. lia. Qed.
Lemma filter_sorted (f : nat -> bool) l : StronglySorted lt l -> StronglySorted lt (filter f l).
Proof.
  intros S. induction S as [|a l S IH F]; [constructor|]. cbn [filter]. destruct (f a); [|exact IH]. constructor; [exact IH|]. apply Forall_forall. intros x Hx. apply filter_In in Hx. rewrite Forall_forall in F. now apply F.
Qed.

(** ** C161: the orientations of a frame are the directions at the tops of the parabolas through the peaks above 80% of
    the maximum of the histogram of directions, smoothed six times: the first [max_num] in the order of the bins, at least
    one, sorted by descending score.  The rest of the array is unchanged *)
Theorem C161_orientations : forall pi order theta0 transposed max_num n m a w out,
  (0 < pi)%Qc -> n <= length m -> n <= length a -> n <= length w -> (forall k, k < n -> (0 <= a@k)%Qc /\ (a@k <= nq 2 * pi)%Qc) ->
  (forall l, Permutation (order l) l /\ descending (order l)) -> length out = 4 -> max_num <= 4 ->
  let H := averaged_times 6 (direction_bin pi n (fun k => m@k) (fun k => a@k) (fun k => w@k)) in
  exists bins k out', find_orientations pi order theta0 transposed max_num n m a w out = Some (k, out') /\
    StronglySorted lt bins /\ (forall b, In b bins <-> peak H b) /\ k = Nat.min (Nat.max 1 max_num) (length bins) /\
    Permutation (firstn k out') (map (fun b => (direction pi theta0 transposed H b, H b)) (firstn k bins)) /\ descending (firstn k out') /\
    skipn k out' = skipn k out.
Proof.
  intros pi order theta0 transposed max_num n m a w out Hp Lm La Lw B Ho Lo Lk H.
  destruct (votes_ok pi n m a w Hp Lm La Lw B) as (h0 & E0 & L0 & H0).
  destruct (smooth_times 6 h0 _ L0 H0) as (h6 & E6 & L6 & H6). fold H in H6.
  assert (Lb : Nat.min (Nat.max 1 max_num) (length (filter (peakb h6) (seq 0 36))) <= length out) by lia.
  destruct (peaks_ok pi theta0 transposed max_num h6 out L6 Lb) as (lf & EP). cbv zeta in EP.
  set (bins := filter (peakb h6) (seq 0 36)) in *. set (k := Nat.min (Nat.max 1 max_num) (length bins)) in *.
  unfold find_orientations. rewrite E0. cbn [obind]. rewrite E6. cbn [obind]. rewrite EP. cbn [obind].
  set (g := fun b => (direction pi theta0 transposed (fun b => h6@b) b, h6@b)) in *.
  assert (Lg : length (map g (firstn k bins)) = k) by (rewrite map_length, firstn_length_le; lia).
  assert (F1 : firstn k (map g (firstn k bins) ++ skipn k out) = map g (firstn k bins)) by (rewrite firstn_app_full by lia; now rewrite firstn_all2 by lia).
  assert (F2 : skipn k (map g (firstn k bins) ++ skipn k out) = skipn k out) by (rewrite skipn_app, Lg, Nat.sub_diag; rewrite skipn_all2 by lia; reflexivity).
  destruct (Ho (map g (firstn k bins))) as [P D]. assert (Lp : length (order (map g (firstn k bins))) = k) by (rewrite (Permutation_length P); exact Lg).
  rewrite F1, F2.
  assert (IB : forall b, In b bins <-> peak H b).
  { intros b. unfold bins. rewrite filter_In, in_seq. split.
    - intros [Hb Pb]. apply (peak_same (fun b => h6@b)); [exact H6|]. apply peak_bool; [exact L6|lia|exact Pb].
    - intros Pb. assert (Hb : b < 36) by apply Pb. split; [lia|]. apply peak_bool; [exact L6|exact Hb|]. apply (peak_same _ H); [exact H6|exact Pb]. }
  assert (EG : map g (firstn k bins) = map (fun b => (direction pi theta0 transposed H b, H b)) (firstn k bins)).
  { apply map_ext_in. intros b Ib. assert (Hb : b < 36).
    { assert (In b bins) by (rewrite <- (firstn_skipn k bins); apply in_or_app; now left). unfold bins in H1. apply filter_In in H1. destruct H1 as [H1 _]. apply in_seq in H1. lia. }
    unfold g. rewrite (direction_same _ _ _ _ H b Hb H6). now rewrite H6. }
  exists bins, k, (order (map g (firstn k bins)) ++ skipn k out).
  assert (F3 : firstn k (order (map g (firstn k bins)) ++ skipn k out) = order (map g (firstn k bins))) by (rewrite firstn_app_full by lia; now rewrite firstn_all2 by lia).
  split; [reflexivity|]. split; [apply filter_sorted, seq_sorted|]. split; [exact IB|]. split; [reflexivity|]. rewrite F3.
  split; [rewrite <- EG; exact P|]. split; [exact D|]. rewrite skipn_app, Lp, Nat.sub_diag. now rewrite skipn_all2 by lia.
Qed.
Print Assumptions C161_orientations.
(** each direction is less than half a bin away from the centre of its bin *)
Theorem C161_near : forall pi theta0 (transposed : bool) H b, (0 < pi)%Qc -> peak H b ->
  let centre := (nq 2 * pi / nq 36 * nq b + theta0 - (if transposed then pi / nq 2 else 0))%Qc in
  (centre - pi / nq 36 < direction pi theta0 transposed H b)%Qc /\ (direction pi theta0 transposed H b < centre + pi / nq 36)%Qc.
Proof.
  intros pi theta0 transposed H b Hp P centre. destruct (vertex_bounds H b P) as (V1 & V2 & _). unfold direction. set (v := vertex H b) in *.
  assert (U : (0 < nq 2 * pi / nq 36)%Qc) by (unfold Qcdiv; repeat apply Qc_mul_pos; auto; reflexivity).
  assert (X1 := Qcmult_lt_compat_r _ _ _ U V1). assert (X2 := Qcmult_lt_compat_r _ _ _ U V2).
  replace (- (1 / nq 2) * (nq 2 * pi / nq 36))%Qc with (- (pi / nq 36))%Qc in X1 by (field; repeat split; discriminate).
  replace (1 / nq 2 * (nq 2 * pi / nq 36))%Qc with (pi / nq 36)%Qc in X2 by (field; repeat split; discriminate).
  replace (nq 2 * pi / nq 36 * (nq b + v) + theta0 - (if transposed then pi / nq 2 else 0))%Qc with (centre + v * (nq 2 * pi / nq 36))%Qc by (unfold centre; ring).
  clearbody centre. set (y := (v * (nq 2 * pi / nq 36))%Qc) in *. set (z := (pi / nq 36)%Qc) in *. clearbody y z. clear - X1 X2. split; qn.
Qed.
Print Assumptions C161_near.
(** insertion into a list sorted by descending score *)
Fixpoint put (x : Qc * Qc) (l : list (Qc * Qc)) : list (Qc * Qc) := match l with [] => [x] | y :: l' => if qlt (snd x) (snd y) then y :: put x l' else x :: l end.
Definition sort_desc (l : list (Qc * Qc)) : list (Qc * Qc) := fold_right put [] l.
Lemma put_perm x l : Permutation (put x l) (x :: l).
Proof. induction l as [|y l IH]; [reflexivity|]. cbn [put]. destruct (qlt _ _); [|reflexivity]. rewrite IH. apply perm_swap. Qed.
Lemma put_desc x l : descending l -> descending (put x l).
Proof.
  induction l as [|y l IH]; cbn [put descending]; [intros _; split; [intros y []|exact I]|]. intros [A B]. destruct (qlt (snd x) (snd y)) eqn:Q.
  - split; [|now apply IH]. intros z Hz. apply (Permutation_in _ (put_perm x l)) in Hz. destruct Hz as [<-|Hz]; [apply qlt_true in Q; now apply Qclt_le_weak|now apply A].
  - apply qlt_false in Q. split; [|split; assumption]. intros z [<-|Hz]; [exact Q|]. apply Qcle_trans with (snd y); [now apply A|exact Q].
Qed.
Lemma sort_desc_ok l : Permutation (sort_desc l) l /\ descending (sort_desc l).
Proof. induction l as [|x l [IP ID]]; [split; [reflexivity|exact I]|]. unfold sort_desc in *. cbn [fold_right]. split; [rewrite put_perm; now constructor|now apply put_desc]. Qed.
(** directions at the centres of bins, with pi = 18: bin b is at angle b *)
Definition five : list Qc := map nq [3; 10; 17; 24; 31].
Definition none4 : list (Qc * Qc) := repeat (0%Qc, 0%Qc) 4.
Definition run (max_num : nat) (m : list nat) : option (nat * list Z) :=
  option_map (fun r : nat * list (Qc * Qc) => let (k, out) := r in (k, map (fun p => qfloor (fst p + half 1)%Qc) (firstn k out)))
    (find_orientations (nq 18) sort_desc 0 false max_num 5 (map nq m) five (repeat 1%Qc 5) none4).
Example C161_ex : run 4 [100; 0; 98; 0; 99] = Some (3, [3; 31; 17]%Z).
Proof. vm_compute. reflexivity. Qed.

(** ** C162: the strongest orientation need not be returned: with five peaks of similar strength the first four bins are
    chosen, and with a limit of one the first bin, before sorting *)
Theorem C162_strongest_refuted : exists m H, H = averaged_times 6 (direction_bin (nq 18) 5 (fun k => (map nq m)@k) (fun k => five@k) (fun k => (repeat 1%Qc 5)@k)) /\
  (forall b, b < 36 -> b <> 31 -> (H b < H 31)%Qc) /\ run 4 m = Some (4, [3; 10; 17; 24]%Z) /\ run 1 m = Some (1, 3%Z :: nil).
Proof.
  exists [100; 99; 98; 97; 110]. eexists. split; [reflexivity|]. split; [|split; vm_compute; reflexivity].
  set (H := averaged_times 6 _).
  assert (X : forallb (fun b => (b =? 31) || qlt (H b) (H 31)) (seq 0 36) = true).
  { destruct (votes_ok (nq 18) 5 (map nq [100; 99; 98; 97; 110]) five (repeat 1%Qc 5) ltac:(reflexivity) ltac:(cbn; lia) ltac:(cbn; lia) ltac:(cbn; lia)) as (h0 & E0 & L0 & H0).
    { intros k Hk. destruct k as [|[|[|[|[|k]]]]]; try lia; cbn [five map nth]; split; discriminate. }
    destruct (smooth_times 6 h0 _ L0 H0) as (h6 & E6 & L6 & H6). fold H in H6.
    assert (Y : (match votes (nq 18) 5 (map nq [100; 99; 98; 97; 110]) five (repeat 1%Qc 5) with Some h0 => match iter 6 (fun _ hist => smooth_once hist) h0 with
      Some h6 => forallb (fun b => (b =? 31) || qlt (h6@b) (h6@31)) (seq 0 36) | None => false end | None => false end) = true) by (vm_compute; reflexivity).
    rewrite E0, E6 in Y. rewrite forallb_forall in *. intros b Hb. specialize (Y b Hb). apply in_seq in Hb. rewrite !H6 in Y by lia. exact Y. }
  intros b Hb Nb. rewrite forallb_forall in X. specialize (X b ltac:(apply in_seq; lia)). apply orb_true_iff in X. destruct X as [X|X]; [apply Nat.eqb_eq in X; lia|now apply qlt_true].
Qed.
Print Assumptions C162_strongest_refuted.

(** ** C163: a limit of 0 orientations gives one for every frame that has a peak, and a limit above 4 writes beyond
    the array of 4 orientations *)
Theorem C163_zero_refuted : forall pi order theta0 transposed n m a w out b,
  (0 < pi)%Qc -> n <= length m -> n <= length a -> n <= length w -> (forall k, k < n -> (0 <= a@k)%Qc /\ (a@k <= nq 2 * pi)%Qc) ->
  (forall l, Permutation (order l) l /\ descending (order l)) -> length out = 4 ->
  peak (averaged_times 6 (direction_bin pi n (fun k => m@k) (fun k => a@k) (fun k => w@k))) b ->
  exists out', find_orientations pi order theta0 transposed 0 n m a w out = Some (1, out').
Proof.
  intros pi order theta0 transposed n m a w out b Hp Lm La Lw B Ho Lo Pb.
  destruct (C161_orientations pi order theta0 transposed 0 n m a w out Hp Lm La Lw B Ho Lo ltac:(lia)) as (bins & k & out' & E & _ & IB & Ek & _). cbv zeta in IB.
  apply IB in Pb. destruct bins as [|c bins]; [destruct Pb|]. cbn [length Nat.max Nat.min] in Ek. subst k. exists out'. exact E.
Qed.
Print Assumptions C163_zero_refuted.
Theorem C163_overflow_refuted : exists m, find_orientations (nq 18) sort_desc 0 false 5 5 m five (repeat 1%Qc 5) none4 = None.
Proof.
  exists (map nq [100; 99; 98; 97; 110]).
  assert (X : run 5 [100; 99; 98; 97; 110] = None) by (vm_compute; reflexivity). unfold run in X. destruct (find_orientations _ _ _ _ 5 _ _ _ _ _); [discriminate|reflexivity].
Qed.
Print Assumptions C163_overflow_refuted.
Example C163_ex : run 0 [100; 99; 98; 97; 96] = Some (1, 3%Z :: nil).
Proof. vm_compute. reflexivity. Qed.

(** ** C164: the scores of the 10 levels are the scale-normalised responses to the bank of filters.  The scales are those
    of the first four extrema of absolute value at least the threshold, moved to the top of the parabola through the extremum and
    its neighbours, less than half a level away *)
Theorem C164_scales : forall pow root sigma_image actual t n laplacians patch out, 10 * n <= length laplacians -> n <= length patch -> length out = 4 ->
  let sigma s := lap_sigma pow root sigma_image actual s in
  let s k := (sigma (nq k) * sigma (nq k) * ksum n (fun q => laplacians@(k * n + q) * patch@q))%Qc in
  exists levels k out', find_scales pow root sigma_image actual t n laplacians patch out = Some (k, out') /\
    StronglySorted lt levels /\ (forall l, In l levels <-> extremum t s l) /\ k = Nat.min 4 (length levels) /\ length out' = 4 /\
    (forall j l, nth_error levels j = Some l -> j < 4 -> nth_error out' j = Some (sigma (nq l + top s l), s l + nq 2 * (parabola s l (top s l) - s l))%Qc) /\
    skipn k out' = skipn k out.
Proof.
  intros pow root si ac t n laplacians patch out LL LP LO sigma s.
  destruct (lap_scores_ok pow root si ac n laplacians patch LL LP) as (sc & E & L & H). unfold find_scales. rewrite E. cbn [obind].
  rewrite lap_extrema_ok by lia. cbv zeta. set (levels := filter (extremumb t sc) (seq 1 8)). set (k := Nat.min 4 (length levels)).
  assert (HS : forall k, k < 10 -> sc@k = s k) by exact H.
  assert (EX : forall l, In l levels <-> extremum t s l).
  { intros l. unfold levels. rewrite filter_In, in_seq. split.
    - intros [Hl El]. apply extremumb_iff in El; [|lia]. destruct El as (A & B & C). split; [exact A|]. rewrite !HS in * by lia. auto.
    - intros (A & B & C). split; [lia|]. apply extremumb_iff; [lia|]. split; [exact A|]. rewrite !HS by lia. auto. }
  assert (TP : forall l, extremum t s l -> top (fun k => sc@k) l = top s l) by (intros l (A & _); unfold top; rewrite !HS by lia; reflexivity).
  match goal with |- context [map ?gg _] => set (g := gg) end.
  assert (Lg : length (map g (firstn 4 levels)) = k) by (rewrite map_length, firstn_length; reflexivity).
  eexists levels, k, _. split; [reflexivity|]. split; [apply filter_sorted, seq_sorted|]. split; [exact EX|]. split; [reflexivity|].
  split; [rewrite app_length, Lg, skipn_length; lia|]. split.
  - intros j l El Hj. assert (Jl : j < length levels) by (apply nth_error_Some; congruence). rewrite nth_error_app1 by lia. rewrite nth_error_map.
    assert (F : nth_error (firstn 4 levels) j = Some l).
    { rewrite <- El. rewrite <- (firstn_skipn 4 levels) at 2. rewrite nth_error_app1 by (rewrite firstn_length; lia). reflexivity. }
    rewrite F. cbn [option_map]. unfold g.
    assert (Xl : extremum t s l) by (apply EX; eapply nth_error_In; exact El). rewrite (TP l Xl). destruct (top_bounds t s l Xl) as (_ & _ & N). destruct Xl as (A & _). rewrite !HS by lia.
    apply f_equal, f_equal2; [reflexivity|]. unfold parabola, top. set (a := s (l - 1)) in *. set (b := s l) in *. set (c := s (l + 1)) in *. clearbody a b c. clear - N.
    change (nq 2) with (1 + 1)%Qc in *. field. repeat split; first [exact N|discriminate].
  - rewrite skipn_app, Lg, Nat.sub_diag. now rewrite skipn_all2 by lia.
Qed.
Print Assumptions C164_scales.
Theorem C164_near : forall t s k, extremum t s k -> (- (1 / nq 2) < top s k)%Qc /\ (top s k < 1 / nq 2)%Qc.
Proof. intros t s k E. destruct (top_bounds t s k E) as (A & B & _). auto. Qed.
Print Assumptions C164_near.
(** the value of the parabola at its top: not below that of any other point for a maximum, not above for a minimum *)
Lemma parabola_top t s k u : extremum t s k -> (parabola s k u - parabola s k (top s k) = (s (k + 1)%nat + s (k - 1)%nat - nq 2 * s k) / nq 2 * ((u - top s k) * (u - top s k)))%Qc.
Proof.
  intros E. destruct (top_bounds t s k E) as (_ & _ & N). unfold parabola, top. set (a := s (k - 1)) in *. set (b := s k) in *. set (c := s (k + 1)) in *. clearbody a b c. clear - N.
  change (nq 2) with (1 + 1)%Qc in *. field. repeat split; first [exact N|discriminate].
Qed.
Theorem C164_top : forall t s k u, extremum t s k -> ((s (k - 1)%nat < s k)%Qc -> (parabola s k u <= parabola s k (top s k))%Qc) /\ ((s k < s (k - 1)%nat)%Qc -> (parabola s k (top s k) <= parabola s k u)%Qc).
Proof.
  intros t s k u E. pose proof (parabola_top t s k u E) as P. set (pu := parabola s k u) in *. set (pt := parabola s k (top s k)) in *.
  pose proof (Qc_square_nonneg (u - top s k)) as SQ. set (q := ((u - top s k) * (u - top s k))%Qc) in *. destruct E as (_ & O & _). set (a := s (k - 1)) in *. set (b := s k) in *. set (c := s (k + 1)) in *. clearbody pu pt q a b c.
  assert (HF : forall x, (x / nq 2 + x / nq 2 = x)%Qc) by (intros x; change (nq 2) with (1 + 1)%Qc; field; discriminate).
  assert (N2 : (nq 2 * b = b + b)%Qc) by (change (nq 2) with (1 + 1)%Qc; ring). rewrite N2 in P. set (v := ((c + a - (b + b)) / nq 2)%Qc) in *. pose proof (HF (c + a - (b + b))%Qc) as V. fold v in V. clearbody v.
  split; intros AB.
  - destruct O as [[A C]|[A C]]; [|exfalso; apply (Qclt_not_le _ _ A); now apply Qclt_le_weak].
    assert (0 <= - v)%Qc by (clear - V A C; qn). pose proof (Qc_mult_nonneg _ _ H SQ) as X. replace (- v * q)%Qc with (- (v * q))%Qc in X by ring. rewrite <- P in X. clear - X. qn.
  - destruct O as [[A C]|[A C]]; [exfalso; apply (Qclt_not_le _ _ A); now apply Qclt_le_weak|].
    assert (0 <= v)%Qc by (clear - V A C; qn). pose proof (Qc_mult_nonneg _ _ H SQ) as X. rewrite <- P in X. clear - X. qn.
Qed.
Print Assumptions C164_top.
(** scores read off a patch by filters that select one pixel each *)
Definition pick10 : list Qc := flat_map (fun k => map (fun q => if q =? k then 1%Qc else 0%Qc) (seq 0 10)) (seq 0 10).
Definition scales_of (scores : list Z) : option (nat * list (Z * Z)) :=
  option_map (fun r : nat * list (Qc * Qc) => let (n, out) := r in (n, map (fun p => (qfloor (nq 100 * fst p), qfloor (nq 100 * snd p))) (firstn n out)))
    (find_scales (fun _ e => e) (fun _ => 1%Qc) 0 0 (nq 2) 10 pick10 (map zq scores) none4).
Example C164_ex : scales_of [0; 4; 1; 1; 3; 1; -3; 0; 1; 0]%Z = Some (3, [(100, 403); (100, 300); (100, -304)]%Z).
Proof. vm_compute. reflexivity. Qed.

(** ** C165: the score stored with a scale is not the value at the top of the parabola unless the neighbours are equal: the
    difference to the value of the level is counted twice *)
Theorem C165_score_refuted : forall t s k, extremum t s k ->
  (s k + nq 2 * (parabola s k (top s k) - s k) = parabola s k (top s k) <-> s (k - 1)%nat = s (k + 1)%nat)%Qc.
Proof.
  intros t s k E. pose proof (parabola_top t s k 0 E) as P. unfold parabola at 1 in P. replace (0 * 0)%Qc with 0%Qc in P by ring. rewrite !Qcmult_0_r, !Qcplus_0_r in P.
  replace (0 - top s k)%Qc with (- top s k)%Qc in P by ring. destruct (top_bounds t s k E) as (_ & _ & N).
  set (pt := parabola s k (top s k)) in *. assert (X : (s k + nq 2 * (pt - s k) = pt <-> s k - pt = 0)%Qc).
  { change (nq 2) with (1 + 1)%Qc. split; intros H.
    - assert (pt - s k = 0)%Qc as Y by (transitivity (s k + (1 + 1) * (pt - s k) - pt)%Qc; [ring|rewrite H; ring]). transitivity (- (pt - s k))%Qc; [ring|rewrite Y; reflexivity].
    - transitivity (pt - (s k - pt) + 0)%Qc; [ring|]. rewrite H. ring. }
  rewrite X, P. set (v := ((s (k + 1)%nat + s (k - 1)%nat - nq 2 * s k) / nq 2)%Qc) in *.
  assert (NV : v <> 0%Qc).
  { intros Z. apply N. transitivity (- (nq 2 * v))%Qc; [unfold v; field; discriminate|rewrite Z; ring]. }
  assert (T : top s k = 0%Qc <-> s (k - 1)%nat = s (k + 1)%nat).
  { unfold top. split; intros H.
    - assert (D : (s (k + 1)%nat - s (k - 1)%nat = 0)%Qc).
      { transitivity ((s (k + 1)%nat - s (k - 1)%nat) / (nq 2 * (nq 2 * s k - s (k - 1)%nat - s (k + 1)%nat)) * (nq 2 * (nq 2 * s k - s (k - 1)%nat - s (k + 1)%nat)))%Qc; [field; split; [exact N|discriminate]|rewrite H; ring]. }
      transitivity (s (k + 1)%nat - (s (k + 1)%nat - s (k - 1)%nat))%Qc; [ring|rewrite D; ring].
    - rewrite H. unfold Qcdiv. replace (s (k + 1)%nat - s (k + 1)%nat)%Qc with 0%Qc by ring. ring. }
  rewrite <- T. split; intros H.
  - destruct (Qcmult_integral _ _ H) as [Z|Z]; [contradiction|]. destruct (Qcmult_integral _ _ Z) as [Z'|Z']; transitivity (- (- top s k))%Qc; try ring; rewrite Z'; reflexivity.
  - rewrite H. ring.
Qed.
Print Assumptions C165_score_refuted.
Example C165_ex : let s k := nth k (map zq [0; 4; 3]%Z) 0%Qc in extremum 1 s 1 /\ s 0 <> s 2 /\
  (qfloor (nq 100 * parabola s 1 (top s 1)), qfloor (nq 100 * (s 1 + nq 2 * (parabola s 1 (top s 1) - s 1)))) = (422, 445)%Z.
Proof.
  cbv zeta. split; [|split; [discriminate|vm_compute; reflexivity]]. split; [lia|]. split; [left; split; reflexivity|discriminate].
Qed.
