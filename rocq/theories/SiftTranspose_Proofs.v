From Coq Require Import List Arith ZArith Lia Bool QArith Qcanon Qcabs Permutation.
Import ListNotations.
From Verif Require Import Base Loop Rat ImOp_Spec ImOp_Proofs Kmeans_Spec MserSort_Proofs Gauss_Proofs Homker_Proofs Vlad_Proofs Sift_Model Sift_Spec Sift_Proofs SiftDescr_Spec SiftDescr_Model SiftDescr_Proofs SiftDescr_Props
  SiftTranspose_Model SiftTranspose_Spec.
Local Open Scope nat_scope.

(** ** places *)
Lemma all128 (p : nat -> bool) : forallb p (seq 0 128) = true -> forall i, i < 128 -> p i = true.
Proof. intros H i L. rewrite forallb_forall in H. apply H, in_seq. lia. Qed.
Lemma mirror_facts i : i < 128 -> mirror i < 128 /\ mirror (mirror i) = i /\ mirror i / 8 mod 4 = i / 8 mod 4 /\ mirror i / 32 = 3 - i / 32 /\ mirror i mod 8 = (8 - i mod 8) mod 8 /\ i / 32 <= 3.
Proof.
  intro L. pose proof (all128 (fun i => (mirror i <? 128) && (mirror (mirror i) =? i) && (mirror i / 8 mod 4 =? i / 8 mod 4) && (mirror i / 32 =? 3 - i / 32) && (mirror i mod 8 =? (8 - i mod 8) mod 8) && (i / 32 <=? 3)) ltac:(vm_compute; reflexivity) i L) as H.
  cbv beta in H. rewrite !andb_true_iff, !Nat.eqb_eq, Nat.ltb_lt, Nat.leb_le in H. tauto.
Qed.
Lemma mirror_at j i t : j < 4 -> i < 4 -> t < 8 -> mirror (32 * j + 8 * i + t) = 8 * i + 4 * 8 * (4 - 1 - j) + (8 - t) mod 8.
Proof.
  intros Lj Li Lt. assert (H : forallb (fun j => forallb (fun i => forallb (fun t => mirror (32 * j + 8 * i + t) =? 8 * i + 4 * 8 * (4 - 1 - j) + (8 - t) mod 8) (seq 0 8)) (seq 0 4)) (seq 0 4) = true) by (vm_compute; reflexivity).
  rewrite forallb_forall in H. specialize (H j ltac:(apply in_seq; lia)). rewrite forallb_forall in H. specialize (H i ltac:(apply in_seq; lia)). rewrite forallb_forall in H.
  specialize (H t ltac:(apply in_seq; lia)). now apply Nat.eqb_eq.
Qed.
Lemma mirror_perm : Permutation (map mirror (seq 0 128)) (seq 0 128).
Proof.
  apply NoDup_Permutation_bis.
  - assert (H : forall l, NoDup l -> (forall i, In i l -> i < 128) -> NoDup (map mirror l)).
    { induction 1 as [|a l N ND IH]; intro B; cbn [map]; constructor.
      - intro I. apply in_map_iff in I as (b & E & Ib). apply N. assert (Hb : b < 128) by (apply B; now right). assert (Ha : a < 128) by (apply B; now left).
        destruct (mirror_facts a Ha) as (_ & Ma & _), (mirror_facts b Hb) as (_ & Mb & _). rewrite <- Ma, <- E, Mb. exact Ib.
      - apply IH. intros i Ii. apply B. now right. }
    apply H; [apply seq_NoDup|]. intros i Ii. apply in_seq in Ii. lia.
  - rewrite map_length. lia.
  - intros p Ip. apply in_map_iff in Ip as (j & <- & Ij). apply in_seq in Ij. apply in_seq. destruct (mirror_facts j) as (H & _); lia.
Qed.
Lemma sum_mirror f g : (forall i, i < 128 -> f (mirror i) = g i) -> ksum 128 f = ksum 128 g.
Proof.
  intro H. rewrite <- (sum_reorder 128 f _ mirror_perm). apply ksum_ext. intros i Li.
  rewrite (nth_indep _ _ (mirror 0)) by (rewrite map_length, seq_length; exact Li). rewrite map_nth, seq_nth by exact Li. now apply H.
Qed.

(** ** the function *)
Section Transpose.
Context {A : Type} (d0 : A).
Lemma transpose_ok (dst src : list A) : 128 <= length src -> 128 <= length dst ->
  exists out, transpose_descriptor dst src = Some out /\ length out = length dst /\ (forall i, i < 128 -> nth (mirror i) out d0 = nth i src d0) /\
    forall p, 128 <= p -> nth p out d0 = nth p dst d0.
Proof.
  intros Ls Ld.
  set (Inv := fun m d => length d = length dst /\ (forall k, k < m -> k < 128 -> nth (mirror k) d d0 = nth k src d0) /\ forall p, 128 <= p -> nth p d d0 = nth p dst d0).
  assert (STEP : forall d j i t p, j < 4 -> i < 4 -> t < 8 -> Inv (32 * j + 8 * i + t) d -> p = mirror (32 * j + 8 * i + t) ->
     exists d', aset d p (nth (32 * j + 8 * i + t) src d0) = Some d' /\ Inv (32 * j + 8 * i + t + 1) d').
  { intros d j i t p Lj Li Lt (I1 & I2 & I3) ->. destruct (mirror_facts (32 * j + 8 * i + t)) as (M1 & M2 & _); [lia|]. rewrite aset_lt by lia. eexists. split; [reflexivity|].
    split; [now rewrite upd_length|]. split.
    - intros k Lk Hk. rewrite nth_upd by lia. destruct (Nat.eqb_spec (mirror k) (mirror (32 * j + 8 * i + t))) as [E|E].
      + destruct (mirror_facts k Hk) as (_ & M3 & _). assert (k = 32 * j + 8 * i + t) by (rewrite <- M3, E; exact M2). now subst k.
      + apply I2; [|exact Hk]. assert (k <> 32 * j + 8 * i + t) by (intros ->; now apply E). lia.
    - intros p Hp. rewrite nth_upd by lia. destruct (Nat.eqb_spec p (mirror (32 * j + 8 * i + t))); [lia|]. now apply I3. }
  unfold transpose_descriptor. match goal with |- context [iter 4 ?b ?s] => destruct (iter_inv (fun j d => Inv (32 * j) d) b 4 s) as (d & E & I) end.
  - split; [reflexivity|]. split; [intros; lia|reflexivity].
  - intros j d Lj I. cbv zeta. match goal with |- context [iter 4 ?b ?s] => destruct (iter_inv (fun i d => Inv (32 * j + 8 * i) d) b 4 s) as (d1 & E1 & I1) end.
    + rewrite Nat.mul_0_r, Nat.add_0_r. exact I.
    + intros i d1 Li I1. rewrite (aget_nth src _ d0) by lia. cbn [obind]. 
      destruct (STEP d1 j i 0 (8 * i + 4 * 8 * (4 - 1 - j)) Lj Li ltac:(lia)) as (d2 & E2 & I2); [now rewrite Nat.add_0_r|rewrite mirror_at by lia; cbn [Nat.sub Nat.modulo Nat.divmod fst snd]; lia|].
      replace (8 * i + 4 * 8 * j) with (32 * j + 8 * i + 0) by lia. rewrite E2. cbn [obind].
      match goal with |- context [iter_from 7 1 ?b ?s] => destruct (iter_from_inv (fun t d => Inv (32 * j + 8 * i + t) d) b 8 7 1 s) as (d3 & E3 & I3) end.
      * reflexivity.
      * replace (32 * j + 8 * i + 1) with (32 * j + 8 * i + 0 + 1) by lia. exact I2.
      * intros t d3 Lt1 Lt2 I3. rewrite (aget_nth src _ d0) by lia. cbn [obind]. replace (t + (32 * j + 8 * i + 0)) with (32 * j + 8 * i + t) by lia.
        destruct (STEP d3 j i t (8 - t + (8 * i + 4 * 8 * (4 - 1 - j))) Lj Li Lt2 I3) as (d4 & E4 & I4); [rewrite mirror_at by lia; rewrite (Nat.mod_small (8 - t)) by lia; lia|].
        rewrite E4. exists d4. split; [reflexivity|]. replace (32 * j + 8 * i + (t + 1)) with (32 * j + 8 * i + t + 1) by lia. exact I4.
      * exists d3. split; [exact E3|]. replace (32 * j + 8 * (i + 1)) with (32 * j + 8 * i + 8) by lia. exact I3.
    + exists d1. split; [exact E1|]. replace (32 * (j + 1)) with (32 * j + 8 * 4) by lia. exact I1.
  - exists d. split; [exact E|]. destruct I as (I1 & I2 & I3). split; [exact I1|]. split; [|exact I3]. intros i Li. apply I2; lia.
Qed.
End Transpose.

(** ** weights *)
Lemma tent_opp u : tent (- u)%Qc = tent u.
Proof. unfold tent. now rewrite Qcabs_opp. Qed.
Lemma tent_wrap_opp u : tent (wrap 8 (- u)%Qc) = tent (wrap 8 u).
Proof.
  set (k := qfloor (u / nq 8 + 1 / nq 2)%Qc). set (v := wrap 8 u). assert (Ev : u = (v + zq k * nq 8)%Qc) by (unfold v, wrap; fold k; ring).
  assert (B : (- nq 4 <= v /\ v < nq 4)%Qc).
  { destruct (floor_bounds (u / nq 8 + 1 / nq 2)%Qc) as [A1 A2]. fold k in A1, A2.
    assert (Ew : (u / nq 8 + 1 / nq 2 - zq k = v / nq 8 + 1 / nq 2)%Qc) by (rewrite Ev; field; split; discriminate). rewrite Ew in A1, A2.
    set (r := (v / nq 8 + 1 / nq 2)%Qc) in *. assert (E : v = (r * nq 8 - nq 4)%Qc).
    { unfold r. transitivity (v / nq 8 * nq 8 + (1 / nq 2 * nq 8 - nq 4))%Qc; [|ring]. replace (1 / nq 2 * nq 8 - nq 4)%Qc with 0%Qc by (apply Qc_is_canon; reflexivity). field. discriminate. }
    rewrite E. clearbody r. clear - A1 A2. change (nq 8) with (zq 8). change (nq 4) with (zq 4). split.
    - assert (0 <= r * zq 8)%Qc by (rewrite <- (Qcmult_0_l (zq 8)); apply Qcmult_le_compat_r; [exact A1|discriminate]). set (s := (r * zq 8)%Qc) in *. clearbody s. qn.
    - assert (r * zq 8 < 1 * zq 8)%Qc by (apply Qcmult_lt_compat_r; [reflexivity|exact A2]). set (s := (r * zq 8)%Qc) in *. clearbody s. replace (1 * zq 8)%Qc with (zq 4 + zq 4)%Qc in H by (apply Qc_is_canon; reflexivity). set (a := zq 4) in *. clearbody a. qn. }
  replace (- u)%Qc with (- v + zq (- k) * nq 8)%Qc by (rewrite zq_opp; transitivity (- (v + zq k * nq 8))%Qc; [ring|now rewrite <- Ev]). rewrite wrap_period by lia. destruct B as [B1 B2].
  destruct (Qc_eq_dec v (- nq 4)) as [E|NE].
  - f_equal. rewrite E. apply Qc_is_canon. reflexivity.
  - rewrite <- tent_opp. f_equal. unfold wrap. replace (qfloor (- v / nq 8 + 1 / nq 2)%Qc) with 0%Z; [change (zq 0) with 0%Qc; ring|].
    symmetry. assert (v <> - nq 4)%Qc by exact NE. assert (L : (- nq 4 < v)%Qc) by (destruct (Qcle_lt_or_eq _ _ B1) as [L|L]; [exact L|congruence]).
    assert (E : (- v / nq 8 + 1 / nq 2)%Qc = ((nq 4 - v) * (1 / nq 8))%Qc).
    { transitivity (- v * (1 / nq 8) + nq 4 * (1 / nq 8))%Qc; [|ring]. replace (nq 4 * (1 / nq 8))%Qc with (1 / nq 2)%Qc by (apply Qc_is_canon; reflexivity). unfold Qcdiv. ring. }
    rewrite E. apply qfloor_unique; change (zq 0) with 0%Qc.
    + rewrite <- (Qcmult_0_l (1 / nq 8)). apply Qcmult_le_compat_r; [|discriminate]. clear - B2. set (a := nq 4) in *. clearbody a. qn.
    + replace (0 + 1)%Qc with (nq 8 * (1 / nq 8))%Qc by (apply Qc_is_canon; reflexivity). apply Qcmult_lt_compat_r; [reflexivity|]. clear - L. replace (nq 8) with (nq 4 + nq 4)%Qc by (apply Qc_is_canon; reflexivity). set (a := nq 4) in *. clearbody a. qn.
Qed.

Lemma nq_add a b : nq (a + b) = (nq a + nq b)%Qc.
Proof. unfold nq. now rewrite Nat2Z.inj_add, zq_plus. Qed.
Lemma tent_turned u i : i < 8 -> tent (wrap 8 (- u - nq ((8 - i) mod 8))%Qc) = tent (wrap 8 (u - nq i)%Qc).
Proof.
  intro L. rewrite <- (tent_wrap_opp (u - nq i)). destruct i as [|i].
  - rewrite Nat.sub_0_r, Nat.mod_same by lia. do 2 f_equal. change (nq 0) with 0%Qc. ring.
  - rewrite Nat.mod_small by lia. rewrite <- (wrap_period 8 (- u - nq (8 - S i)) 1) by lia. do 2 f_equal. assert (E : (nq 8 = nq (8 - S i) + nq (S i))%Qc) by (rewrite <- nq_add; f_equal; lia).
    rewrite E. change (zq 1) with 1%Qc. ring.
Qed.
Lemma tent_opposite v j : j <= 3 -> tent (- v - (nq (3 - j) - nq 3 / nq 2))%Qc = tent (v - (nq j - nq 3 / nq 2))%Qc.
Proof.
  intro L. rewrite <- (tent_opp (v - (nq j - nq 3 / nq 2))). f_equal. assert (E : (nq 3 = nq (3 - j) + nq j)%Qc) by (rewrite <- nq_add; f_equal; lia).
  assert (E2 : (nq 3 = nq 3 / nq 2 + nq 3 / nq 2)%Qc) by (apply Qc_is_canon; reflexivity). replace (nq (3 - j)) with (nq 3 / nq 2 + nq 3 / nq 2 - nq j)%Qc by (rewrite <- E2, E; ring). ring.
Qed.
Lemma around_swap W b w h x y f : around_sum W b w h x y f = around_sum W b h w y x (fun py px => f px py).
Proof.
  unfold around_sum. rewrite (sum_swap _ _ _ _ _ _ Qcrt). apply ksum_ext. intros px _. apply ksum_ext. intros py _. now rewrite andb_comm.
Qed.

(** ** the angles *)
Lemma angles_ok pi M N G : length G = 2 * (M * N) -> exists G', transpose_angles pi M N G = Some G' /\ length G' = length G /\ forall r c, r < M -> c < N -> mag G' 0 M r c = mag G 0 M r c /\ ang G' 0 M r c = (pi / nq 2 - ang G 0 M r c)%Qc.
Proof.
  intro LG. unfold transpose_angles. match goal with |- context [iter _ ?b ?s] => destruct (iter_inv (fun k g => length g = length G /\ forall j, j < M * N ->
    nth (2 * j) g 0%Qc = nth (2 * j) G 0%Qc /\ nth (2 * j + 1) g 0%Qc = if j <? k then (pi / nq 2 - nth (2 * j + 1) G 0)%Qc else nth (2 * j + 1) G 0%Qc) b (M * N) s) as (g & E & L & I) end.
  - split; [reflexivity|]. intros j _. split; reflexivity.
  - intros k g Lk (L & I). rewrite (aget_nth g _ 0%Qc) by lia. cbn [obind]. rewrite aset_lt by lia. eexists. split; [reflexivity|]. split; [now rewrite upd_length|].
    intros j Lj. destruct (I j Lj) as [I1 I2]. split; [rewrite nth_upd by lia; destruct (Nat.eqb_spec (2 * j) (2 * k + 1)); [lia|exact I1]|].
    rewrite nth_upd by lia. destruct (Nat.eqb_spec (2 * j + 1) (2 * k + 1)) as [Ej|Ej].
    + assert (j = k) by lia. subst j. rewrite I2. rewrite (proj2 (Nat.ltb_ge k k)) by lia. rewrite (proj2 (Nat.ltb_lt k (k + 1))) by lia. reflexivity.
    + rewrite I2. replace (j <? k + 1) with (j <? k); [reflexivity|]. destruct (Nat.ltb_spec j k), (Nat.ltb_spec j (k + 1)); auto; lia.
  - exists g. split; [exact E|]. split; [exact L|]. intros r c Lr Lc. assert (Lj : c * M + r < M * N) by nia. destruct (I (c * M + r) Lj) as [I1 I2].
    unfold mag, ang. rewrite Nat.add_0_l. split; [exact I1|]. rewrite I2. rewrite (proj2 (Nat.ltb_lt _ _)) by exact Lj. reflexivity.
Qed.

(** ** histograms of transposed images *)
Section Bins.
Variables (expo sine cosine : Qc -> Qc) (pi : Qc) (M N : nat) (G' R : list Qc) (x y th size wsigma : Qc).
Hypothesis turn_s : sine (pi / nq 2 - th)%Qc = cosine th.
Hypothesis turn_c : cosine (pi / nq 2 - th)%Qc = sine th.
Hypothesis pixels : forall r c, r < M -> c < N -> mag G' 0 M r c = mag R 0 N c r /\ ang G' 0 M r c = (pi / nq 2 - ang R 0 N c r)%Qc.
Lemma turned_x r c : frame_x sine cosine y x (pi / nq 2 - th) size r c = frame_x sine cosine x y th size c r.
Proof. unfold frame_x. rewrite turn_s, turn_c. f_equal. ring. Qed.
Lemma turned_y r c : frame_y sine cosine y x (pi / nq 2 - th) size r c = (- frame_y sine cosine x y th size c r)%Qc.
Proof. unfold frame_y. rewrite turn_s, turn_c. unfold Qcdiv. ring. Qed.
Lemma turned_argument r c : descr_argument sine cosine y x (pi / nq 2 - th) size wsigma r c = descr_argument sine cosine x y th size wsigma c r.
Proof. unfold descr_argument. rewrite turned_x, turned_y. f_equal. ring. Qed.
Lemma turned_bin reach i : i < 128 ->
  descr_bin expo sine cosine pi G' 0 M N y x (pi / nq 2 - th) size wsigma reach 0 (mirror i) = descr_bin expo sine cosine pi R 0 N M x y th size wsigma reach 0 i.
Proof.
  intro L. unfold descr_bin. rewrite around_swap. unfold around_sum. apply ksum_ext. intros r Lr. apply ksum_ext. intros c Lc. destruct (_ && _); [|reflexivity].
  destruct (pixels r c Lr Lc) as [-> ->]. destruct (mirror_facts i L) as (_ & _ & -> & -> & -> & L3). rewrite turned_argument, turned_x, turned_y.
  rewrite tent_opposite by exact L3. f_equal.
  replace (nq 8 * (pi / nq 2 - ang R 0 N c r - (pi / nq 2 - th)) / (nq 2 * pi))%Qc with (- (nq 8 * (ang R 0 N c r - th) / (nq 2 * pi)))%Qc by (unfold Qcdiv; ring).
  apply tent_turned. apply Nat.mod_upper_bound. lia.
Qed.
End Bins.
Section Ends.
Variables (fsqrt : Qc -> Qc) (eps : Qc).
Lemma norm_mirror h h' : (forall i, i < 128 -> h (mirror i) = h' i) -> norm_of fsqrt eps 128 h = norm_of fsqrt eps 128 h'.
Proof. intro H. unfold norm_of. do 2 f_equal. apply sum_mirror. intros i L. now rewrite H. Qed.
Lemma final_mirror h h' i : (forall i, i < 128 -> h (mirror i) = h' i) -> i < 128 -> final fsqrt eps 128 h (mirror i) = final fsqrt eps 128 h' i.
Proof.
  intros H L. assert (N : forall i, i < 128 -> normal fsqrt eps 128 h (mirror i) = normal fsqrt eps 128 h' i).
  { intros k Lk. unfold normal. rewrite H by exact Lk. now rewrite (norm_mirror h h' H). }
  assert (C : forall i, i < 128 -> cut (normal fsqrt eps 128 h (mirror i)) = cut (normal fsqrt eps 128 h' i)) by (intros k Lk; now rewrite N).
  unfold final. set (a := fun i => cut (normal fsqrt eps 128 h i)). set (a' := fun i => cut (normal fsqrt eps 128 h' i)).
  unfold normal at 1 2. rewrite (norm_mirror a a' C). unfold a, a'. now rewrite C.
Qed.
End Ends.
