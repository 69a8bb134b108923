From Coq Require Import List Arith ZArith Lia Bool QArith Qcanon Qcabs Permutation.
From Verif Require Import Base Loop MserSort_Proofs ImOp_Spec ImOp_Model ImOp_Proofs Rat Gauss_Model Gauss_Proofs Vlad_Proofs Dsift_Model Dsift_Spec Dsift_Proofs DsiftWindow_Proofs DsiftRun_Proofs.
Local Open Scope nat_scope.

(** *** Places *)
Lemma place_at T X Y t x y : t < T -> x < X -> place T X Y (T * (x + y * X) + t) = T * (y + x * Y) + (T / 4 + T - t) mod T.
Proof.
  intros Lt Lx. unfold place.
  assert (E1 : (T * (x + y * X) + t) mod T = t) by (rewrite Nat.add_comm, Nat.mul_comm, Nat.mod_add by lia; now apply Nat.mod_small).
  assert (E2 : (T * (x + y * X) + t) / T = x + y * X) by (rewrite Nat.mul_comm, Nat.div_add_l by lia; rewrite Nat.div_small by exact Lt; lia).
  assert (E3 : (x + y * X) mod X = x) by (rewrite Nat.mod_add by lia; now apply Nat.mod_small).
  assert (E4 : (x + y * X) / X = y) by (rewrite Nat.div_add by lia; now rewrite Nat.div_small).
  now rewrite E1, E2, E3, E4.
Qed.
Lemma entry T X Y j : j < X * Y * T -> exists t x y, t < T /\ x < X /\ y < Y /\ j = T * (x + y * X) + t.
Proof.
  intro L. assert (HT : T <> 0) by (intros ->; lia). assert (HX : X <> 0) by (intros ->; lia).
  exists (j mod T), (j / T mod X), (j / T / X). split; [now apply Nat.mod_upper_bound|]. split; [now apply Nat.mod_upper_bound|].
  split.
  - apply Nat.div_lt_upper_bound; [exact HX|]. apply Nat.div_lt_upper_bound; [exact HT|]. lia.
  - rewrite (Nat.div_mod_eq j T) at 1. f_equal. f_equal. rewrite (Nat.div_mod_eq (j / T) X) at 1. lia.
Qed.
Lemma entry_lt T X Y t x y : t < T -> x < X -> y < Y -> T * (x + y * X) + t < X * Y * T.
Proof. intros Lt Lx Ly. assert (x + y * X + 1 <= X * Y) by nia. nia. Qed.
Lemma place_lt T X Y j : j < X * Y * T -> place T X Y j < X * Y * T.
Proof.
  intro L. destruct (entry T X Y j L) as (t & x & y & Lt & Lx & Ly & ->). rewrite place_at by auto.
  rewrite (Nat.mul_comm X Y). apply entry_lt; auto. apply Nat.mod_upper_bound. lia.
Qed.
Lemma back T q t : t < T -> (q + T - (q + T - t) mod T) mod T = t mod T.
Proof.
  intro Lt. set (r := (q + T - t) mod T). assert (Hr : q + T - t = T * ((q + T - t) / T) + r) by (apply Nat.div_mod_eq).
  assert (r < T) by (apply Nat.mod_upper_bound; lia).
  replace (q + T - r) with (t + (q + T - t) / T * T) by nia. apply Nat.mod_add. lia.
Qed.
Lemma place_back T X Y j : j < X * Y * T -> place T Y X (place T X Y j) = j.
Proof.
  intro L. destruct (entry T X Y j L) as (t & x & y & Lt & Lx & Ly & ->). rewrite place_at by auto. rewrite place_at; [|apply Nat.mod_upper_bound; lia|exact Ly].
  f_equal. rewrite back by exact Lt. now apply Nat.mod_small.
Qed.
Lemma place_inj T X Y i j : i < X * Y * T -> j < X * Y * T -> place T X Y i = place T X Y j -> i = j.
Proof. intros Li Lj E. rewrite <- (place_back T X Y i Li), <- (place_back T X Y j Lj). now rewrite E. Qed.
Lemma places T X Y : Permutation (map (place T X Y) (seq 0 (X * Y * T))) (seq 0 (X * Y * T)).
Proof.
  apply NoDup_Permutation_bis.
  - assert (H : forall l, NoDup l -> (forall i, In i l -> i < X * Y * T) -> NoDup (map (place T X Y) l)).
    { induction 1 as [|a l N ND IH]; intro B; cbn [map]; constructor.
      - intro I. apply in_map_iff in I as (b & E & Ib). apply N. rewrite <- (place_inj T X Y b a); auto; apply B; cbn; auto.
      - apply IH. intros i Ii. apply B. now right. }
    apply H; [apply seq_NoDup|]. intros i Ii. apply in_seq in Ii. lia.
  - now rewrite map_length.
  - intros p Ip. apply in_map_iff in Ip as (j & <- & Ij). apply in_seq in Ij. apply in_seq. pose proof (place_lt T X Y j). lia.
Qed.
Lemma sum_places T X Y f g : (forall j, j < X * Y * T -> f (place T X Y j) = g j) -> qsum (X * Y * T) f = qsum (X * Y * T) g.
Proof.
  intro H. rewrite <- (sum_reorder _ f _ (places T X Y)). apply qsum_ext. intros i Li.
  rewrite (nth_indep _ _ (place T X Y 0)) by (rewrite map_length, seq_length; exact Li). rewrite map_nth, seq_nth by exact Li. now apply H.
Qed.
Lemma clamped_eq r r' i j : r i = r' j -> clamped r i = clamped r' j.
Proof. intro E. unfold clamped. now rewrite E. Qed.
Lemma finish_places sqrt_ eps T X Y r r' : (forall j, j < X * Y * T -> r' (place T X Y j) = r j) ->
  forall j, j < X * Y * T -> finish sqrt_ eps (X * Y * T) r' (place T X Y j) = finish sqrt_ eps (X * Y * T) r j.
Proof.
  intro H.
  assert (N : forall r r', (forall j, j < X * Y * T -> r' (place T X Y j) = r j) -> forall j, j < X * Y * T -> normalised sqrt_ eps (X * Y * T) r' (place T X Y j) = normalised sqrt_ eps (X * Y * T) r j).
  { intros a b Hab j Lj. unfold normalised. rewrite Hab by exact Lj. do 3 f_equal. apply sum_places. intros i Li. now rewrite Hab. }
  intros j Lj. unfold finish. apply N; [|exact Lj]. intros i Li. apply clamped_eq. now apply N.
Qed.

(** *** The function vl_dsift_transpose_descriptor *)
Lemma transpose_ok dst src T X Y : X * Y * T <= length src -> X * Y * T <= length dst ->
  exists dst', transpose_descriptor dst src T X Y = Some dst' /\ length dst' = length dst /\
    (forall j, j < X * Y * T -> nth (place T X Y j) dst' 0%Qc = nth j src 0%Qc) /\
    forall p, X * Y * T <= p -> nth p dst' 0%Qc = nth p dst 0%Qc.
Proof.
  intros Ls Ld.
  set (Inv := fun m d => length d = length dst /\ (forall j, j < m -> j < X * Y * T -> nth (place T X Y j) d 0%Qc = nth j src 0%Qc) /\
    forall p, X * Y * T <= p -> nth p d 0%Qc = nth p dst 0%Qc).
  unfold transpose_descriptor. match goal with |- context [iter Y ?b ?s] => destruct (iter_inv (fun y d => Inv (T * (y * X)) d) b Y s) as (d & E & I) end.
  - split; [reflexivity|]. split; [|reflexivity]. intros j Lj. lia.
  - intros y d Ly I. match goal with |- context [iter X ?b ?s] => destruct (iter_inv (fun x d => Inv (T * (x + y * X)) d) b X s) as (d1 & E1 & I1) end.
    + exact I.
    + intros x d0 Lx I0. cbv zeta. match goal with |- context [iter T ?b ?s] => destruct (iter_inv (fun t d => Inv (T * (x + y * X) + t) d) b T s) as (d2 & E2 & I2) end.
      * now rewrite Nat.add_0_r.
      * intros t d3 Lt (L3 & H3 & K3).
        assert (Lj : T * (x + y * X) + t < X * Y * T) by (apply entry_lt; auto).
        rewrite (aget_nth src _ 0%Qc) by lia. cbn [obind].
        assert (Q : (Z.of_nat (T * (y + x * Y)) + Z.rem (Z.of_nat T ÷ 4 - Z.of_nat t + Z.of_nat T) (Z.of_nat T))%Z = Z.of_nat (place T X Y (T * (x + y * X) + t))).
        { rewrite place_at by auto. rewrite Nat2Z.inj_add. f_equal. rewrite Nat2Z.inj_mod, Nat2Z.inj_sub, Nat2Z.inj_add, Nat2Z.inj_div by lia.
          change (Z.of_nat 4) with 4%Z. rewrite Z.quot_div_nonneg by lia. assert (0 <= Z.of_nat T / 4)%Z by (apply Z.div_pos; lia). rewrite Z.rem_mod_nonneg by lia. f_equal. lia. }
        rewrite Q. unfold zset. destruct (Z.ltb_spec (Z.of_nat (place T X Y (T * (x + y * X) + t))) 0) as [B|B]; [lia|]. rewrite Nat2Z.id.
        pose proof (place_lt T X Y _ Lj). rewrite aset_lt by lia. eexists; split; [reflexivity|]. split; [now rewrite upd_length|]. split.
        -- intros j Lj1 Lj2. rewrite nth_upd by lia. destruct (Nat.eqb_spec (place T X Y j) (place T X Y (T * (x + y * X) + t))) as [Ep|Ep].
           ++ apply place_inj in Ep; auto. now subst j.
           ++ apply H3; [|exact Lj2]. assert (j <> T * (x + y * X) + t) by (intros ->; now apply Ep). lia.
        -- intros p Lp. rewrite nth_upd by lia. destruct (Nat.eqb_spec p (place T X Y (T * (x + y * X) + t))) as [Ep|Ep]; [lia|]. now apply K3.
      * exists d2. split; [exact E2|]. replace (T * (x + 1 + y * X)) with (T * (x + y * X) + T) by lia. exact I2.
    + exists d1. split; [exact E1|]. replace (T * ((y + 1) * X)) with (T * (X + y * X)) by lia. exact I1.
  - exists d. split; [exact E|]. destruct I as (L & H & K). split; [exact L|]. split; [|exact K]. intros j Lj. apply H; [lia|exact Lj].
Qed.

(** *** Gradients of the transposed image *)
Lemma modeq a b n : (0 < n)%Z -> (a mod n = b mod n <-> exists q, a = b + q * n)%Z.
Proof.
  intro Hn. split.
  - intro E. exists (a / n - b / n)%Z. pose proof (Z.div_mod a n). pose proof (Z.div_mod b n). nia.
  - intros [q ->]. apply Z.mod_add. lia.
Qed.
Lemma reflected k T z t m : 0 < T -> t < T ->
  ((Z.of_nat k - z + m * Z.of_nat T) mod Z.of_nat T =? Z.of_nat ((k + T - t) mod T))%Z = (z mod Z.of_nat T =? Z.of_nat t)%Z.
Proof.
  intros HT Lt. rewrite Nat2Z.inj_mod, Nat2Z.inj_sub, Nat2Z.inj_add by lia. rewrite <- (Z.mod_small (Z.of_nat t) (Z.of_nat T)) at 2 by lia.
  assert (H : ((Z.of_nat k - z + m * Z.of_nat T) mod Z.of_nat T = (Z.of_nat k + Z.of_nat T - Z.of_nat t) mod Z.of_nat T <-> z mod Z.of_nat T = Z.of_nat t mod Z.of_nat T)%Z).
  { rewrite !modeq by lia. split; intros [q E].
    - exists (m - 1 - q)%Z. nia.
    - exists (m - 1 - q)%Z. nia. }
  destruct (Z.eqb_spec (z mod Z.of_nat T) (Z.of_nat t mod Z.of_nat T)) as [E|E].
  - apply Z.eqb_eq. now apply H.
  - apply Z.eqb_neq. intro E'. apply E. now apply H.
Qed.
Lemma neighbours z T t : (2 <= T)%Z -> ((z + 1) mod T = t -> z mod T <> t)%Z.
Proof.
  intros HT <- E. symmetry in E. apply modeq in E; [|lia]. destruct E as [q E]. destruct (Z.le_gt_cases q 0); nia.
Qed.
Lemma orient_flip sqrt_ turn T gx gy t : reflecting turn -> sqrt_ 0%Qc = 0%Qc -> 0 < T -> T mod 4 = 0 -> t < T ->
  orient sqrt_ turn T gy gx ((T / 4 + T - t) mod T) = orient sqrt_ turn T gx gy t.
Proof.
  intros HR H0 HT H4 Lt.
  assert (Dec : (gx = 0 /\ gy = 0)%Qc \/ (gx <> 0 \/ gy <> 0)%Qc) by (destruct (Qc_eq_dec gx 0), (Qc_eq_dec gy 0); auto).
  destruct Dec as [[-> ->]|NZ].
  { unfold orient. replace (0 * 0 + 0 * 0)%Qc with 0%Qc by ring. rewrite H0.
    repeat match goal with |- context [if ?b then _ else _] => destruct b end; ring. }
  destruct (HR gx gy NZ) as [m Em]. unfold orient. cbv zeta. replace (gy * gy + gx * gx)%Qc with (gx * gx + gy * gy)%Qc by ring.
  set (md := sqrt_ _). set (k := T / 4) in *. assert (ET : T = 4 * k) by (unfold k; pose proof (Nat.div_mod_eq T 4); lia).
  set (nt := (turn gy gx * nq T)%Qc). set (nt' := (turn gx gy * nq T)%Qc).
  assert (Ent : nt' = (zq (Z.of_nat k + m * Z.of_nat T) - nt)%Qc).
  { unfold nt', nt. rewrite Em. rewrite zq_plus, zq_mult. fold (nq k) (nq T).
    assert (Ek : (Q2Qc (1 # 4) * nq T = nq k)%Qc).
    { rewrite ET. unfold nq. rewrite Nat2Z.inj_mul, zq_mult. rewrite Qcmult_assoc. replace (Q2Qc (1 # 4) * zq (Z.of_nat 4))%Qc with 1%Qc by (now apply Qc_is_canon). ring. }
    rewrite <- Ek. ring. }
  pose proof (qfloor_le nt) as F1. pose proof (qfloor_lt nt) as F2. set (b := qfloor nt) in *.
  assert (Eb1 := reflected k T b t m HT Lt). assert (Eb2 := reflected k T (b + 1) t m HT Lt).
  destruct (Qc_eq_dec nt (zq b)) as [Ei|Ni].
  - assert (Eb : qfloor nt' = (Z.of_nat k - b + m * Z.of_nat T)%Z).
    { apply qfloor_unique; rewrite Ent, Ei; replace (Z.of_nat k - b + m * Z.of_nat T)%Z with (Z.of_nat k + m * Z.of_nat T + - b)%Z by lia; rewrite (zq_plus (_ + _)), zq_opp; qc_lra. }
    assert (Er : (nt' - zq (qfloor nt') = 0)%Qc).
    { rewrite Eb, Ent, Ei. replace (Z.of_nat k - b + m * Z.of_nat T)%Z with (Z.of_nat k + m * Z.of_nat T + - b)%Z by lia; rewrite (zq_plus (_ + _)), zq_opp. ring. }
    rewrite Er. replace (nt - zq b)%Qc with 0%Qc by (rewrite Ei; ring). rewrite Eb, Eb1.
    destruct (Z.eqb_spec (b mod Z.of_nat T) (Z.of_nat t)) as [E|E].
    + destruct (Z.eqb_spec ((b + 1) mod Z.of_nat T) (Z.of_nat t)) as [E'|E'].
      { exfalso. apply (neighbours b (Z.of_nat T) (Z.of_nat t)); auto. lia. }
      destruct (Z.eqb_spec ((Z.of_nat k - b + m * Z.of_nat T + 1) mod Z.of_nat T) (Z.of_nat ((k + T - t) mod T))) as [E2|E2].
      { exfalso. apply Z.eqb_eq in Eb1. apply (neighbours (Z.of_nat k - b + m * Z.of_nat T) (Z.of_nat T) (Z.of_nat ((k + T - t) mod T))); auto. lia. }
      ring.
    + destruct ((Z.of_nat k - b + m * Z.of_nat T + 1) mod Z.of_nat T =? Z.of_nat ((k + T - t) mod T))%Z, ((b + 1) mod Z.of_nat T =? Z.of_nat t)%Z; ring.
  - assert (F3 : (zq b < nt)%Qc) by (destruct (Qcle_lt_or_eq _ _ F1); [assumption|congruence]).
    assert (Eb : qfloor nt' = (Z.of_nat k - (b + 1) + m * Z.of_nat T)%Z).
    { apply qfloor_unique; rewrite Ent; replace (Z.of_nat k - (b + 1) + m * Z.of_nat T)%Z with (Z.of_nat k + m * Z.of_nat T + - b + - (1))%Z by lia; rewrite !(zq_plus (_ + _)), !zq_opp, zq_1; qc_lra. }
    assert (Er : (nt' - zq (qfloor nt') = 1 - (nt - zq b))%Qc).
    { rewrite Eb, Ent. replace (Z.of_nat k - (b + 1) + m * Z.of_nat T)%Z with (Z.of_nat k + m * Z.of_nat T + - b + - (1))%Z by lia; rewrite (zq_plus (_ + - b)), (zq_plus (_ + m * _)), !zq_opp, zq_1. ring. }
    rewrite Er. rewrite Eb. replace (Z.of_nat k - (b + 1) + m * Z.of_nat T + 1)%Z with (Z.of_nat k - b + m * Z.of_nat T)%Z by lia.
    rewrite Eb1, Eb2.
    destruct (Z.eqb_spec (b mod Z.of_nat T) (Z.of_nat t)) as [E|E], (Z.eqb_spec ((b + 1) mod Z.of_nat T) (Z.of_nat t)) as [E'|E']; try ring.
    exfalso. apply (neighbours b (Z.of_nat T) (Z.of_nat t)); auto. lia.
Qed.
Lemma diff_ext f g n i : 2 <= n -> i < n -> (forall a, a < n -> f a = g a) -> diff f n i = diff g n i.
Proof.
  intros Hn Li H. unfold diff. destruct (Nat.eqb_spec i 0); [rewrite !H by lia; reflexivity|].
  destruct (Nat.eqb_spec i (n - 1)); rewrite !H by lia; reflexivity.
Qed.
Lemma energy_flip sqrt_ turn w h T I I' t x y : reflecting turn -> sqrt_ 0%Qc = 0%Qc -> 0 < T -> T mod 4 = 0 -> t < T -> 2 <= w -> 2 <= h -> x < w -> y < h ->
  (forall a b, a < w -> b < h -> I' b a = I a b) ->
  energy sqrt_ turn h w T I' ((T / 4 + T - t) mod T) y x = energy sqrt_ turn w h T I t x y.
Proof.
  intros HR H0 HT H4 Lt Hw Hh Lx Ly H. unfold energy. rewrite <- (orient_flip sqrt_ turn T _ _ t HR H0 HT H4 Lt). f_equal.
  - apply diff_ext; auto.
  - apply diff_ext; auto.
Qed.

(** *** Filtering rows and columns commutes *)
Definition clampi (n : nat) (p : Z) : nat := Z.to_nat (Z.max 0 (Z.min p (Z.of_nat n - 1))).
Lemma clampi_lt n p : 0 < n -> clampi n p < n.
Proof. intro Hn. unfold clampi. lia. Qed.
Lemma padded_clamp n (f : nat -> Qc) p : 0 < n -> padded 0%Qc false n f p = f (clampi n p).
Proof.
  intro Hn. unfold padded, clampi. destruct (Z.leb_spec 0 p), (Z.ltb_spec p (Z.of_nat n)); cbn [andb]; [f_equal; lia| | |].
  - destruct (Z.ltb_spec p 0); [lia|]. f_equal. lia.
  - destruct (Z.ltb_spec p 0); [|lia]. f_equal. lia.
  - lia.
Qed.
Lemma times_nq n (v : Qc) : times 0%Qc Qcplus n v = (v * nq n)%Qc.
Proof.
  unfold times. induction n as [|n IH]; [cbn; unfold nq; cbn; change (zq 0) with 0%Qc; ring|]. cbn [sum]. rewrite IH. unfold nq. rewrite Nat2Z.inj_succ. unfold Z.succ. rewrite zq_plus, zq_1. ring.
Qed.
Lemma two_sums n m (E : nat -> nat -> Qc) (A B : nat -> Qc) :
  qsum n (fun i => (qsum m (fun j => E i j * B j) * A i)%Qc) = qsum m (fun j => (qsum n (fun i => E i j * A i) * B j)%Qc).
Proof.
  rewrite (qsum_ext n _ (fun i => qsum m (fun j => (E i j * A i * B j)%Qc))).
  - rewrite (sum_swap _ _ _ _ _ _ Qcrt). apply qsum_ext. intros j Lj. rewrite Qcmult_comm, <- (sum_scale _ _ _ _ _ _ Qcrt). apply qsum_ext. intros i Li. ring.
  - intros i Li. rewrite Qcmult_comm, <- (sum_scale _ _ _ _ _ _ Qcrt). apply qsum_ext. intros j Lj. ring.
Qed.
Lemma separable n m w h (e e' : nat -> nat -> Qc) (P Q : nat -> nat) (A B : nat -> Qc) :
  (forall i, P i < w) -> (forall j, Q j < h) -> (forall a b, a < w -> b < h -> e' b a = e a b) ->
  qsum m (fun j => (qsum n (fun i => e' (Q j) (P i) * A i) * B j)%Qc) = qsum n (fun i => (qsum m (fun j => e (P i) (Q j) * B j) * A i)%Qc).
Proof.
  intros HP HQ H. rewrite (two_sums n m (fun i j => e (P i) (Q j)) A B). apply qsum_ext. intros j Lj. f_equal. apply qsum_ext. intros i Li. now rewrite H.
Qed.
Lemma filtered_clamp n f bs ker x : 0 < n -> filtered n f bs ker x =
  qsum (Z.to_nat (Z.of_nat bs - 1 - - (Z.of_nat bs - 1) + 1)) (fun i => (f (clampi n (Z.of_nat x - (- (Z.of_nat bs - 1) + Z.of_nat i))) * nth i ker 0)%Qc).
Proof. intro Hn. unfold filtered, conv_at. apply qsum_ext. intros i Li. now rewrite padded_clamp by exact Hn. Qed.
Lemma filtered_flip w h (e e' : nat -> nat -> Qc) bx by_ kx ky x y : 0 < w -> 0 < h -> (forall a b, a < w -> b < h -> e' b a = e a b) ->
  filtered h (fun b => filtered w (e' b) bx kx x) by_ ky y = filtered w (fun a => filtered h (e a) by_ ky y) bx kx x.
Proof.
  intros Hw Hh H. rewrite !filtered_clamp by auto.
  etransitivity; [|etransitivity; [refine (separable (Z.to_nat (Z.of_nat bx - 1 - - (Z.of_nat bx - 1) + 1)) (Z.to_nat (Z.of_nat by_ - 1 - - (Z.of_nat by_ - 1) + 1)) w h e e' (fun i => clampi w (Z.of_nat x - (- (Z.of_nat bx - 1) + Z.of_nat i))) (fun j => clampi h (Z.of_nat y - (- (Z.of_nat by_ - 1) + Z.of_nat j))) (fun i => nth i kx 0%Qc) (fun j => nth j ky 0%Qc) _ _ H)|]].
  - apply qsum_ext. intros j Lj. now rewrite filtered_clamp by exact Hw.
  - intro i. now apply clampi_lt.
  - intro i. now apply clampi_lt.
  - apply qsum_ext. intros j Lj. now rewrite filtered_clamp by exact Hh.
Qed.
Definition tri_at (F i : nat) : Qc := (1 / (nq F * nq F) * nq (Z.to_nat (Z.of_nat F - Z.abs (Z.of_nat i - (Z.of_nat F - 1)))))%Qc.
Lemma smoothed_clamp n f F p : 0 < n -> smoothed n f F p = qsum (2 * F - 1) (fun i => (f (clampi n (Z.of_nat p + (Z.of_nat i - (Z.of_nat F - 1)))) * tri_at F i)%Qc).
Proof.
  intros Hn. unfold smoothed, triangle_at. rewrite <- (sum_scale _ _ _ _ _ _ Qcrt). apply qsum_ext. intros i Li. cbv zeta. rewrite times_nq, padded_clamp by exact Hn. unfold tri_at. ring.
Qed.
Lemma smoothed_flip w h (e e' : nat -> nat -> Qc) bx by_ x y : 0 < w -> 0 < h -> (forall a b, a < w -> b < h -> e' b a = e a b) ->
  smoothed h (fun b => smoothed w (e' b) bx x) by_ y = smoothed w (fun a => smoothed h (e a) by_ y) bx x.
Proof.
  intros Hw Hh H. rewrite !smoothed_clamp by auto.
  etransitivity; [|etransitivity; [refine (separable (2 * bx - 1) (2 * by_ - 1) w h e e' (fun i => clampi w (Z.of_nat x + (Z.of_nat i - (Z.of_nat bx - 1)))) (fun j => clampi h (Z.of_nat y + (Z.of_nat j - (Z.of_nat by_ - 1)))) (tri_at bx) (tri_at by_) _ _ H)|]].
  - apply qsum_ext. intros j Lj. now rewrite smoothed_clamp by exact Hw.
  - intro i. now apply clampi_lt.
  - intro i. now apply clampi_lt.
  - apply qsum_ext. intros j Lj. now rewrite smoothed_clamp by exact Hh.
Qed.

(** *** The descriptor of the transposed image *)
Section Flip.
Variables (sqrt_ exp_ : Qc -> Qc) (turn : Qc -> Qc -> Qc).
Hypothesis HR : reflecting turn.
Hypothesis H0 : sqrt_ 0%Qc = 0%Qc.
Lemma raw_flip c I I' fx fy j : 2 <= imw c -> 2 <= imh c -> nbt c mod 4 = 0 -> j < nbx c * nby c * nbt c ->
  (forall a b, a < imw c -> b < imh c -> I' b a = I a b) ->
  raw sqrt_ exp_ turn (flipped c) I' fy fx (place (nbt c) (nbx c) (nby c) j) = raw sqrt_ exp_ turn c I fx fy j.
Proof.
  intros Hw Hh H4 Lj HI. destruct (entry _ _ _ _ Lj) as (t & x & y & Lt & Lx & Ly & ->). rewrite place_at by auto.
  set (t' := (nbt c / 4 + nbt c - t) mod nbt c). assert (Lt' : t' < nbt c) by (apply Nat.mod_upper_bound; lia).
  assert (Sp : forall T X t x y, t < T -> x < X -> (T * (x + y * X) + t) mod T = t /\ ((T * (x + y * X) + t) / T) mod X = x /\ (T * (x + y * X) + t) / T / X = y).
  { clear. intros T X t x y Lt Lx.
    assert (E2 : (T * (x + y * X) + t) / T = x + y * X) by (rewrite Nat.mul_comm, Nat.div_add_l by lia; rewrite Nat.div_small by exact Lt; lia).
    split; [rewrite Nat.add_comm, Nat.mul_comm, Nat.mod_add by lia; now apply Nat.mod_small|]. rewrite E2.
    split; [rewrite Nat.mod_add by lia; now apply Nat.mod_small|rewrite Nat.div_add by lia; now rewrite Nat.div_small]. }
  unfold raw. cbn [flipped nbt nbx nby bsx bsy].
  destruct (Sp (nbt c) (nbx c) t x y Lt Lx) as (-> & -> & ->). destruct (Sp (nbt c) (nby c) t' y x Lt' Ly) as (-> & -> & ->).
  unfold response. cbn [flipped imw imh nbt nbx nby bsx bsy flat window].
  assert (HE : forall a b, a < imw c -> b < imh c -> energy sqrt_ turn (imh c) (imw c) (nbt c) I' t' b a = energy sqrt_ turn (imw c) (imh c) (nbt c) I t a b).
  { intros a b La Lb. apply energy_flip; auto; lia. }
  destruct (flat c).
  - rewrite (smoothed_flip (imw c) (imh c) (energy sqrt_ turn (imw c) (imh c) (nbt c) I t)) by (auto; lia). ring.
  - apply filtered_flip; auto; lia.
Qed.
End Flip.
