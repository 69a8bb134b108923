(** Lemmas on bins, sums over bins and running maxima. *)
From Coq Require Import List Arith Bool ZArith QArith Qcanon Lia.
Import ListNotations.
From Verif Require Import Base Rat Loop Gauss_Model Gauss_Proofs Bins_Model Bins_Spec.
Local Open Scope nat_scope.

Lemma qlt_false x y : qlt x y = false <-> (y <= x)%Qc.
Proof. destruct (qlt x y) eqn:E; split; intros H; try congruence; [apply qlt_true in E; qc_lra|]. apply Qcnot_lt_le. intros Q. apply qlt_true in Q. congruence. Qed.
Lemma nth_some {A} (l : list A) p : p < length l -> exists v, nth_error l p = Some v.
Proof. intros H. destruct (nth_error l p) eqn:E; [eauto|]. apply nth_error_None in E. lia. Qed.
Lemma nth_bnd {A} (l : list A) p v : nth_error l p = Some v -> p < length l.
Proof. intros H. apply nth_error_Some. congruence. Qed.

Lemma bisect_ok B x : forall fuel lo up a b, nth_error B lo = Some a -> nth_error B up = Some b -> (a <= x)%Qc -> (x < b)%Qc -> lo < up -> up - lo < fuel + 1 -> 1 <= fuel ->
  exists r a' b', bisect B x fuel lo up = Some r /\ nth_error B r = Some a' /\ nth_error B (S r) = Some b' /\ (a' <= x)%Qc /\ (x < b')%Qc.
Proof.
  induction fuel as [|fuel IH]; intros lo up a b A Bq L1 L2 LU F F1; [lia|]. cbn [bisect]. destruct (lo + 1 <? up) eqn:E.
  - apply Nat.ltb_lt in E. pose proof (nth_bnd _ _ _ Bq) as BU. assert (M : lo < (up + lo) / 2 < up). { split; [apply Nat.div_le_lower_bound; lia|apply Nat.div_lt_upper_bound; lia]. }
    destruct (nth_some B ((up + lo) / 2) ltac:(lia)) as [c C]. unfold aget. rewrite C. cbn [obind]. destruct (qlt x c) eqn:Q.
    + apply qlt_true in Q. eapply (IH _ _ a c); eauto; lia.
    + apply qlt_false in Q. eapply (IH _ _ c b); eauto; lia.
  - apply Nat.ltb_ge in E. replace up with (S lo) in Bq by lia. exists lo, a, b. auto.
Qed.
Lemma binsearch_ok B x : nondecreasing B -> exists k, binsearch B x = Some k /\ bin B x k.
Proof.
  intros M. unfold binsearch. destruct (length B =? 0) eqn:Z.
  - apply Nat.eqb_eq in Z. exists 0. split; [reflexivity|]. split; [lia|]. intros i b I. apply nth_bnd in I. lia.
  - apply Nat.eqb_neq in Z. destruct (nth_some B 0 ltac:(lia)) as [b0 B0]. destruct (nth_some B (length B - 1) ltac:(lia)) as [bl BL]. unfold aget. rewrite B0. cbn [obind]. destruct (qlt x b0) eqn:Q0.
    + apply qlt_true in Q0. exists 0. split; [reflexivity|]. split; [lia|]. intros i b I. split; [lia|]. intros _. pose proof (M 0 i b0 b ltac:(lia) B0 I). qc_lra.
    + rewrite BL. cbn [obind]. apply qlt_false in Q0. destruct (qlt x bl) eqn:QL; cbn [negb].
      * apply qlt_true in QL. assert (1 < length B). { destruct (Nat.eq_dec (length B) 1) as [E|E]; [|lia]. rewrite E in BL. cbn [Nat.sub] in BL. rewrite B0 in BL. injection BL as <-. qc_lra. }
        destruct (bisect_ok B x (length B) 0 (length B - 1) b0 bl B0 BL Q0 QL ltac:(lia) ltac:(lia) ltac:(lia)) as (r & a' & b' & -> & A & Bq & L1 & L2). cbn [obind]. exists (r + 1). split; [reflexivity|]. pose proof (nth_bnd _ _ _ Bq). split; [lia|].
        intros i b I. split; intros H'; [pose proof (M i r b a' ltac:(lia) I A)|pose proof (M (S r) i b' b ltac:(lia) Bq I)]; qc_lra.
      * apply qlt_false in QL. exists (length B). split; [reflexivity|]. split; [lia|]. intros i b I. pose proof (nth_bnd _ _ _ I). split; [|lia]. intros _. pose proof (M i (length B - 1) b bl ltac:(lia) I BL). qc_lra.
Qed.
Lemma bin_unique B x k k' : bin B x k -> bin B x k' -> k = k'.
Proof.
  assert (W : forall k k', bin B x k -> bin B x k' -> ~ k < k').
  { intros m m' [_ A] [L A'] H. destruct (nth_some B m ltac:(lia)) as [b Q]. destruct (A m b Q) as [_ P]. destruct (A' m b Q) as [P' _]. specialize (P ltac:(lia)). specialize (P' H). qc_lra. }
  intros H H'. pose proof (W k k' H H'). pose proof (W k' k H' H). lia.
Qed.

Lemma total_app a b : total (a ++ b) = (total a + total b)%Qc.
Proof. unfold total. induction a as [|x a IH]; cbn; [ring|]. rewrite IH. ring. Qed.
Lemma total_snoc (f : nat -> Qc) n : total (map f (seq 0 (S n))) = (total (map f (seq 0 n)) + f n)%Qc.
Proof. rewrite seq_S, map_app, total_app. cbn. ring. Qed.
Definition part (X : list Qc) (B : list Z) (p : nat -> Z -> bool) (n : nat) : Qc := total (map (fun i => if p i (nth i B 0%Z) then value X i else 0%Qc) (seq 0 n)).
Lemma part_step X B p n : part X B p (S n) = (part X B p n + (if p n (nth n B 0%Z) then value X n else 0))%Qc.
Proof. apply total_snoc. Qed.
Lemma value_get X (B : list Z) i : length X = 1 \/ length X = length B -> i < length B -> aget X (if 1 <? length X then i else 0) = Some (value X i).
Proof.
  intros H L. unfold aget, value. destruct X as [|x [|y X]]; [destruct H as [H|H]; cbn in H; lia|reflexivity|]. cbn [length Nat.ltb Nat.leb]. apply nth_error_nth'. destruct H as [H|H]; [discriminate|lia].
Qed.
Lemma nth_upd_q (H : list Qc) k q v : k < length H -> nth q (upd H k v) 0%Qc = if q =? k then v else nth q H 0%Qc.
Proof.
  intros L. destruct (q =? k) eqn:E.
  - apply Nat.eqb_eq in E. subst q. apply nth_error_nth. now apply nth_error_upd_eq.
  - apply Nat.eqb_neq in E. destruct (nth_error H q) as [w|] eqn:Q.
    + rewrite (nth_error_nth H q 0%Qc Q). apply nth_error_nth. rewrite nth_error_upd_neq; auto.
    + apply nth_error_None in Q. rewrite !nth_overflow; auto. now rewrite upd_length.
Qed.
Definition in_range (K : nat) (b : Z) : Prop := (0 <= b <= Z.of_nat K)%Z.
Lemma in_range_check K b : in_range K b -> (b - 1 <? -1)%Z || (Z.of_nat K <=? b - 1)%Z = false.
Proof. unfold in_range. intros. rewrite orb_false_iff, Z.ltb_ge, Z.leb_gt. lia. Qed.
Lemma out_of_range_check K b : ~ in_range K b -> (b - 1 <? -1)%Z || (Z.of_nat K <=? b - 1)%Z = true.
Proof. unfold in_range. intros. rewrite orb_true_iff, Z.ltb_lt, Z.leb_le. lia. Qed.
Lemma nth_Z (B : list Z) i : i < length B -> nth_error B i = Some (nth i B 0%Z).
Proof. intros. now apply nth_error_nth'. Qed.
Lemma range_dec K b : {in_range K b} + {~ in_range K b}.
Proof. unfold in_range. destruct (Z_le_dec 0 b), (Z_le_dec b (Z.of_nat K)); (left; lia) || (right; lia). Defined.

(** all dimensions *)
Lemma all_from X B H0 : length X = 1 \/ length X = length B -> forall n i H, i + n = length B -> length H = length H0 ->
  (forall q, q < length H0 -> nth q H 0%Qc = (nth q H0 0%Qc + part X B (fun _ b => b =? Z.of_nat q + 1)%Z i)%Qc) ->
  (Forall (in_range (length H0)) (skipn i B) -> exists r, binsum_all_from X B n i H = Some (Some r) /\ length r = length H0 /\
    forall q, q < length H0 -> nth q r 0%Qc = (nth q H0 0%Qc + part X B (fun _ b => b =? Z.of_nat q + 1)%Z (length B))%Qc) /\
  (~ Forall (in_range (length H0)) (skipn i B) -> binsum_all_from X B n i H = Some None).
Proof.
  intros LX. induction n as [|n IH]; intros i H E LH I; cbn [binsum_all_from].
  - replace i with (length B) in * by lia. rewrite skipn_all. split; [|intros N; exfalso; apply N; constructor]. intros _. exists H. auto.
  - assert (AB : aget B i = Some (nth i B 0%Z)) by (apply nth_Z; lia). rewrite !AB. cbn [obind]. set (b := nth i B 0%Z) in *. assert (SK : skipn i B = b :: skipn (S i) B).
    { pose proof (nth_Z B i ltac:(lia)) as Q. clear -Q. subst b. revert i Q. induction B as [|y B IH]; intros [|i] Q; cbn in *; try discriminate; auto. }
    rewrite !SK, !Forall_cons_iff, LH. destruct (range_dec (length H0) b) as [R|R].
    + rewrite (in_range_check _ _ R). pose proof R as R'. unfold in_range in R. destruct (0 <=? b - 1)%Z eqn:P.
      * apply Z.leb_le in P. rewrite (value_get X B i LX) by lia. cbn [obind]. set (k := Z.to_nat (b - 1)) in *. assert (K : k < length H) by lia. unfold aget. rewrite (nth_error_nth' H 0%Qc K). cbn [obind]. unfold aset. replace (k <? length H) with true by (symmetry; now apply Nat.ltb_lt). cbn [obind].
        destruct (IH (S i) (upd H k (nth k H 0 + value X i)%Qc)) as [G1 G2]; [lia|now rewrite upd_length| |split; [intros [_ F]; auto|intros N; apply G2; intros F; apply N; split; [exact R'|exact F]]].
        intros q Q. rewrite nth_upd_q by exact K. rewrite part_step. fold b. destruct (Nat.eqb_spec q k) as [->|NE].
        -- rewrite I by exact Q. replace (b =? Z.of_nat k + 1)%Z with true by (symmetry; apply Z.eqb_eq; lia). ring.
        -- rewrite I by exact Q. replace (b =? Z.of_nat q + 1)%Z with false by (symmetry; apply Z.eqb_neq; lia). ring.
      * apply Z.leb_gt in P. cbn [obind]. destruct (IH (S i) H) as [G1 G2]; [lia|exact LH| |split; [intros [_ F]; auto|intros N; apply G2; intros F; apply N; split; [exact R'|exact F]]].
        intros q Q. rewrite part_step. fold b. replace (b =? Z.of_nat q + 1)%Z with false by (symmetry; apply Z.eqb_neq; lia). rewrite I by exact Q. ring.
    + rewrite (out_of_range_check _ _ R). split; [intros [? _]; contradiction|reflexivity].
Qed.

(** one dimension *)
Lemma at3_bound a n c u k z : u < a -> k < n -> z < c -> at3 a n u k z < a * n * c.
Proof. intros U Kn Z. unfold at3. assert (k + n * z + 1 <= n * c) by nia. assert (a * (k + n * z + 1) <= a * (n * c)) by (apply Nat.mul_le_mono_l; lia). rewrite <- Nat.mul_assoc. nia. Qed.
Lemma at3_mod a n u k z : u < a -> at3 a n u k z mod a = u.
Proof. intros U. unfold at3. rewrite (Nat.mul_comm a), Nat.mod_add by lia. now apply Nat.mod_small. Qed.
Lemma at3_div a n u k z : u < a -> at3 a n u k z / a = k + n * z.
Proof. intros U. unfold at3. rewrite (Nat.mul_comm a), Nat.div_add by lia. rewrite Nat.div_small by exact U. reflexivity. Qed.
Lemma at3_out a n u k z : u < a -> k < n -> at3 a n u k z / (a * n) = z.
Proof. intros U Kn. rewrite <- Nat.div_div by lia. rewrite at3_div by exact U. rewrite (Nat.mul_comm n), Nat.div_add by lia. rewrite Nat.div_small by exact Kn. reflexivity. Qed.
Lemma at3_mid a n u k z : u < a -> k < n -> (at3 a n u k z / a) mod n = k.
Proof. intros U Kn. rewrite at3_div by exact U. rewrite (Nat.mul_comm n), Nat.mod_add by lia. now apply Nat.mod_small. Qed.
Lemma at3_inj a n u k z u' k' z' : u < a -> k < n -> u' < a -> k' < n -> at3 a n u k z = at3 a n u' k' z' -> u = u' /\ k = k' /\ z = z'.
Proof.
  intros U Kn U' K' E. split; [|split].
  - rewrite <- (at3_mod a n u k z), <- (at3_mod a n u' k' z') by assumption. now rewrite E.
  - rewrite <- (at3_mid a n u k z), <- (at3_mid a n u' k' z') by assumption. now rewrite E.
  - rewrite <- (at3_out a n u k z), <- (at3_out a n u' k' z') by assumption. now rewrite E.
Qed.
(** whether the element i of B adds to the element (u, k, z) of H *)
Definition adds (a b u k z : nat) (i : nat) (v : Z) : bool := (v =? Z.of_nat k + 1)%Z && (i mod a =? u) && (i / (a * b) =? z).
Lemma dim_from X B H0 a h b c : length X = 1 \/ length X = length B -> length B = a * b * c -> length H0 = a * h * c -> forall n u v z i H, i = at3 a b u v z -> u < a -> v < b -> i + n = length B -> length H = length H0 ->
  (forall u0 k0 z0, u0 < a -> k0 < h -> z0 < c -> nth (at3 a h u0 k0 z0) H 0%Qc = (nth (at3 a h u0 k0 z0) H0 0%Qc + part X B (adds a b u0 k0 z0) i)%Qc) ->
  (Forall (in_range h) (skipn i B) -> exists r, binsum_dim_from X B a h b n i (u + a * h * z) (a * (v + b * z + 1)) (a * b * (z + 1)) H = Some (Some r) /\ length r = length H0 /\
    forall u0 k0 z0, u0 < a -> k0 < h -> z0 < c -> nth (at3 a h u0 k0 z0) r 0%Qc = (nth (at3 a h u0 k0 z0) H0 0%Qc + part X B (adds a b u0 k0 z0) (length B))%Qc) /\
  (~ Forall (in_range h) (skipn i B) -> binsum_dim_from X B a h b n i (u + a * h * z) (a * (v + b * z + 1)) (a * b * (z + 1)) H = Some None).
Proof.
  intros LX LB L0. induction n as [|n IH]; intros u v z i H Ei U V E LH I; cbn [binsum_dim_from].
  - replace i with (length B) in * by lia. rewrite skipn_all. split; [|intros N; exfalso; apply N; constructor]. intros _. exists H. auto.
  - assert (Zc : z < c). { destruct (lt_dec z c) as [Q|Q]; [exact Q|]. exfalso. assert (a * b * c <= i); [|lia]. subst i. unfold at3. assert (b * c <= v + b * z) by nia. assert (a * (b * c) <= a * (v + b * z)) by (apply Nat.mul_le_mono_l; lia). lia. }
    assert (AB : aget B i = Some (nth i B 0%Z)) by (apply nth_Z; lia). rewrite !AB. cbn [obind]. set (w := nth i B 0%Z) in *. assert (SK : skipn i B = w :: skipn (S i) B).
    { pose proof (nth_Z B i ltac:(lia)) as Q. clear -Q. subst w. revert i Q. induction B as [|y B IH]; intros [|i] Q; cbn in *; try discriminate; auto. }
    rewrite !SK, !Forall_cons_iff. destruct (range_dec h w) as [R|R].
    2:{ rewrite (out_of_range_check _ _ R). split; [intros [? _]; contradiction|reflexivity]. }
    rewrite (in_range_check _ _ R). pose proof R as R'. unfold in_range in R.
    (* the new array *)
    assert (G : exists H', (if (0 <=? w - 1)%Z then do x <- aget X (if 1 <? length X then i else 0); do y <- aget H (u + a * h * z + Z.to_nat (w - 1) * a); aset H (u + a * h * z + Z.to_nat (w - 1) * a) (y + x)%Qc else Some H) = Some H' /\ length H' = length H0 /\
      forall u0 k0 z0, u0 < a -> k0 < h -> z0 < c -> nth (at3 a h u0 k0 z0) H' 0%Qc = (nth (at3 a h u0 k0 z0) H0 0%Qc + part X B (adds a b u0 k0 z0) (S i))%Qc).
    { assert (IM : i mod a = u) by (subst i; now apply at3_mod). assert (IZ : i / (a * b) = z) by (subst i; now apply at3_out).
      destruct (0 <=? w - 1)%Z eqn:P.
      - apply Z.leb_le in P. rewrite (value_get X B i LX) by lia. cbn [obind]. set (k := Z.to_nat (w - 1)) in *. assert (Kh : k < h) by lia. replace (u + a * h * z + k * a) with (at3 a h u k z) by (unfold at3; ring).
        assert (Kb : at3 a h u k z < length H) by (rewrite LH, L0; now apply at3_bound). unfold aget. rewrite (nth_error_nth' H 0%Qc Kb). cbn [obind]. unfold aset. replace (at3 a h u k z <? length H) with true by (symmetry; now apply Nat.ltb_lt).
        eexists. split; [reflexivity|]. rewrite upd_length. split; [exact LH|]. intros u0 k0 z0 U0 K0 Z0. rewrite nth_upd_q by exact Kb. rewrite part_step. fold w. unfold adds at 2. rewrite IM, IZ.
        destruct (Nat.eqb_spec (at3 a h u0 k0 z0) (at3 a h u k z)) as [Q|Q].
        + apply at3_inj in Q; auto. destruct Q as (-> & -> & ->). rewrite !Nat.eqb_refl. replace (w =? Z.of_nat k + 1)%Z with true by (symmetry; apply Z.eqb_eq; lia). cbn [andb]. rewrite I by auto. ring.
        + replace ((w =? Z.of_nat k0 + 1)%Z && (u =? u0) && (z =? z0)) with false; [rewrite I by auto; ring|]. symmetry. apply not_true_is_false. rewrite !andb_true_iff, Z.eqb_eq, !Nat.eqb_eq. intros [[W1 W2] W3]. apply Q. subst u0 z0. replace k0 with k by lia. reflexivity.
      - apply Z.leb_gt in P. exists H. split; [reflexivity|]. split; [exact LH|]. intros u0 k0 z0 U0 K0 Z0. rewrite part_step. fold w. unfold adds at 2. replace (w =? Z.of_nat k0 + 1)%Z with false by (symmetry; apply Z.eqb_neq; lia). cbn [andb]. rewrite I by auto. ring. }
    destruct G as (H' & -> & LH' & I'). cbn [obind].
    destruct (Nat.eqb_spec (S i) (a * (v + b * z + 1))) as [Q|Q].
    + assert (Ua : u + 1 = a) by (subst i; unfold at3 in Q; nia). destruct (Nat.eqb_spec (S i) (a * b * (z + 1))) as [Q2|Q2].
      * assert (Vb : v + 1 = b). { assert (a * (v + b * z + 1) = a * (b * (z + 1))) as Q3 by lia. apply Nat.mul_cancel_l in Q3; [|lia]. nia. }
        replace (u + a * h * z + 1 - a + a * h) with (0 + a * h * (z + 1)) by nia. replace (a * (v + b * z + 1) + a) with (a * (0 + b * (z + 1) + 1)) by nia. replace (a * b * (z + 1) + a * b) with (a * b * (z + 1 + 1)) by ring.
        destruct (IH 0 0 (z + 1) (S i) H') as [G1 G2]; [rewrite Q2; unfold at3; ring|lia|lia|lia|exact LH'|exact I'|]. split; [intros [_ F]; auto|intros N; apply G2; intros F; apply N; split; [exact R'|exact F]].
      * assert (Vb : v + 1 < b). { destruct (Nat.eq_dec (v + 1) b) as [VB|VB]; [|lia]. exfalso. apply Q2. rewrite Q, <- Nat.mul_assoc. f_equal. nia. }
        replace (u + a * h * z + 1 - a) with (0 + a * h * z) by lia. replace (a * (v + b * z + 1) + a) with (a * (v + 1 + b * z + 1)) by ring.
        destruct (IH 0 (v + 1) z (S i) H') as [G1 G2]; [rewrite Q; unfold at3; ring|lia|lia|lia|exact LH'|exact I'|]. split; [intros [_ F]; auto|intros N; apply G2; intros F; apply N; split; [exact R'|exact F]].
    + assert (Ua : u + 1 < a). { destruct (Nat.eq_dec (u + 1) a) as [UA|UA]; [|lia]. exfalso. apply Q. subst i. unfold at3. nia. }
      replace (u + a * h * z + 1) with (u + 1 + a * h * z) by ring. destruct (IH (u + 1) v z (S i) H') as [G1 G2]; [subst i; unfold at3; ring|lia|lia|lia|exact LH'|exact I'|]. split; [intros [_ F]; auto|intros N; apply G2; intros F; apply N; split; [exact R'|exact F]].
Qed.
Definition size (l : list nat) : nat := fold_left Nat.mul l 1.
Lemma fold_mul l : forall s, fold_left Nat.mul l s = s * size l.
Proof. unfold size. induction l as [|a l IH]; intros s; cbn; [lia|]. rewrite IH, (IH (a + 0)). lia. Qed.
Lemma size_cons a l : size (a :: l) = a * size l.
Proof. unfold size at 1. cbn. rewrite fold_mul. lia. Qed.
Lemma size_app l m : size (l ++ m) = size l * size m.
Proof. unfold size at 1. rewrite fold_left_app, fold_mul. reflexivity. Qed.
Lemma strides_ok KX Xdims pre h b post : let d := length pre in let Hdims := pre ++ h :: post in let Bdims := pre ++ b :: post in
  (1 < KX -> Xdims = Bdims) -> forall n k srd, d <= k + n -> k + n <= length Bdims -> srd = size (firstn k pre) -> k + n <= length Xdims -> strides KX Xdims Hdims Bdims d n k srd = Some (Some (size pre)).
Proof.
  intros d Hdims Bdims XE. assert (LB : length Bdims = S (d + length post)) by (unfold Bdims, d; rewrite app_length; cbn; lia).
  induction n as [|n IH]; intros k srd D1 D2 S0 D3; cbn [strides].
  - rewrite S0, firstn_all2 by (unfold d in D1; lia). reflexivity.
  - destruct (nth_some Bdims k ltac:(lia)) as [bk BK]. assert (X1 : (if 1 <? KX then do x <- aget Xdims k; do y <- aget Bdims k; Some (negb (x =? y)) else Some false) = Some false).
    { destruct (1 <? KX) eqn:Q; [|reflexivity]. apply Nat.ltb_lt in Q. rewrite (XE Q). unfold aget. rewrite BK. cbn [obind]. now rewrite Nat.eqb_refl. }
    rewrite X1. cbn [obind].
    assert (X2 : (if negb (k =? d) then do y <- aget Bdims k; do x <- aget Hdims k; Some (negb (y =? x)) else Some false) = Some false).
    { destruct (Nat.eqb_spec k d) as [Q|Q]; cbn [negb]; [reflexivity|]. assert (nth_error Hdims k = Some bk) as HK.
      { rewrite <- BK. unfold Hdims, Bdims. destruct (lt_dec k d) as [L|L]; [rewrite !nth_error_app1 by exact L; reflexivity|]. rewrite !nth_error_app2 by (fold d; lia). fold d. destruct (k - d) eqn:W; [lia|reflexivity]. }
      unfold aget. rewrite BK, HK. cbn [obind]. now rewrite Nat.eqb_refl. }
    rewrite X2. cbn [obind]. destruct (Nat.ltb_spec k d) as [L|L].
    + unfold aget. rewrite BK. cbn [obind]. apply IH; try lia. unfold Bdims in BK. rewrite nth_error_app1 in BK by exact L. subst srd. clear -BK. revert k BK. induction pre as [|y pre IHp]; intros k BK; [destruct k; discriminate|]. destruct k as [|k]; cbn [nth_error] in BK.
      * injection BK as ->. cbn [firstn]. rewrite size_cons. unfold size. cbn. lia.
      * change (firstn (S (S k)) (y :: pre)) with (y :: firstn (S k) pre). change (firstn (S k) (y :: pre)) with (y :: firstn k pre). rewrite !size_cons, <- (IHp k BK). lia.
    + cbn [obind]. apply IH; try lia. rewrite S0, !firstn_all2 by (unfold d in L; lia). reflexivity.
Qed.

(** running maxima *)
Lemma qmax_ge_l x y : (x <= qmax x y)%Qc.
Proof. unfold qmax. destruct (qlt y x) eqn:E; [qc_lra|]. apply qlt_false in E. exact E. Qed.
Lemma qmax_ge_r x y : (y <= qmax x y)%Qc.
Proof. unfold qmax. destruct (qlt y x) eqn:E; [apply qlt_true in E|]; qc_lra. Qed.
Lemma qmax_case x y : qmax x y = x \/ qmax x y = y.
Proof. unfold qmax. destruct (qlt y x); auto. Qed.
Section cum.
  Variables (X : list Qc) (a n c : nat).
  Hypothesis LX : length X = a * n * c.
  Definition along (u z : nat) (k : nat) : Qc := nth (at3 a n u k z) X 0%Qc.
  Definition cinv (i : nat) (Y : list Qc) : Prop := length Y = length X /\ forall u k z, u < a -> k < n -> z < c -> at3 a n u k z < i -> greatest (along u z) k (nth (at3 a n u k z) Y 0%Qc).
  Lemma copy_ok z i Y : z < c -> 1 <= n -> at3 a n 0 0 z <= i -> i < at3 a n 0 0 z + a -> cinv i Y -> exists Y', copy_step X i Y = Some Y' /\ cinv (i + 1) Y'.
  Proof.
    intros Z N L1 L2 [LY I]. set (u := i - at3 a n 0 0 z). assert (Ei : i = at3 a n u 0 z) by (unfold u, at3 in *; lia). assert (U : u < a) by (unfold u; lia).
    assert (Bi : i < length X) by (rewrite LX, Ei; apply at3_bound; lia). unfold copy_step, aget. rewrite (nth_error_nth' X 0%Qc Bi). cbn [obind]. unfold aset. replace (i <? length Y) with true by (symmetry; apply Nat.ltb_lt; lia). eexists. split; [reflexivity|]. split; [now rewrite upd_length|].
    intros u' k' z' U' K' Z' L. rewrite nth_upd_q by lia. destruct (Nat.eqb_spec (at3 a n u' k' z') i) as [Q|Q]; [|apply I; auto; lia].
    rewrite Ei in Q. apply at3_inj in Q; auto. destruct Q as (-> & -> & ->). split; [exists 0; split; [lia|unfold along; now rewrite Ei]|]. intros k K. replace k with 0 by lia. unfold along. rewrite Ei. qc_lra.
  Qed.
  Lemma op_ok z i Y : z < c -> 1 <= a -> at3 a n 0 1 z <= i -> i < at3 a n 0 0 (z + 1) -> cinv i Y -> exists Y', op_step X a i Y = Some Y' /\ cinv (i + 1) Y'.
  Proof.
    intros Z A L1 L2 [LY I]. set (m := i - at3 a n 0 1 z). set (k := m / a). set (u := m mod a). pose proof (Nat.div_mod m a ltac:(lia)) as DM. pose proof (Nat.mod_upper_bound m a ltac:(lia)) as U. fold k in DM. fold u in DM, U.
    assert (Ei : i = at3 a n u (S k) z) by (unfold m, at3 in *; nia). assert (Kn : S k < n). { rewrite Ei in L2. unfold at3 in L2. assert (a * (S k + n * z) < a * (n * (z + 1))) as Q by lia. apply Nat.mul_lt_mono_pos_l in Q; [nia|lia]. }
    assert (Bi : i < length X) by (rewrite LX, Ei; apply at3_bound; lia). unfold op_step, aget. rewrite (nth_error_nth' X 0%Qc Bi). cbn [obind]. assert (Pi : i - a = at3 a n u k z) by (rewrite Ei; unfold at3; nia). assert (a <= i) by (rewrite Ei; unfold at3; nia).
    replace (i <? a) with false by (symmetry; apply Nat.ltb_ge; lia). rewrite (nth_error_nth' Y 0%Qc) by lia. cbn [obind]. unfold aset. replace (i <? length Y) with true by (symmetry; apply Nat.ltb_lt; lia). eexists. split; [reflexivity|]. split; [now rewrite upd_length|].
    intros u' k' z' U' K' Z' L. rewrite nth_upd_q by lia. destruct (Nat.eqb_spec (at3 a n u' k' z') i) as [Q|Q]; [|apply I; auto; lia].
    rewrite Ei in Q. apply at3_inj in Q; auto. destruct Q as (-> & -> & ->). destruct (I u k z U ltac:(lia) Z ltac:(lia)) as [(k0 & K0 & E0) G]. rewrite Pi. split.
    - destruct (qmax_case (nth i X 0%Qc) (nth (at3 a n u k z) Y 0%Qc)) as [-> | ->]; [exists (S k); split; [lia|unfold along; now rewrite Ei]|exists k0; split; [lia|exact E0]].
    - intros k1 K1. destruct (Nat.eq_dec k1 (S k)) as [->|Q]; [unfold along; rewrite <- Ei; apply qmax_ge_l|]. apply Qcle_trans with (nth (at3 a n u k z) Y 0%Qc); [apply G; lia|apply qmax_ge_r].
  Qed.
  Lemma cum_from : forall fuel z Y, z <= c -> c - z < fuel -> cinv (at3 a n 0 0 z) Y -> exists Y', cummax_from X a n fuel (at3 a n 0 0 z) Y = Some Y' /\ cinv (length X) Y'.
  Proof.
    assert (END : at3 a n 0 0 c = length X) by (rewrite LX; unfold at3; ring).
    induction fuel as [|fuel IH]; intros z Y Zc F I; [lia|]. cbn [cummax_from]. destruct (Nat.ltb_spec (at3 a n 0 0 z) (length X)) as [L|L].
    - assert (A : 1 <= a /\ 1 <= n) by (destruct a, n; cbn in LX; lia). destruct A as [A N]. assert (Z : z < c) by (destruct (Nat.eq_dec z c) as [->|]; lia).
      assert (NX : at3 a n 0 0 z + a + a * (n - 1) = at3 a n 0 0 (z + 1)) by (unfold at3; nia).
      destruct (iter_from_inv cinv (copy_step X) (at3 a n 0 0 z + a) a (at3 a n 0 0 z) Y eq_refl I) as (Y1 & -> & I1); [intros j s J1 J2 Ij; eapply copy_ok; eauto|]. cbn [obind].
      destruct (iter_from_inv cinv (op_step X a) (at3 a n 0 0 (z + 1)) (a * (n - 1)) (at3 a n 0 0 z + a) Y1 NX I1) as (Y2 & -> & I2); [intros j s J1 J2 Ij; eapply (op_ok z); eauto; unfold at3 in *; nia|]. cbn [obind]. rewrite NX. apply IH; auto; lia.
    - exists Y. split; [reflexivity|]. destruct I as [I1 I2]. split; [exact I1|]. intros u k z' U Kn Z' L'. apply I2; auto. lia.
  Qed.
  Lemma cum_ok : exists Y, cummax_dim X a n = Some Y /\ length Y = length X /\ forall u k z, u < a -> k < n -> z < c -> greatest (along u z) k (nth (at3 a n u k z) Y 0%Qc).
  Proof.
    assert (C : c <= length X \/ length X = 0). { destruct (Nat.eq_dec (length X) 0) as [Q|Q]; [auto|left]. rewrite LX in *. destruct a, n; cbn in Q |- *; try lia; nia. }
    destruct (Nat.eq_dec (length X) 0) as [Q|Q].
    - exists []. unfold cummax_dim. rewrite Q. cbn [repeat cummax_from]. rewrite Q. cbn. split; [reflexivity|]. split; [reflexivity|]. intros u k z U Kn Z. pose proof (at3_bound a n c u k z U Kn Z). lia.
    - destruct (cum_from (S (length X)) 0 (repeat 0%Qc (length X))) as (Y & E & LY & I); [lia|lia|split; [apply repeat_length|]; intros u k z _ _ _ L; unfold at3 in L; lia|].
      replace (at3 a n 0 0 0) with 0 in E by (unfold at3; lia). exists Y. split; [exact E|]. split; [exact LY|]. intros u k z U Kn Z. apply I; auto. rewrite LX. now apply at3_bound.
  Qed.
End cum.
