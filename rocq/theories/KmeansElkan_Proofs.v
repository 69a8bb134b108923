(** Proofs about the Elkan refinement of k-means: its bounds never lose a nearest center. *)
From Coq Require Import List Arith ZArith Lia Bool QArith Qcanon Qcabs Lqa Permutation.
From Verif Require Import Base Loop MserSort_Proofs ImOp_Spec ImOp_Proofs Rat Gauss_Model Gauss_Proofs Vlad_Proofs.
From Verif Require Homker_Proofs.
From Verif Require Import Kmeans_Model Kmeans_Spec Kmeans_Proofs KmeansUpdate_Proofs KmeansEnergy_Proofs KmeansElkan_Model.
Import ListNotations.
Local Open Scope nat_scope.

Lemma qle_true x y : qle x y = true <-> (x <= y)%Qc.
Proof.
  unfold qle. rewrite negb_true_iff. split; intro H.
  - apply qlt_false in H. exact H.
  - apply qlt_false. exact H.
Qed.
Lemma qle_false x y : qle x y = false <-> (y < x)%Qc.
Proof. unfold qle. rewrite negb_false_iff. apply qlt_true. Qed.

(** *** The distances *)
Lemma sum_nonneg_ n f : (forall i, i < n -> (0 <= f i)%Qc) -> (0 <= ksum n f)%Qc.
Proof. intro H. apply Qcle_trans with (ksum n (fun _ => 0%Qc)); [rewrite (sum_zero _ _ _ _ _ _ Qcrt n); apply Qcle_refl|now apply sum_le]. Qed.
Lemma gap_nonneg l1 u v : (0 <= gap l1 u v)%Qc.
Proof. unfold gap. destruct l1; [apply Qcabs_nonneg|apply Qc_square_nonneg]. Qed.
Lemma dist_nonneg l1 dim A B i j : (0 <= dist l1 dim A B i j)%Qc.
Proof. apply sum_nonneg_. intros. apply gap_nonneg. Qed.
Lemma gap_sym l1 u v : gap l1 u v = gap l1 v u.
Proof. unfold gap. destruct l1; [|ring]. rewrite <- Qcabs_opp. f_equal. ring. Qed.
Lemma dist_sym l1 dim A B i j : dist l1 dim A B i j = dist l1 dim B A j i.
Proof. apply qsum_ext. intros. apply gap_sym. Qed.
Lemma gap_triangle u v w : (gap true u w <= gap true u v + gap true v w)%Qc.
Proof. unfold gap. replace (u - w)%Qc with ((u - v) + (v - w))%Qc by ring. apply Qcabs_triangle. Qed.
Lemma dist_triangle dim A B C i j k : (dist true dim A C i k <= dist true dim A B i j + dist true dim B C j k)%Qc.
Proof. unfold dist. rewrite <- qsum_add. apply sum_le. intros. apply gap_triangle. Qed.

(** Cauchy-Schwarz *)
Definition dot n (u v : nat -> Qc) : Qc := ksum n (fun d => (u d * v d)%Qc).
Lemma dot_nonneg n u : (0 <= dot n u u)%Qc.
Proof. apply sum_nonneg_. intros. apply Qc_square_nonneg. Qed.
Lemma cauchy n u v : (dot n u v * dot n u v <= dot n u u * dot n v v)%Qc.
Proof.
  set (U := dot n u u). set (V := dot n v v). set (P := dot n u v).
  assert (HU : (0 <= U)%Qc) by apply dot_nonneg. assert (HV : (0 <= V)%Qc) by apply dot_nonneg.
  assert (Q : forall s t, (0 <= s * s * U + (t * t * V - (1 + 1) * s * t * P))%Qc).
  { intros s t. replace (s * s * U + (t * t * V - (1 + 1) * s * t * P))%Qc with (dot n (fun d => s * u d - t * v d) (fun d => s * u d - t * v d))%Qc; [apply dot_nonneg|].
    unfold U, V, P, dot. rewrite (qsum_ext n _ (fun d => s * s * (u d * u d) + ((t * t) * (v d * v d) + (- ((1 + 1) * s * t)) * (u d * v d)))%Qc) by (intros; ring).
    rewrite !qsum_add, !qsum_scale. ring. }
  destruct (Qc_eq_dec V 0) as [EV|NV].
  - (* v is zero *)
    assert (P0 : P = 0%Qc).
    { assert (Z : forall d, d < n -> (v d * v d = 0)%Qc).
      { intros d Ld. apply (sum_nonneg_zero n (fun d => (v d * v d)%Qc)); [intros; apply Qc_square_nonneg|exact EV|exact Ld]. }
      unfold P, dot. rewrite (qsum_ext n _ (fun _ => 0%Qc)); [apply (sum_zero _ _ _ _ _ _ Qcrt)|]. intros d Ld.
      destruct (Qcmult_integral _ _ (Z d Ld)) as [-> | ->]; ring. }
    rewrite P0, EV. replace (0 * 0)%Qc with 0%Qc by ring. replace (U * 0)%Qc with 0%Qc by ring. apply Qcle_refl.
  - specialize (Q V P). replace (V * V * U + (P * P * V - (1 + 1) * V * P * P))%Qc with ((U * V - P * P) * V)%Qc in Q by ring.
    destruct (Qclt_le_dec (U * V) (P * P)) as [L|L]; [|exact L]. exfalso.
    assert (PV : (0 < V)%Qc) by (destruct (Qc_dec 0 V) as [[G|G]| <-]; [exact G|exfalso; qc_lra|now contradiction NV]).
    assert (L2 : ((U * V - P * P) * V < 0 * V)%Qc).
    { apply Qcmult_lt_compat_r; [exact PV|]. generalize dependent (U * V)%Qc. generalize dependent (P * P)%Qc. intros. qc_lra. }
    rewrite Qcmult_0_l in L2. exact (Qclt_not_le _ _ L2 Q).
Qed.

Lemma square_le_le (x y : Qc) : (0 <= y)%Qc -> (x * x <= y * y)%Qc -> (x <= y)%Qc.
Proof.
  intros Hy H. destruct (Qclt_le_dec y x) as [L|L]; [|exact L]. exfalso. 
  assert (P : (0 < (x - y) * (x + y))%Qc).
  { assert (Px : (0 < x - y)%Qc) by qc_lra. assert (Py : (0 < x + y)%Qc) by qc_lra.
    rewrite <- (Qcmult_0_l (x + y)%Qc). now apply Qcmult_lt_compat_r. }
  replace ((x - y) * (x + y))%Qc with (x * x - y * y)%Qc in P by ring.
  generalize dependent (x * x)%Qc. generalize dependent (y * y)%Qc. intros. qc_lra.
Qed.

Section Squares.
Variables (dim : nat) (A B C : nat -> nat -> Qc) (i j k : nat).
Definition du (d : nat) := (A i d - B j d)%Qc.
Definition dw (d : nat) := (C k d - B j d)%Qc.
Lemma dist_du : dist false dim A B i j = dot dim du du.
Proof. reflexivity. Qed.
Lemma dist_dw : dist false dim B C j k = dot dim dw dw.
Proof. apply qsum_ext. intros. unfold gap, dw. ring. Qed.
Lemma dist_diff : dist false dim A C i k = (dist false dim A B i j + dist false dim B C j k - (1 + 1) * dot dim du dw)%Qc.
Proof.
  rewrite dist_du, dist_dw. unfold dot, dist.
  rewrite (qsum_ext dim _ (fun d => (du d * du d + (dw d * dw d + (- (1 + 1)) * (du d * dw d)))%Qc)) by (intros; unfold gap, du, dw; ring).
  rewrite !qsum_add, qsum_scale. ring.
Qed.
Lemma dot_bound : (dot dim du dw * dot dim du dw <= dist false dim A B i j * dist false dim B C j k)%Qc.
Proof. rewrite dist_du, dist_dw. apply cauchy. Qed.

(** 4 d(x, c) <= d(c, c') *)
Lemma half_l2 : (zq 4 * dist false dim A B i j <= dist false dim B C j k)%Qc -> (dist false dim A B i j <= dist false dim A C i k)%Qc.
Proof.
  assert (H : (dist false dim B C j k <= (1 + 1) * dist false dim A B i j + (1 + 1) * dist false dim A C i k)%Qc).
  { unfold dist. rewrite <- !qsum_scale, <- qsum_add. apply sum_le. intros d _. unfold gap.
    pose proof (Qc_square_nonneg ((A i d - B j d) + (A i d - C k d))) as S.
    replace ((1 + 1) * ((A i d - B j d) * (A i d - B j d)) + (1 + 1) * ((A i d - C k d) * (A i d - C k d)))%Qc
      with ((B j d - C k d) * (B j d - C k d) + ((A i d - B j d) + (A i d - C k d)) * ((A i d - B j d) + (A i d - C k d)))%Qc by ring.
    generalize dependent (((A i d - B j d) + (A i d - C k d)) * ((A i d - B j d) + (A i d - C k d)))%Qc.
    generalize ((B j d - C k d) * (B j d - C k d))%Qc. intros. qc_lra. }
  intro L. change (zq 4) with (Q2Qc 4) in L.
  generalize dependent (dist false dim B C j k). generalize dependent (dist false dim A C i k). generalize dependent (dist false dim A B i j). intros. qc_lra.
Qed.
End Squares.

Lemma qc_div_le (x y b : Qc) : (0 < b)%Qc -> (x * b <= y * b)%Qc -> (x <= y)%Qc.
Proof. intros Hb H. destruct (Qclt_le_dec y x) as [L|L]; [|exact L]. exfalso. apply (Qclt_not_le _ _ (Qcmult_lt_compat_r _ _ b Hb L)). exact H. Qed.

Section Bounds.
Variables (mt : metric) (sqrt_ : Qc -> Qc) (dim : nat).
(** sqrt never underestimates; only needed of L2 *)
Hypothesis Hsqrt : mt = L2 -> forall q, (0 <= q)%Qc -> (0 <= sqrt_ q)%Qc /\ (q <= sqrt_ q * sqrt_ q)%Qc.
Notation D := (dist (is_l1 mt) dim).

Lemma skip_ok A B C i j k u : (D A B i j <= u)%Qc -> (factor mt * u <= D B C j k)%Qc -> (D A B i j <= D A C i k)%Qc.
Proof.
  intros Hu H. destruct mt; cbn [factor is_l1] in *.
  - pose proof (dist_triangle dim B A C j i k) as T. rewrite (dist_sym true dim B A j i) in T. change (zq 2) with (Q2Qc 2) in H.
    generalize dependent (dist true dim B C j k). generalize dependent (dist true dim A C i k). generalize dependent (dist true dim A B i j). intros. qc_lra.
  - apply half_l2 with (B := B) (j := j). change (zq 4) with (Q2Qc 4) in *.
    generalize dependent (dist false dim B C j k). generalize dependent (dist false dim A B i j). intros. qc_lra.
Qed.

Lemma grow_ok A B C i j k u b : (D A B i j <= u)%Qc -> b = D B C j k -> (D A C i k <= grow mt sqrt_ u b)%Qc.
Proof.
  intros Hu ->. unfold grow. pose proof (dist_nonneg (is_l1 mt) dim A B i j) as P0. pose proof (dist_nonneg (is_l1 mt) dim B C j k) as P1. destruct mt; cbn [is_l1] in *.
  - pose proof (dist_triangle dim A B C i j k) as T.
    generalize dependent (dist true dim B C j k). generalize dependent (dist true dim A C i k). generalize dependent (dist true dim A B i j). intros. qc_lra.
  - rewrite (dist_diff dim A B C i j k). pose proof (dot_bound dim A B C i j k) as CS. set (p := dot dim (du A B i j) (dw B C j k)) in *.
    set (DD := dist false dim A B i j) in *. set (W := dist false dim B C j k) in *.
    assert (PU : (0 <= u * W)%Qc) by (apply Qc_mult_nonneg; qc_lra). destruct (Hsqrt eq_refl _ PU) as [S0 S1]. set (s := sqrt_ (u * W)%Qc) in *.
    assert (L : (- p <= s)%Qc).
    { apply square_le_le; [exact S0|]. replace (- p * - p)%Qc with (p * p)%Qc by ring. apply Qcle_trans with (DD * W)%Qc; [exact CS|].
      apply Qcle_trans with (u * W)%Qc; [now apply Qcmult_le_compat_r|exact S1]. }
    change (zq 2) with (Q2Qc 2). clearbody s p DD W. clear - Hu L. qc_lra.
Qed.

Lemma shrink_ok A B C i j k l b : (l <= D A B i j)%Qc -> b = D B C j k -> (shrink mt sqrt_ l b <= D A C i k)%Qc.
Proof.
  intros Hl ->. unfold shrink. pose proof (dist_nonneg (is_l1 mt) dim A B i j) as P0. pose proof (dist_nonneg (is_l1 mt) dim B C j k) as P1.
  destruct (qlt l (D B C j k)) eqn:Q; [apply dist_nonneg|]. apply qlt_false in Q. destruct mt; cbn [is_l1] in *.
  - pose proof (dist_triangle dim A C B i k j) as T. rewrite (dist_sym true dim C B k j) in T.
    generalize dependent (dist true dim B C j k). generalize dependent (dist true dim A C i k). generalize dependent (dist true dim A B i j). intros. qc_lra.
  - rewrite (dist_diff dim A B C i j k). pose proof (dot_bound dim A B C i j k) as CS. set (p := dot dim (du A B i j) (dw B C j k)) in *.
    set (DD := dist false dim A B i j) in *. set (W := dist false dim B C j k) in *.
    assert (PU : (0 <= l * W)%Qc) by (apply Qc_mult_nonneg; [qc_lra|exact P1]). destruct (Hsqrt eq_refl _ PU) as [S0 S1]. set (s := sqrt_ (l * W)%Qc) in *.
    assert (G : (p <= s)%Qc \/ ((1 + 1) * (p - s) <= DD - l)%Qc).
    { destruct (Qclt_le_dec s p) as [L|L]; [right|now left].
      destruct (Qc_eq_dec W 0) as [EW|NW].
      - exfalso. rewrite EW, Qcmult_0_r in CS. assert (p <= 0)%Qc by (apply square_le_le; [apply Qcle_refl|]; rewrite Qcmult_0_l; exact CS). clear - L S0 H. qc_lra.
      - assert (PW : (0 < W)%Qc) by (destruct (Qc_dec 0 W) as [[G|G]| <-]; [exact G|exfalso; clear - G P1; qc_lra|now contradiction NW]).
        assert (SW : (W <= s)%Qc).
        { apply square_le_le; [exact S0|]. apply Qcle_trans with (l * W)%Qc; [now apply Qcmult_le_compat_r|exact S1]. }
        apply (qc_div_le _ _ W PW).
        apply Qcle_trans with ((p - s) * (p + s))%Qc.
        + replace ((1 + 1) * (p - s) * W)%Qc with ((W + W) * (p - s))%Qc by ring. rewrite (Qcmult_comm (p - s)). apply Qcmult_le_compat_r; clear - SW L; qc_lra.
        + replace ((p - s) * (p + s))%Qc with (p * p - s * s)%Qc by ring. replace ((DD - l) * W)%Qc with (DD * W - l * W)%Qc by ring.
          clear - CS S1. generalize dependent (p * p)%Qc. generalize dependent (s * s)%Qc. generalize dependent (DD * W)%Qc. generalize dependent (l * W)%Qc. intros. qc_lra. }
    change (zq 2) with (Q2Qc 2). clearbody s p DD W. clear - Hl G. destruct G; qc_lra.
Qed.
End Bounds.

(** *** Points *)
Section Points.
Variables (mt : metric) (dim K : nat) (data : list Qc) (N : nat) (choose : nat -> nat) (sqrt_ : Qc -> Qc).
Hypothesis Hsqrt : mt = L2 -> forall q, (0 <= q)%Qc -> (0 <= sqrt_ q)%Qc /\ (q <= sqrt_ q * sqrt_ q)%Qc.
Hypothesis Hd : dim * N <= length data.
Hypothesis Hdim : 0 < dim.
Hypothesis HK0 : 0 < K.
Notation X := (view dim data).
Notation Dx C := (dist (is_l1 mt) dim X (view dim C)).

Lemma flat_inj a b p q : a < K -> b < K -> a + p * K = b + q * K -> a = b /\ p = q.
Proof.
  intros La Lb E. assert (a = b).
  { rewrite <- (Nat.mod_small a K), <- (Nat.mod_small b K) by auto. rewrite <- (Nat.mod_add a p K), <- (Nat.mod_add b q K) by lia. now rewrite E. }
  subst. split; [reflexivity|]. apply (Nat.mul_cancel_r p q K); lia.
Qed.

Lemma cd_spec centers cd : length centers = dim * K -> length cd = K * K ->
  exists cd', center_distances mt dim K centers cd = Some cd' /\ length cd' = K * K /\
    forall i j, i < K -> j < K -> nth (i + j * K) cd' 0%Qc = dist (is_l1 mt) dim (view dim centers) (view dim centers) j i.
Proof.
  intros Lc Lcd. unfold center_distances. destruct (Nat.eqb_spec dim 0); [lia|].
  set (DC := dist (is_l1 mt) dim (view dim centers) (view dim centers)).
  assert (DCs : forall i j, DC i j = DC j i) by (intros; apply dist_sym).
  destruct (iter_inv (fun yi cd' => length cd' = K * K /\ forall i j, i < K -> j < K -> i < yi -> j < yi -> nth (i + j * K) cd' 0%Qc = DC j i)
    (fun yi cd => do y <- row dim centers yi;
    iter (yi + 1) (fun xi cd =>
      do x <- row dim centers xi;
      let z := distance mt x y in
      do cd <- aset cd (yi * K + xi) z;
      aset cd (xi * K + yi) z) cd) K cd) as (cd' & E & L & V).
  - split; [exact Lcd|]. lia.
  - intros yi c1 Ly [L V]. rewrite row_ok by nia. cbn [obind].
    destruct (iter_inv (fun xi c2 => length c2 = K * K /\
        (forall i j, i < K -> j < K -> i < yi -> j < yi -> nth (i + j * K) c2 0%Qc = DC j i) /\
        (forall i, i < xi -> i < K -> nth (i + yi * K) c2 0%Qc = DC yi i /\ nth (yi + i * K) c2 0%Qc = DC i yi))
      (fun xi cd =>
      do x <- row dim centers xi;
      let z := distance mt x (rowv dim centers yi) in
      do cd <- aset cd (yi * K + xi) z;
      aset cd (xi * K + yi) z) (yi + 1) c1) as (c2 & E2 & L2_ & V2 & W2).
    + split; [exact L|]. split; [exact V|]. lia.
    + intros xi c2 Lx (L2_ & V2 & W2). rewrite row_ok by nia. cbn [obind]. cbv zeta. rewrite distance_dist by nia. fold DC.
      assert (Lxy : xi < K) by lia. assert (I1 : yi * K + xi < K * K) by nia. assert (I2 : xi * K + yi < K * K) by nia.
      rewrite aset_lt by lia. cbn [obind]. rewrite aset_lt by (rewrite upd_length; lia). eexists; split; [reflexivity|].
      split; [now rewrite !upd_length|]. split.
      * intros i j Li Lj Liy Ljy. rewrite !nth_upd by (rewrite ?upd_length; lia).
        destruct (Nat.eqb_spec (i + j * K) (xi * K + yi)) as [E|E]; [exfalso; destruct (flat_inj i yi j xi); lia|].
        destruct (Nat.eqb_spec (i + j * K) (yi * K + xi)) as [E'|E']; [exfalso; destruct (flat_inj i xi j yi); lia|]. auto.
      * intros i Li LiK. rewrite !nth_upd by (rewrite ?upd_length; lia).
        destruct (Nat.eq_dec i xi) as [->|Ni].
        -- split.
           ++ destruct (Nat.eqb_spec (xi + yi * K) (xi * K + yi)) as [E|E]; [apply DCs|].
              destruct (Nat.eqb_spec (xi + yi * K) (yi * K + xi)) as [E'|E']; [apply DCs|lia].
           ++ destruct (Nat.eqb_spec (yi + xi * K) (xi * K + yi)) as [E|E]; [reflexivity|lia].
        -- destruct (W2 i ltac:(lia) LiK) as [W21 W22]. split.
           ++ destruct (Nat.eqb_spec (i + yi * K) (xi * K + yi)) as [E|E]; [exfalso; destruct (flat_inj i yi yi xi); lia|].
              destruct (Nat.eqb_spec (i + yi * K) (yi * K + xi)) as [E'|E']; [exfalso; lia|]. exact W21.
           ++ destruct (Nat.eqb_spec (yi + i * K) (xi * K + yi)) as [E|E]; [exfalso; destruct (flat_inj yi yi i xi); lia|].
              destruct (Nat.eqb_spec (yi + i * K) (yi * K + xi)) as [E'|E']; [exfalso; destruct (flat_inj yi xi i yi); lia|]. exact W22.
    + exists c2. split; [exact E2|]. split; [exact L2_|]. intros i j Li Lj Liy Ljy.
      destruct (Nat.eq_dec j yi) as [->|]; [apply (W2 i); lia|]. destruct (Nat.eq_dec i yi) as [->|]; [apply (W2 j); lia|]. apply V2; lia.
  - exists cd'. split; [exact E|]. split; [exact L|]. intros. apply V; auto.
Qed.

(** what is known about a point *)
Definition known (centers : list Qc) (x : nat) (p : point) : Prop :=
  cl p < K /\ length (lb p) = K /\ (Dx centers x (cl p) <= ub p)%Qc /\ (strict p = true -> ub p = Dx centers x (cl p)) /\
  forall c, c < K -> (nth c (lb p) 0%Qc <= Dx centers x c)%Qc.
Definition cd_ok (centers cd : list Qc) : Prop := length cd = K * K /\
  forall i j, i < K -> j < K -> nth (i + j * K) cd 0%Qc = dist (is_l1 mt) dim (view dim centers) (view dim centers) j i.

Lemma skip_center centers cd x p c cc : cd_ok centers cd -> cl p < K -> c < K -> (Dx centers x (cl p) <= ub p)%Qc ->
  aget cd (c + cl p * K) = Some cc -> qle (factor mt * ub p)%Qc cc = true -> (Dx centers x (cl p) <= Dx centers x c)%Qc.
Proof.
  intros [Lcd Vcd] Lp Lc Hu E Q. assert (I : c + cl p * K < length cd) by nia. rewrite (aget_nth cd _ 0%Qc) in E by exact I. injection E as <-.
  rewrite Vcd in Q by auto. apply qle_true in Q. exact (skip_ok mt sqrt_ dim Hsqrt _ _ _ _ _ _ _ Hu Q).
Qed.

Lemma lb_set centers x (l : list Qc) c : length l = K -> c < K -> (forall k, k < K -> (nth k l 0%Qc <= Dx centers x k)%Qc) ->
  length (upd l c (Dx centers x c)) = K /\ forall k, k < K -> (nth k (upd l c (Dx centers x c)) 0%Qc <= Dx centers x k)%Qc.
Proof.
  intros L Lc V. split; [now rewrite upd_length|]. intros k Lk. rewrite nth_upd by lia. destruct (Nat.eqb_spec k c) as [->|]; [apply Qcle_refl|auto].
Qed.

Lemma init_point_ok centers cd x : length centers = dim * K -> cd_ok centers cd -> x < N ->
  exists p, init_point mt dim K data centers cd x = Some p /\ known centers x p /\ nearest K (Dx centers x) (cl p).
Proof.
  intros Lc Hcd Lx. unfold init_point. rewrite row_ok by nia. cbn [obind]. rewrite row_ok by nia. cbn [obind]. rewrite aset_lt by (rewrite repeat_length; lia). cbn [obind].
  rewrite distance_dist by nia.
  destruct (iter_from_inv (fun c p => known centers x p /\ strict p = true /\ forall k, k < c -> (Dx centers x (cl p) <= Dx centers x k)%Qc)
    (fun c p =>
    do cc <- aget cd (c + cl p * K);
    if qle (factor mt * ub p)%Qc cc then Some p
    else
      do r <- row dim centers c;
      let d := distance mt (rowv dim data x) r in
      do l <- aset (lb p) c d;
      Some (if qlt d (ub p) then mkPoint c d (strict p) l else mkPoint (cl p) (ub p) (strict p) l)) K (K - 1) 1
    (mkPoint 0 (Dx centers x 0) true (upd (repeat 0%Qc K) 0 (Dx centers x 0))) ltac:(lia)) as (p & E & Kp & Sp & V).
  - split; [|split; [reflexivity|]].
    + destruct (lb_set centers x (repeat 0%Qc K) 0) as [A B]; [apply repeat_length|exact HK0|intros; rewrite nth_repeat; apply dist_nonneg|].
      split; [exact HK0|]. split; [exact A|]. cbn [cl ub strict lb]. split; [apply Qcle_refl|]. split; [reflexivity|exact B].
    + cbn [cl]. intros k Lk. replace k with 0 by lia. apply Qcle_refl.
  - intros c p Lc1 Lc2 ((Lp & Ll & Hu & Hs & Hl) & Sp & V). pose proof Hcd as [Lcd Vcd]. assert (LcK : c < K) by lia.
    assert (I : c + cl p * K < length cd) by nia. destruct (aget cd (c + cl p * K)) as [cc|] eqn:Ec; [|rewrite (aget_nth cd _ 0%Qc) in Ec by exact I; discriminate].
    cbn [obind]. destruct (qle (factor mt * ub p)%Qc cc) eqn:Q.
    + exists p. split; [reflexivity|]. split; [repeat split; auto|]. split; [exact Sp|]. intros k Lk. destruct (Nat.eq_dec k c) as [->|]; [|apply V; lia].
      exact (skip_center centers cd x p c cc Hcd Lp LcK Hu Ec Q).
    + rewrite row_ok by nia. cbn [obind]. cbv zeta. rewrite distance_dist by nia. rewrite aset_lt by lia. cbn [obind].
      eexists; split; [reflexivity|]. destruct (lb_set centers x (lb p) c Ll LcK Hl) as [A B]. rewrite (Hs Sp).
      destruct (qlt (Dx centers x c) (Dx centers x (cl p))) eqn:Q2.
      * apply qlt_true in Q2. split; [|split; [exact Sp|]].
        -- split; [exact LcK|]. split; [exact A|]. cbn [cl ub strict lb]. split; [apply Qcle_refl|]. split; [reflexivity|exact B].
        -- cbn [cl]. intros k Lk. destruct (Nat.eq_dec k c) as [->|]; [apply Qcle_refl|]. apply Qcle_trans with (Dx centers x (cl p)); [now apply Qclt_le_weak|apply V; lia].
      * apply qlt_false in Q2. split; [|split; [exact Sp|]].
        -- split; [exact Lp|]. split; [exact A|]. cbn [cl ub strict lb]. split; [apply Qcle_refl|]. split; [reflexivity|exact B].
        -- cbn [cl]. intros k Lk. destruct (Nat.eq_dec k c) as [->|]; [exact Q2|]. apply V; lia.
  - exists p. split; [exact E|]. split; [exact Kp|]. split; [apply Kp|]. intros k Lk. now apply V.
Qed.

Definition mv_ok (new old mv : list Qc) : Prop := length mv = K /\ forall c, c < K -> nth c mv 0%Qc = dist (is_l1 mt) dim (view dim old) (view dim new) c c.
Lemma moves_ok new old : length new = dim * K -> length old = dim * K -> exists mv, moves mt dim K new old = Some mv /\ mv_ok new old mv.
Proof.
  intros Ln Lo. unfold moves.
  destruct (iter_inv (fun j mv => length mv = j /\ forall c, c < j -> nth c mv 0%Qc = dist (is_l1 mt) dim (view dim old) (view dim new) c c)
    (fun c l => do u <- row dim new c; do v <- row dim old c; Some (l ++ distance mt u v :: nil)) K []) as (mv & E & L & V).
  - split; [reflexivity|]. lia.
  - intros c l Lc [L V]. rewrite !row_ok by nia. cbn [obind]. eexists; split; [reflexivity|]. split; [rewrite app_length; cbn; lia|].
    intros k Lk. destruct (Nat.eq_dec k c) as [->|].
    + rewrite app_nth2 by lia. rewrite L, Nat.sub_diag. cbn [nth]. rewrite distance_dist by nia. apply dist_sym.
    + rewrite app_nth1 by lia. apply V. lia.
  - exists mv. split; [exact E|]. split; [exact L|]. exact V.
Qed.

Definition next_ok (centers : list Qc) (next : list (option Qc)) : Prop := length next = K /\ forall c, c < K ->
  match nth c next None with
  | None => forall j, j < K -> j = c
  | Some v => forall j, j < K -> j <> c -> (v <= dist (is_l1 mt) dim (view dim centers) (view dim centers) c j)%Qc
  end.
Lemma next_distances_ok centers cd : cd_ok centers cd -> exists next, next_distances K cd = Some next /\ next_ok centers next.
Proof.
  intros [Lcd Vcd]. unfold next_distances.
  set (DC := dist (is_l1 mt) dim (view dim centers) (view dim centers)) in *.
  destruct (iter_inv (fun c0 (l : list (option Qc)) => length l = c0 /\ forall c, c < c0 -> match nth c l None with
      | None => forall j, j < K -> j = c
      | Some v => forall j, j < K -> j <> c -> (v <= DC c j)%Qc end)
    (fun c l =>
    do m <- iter K (fun j m =>
      if j =? c then Some m else
      do v <- aget cd (j + c * K);
      Some (Some (match m with None => v | Some w => if qlt w v then w else v end))) None;
    Some (l ++ m :: nil)) K []) as (l & E & L & V).
  - split; [reflexivity|]. lia.
  - intros c l Lc [L V].
    destruct (iter_inv (fun j0 (m : option Qc) => match m with
      | None => forall j, j < j0 -> j = c
      | Some v => forall j, j < j0 -> j <> c -> (v <= DC c j)%Qc end)
      (fun j m =>
      if j =? c then Some m else
      do v <- aget cd (j + c * K);
      Some (Some (match m with None => v | Some w => if qlt w v then w else v end))) K None) as (m & Em & Vm).
    + lia.
    + intros j m Lj Vm. destruct (Nat.eqb_spec j c) as [->|Nj].
      * exists m. split; [reflexivity|]. destruct m as [v|]; intros k Lk; [intro Nk; apply Vm; lia|].
        destruct (Nat.eq_dec k c) as [->|]; [reflexivity|]. apply Vm. lia.
      * rewrite (aget_nth cd _ 0%Qc) by nia. cbn [obind]. eexists; split; [reflexivity|]. rewrite Vcd by lia. fold DC. intros k Lk Nk.
        destruct m as [w|].
        -- destruct (qlt w (DC c j)) eqn:Q; [apply qlt_true in Q|apply qlt_false in Q]; (destruct (Nat.eq_dec k j) as [->|]; [try (apply Qclt_le_weak; exact Q); apply Qcle_refl|]);
           [apply Vm; lia|]. apply Qcle_trans with w; [exact Q|apply Vm; lia].
        -- destruct (Nat.eq_dec k j) as [->|]; [apply Qcle_refl|]. exfalso. apply Nk. apply Vm. lia.
    + rewrite Em. cbn [obind]. eexists; split; [reflexivity|]. split; [rewrite app_length; cbn; lia|]. intros k Lk. destruct (Nat.eq_dec k c) as [->|].
      * rewrite app_nth2 by lia. rewrite L, Nat.sub_diag. cbn [nth]. exact Vm.
      * rewrite app_nth1 by lia. apply V. lia.
  - exists l. split; [exact E|]. split; [exact L|]. exact V.
Qed.

Lemma move_point_ok new old mv x p : mv_ok new old mv -> known old x p ->
  exists p', move_point mt K sqrt_ mv p = Some p' /\ known new x p' /\ cl p' = cl p.
Proof.
  intros [Lmv Vmv] (Lp & Ll & Hu & Hs & Hl). unfold move_point. rewrite (aget_nth mv _ 0%Qc) by lia. cbn [obind].
  destruct (iter_inv (fun c0 l => length l = K /\ forall k, k < K -> if k <? c0 then (nth k l 0%Qc <= Dx new x k)%Qc else nth k l 0%Qc = nth k (lb p) 0%Qc)
    (fun c l => do a <- aget l c; do b <- aget mv c; aset l c (shrink mt sqrt_ a b)) K (lb p)) as (l & E & L & V).
  - split; [exact Ll|]. intros. destruct (Nat.ltb_spec k 0); [lia|reflexivity].
  - intros c l Lc [L V]. rewrite (aget_nth l _ 0%Qc) by lia. cbn [obind]. rewrite (aget_nth mv _ 0%Qc) by lia. cbn [obind]. rewrite aset_lt by lia.
    eexists; split; [reflexivity|]. split; [now rewrite upd_length|]. intros k Lk. rewrite nth_upd by lia. pose proof (V k Lk) as Vk.
    destruct (Nat.eqb_spec k c) as [->|].
    + destruct (Nat.ltb_spec c (c + 1)); [|lia]. rewrite Nat.ltb_irrefl in Vk. rewrite Vk. apply (shrink_ok mt sqrt_ dim Hsqrt) with (B := view dim old) (j := c); auto.
    + destruct (Nat.ltb_spec k c), (Nat.ltb_spec k (c + 1)); try lia; exact Vk.
  - rewrite E. cbn [obind]. eexists; split; [reflexivity|]. split; [|reflexivity]. split; [exact Lp|]. split; [exact L|]. cbn [cl ub strict lb].
    split; [apply (grow_ok mt sqrt_ dim Hsqrt) with (B := view dim old) (j := cl p); auto|]. split; [discriminate|].
    intros c Lc. specialize (V c Lc). destruct (Nat.ltb_spec c K); [exact V|lia].
Qed.

Lemma scan_center_ok centers cd x c p moved : length centers = dim * K -> cd_ok centers cd -> x < N -> c < K -> known centers x p ->
  exists p' moved', scan_center mt dim K data centers cd x c (p, moved) = Some (p', moved') /\ known centers x p' /\
    (Dx centers x (cl p') <= Dx centers x (cl p))%Qc /\ (Dx centers x (cl p') <= Dx centers x c)%Qc /\
    (moved' = false -> moved = false /\ cl p' = cl p).
Proof.
  intros Lc Hcd Lx LcK (Lp & Ll & Hu & Hs & Hl). unfold scan_center. pose proof Hcd as [Lcd Vcd].
  destruct (Nat.eqb_spec (cl p) c) as [Ec|Nc].
  { exists p, moved. split; [reflexivity|]. split; [repeat split; auto|]. split; [apply Qcle_refl|]. rewrite Ec. split; [apply Qcle_refl|auto]. }
  assert (I : c + cl p * K < length cd) by nia. destruct (aget cd (c + cl p * K)) as [cc|] eqn:Ec; [|rewrite (aget_nth cd _ 0%Qc) in Ec by exact I; discriminate].
  cbn [obind]. destruct (qle (factor mt * ub p)%Qc cc) eqn:Q1.
  { exists p, moved. split; [reflexivity|]. split; [repeat split; auto|]. split; [apply Qcle_refl|]. split; [|auto]. exact (skip_center centers cd x p c cc Hcd Lp LcK Hu Ec Q1). }
  rewrite (aget_nth (lb p) c 0%Qc) by lia. cbn [obind]. destruct (qle (ub p) (nth c (lb p) 0%Qc)) eqn:Q2.
  { apply qle_true in Q2. exists p, moved. split; [reflexivity|]. split; [repeat split; auto|]. split; [apply Qcle_refl|]. split; [|auto].
    apply Qcle_trans with (ub p); [exact Hu|]. apply Qcle_trans with (nth c (lb p) 0%Qc); auto. }
  rewrite row_ok by nia. cbn [obind].
  assert (Tight : exists p1 skip, (if strict p then Some (p, false) else
    do r <- row dim centers (cl p);
    let d := distance mt (rowv dim data x) r in
    do lb' <- aset (lb p) (cl p) d;
    do l <- aget lb' c;
    Some (mkPoint (cl p) d true lb', qle (factor mt * d)%Qc cc || qle d l)) = Some (p1, skip) /\
    known centers x p1 /\ cl p1 = cl p /\ strict p1 = true /\ (skip = true -> (Dx centers x (cl p) <= Dx centers x c)%Qc)).
  { destruct (strict p) eqn:Sp.
    - exists p, false. split; [reflexivity|]. split; [repeat split; auto|]. repeat split; auto. discriminate.
    - rewrite row_ok by nia. cbn [obind]. cbv zeta. rewrite distance_dist by nia. rewrite aset_lt by lia. cbn [obind].
      rewrite (aget_nth (upd _ _ _) c 0%Qc) by (rewrite upd_length; lia). cbn [obind]. destruct (lb_set centers x (lb p) (cl p) Ll Lp Hl) as [A B].
      do 2 eexists. split; [reflexivity|]. split.
      + split; [exact Lp|]. split; [exact A|]. cbn [cl ub strict lb]. split; [apply Qcle_refl|]. split; [reflexivity|exact B].
      + split; [reflexivity|]. split; [reflexivity|]. intro Hk. apply orb_true_iff in Hk as [Hk|Hk].
        * exact (skip_center centers cd x (mkPoint (cl p) (Dx centers x (cl p)) true []) c cc Hcd Lp LcK (Qcle_refl _) Ec Hk).
        * apply qle_true in Hk. apply Qcle_trans with (1 := Hk). now apply B. }
  destruct Tight as (p1 & skip & Et & (Lp1 & Ll1 & Hu1 & Hs1 & Hl1) & C1 & S1 & Sk).
  match goal with |- context [obind (if strict p then ?m else ?n) _] => replace (if strict p then m else n) with (Some (p1, skip)) by (symmetry; exact Et) end.
  cbn [obind]. destruct skip.
  { exists p1, moved. split; [reflexivity|]. split; [repeat split; auto|]. rewrite C1. split; [apply Qcle_refl|]. split; [auto|auto]. }
  rewrite row_ok by nia. cbn [obind]. cbv zeta. rewrite distance_dist by nia. rewrite aset_lt by lia. cbn [obind]. destruct (lb_set centers x (lb p1) c Ll1 LcK Hl1) as [A B].
  rewrite (Hs1 S1). destruct (qlt (Dx centers x c) (Dx centers x (cl p1))) eqn:Q.
  - apply qlt_true in Q. do 2 eexists. split; [reflexivity|]. split.
    + split; [exact LcK|]. split; [exact A|]. cbn [cl ub strict lb]. split; [apply Qcle_refl|]. split; [reflexivity|exact B].
    + cbn [cl]. rewrite <- C1. split; [now apply Qclt_le_weak|]. split; [apply Qcle_refl|discriminate].
  - apply qlt_false in Q. do 2 eexists. split; [reflexivity|]. split.
    + split; [exact Lp1|]. split; [exact A|]. cbn [cl ub strict lb]. split; [apply Qcle_refl|]. split; [reflexivity|exact B].
    + cbn [cl]. rewrite C1. rewrite C1 in Q. split; [apply Qcle_refl|]. split; [exact Q|auto].
Qed.

Lemma scan_point_ok centers cd next x p : length centers = dim * K -> cd_ok centers cd -> next_ok centers next -> x < N -> known centers x p ->
  exists p' moved, scan_point mt dim K data centers cd next x p = Some (p', moved) /\ known centers x p' /\
    nearest K (Dx centers x) (cl p') /\ (moved = false -> cl p' = cl p).
Proof.
  intros Lc Hcd [Ln Vn] Lx Kp. pose proof Kp as (Lp & Ll & Hu & Hs & Hl). unfold scan_point. rewrite (aget_nth next (cl p) None) by lia. cbn [obind].
  specialize (Vn (cl p) Lp).
  destruct (match nth (cl p) next None with None => true | Some v => qle (factor mt * ub p)%Qc v end) eqn:Q.
  - exists p, false. split; [reflexivity|]. split; [exact Kp|]. split; [|auto]. split; [exact Lp|]. intros k Lk. destruct (nth (cl p) next None) as [v|].
    + destruct (Nat.eq_dec k (cl p)) as [->|Nk]; [apply Qcle_refl|]. apply qle_true in Q. apply (skip_ok mt sqrt_ dim Hsqrt) with (B := view dim centers) (j := cl p) (u := ub p); [exact Hu|].
      apply Qcle_trans with (1 := Q). now apply Vn.
    + rewrite (Vn k Lk). apply Qcle_refl.
  - destruct (iter_inv (fun c0 '(p', moved) => known centers x p' /\ (forall k, k < c0 -> (Dx centers x (cl p') <= Dx centers x k)%Qc) /\ (moved = false -> cl p' = cl p))
      (scan_center mt dim K data centers cd x) K (p, false)) as ([p' moved] & E & Kp' & V & M).
    + split; [exact Kp|]. split; [lia|auto].
    + intros c [p1 m1] LcK (Kp1 & V1 & M1). destruct (scan_center_ok centers cd x c p1 m1 Lc Hcd Lx LcK Kp1) as (p2 & m2 & E2 & Kp2 & D1 & D2 & M2).
      exists (p2, m2). split; [exact E2|]. split; [exact Kp2|]. split.
      * intros k Lk. destruct (Nat.eq_dec k c) as [->|]; [exact D2|]. apply Qcle_trans with (1 := D1). apply V1. lia.
      * intro F. destruct (M2 F) as [F1 ->]. now apply M1.
    + exists p', moved. split; [exact E|]. split; [exact Kp'|]. split; [|exact M]. split; [apply Kp'|exact V].
Qed.

(** *** Iterations *)
Hypothesis HK : K <= N.
Hypothesis Hch : forall t, choose t < N.
Notation asgf asg := (fun x => nth x asg 0).
Definition all_known (centers : list Qc) (pts : list point) : Prop :=
  length pts = N /\ forall x p, nth_error pts x = Some p -> known centers x p.
Definition all_nearest (centers : list Qc) (asg : list nat) : Prop :=
  length centers = dim * K /\ length asg = N /\ forall x, x < N -> nearest K (Dx centers x) (nth x asg 0).
(** the centers are centres of the clusters [asg] *)
Definition centred (centers : list Qc) (asg : list nat) : Prop :=
  forall k, k < K -> if mass N (asgf asg) k =? 0 then a_datum dim data N (view dim centers) k
    else forall d, d < dim -> centre (is_l1 mt) N (asgf asg) k (fun x => X x d) (view dim centers k d).
Notation En centers asg := (energy (is_l1 mt) dim N X (view dim centers) (asgf asg)).

Lemma cl_nth pts x : nth x (map cl pts) 0 = match nth_error pts x with Some p => cl p | None => 0 end.
Proof.
  revert x; induction pts as [|q pts IH]; intros [|x]; try reflexivity. cbn. apply IH.
Qed.

Lemma elkan_step_ok perms centers buffer cd t pts : perms_ok dim data N mt perms -> length centers = dim * K -> length buffer = dim * K -> length cd = K * K ->
  all_known centers pts -> all_nearest centers (map cl pts) ->
  exists new cd' t' pts' done, elkan_step mt dim K data N choose sqrt_ perms centers buffer cd t pts = Some (new, centers, cd', t', pts', done) /\
    length cd' = K * K /\ all_known new pts' /\ all_nearest new (map cl pts') /\
    centred new (map cl pts) /\ (En new (map cl pts') <= En centers (map cl pts))%Qc /\ (done = true -> map cl pts' = map cl pts).
Proof.
  intros Hp Lc Lb Lcd [Lpts Kn] (_ & La & Near). unfold elkan_step.
  assert (Ha : forall x, x < N -> nth x (map cl pts) 0 < K) by (intros x Lx; apply (Near x Lx)).
  destruct (update_ok dim K data N choose Hd HK ltac:(lia) Hch mt false perms (map cl pts) buffer t Hp La Ha Lb) as (new & t' & E1 & Ln & U & Ce). rewrite E1. cbn [obind].
  destruct (moves_ok new centers Ln Lc) as (mv & E2 & Hmv). rewrite E2. cbn [obind].
  destruct (cd_spec new cd Ln Lcd) as (cd' & E3 & Lcd' & Vcd). rewrite E3. cbn [obind]. assert (Hcd : cd_ok new cd') by (split; auto).
  destruct (next_distances_ok new cd' Hcd) as (next & E4 & Hn). rewrite E4. cbn [obind].
  destruct (iter_inv (fun j '(out, done) => length out = j /\
      (forall x p, nth_error out x = Some p -> known new x p /\ nearest K (Dx new x) (cl p)) /\
      (done = true -> map cl out = firstn j (map cl pts)))
    (fun x '(out, done) =>
    do p <- aget pts x;
    do p <- move_point mt K sqrt_ mv p;
    do (p, moved) <- scan_point mt dim K data new cd' next x p;
    Some (out ++ [p], if (moved : bool) then false else done)) N ([], true)) as ([out done] & E5 & Lo & Vo & Do).
  - split; [reflexivity|]. split; [intros [|x] p; discriminate|reflexivity].
  - intros x [out done] Lx (Lo & Vo & Do). unfold aget at 1. destruct (nth_error pts x) as [p|] eqn:Ep; [|apply nth_error_None in Ep; lia]. cbn [obind].
    destruct (move_point_ok new centers mv x p Hmv (Kn x p Ep)) as (p1 & Em & K1 & C1). rewrite Em. cbn [obind].
    destruct (scan_point_ok new cd' next x p1 Ln Hcd Hn Lx K1) as (p2 & moved & Es & K2 & N2 & M2). rewrite Es. cbn [obind].
    eexists; split; [reflexivity|]. split; [rewrite app_length; cbn; lia|]. split.
    + intros y q Eq. destruct (Nat.eq_dec y x) as [->|Ny].
      * rewrite nth_error_app2 in Eq by lia. rewrite Lo, Nat.sub_diag in Eq. injection Eq as <-. auto.
      * assert (y < length (out ++ [p2])) by (apply nth_error_Some; congruence). rewrite app_length in H. cbn in H. rewrite nth_error_app1 in Eq by lia. auto.
    + destruct moved; [discriminate|]. intro Dn. rewrite map_app, Do by exact Dn. rewrite Nat.add_1_r. rewrite (firstn_S_nth (map cl pts) x) by lia.
      f_equal. cbn [map]. f_equal. rewrite cl_nth, Ep. rewrite M2 by reflexivity. exact C1.
  - rewrite E5. cbn [obind]. exists new, cd', t', out, done. split; [reflexivity|]. split; [exact Lcd'|].
    assert (No : all_nearest new (map cl out)).
    { split; [exact Ln|]. split; [rewrite map_length; exact Lo|]. intros x Lx. rewrite cl_nth. destruct (nth_error out x) as [p|] eqn:Ep; [|apply nth_error_None in Ep; lia]. apply (Vo x p Ep). }
    split; [split; [exact Lo|]; intros x p Ep; apply (Vo x p Ep)|]. split; [exact No|].
    assert (Cen : centred new (map cl pts)).
    { intros k Lk. specialize (U k Lk). destruct (Nat.eqb_spec (mass N (asgf (map cl pts)) k) 0); [exact U|]. intros d Ld. apply Ce; auto. }
    split; [exact Cen|]. split.
    + apply Qcle_trans with (En new (map cl pts)).
      * apply sum_le. intros x Lx. destruct No as (_ & _ & No). destruct (No x Lx) as [_ Nx]. apply Nx. auto.
      * apply energy_step with (K := K); [exact Ha|]. intros k d Lk Ld Mk. left. apply Ce; auto.
    + intro Dn. rewrite (Do Dn). apply firstn_all2. lia.
Qed.

(** a trace: data at nearest centers, the centers those of the previous assignment *)
Fixpoint good_trace (centers : list Qc) (asg : list nat) (trace : list (list Qc * list nat)) : Prop :=
  match trace with
  | [] => True
  | (c, a) :: trace => all_nearest c a /\ centred c asg /\ (En c a <= En centers asg)%Qc /\ good_trace c a trace
  end.

Lemma elkan_ok perms todo : perms_ok dim data N mt perms -> forall centers buffer cd t pts,
  length centers = dim * K -> length buffer = dim * K -> length cd = K * K ->
  all_known centers pts -> all_nearest centers (map cl pts) ->
  exists trace done, elkan mt dim K data N choose sqrt_ perms todo centers buffer cd t pts = Some (trace, done) /\
    trace <> [] /\ length trace <= todo + 1 /\ good_trace centers (map cl pts) trace /\
    (done = false -> length trace = todo + 1) /\
    (done = true -> let '(c, a) := last trace ([], []) in centred c a).
Proof.
  intro Hp. induction todo as [|todo IH]; intros centers buffer cd t pts Lc Lb Lcd Kn Ne.
  all: destruct (elkan_step_ok perms centers buffer cd t pts Hp Lc Lb Lcd Kn Ne) as (new & cd' & t' & pts' & done & E & Lcd' & Kn' & Ne' & Ce & En' & Dn).
  all: cbn [elkan]; rewrite E; cbn [obind].
  - exists ((new, map cl pts') :: nil), done. split; [reflexivity|]. split; [discriminate|]. split; [cbn; lia|]. split; [cbn [good_trace]; auto|].
    split; [reflexivity|]. intro D. cbn [last]. rewrite (Dn D). exact Ce.
  - destruct done.
    + exists ((new, map cl pts') :: nil), true. split; [reflexivity|]. split; [discriminate|]. split; [cbn; lia|]. split; [cbn [good_trace]; auto|].
      split; [discriminate|]. intros _. cbn [last]. rewrite (Dn eq_refl). exact Ce.
    + destruct (IH new centers cd' t' pts' (proj1 Ne') Lc Lcd' Kn' Ne') as (trace & d & E2 & Nt & Lt & G & F1 & F2). rewrite E2. cbn [obind].
      exists ((new, map cl pts') :: trace), d. split; [reflexivity|]. split; [discriminate|]. split; [cbn; lia|]. split; [cbn [good_trace]; auto|].
      split; [intro D; cbn [length]; rewrite (F1 D); lia|]. intro D. specialize (F2 D). destruct trace; [contradiction|exact F2].
Qed.

Lemma final_energy_ok centers asg : length centers = dim * K -> length asg = N -> (forall x, x < N -> nth x asg 0 < K) ->
  final_energy mt dim data N centers asg = Some (En centers asg).
Proof.
  intros Lc La Ha. unfold final_energy.
  destruct (iter_inv (fun j e => e = ksum j (fun x => Dx centers x (nth x asg 0))) (fun x e =>
    do c <- aget asg x; do v <- row dim data x; do r <- row dim centers c; Some (e + distance mt v r)%Qc) N 0%Qc) as (e & E & V).
  - reflexivity.
  - intros x e Lx ->. rewrite (aget_nth asg x 0) by lia. cbn [obind]. rewrite row_ok by nia. cbn [obind]. pose proof (Ha x Lx). rewrite row_ok by nia. cbn [obind].
    eexists; split; [reflexivity|]. rewrite distance_dist by nia. now rewrite Nat.add_1_r.
  - rewrite E, V. reflexivity.
Qed.

Lemma good_trace_last centers asg trace : good_trace centers asg trace -> trace <> [] ->
  let '(c, a) := last trace ([], []) in all_nearest c a /\ (En c a <= En centers asg)%Qc.
Proof.
  revert centers asg. induction trace as [|[c a] trace IH]; intros centers asg G Nt; [contradiction|].
  destruct G as (Ne & _ & Le & G). destruct trace as [|q trace]; [cbn; auto|].
  specialize (IH c a G ltac:(discriminate)). change (last ((c, a) :: q :: trace) ([], [])) with (last (q :: trace) ([], [])).
  destruct (last (q :: trace) ([], [])) as [c' a']. destruct IH as [I1 I2]. split; [exact I1|]. now apply Qcle_trans with (1 := I2).
Qed.

Lemma refine_elkan_ok maxiter centers buffer cd : length centers = dim * K -> length buffer = dim * K -> length cd = K * K ->
  exists e asg trace done, refine_elkan mt dim K data N choose sqrt_ maxiter centers buffer cd = Some (e, (centers, asg) :: trace, done) /\
    trace <> [] /\ length trace <= Nat.max 1 maxiter /\ all_nearest centers asg /\ good_trace centers asg trace /\
    (let '(c, a) := last trace ([], []) in e = En c a /\ all_nearest c a /\ (e <= En centers asg)%Qc /\ (done = true -> centred c a)) /\
    (done = false -> length trace = Nat.max 1 maxiter).
Proof.
  intros Lc Lb Lcd. unfold refine_elkan.
  destruct (permutations_ok dim K data N Hd HK ltac:(lia) mt) as (perms & Ep & Hp). rewrite Ep. cbn [obind].
  destruct (cd_spec centers cd Lc Lcd) as (cd' & E1 & Lcd' & Vcd). rewrite E1. cbn [obind]. assert (Hcd : cd_ok centers cd') by (split; auto).
  destruct (iter_inv (fun j out => length out = j /\ forall x p, nth_error out x = Some p -> known centers x p /\ nearest K (Dx centers x) (cl p))
    (fun x out => do p <- init_point mt dim K data centers cd' x; Some (out ++ [p])) N []) as (pts & E2 & Lp & Vp).
  - split; [reflexivity|]. intros [|x] p; discriminate.
  - intros x out Lx [Lo Vo]. destruct (init_point_ok centers cd' x Lc Hcd Lx) as (p & E & Kp & Np). rewrite E. cbn [obind].
    eexists; split; [reflexivity|]. split; [rewrite app_length; cbn; lia|]. intros y q Eq. destruct (Nat.eq_dec y x) as [->|Ny].
    + rewrite nth_error_app2 in Eq by lia. rewrite Lo, Nat.sub_diag in Eq. injection Eq as <-. auto.
    + assert (y < length (out ++ [p])) by (apply nth_error_Some; congruence). rewrite app_length in H. cbn in H. rewrite nth_error_app1 in Eq by lia. auto.
  - rewrite E2. cbn [obind].
    assert (Ne : all_nearest centers (map cl pts)).
    { split; [exact Lc|]. split; [rewrite map_length; exact Lp|]. intros x Lx. rewrite cl_nth. destruct (nth_error pts x) as [p|] eqn:Epx; [|apply nth_error_None in Epx; lia]. apply (Vp x p Epx). }
    destruct (elkan_ok perms (maxiter - 1) Hp centers buffer cd' 0 pts Lc Lb Lcd') as (trace & done & E3 & Nt & Lt & G & F1 & F2); [|exact Ne|].
    { split; [exact Lp|]. intros x p Epx. apply (Vp x p Epx). }
    rewrite E3. cbn [obind]. cbv zeta. pose proof (good_trace_last _ _ _ G Nt) as GL.
    replace (last ((centers, map cl pts) :: trace) ([], [])) with (last trace ([], [])) by (destruct trace; [contradiction|reflexivity]).
    destruct (last trace ([], [])) as [c a] eqn:El. destruct GL as [Nc Le]. rewrite final_energy_ok; [|apply Nc|apply Nc|intros x Lx; apply (proj2 (proj2 Nc) x Lx)].
    cbn [obind]. exists (En c a), (map cl pts), trace, done. split; [reflexivity|]. split; [exact Nt|]. split; [lia|]. split; [exact Ne|]. split; [exact G|].
    rewrite El. split; [split; [reflexivity|]; split; [exact Nc|]; split; [exact Le|exact F2]|]. intro D. rewrite (F1 D). lia.
Qed.
End Points.
