(** Distance transform of matrices: C309, C310. *)
From Coq Require Import List Arith ZArith QArith Bool Lia Lqa.
Import ListNotations.
From Verif Require Import Base Loop ImDist_Model ImDist_Spec ImDist_Props ImDisttf_Model ImDisttf_Spec.
Local Open Scope nat_scope.

(** C309.  The transform of a matrix is, at each pixel, the minimum over all pixels of the value plus the cost, and the indexes are those of pixels that attain it (from 1, by columns).  The coefficients are 0 or larger than the rounding unit [eps]. *)
Theorem C309_minimum : forall eps fill q i image M N p a b c d want, (0 <= eps)%Q -> length image = M * N ->
  get_param p = Some (a, b, c, d) -> (eps < a \/ a == 0)%Q -> (eps < c \/ c == 0)%Q ->
  exists dt idx, imdisttf eps fill q i image M N p want = Some (Some (dt, idx)) /\ length dt = M * N /\ (want = true <-> idx <> None) /\
    forall x y, x < N -> y < M -> exists u v,
      minimum (cost a b c d) (fun v u => nth (v + u * M) image 0%Q) M N x y u v (nth (y + x * M) dt 0%Q) /\
      forall l, idx = Some l -> nth (y + x * M) l 0 = v + u * M + 1.
Proof.
  intros eps fill q i image M N p a b c d want He Li Ep Ha Hc. unfold imdisttf. rewrite Ep. cbv zeta.
  set (dt0 := repeat 0%Q (M * N)). set (ix0 := if want then Some (map (fun k => k + 1) (seq 0 (M * N))) else None).
  assert (P : forall x y, x < N -> y < M -> y + x * M < M * N) by (intros x y Hx Hy; nia).
  assert (LD : length dt0 = M * N) by (unfold dt0; apply repeat_length).
  assert (LX : forall l, ix0 = Some l -> length l = M * N /\ forall k, k < M * N -> nth k l 0 = k + 1).
  { intros l El. unfold ix0 in El. destruct want; [|discriminate]. injection El as <-. split; [now rewrite map_length, seq_length|]. intros k Hk. rewrite (nth_indep _ 0 (0 + 1)) by (rewrite map_length, seq_length; exact Hk). rewrite (map_nth (fun k => k + 1)), seq_nth by exact Hk. reflexivity. }
  destruct (C31_lower_envelope c d eps (Some image) M N 1 M (repeat fill (M + 1)) (repeat q M) (repeat i M) (repeat i M) dt0 ix0) as (dt1 & ix1 & E1 & L1 & LI1 & R1 & _).
  - exact He.
  - exact Hc.
  - intros x x' y y' Hx Hx' Hy Hy' E. assert (y = y') by nia. subst y'. split; [lia|reflexivity].
  - apply repeat_length.
  - apply repeat_length.
  - apply repeat_length.
  - apply repeat_length.
  - intros x y Hx Hy. specialize (P y x Hy Hx). split; [rewrite LD; lia|]. split; [intros l [= <-]; rewrite Li; lia|]. intros l El. destruct (LX l El) as [-> _]. lia.
  - unfold buffers at 1. rewrite E1. cbn [obind].
    destruct (C31_lower_envelope a b eps None N M M 1 (repeat fill (N + 1)) (repeat q N) (repeat i N) (repeat i N) dt1 ix1) as (dt2 & ix2 & E2 & L2 & LI2 & R2 & _).
    + exact He.
    + exact Ha.
    + intros x x' y y' Hx Hx' Hy Hy' E. assert (x = x') by nia. subst x'. split; [reflexivity|lia].
    + apply repeat_length.
    + apply repeat_length.
    + apply repeat_length.
    + apply repeat_length.
    + intros x y Hx Hy. specialize (P x y Hx Hy). split; [rewrite L1, LD; lia|]. split; [discriminate|]. intros l El. rewrite El in LI1. cbn [option_map] in LI1. destruct ix0 as [l0|]; [|discriminate]. injection LI1 as ->. destruct (LX l0 eq_refl) as [-> _]. lia.
    + unfold buffers. rewrite E2. cbn [obind]. exists dt2, ix2. split; [reflexivity|]. split; [congruence|]. split.
      { unfold ix0 in LI1. rewrite LI1 in LI2. destruct want, ix2; cbn in LI2; try discriminate; split; intro X; try discriminate; try reflexivity; now elim X. }
      intros x y Hx Hy. destruct (R2 x y Hx Hy) as (u & (Hu & V2 & M2) & I2). destruct (R1 y u Hy Hu) as (v & (Hv & V1 & M1) & I1).
      replace (x * M + y * 1) with (y + x * M) in * by lia. replace (u * M + y * 1) with (y + u * M) in * by lia. rewrite Nat.mul_1_r in *.
      exists u, v. split; [split; [exact Hu|split; [exact Hv|split]]|].
      * rewrite Nat.mul_1_r in V1. rewrite V2. unfold parabola at 1. rewrite V1. unfold parabola, cost, num. ring.
      * intros u' v' Hu' Hv'. specialize (M2 u' Hu'). cbv beta in M2. rewrite ?Nat.mul_1_r in M2. replace (u' * M + y) with (y + u' * M) in M2 by lia. destruct (R1 y u' Hy Hu') as (v1 & (_ & _ & M1') & _). specialize (M1' v' Hv'). rewrite ?Nat.mul_1_r in M1'. cbv beta in M1'. rewrite ?Nat.mul_1_r in M1'.
        unfold parabola in M2. unfold parabola in M1'. unfold cost, num. fold (num x) (num y) in *. lra.
      * intros l El. rewrite El in LI2. cbn [option_map] in LI2. destruct ix1 as [l1|]; [|discriminate]. destruct ix0 as [l0|] eqn:E0; [|discriminate].
        rewrite (I2 l1 l eq_refl El). rewrite (I1 l0 l1 eq_refl eq_refl). rewrite Nat.mul_1_r. apply (proj2 (LX l0 eq_refl)). now apply P.
Qed.
Print Assumptions C309_minimum.
(** without parameters: squared Euclidean distances *)
Theorem C309_default : forall eps fill q i image M N want, (0 <= eps < 1)%Q -> length image = M * N ->
  exists dt idx, imdisttf eps fill q i image M N None want = Some (Some (dt, idx)) /\ length dt = M * N /\
    forall x y, x < N -> y < M -> exists u v,
      minimum (fun u v x y => (num u - num x) * (num u - num x) + (num v - num y) * (num v - num y))%Q (fun v u => nth (v + u * M) image 0%Q) M N x y u v (nth (y + x * M) dt 0%Q) /\
      forall l, idx = Some l -> nth (y + x * M) l 0 = v + u * M + 1.
Proof.
  intros eps fill q i image M N want [He H1] Li. destruct (C309_minimum eps fill q i image M N None 1 0 1 0 want He Li eq_refl (or_introl H1) (or_introl H1)) as (dt & idx & E & L & _ & R).
  exists dt, idx. split; [exact E|]. split; [exact L|]. intros x y Hx Hy. destruct (R x y Hx Hy) as (u & v & (Hu & Hv & V & Mn) & I). exists u, v. split; [|exact I].
  split; [exact Hu|]. split; [exact Hv|]. split; [rewrite V; unfold cost; ring|]. intros u' v' Hu' Hv'. specialize (Mn u' v' Hu' Hv'). unfold cost in Mn. lra.
Qed.
Print Assumptions C309_default.
(** negative coefficients are refused *)
Theorem C309_refused : forall eps fill q i image M N a b c d want, (a < 0 \/ c < 0)%Q -> imdisttf eps fill q i image M N (Some (a, b, c, d)) want = Some None.
Proof.
  intros eps fill q i image M N a b c d want H. unfold imdisttf, get_param. destruct (Qle_bool 0 a) eqn:Ea, (Qle_bool 0 c) eqn:Ec; cbn [andb]; try reflexivity. apply Qle_bool_iff in Ea, Ec. exfalso. lra.
Qed.
Print Assumptions C309_refused.

(** C310 (refuted).  The claim: with offsets, the transform is the documented one, where the offsets are added to the position of the output.  The offsets have the opposite sign; for offsets 0 the claim holds (C309). *)
Theorem C310_offsets_refuted : exists image M N a b c d dt, (forall eps fill q i, (eps = 1 # 4503599627370496)%Q -> imdisttf eps fill q i image M N (Some (a, b, c, d)) false = Some (Some (dt, None))) /\
  length image = M * N /\ (0 < a)%Q /\ (0 < c)%Q /\ exists x y, x < N /\ y < M /\ forall u v, ~ minimum (documented a b c d) (fun v u => nth (v + u * M) image 0%Q) M N x y u v (nth (y + x * M) dt 0%Q).
Proof.
  exists [0; 1000; 1000]%Q, 1, 3, 1%Q, 1%Q, 1%Q, 0%Q. eexists. split; [intros eps fill q i ->; vm_compute; reflexivity|]. split; [reflexivity|]. split; [reflexivity|]. split; [reflexivity|].
  exists 1, 0. split; [lia|]. split; [lia|]. intros u v (Hu & Hv & V & _). assert (v = 0) by lia. subst v. destruct u as [|[|[|u]]]; [| | |lia]; vm_compute in V; discriminate.
Qed.
Print Assumptions C310_offsets_refuted.
(** What holds is the documented formula with the offsets negated. *)
Theorem C310_negated : forall a b c d u v x y, (cost a b c d u v x y == documented a (- b) c (- d) u v x y)%Q.
Proof. intros. unfold cost, documented. ring. Qed.
Print Assumptions C310_negated.

(** ** Examples *)
Example C309_ex : exists dt, imdisttf (1 # 4503599627370496) PInf 7 3 [0; 9; 9; 9; 9; 2]%Q 2 3 None true = Some (Some (dt, Some [1; 1; 1; 1; 6; 6])) /\ Forall2 Qeq dt [0; 1; 1; 2; 3; 2]%Q.
Proof. eexists. split; [vm_compute; reflexivity|]. repeat constructor; vm_compute; reflexivity. Qed.
Example C309_ex_refused : imdisttf (1 # 4503599627370496) PInf 7 3 [0]%Q 1 1 (Some ((-1)%Q, 0%Q, 1%Q, 0%Q)) false = Some None.
Proof. reflexivity. Qed.
