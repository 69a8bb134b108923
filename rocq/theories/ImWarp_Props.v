(** C220-C223: backward warping. *)
From Coq Require Import List Arith Bool ZArith QArith Qcanon Lia.
Import ListNotations.
From Verif Require Import Base Rat Gauss_Model Gauss_Proofs Bins_Proofs ImWarp_Model ImWarp_Spec ImWarp_Proofs.
Local Open Scope nat_scope.

(** C220: a pixel whose point is covered by the grid gets the bilinear interpolation, the only such value, the others NaN *)
Theorem C220_warp X Y I pts : increasing X -> increasing Y -> 1 <= length X -> 1 <= length Y -> length I = length X * length Y ->
  exists out, warp X Y I pts = Some out /\ length out = length pts /\
    forall k x y, nth_error pts k = Some (x, y) ->
      (covered X x /\ covered Y y -> exists z, nth_error out k = Some (Some z) /\ bilin X Y (sample Y I) x y z /\ forall v, bilin X Y (sample Y I) x y v -> v = z) /\
      (~ (covered X x /\ covered Y y) -> nth_error out k = Some None).
Proof.
  intros HX HY PX PY LI. induction pts as [|[x y] pts (out & E & L & H)]; [exists []; repeat split; auto; destruct k; discriminate|]. cbn [warp].
  assert (D : covered X x /\ covered Y y \/ ~ (covered X x /\ covered Y y)).
  { destruct (nth_some X 0 PX) as [a A], (nth_some X (length X - 1) ltac:(lia)) as [b B], (nth_some Y 0 PY) as [c C], (nth_some Y (length Y - 1) ltac:(lia)) as [d D].
    assert (W : forall Z z p q, nth_error Z 0 = Some p -> nth_error Z (length Z - 1) = Some q -> covered Z z \/ ~ covered Z z).
    { intros Z z p q P Q. destruct (Qclt_le_dec z p) as [G|G]; [right; intros (a' & b' & A' & B' & X1 & X2); rewrite P in A'; injection A' as <-; qc_lra|]. destruct (Qclt_le_dec q z) as [G'|G']; [right; intros (a' & b' & A' & B' & X1 & X2); rewrite Q in B'; injection B' as <-; qc_lra|]. left. exists p, q. auto. }
    destruct (W X x a b A B); [|right; tauto]. destruct (W Y y c d C D); [left|right]; tauto. }
  assert (R : exists z, warp_at X Y I x y = Some z /\ (covered X x /\ covered Y y -> exists v, z = Some v /\ bilin X Y (sample Y I) x y v /\ forall v', bilin X Y (sample Y I) x y v' -> v' = v) /\ (~ (covered X x /\ covered Y y) -> z = None)).
  { destruct D as [[D1 D2]|D].
    - destruct (warp_at_ok X Y I x y HX HY LI D1 D2) as (z & -> & Z1 & Z2). exists (Some z). split; [reflexivity|]. split; [intros _; exists z; auto|tauto].
    - exists None. unfold warp_at. rewrite inside_false by assumption. cbn [obind]. split; [reflexivity|]. split; [tauto|reflexivity]. }
  destruct R as (z & -> & Z1 & Z2). cbn [obind]. rewrite E. cbn [obind]. exists (z :: out). split; [reflexivity|]. split; [cbn; lia|]. intros [|k] x' y' K; cbn [nth_error] in *.
  - injection K as <- <-. split; [intros Q; destruct (Z1 Q) as (v & -> & V); exists v; auto|intros Q; now rewrite Z2].
  - apply H. exact K.
Qed.
(** C221: below the last column and row, the mode with derivatives returns the interpolation and its differences along the axes: the slopes times the widths of the cell *)
Lemma mix_in X x j w g : cell X j x -> mix X j w g = ((1 - w) * g j + w * g (S j))%Qc.
Proof. intros (a & b & _ & B & _). apply nth_bnd in B. unfold mix. destruct (Nat.ltb_spec (S j) (length X)); [reflexivity|lia]. Qed.
Lemma cell_weight X x j : cell X j x -> exists w, is_weight X x j w /\ (w * step X j = x - nth j X 0)%Qc.
Proof.
  intros H. destruct (weight_d_ok X x j H) as (w & _ & W). exists w. split; [exact W|]. destruct H as (a & b & A & B & _). destruct W as [(a' & b' & A' & B' & _ & _ & E)|(E & _)]; [|apply nth_bnd in B; lia].
  unfold step. rewrite (nth_error_nth _ _ _ A'), (nth_error_nth _ _ _ B'). exact E.
Qed.
Lemma weight_unique X x j w w' : increasing X -> cell X j x -> is_weight X x j w -> is_weight X x j w' -> w = w'.
Proof.
  intros HX (a & b & A & B & _) [(a1 & b1 & A1 & B1 & _ & _ & E1)|(E & _)] [(a2 & b2 & A2 & B2 & _ & _ & E2)|(E' & _)]; try (apply nth_bnd in B; lia).
  rewrite A1 in A2. injection A2 as <-. rewrite B1 in B2. injection B2 as <-. apply (mul_cancel _ _ (b1 - a1)%Qc); [|congruence]. pose proof (HX j (S j) a1 b1 A1 B1 ltac:(lia)). qc_lra.
Qed.
Theorem C221_derivatives X Y I x y xl yl : increasing X -> increasing Y -> length I = length X * length Y -> covered X x -> covered Y y ->
  nth_error X (length X - 1) = Some xl -> nth_error Y (length Y - 1) = Some yl -> (x < xl)%Qc -> (y < yl)%Qc ->
  exists j i z zx zy, cell X j x /\ cell Y i y /\ warp_d_at X Y I x y = Some (Some (z, zx, zy)) /\ bilin X Y (sample Y I) x y z /\
    (forall x' v, cell X j x' -> bilin X Y (sample Y I) x' y v -> ((v - z) * step X j = (x' - x) * zx)%Qc) /\
    (forall y' v, cell Y i y' -> bilin X Y (sample Y I) x y' v -> ((v - z) * step Y i = (y' - y) * zy)%Qc).
Proof.
  intros HX HY LI CX CY XL YL GX GY. destruct (find_ok X x CX) as (j & NX & FX). destruct (find_ok Y y CY) as (i & NY & FY).
  assert (KX : cell X j x). { destruct FX as [K|[E A]]; [exact K|]. replace (length X - 1) with j in XL by lia. rewrite A in XL. injection XL as ->. exfalso. qc_lra. }
  assert (KY : cell Y i y). { destruct FY as [K|[E A]]; [exact K|]. replace (length Y - 1) with i in YL by lia. rewrite A in YL. injection YL as ->. exfalso. qc_lra. }
  destruct (warp_d_at_ok X Y I x y j i HX HY LI CX CY NX NY KX KY) as (wx & wy & WX & WY & E). exists j, i. do 3 eexists. split; [exact KX|]. split; [exact KY|]. split; [exact E|].
  split; [apply (bilin_mix X Y (sample Y I) x y j i wx wy HX HY WX WY)|].
  destruct (cell_weight X x j KX) as (w & W & EW). rewrite (weight_unique X x j w wx HX KX W WX) in EW. destruct (cell_weight Y y i KY) as (u & U & EU). rewrite (weight_unique Y y i u wy HY KY U WY) in EU. split.
  - intros x' v KX' V. destruct (cell_weight X x' j KX') as (w' & W' & EW'). rewrite (proj2 (bilin_mix X Y (sample Y I) x' y j i w' wy HX HY W' WY) v V). rewrite !(mix_in Y y i wy _ KY), !(mix_in X x j wx _ KX), !(mix_in X x' j w' _ KX').
    replace (x' - x)%Qc with (w' * step X j - wx * step X j)%Qc by (rewrite EW, EW'; ring). ring.
  - intros y' v KY' V. destruct (cell_weight Y y' i KY') as (w' & W' & EW'). rewrite (proj2 (bilin_mix X Y (sample Y I) x y' j i wx w' HX HY WX W') v V). rewrite !(mix_in Y y i wy _ KY), !(mix_in Y y' i w' _ KY'), !(mix_in X x j wx _ KX).
    replace (y' - y)%Qc with (w' * step Y i - wy * step Y i)%Qc by (rewrite EU, EW'; ring). ring.
Qed.
(** C221: outside of the grid the three outputs are NaN *)
Theorem C221_outside X Y I x y : 1 <= length X -> 1 <= length Y -> ~ (covered X x /\ covered Y y) -> warp_d_at X Y I x y = Some None.
Proof. intros PX PY H. unfold warp_d_at. now rewrite inside_false. Qed.
(** C222: with derivatives, every point on the last column or row of the grid makes the code read past the end of the grid *)
Lemma find_last X x : increasing X -> covered X x -> nth_error X (length X - 1) = Some x -> find_neighbor x X = Some (Z.of_nat (length X - 1)).
Proof.
  intros HX CX L. destruct (find_ok X x CX) as (j & E & [(a & b & A & B & G & U)|[F A]]); rewrite E.
  - exfalso. pose proof (nth_bnd _ _ _ B). pose proof (increasing_le X (S j) (length X - 1) b x HX B L ltac:(lia)). qc_lra.
  - f_equal. lia.
Qed.
Lemma weight_d_last X x : 1 <= length X -> weight_d X (Z.of_nat (length X - 1)) x = None.
Proof. intros H. unfold weight_d. destruct (zget X (Z.of_nat (length X - 1))); [|reflexivity]. cbn [obind]. rewrite (zget_at X _ (length X)) by lia. now rewrite (proj2 (nth_error_None X (length X))). Qed.
Theorem C222_border_refuted X Y I x y : increasing X -> increasing Y -> covered X x -> covered Y y ->
  nth_error X (length X - 1) = Some x \/ nth_error Y (length Y - 1) = Some y -> warp_d_at X Y I x y = None.
Proof.
  intros HX HY CX CY H. unfold warp_d_at. rewrite inside_true by assumption. cbn [obind].
  assert (PX : 1 <= length X) by (destruct CX as (a & b & A & _); apply nth_bnd in A; lia). assert (PY : 1 <= length Y) by (destruct CY as (a & b & A & _); apply nth_bnd in A; lia).
  destruct (find_ok X x CX) as (j & EX & _). destruct (find_ok Y y CY) as (i & EY & _). destruct H as [H|H].
  - rewrite (find_last X x HX CX H), EY. cbn [obind]. now rewrite weight_d_last.
  - rewrite (find_last Y y HY CY H), EX. cbn [obind]. destruct (weight_d X (Z.of_nat j) x); [|reflexivity]. cbn [obind]. now rewrite weight_d_last.
Qed.
Definition Q0 (n : Z) : Qc := zq n.
Definition wX := map Q0 [0; 2; 4]%Z.
Definition wY := map Q0 [0; 1]%Z.
(** the image whose sample at the point (x, y) of the grid is x *)
Definition wI := map Q0 [0; 0; 2; 2; 4; 4]%Z.
Lemma wX_inc : increasing wX.
Proof. intros i j a b A B L. destruct i as [|[|[|i]]], j as [|[|[|j]]]; cbn in A, B; try lia; try discriminate; try (destruct i; discriminate); try (destruct j; discriminate); injection A as <-; injection B as <-; reflexivity. Qed.
Lemma wY_inc : increasing wY.
Proof. intros i j a b A B L. destruct i as [|[|i]], j as [|[|j]]; cbn in A, B; try lia; try discriminate; try (destruct i; discriminate); try (destruct j; discriminate); injection A as <-; injection B as <-; reflexivity. Qed.
Lemma wX_cov z : (Q0 0 <= z)%Qc -> (z <= Q0 4)%Qc -> covered wX z.
Proof. intros. exists (Q0 0), (Q0 4). auto. Qed.
Lemma wY_cov z : (Q0 0 <= z)%Qc -> (z <= Q0 1)%Qc -> covered wY z.
Proof. intros. exists (Q0 0), (Q0 1). auto. Qed.
(** C223: on a grid of step 2 the derivative along x of the image x is given as 2, though the interpolated values increase by one per unit *)
Theorem C223_scale_refuted : exists X Y I x y z zx zy x' v,
  increasing X /\ increasing Y /\ length I = length X * length Y /\ warp_d_at X Y I x y = Some (Some (z, zx, zy)) /\ warp_at X Y I x y = Some (Some z) /\
  warp_at X Y I x' y = Some (Some v) /\ (x < x')%Qc /\ (v - z = x' - x)%Qc /\ zx = Q0 2.
Proof.
  exists wX, wY, wI, (Q0 0), (Q0 0), (Q0 0), (Q0 2), (Q0 0), (Q0 1), (Q0 1). split; [exact wX_inc|]. split; [exact wY_inc|]. split; [reflexivity|]. split; [vm_compute; reflexivity|]. split; [vm_compute; reflexivity|]. split; [vm_compute; reflexivity|]. split; [reflexivity|]. split; reflexivity.
Qed.
Example C220_ex_warp : option_map (map (option_map this)) (warp wX wY (map Q0 [0; 10; 2; 12; 4; 14]%Z) [(Q0 1, Q2Qc (1 # 2)); (Q0 4, Q0 1); (Q0 5, Q0 0); (Q0 2, Q0 0)]) = Some [Some 6%Q; Some 14%Q; None; Some 2%Q].
Proof. vm_compute. reflexivity. Qed.
Example C220_ex_hyp : increasing wX /\ increasing wY /\ length wI = length wX * length wY /\ covered wX (Q0 1) /\ covered wY (Q0 1) /\ ~ (covered wX (Q0 5) /\ covered wY (Q0 0)).
Proof. repeat split; [exact wX_inc|exact wY_inc|apply wX_cov; discriminate|apply wY_cov; discriminate|]. intros [(a & b & _ & B & _ & U) _]. cbn in B. injection B as <-. revert U. now vm_compute. Qed.
Example C221_ex_derivatives : option_map (option_map (fun '(z, zx, zy) => (this z, this zx, this zy))) (warp_d_at wX wY (map Q0 [0; 10; 2; 12; 4; 14]%Z) (Q0 1) (Q2Qc (1 # 2))) = Some (Some (6, 2, 10)%Q) /\ nth_error wX 2 = Some (Q0 4) /\ (Q0 1 < Q0 4)%Qc /\ (Q2Qc (1 # 2) < Q0 1)%Qc.
Proof. repeat split; vm_compute; reflexivity. Qed.
Example C222_ex_border : warp_d_at wX wY wI (Q0 4) (Q0 0) = None /\ warp_at wX wY wI (Q0 4) (Q0 0) = Some (Some (Q0 4)) /\ nth_error wX (length wX - 1) = Some (Q0 4).
Proof. repeat split; vm_compute; reflexivity. Qed.
Print Assumptions C220_warp. Print Assumptions C221_derivatives. Print Assumptions C221_outside. Print Assumptions C222_border_refuted. Print Assumptions C223_scale_refuted.
