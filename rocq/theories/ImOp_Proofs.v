(** Proofs about the integral image and the column convolutions. *)
From Coq Require Import List Arith ZArith Lia Bool Ring Ring_theory.
From Verif Require Import Base Loop MserSort_Proofs ImOp_Model ImOp_Spec.
Import ListNotations.

(** ** Filling a two-dimensional region *)
Definition painted {A} (pos : nat -> nat -> nat) (val : nat -> nat -> A) (n m : nat) (dst0 : list A)
    (isdone : nat -> nat -> Prop) (dst : list A) : Prop :=
  length dst = length dst0 /\
  (forall a b, a < n -> b < m -> isdone a b -> nth_error dst (pos a b) = Some (val a b)) /\
  (forall i, (forall a b, a < n -> b < m -> i <> pos a b) -> nth_error dst i = nth_error dst0 i).

Definition inj2 (pos : nat -> nat -> nat) (n m : nat) : Prop :=
  forall a b a' b', a < n -> b < m -> a' < n -> b' < m -> pos a b = pos a' b' -> a = a' /\ b = b'.

Section Painted.
Context {A : Type} (pos : nat -> nat -> nat) (val : nat -> nat -> A) (n m : nat) (dst0 : list A).

Lemma painted_start (isdone : nat -> nat -> Prop) :
  (forall a b, a < n -> b < m -> ~ isdone a b) -> painted pos val n m dst0 isdone dst0.
Proof. intro D. split; [reflexivity|]. split; [intros a b La Lb X; destruct (D a b La Lb X)|reflexivity]. Qed.

Lemma painted_weaken (d1 d2 : nat -> nat -> Prop) dst :
  (forall a b, a < n -> b < m -> d2 a b -> d1 a b) ->
  painted pos val n m dst0 d1 dst -> painted pos val n m dst0 d2 dst.
Proof. intros W (L & D & O). split; [auto|]. split; [|auto]. intros a b La Lb X. apply D; auto. Qed.

Lemma painted_set (d1 d2 : nat -> nat -> Prop) dst a b v : inj2 pos n m -> a < n -> b < m ->
  (forall a b, a < n -> b < m -> pos a b < length dst0) ->
  (forall a' b', a' < n -> b' < m -> d2 a' b' -> d1 a' b' \/ (a' = a /\ b' = b)) ->
  v = val a b -> painted pos val n m dst0 d1 dst ->
  aset dst (pos a b) v = Some (upd dst (pos a b) v) /\ painted pos val n m dst0 d2 (upd dst (pos a b) v).
Proof.
  intros J La Lb Bd D -> (L & P & O).
  assert (Lp : pos a b < length dst) by (rewrite L; auto).
  split; [now apply aset_lt|]. split; [now rewrite upd_length|]. split.
  - intros a' b' La' Lb' X. destruct (D a' b' La' Lb' X) as [Y|[-> ->]].
    + destruct (Nat.eq_dec (pos a b) (pos a' b')) as [E|E].
      * destruct (J _ _ _ _ La Lb La' Lb' E) as [<- <-]. now apply nth_error_upd_eq.
      * rewrite nth_error_upd_neq by auto. apply P; auto.
    + now apply nth_error_upd_eq.
  - intros i H. rewrite nth_error_upd_neq by (intro; subst; apply (H a b La Lb eq_refl)). auto.
Qed.

Lemma painted_filled (isdone : nat -> nat -> Prop) dst : (forall a b, a < n -> b < m -> isdone a b) ->
  painted pos val n m dst0 isdone dst -> filled pos val n m dst0 dst.
Proof. intros D (L & P & O). split; [auto|]. split; auto. Qed.
End Painted.

(** row-major progress *)
Definition before (a b a' b' : nat) : Prop := a' < a \/ (a' = a /\ b' < b).

Lemma inj_rows (st n m : nat) : m <= st -> inj2 (fun a b => a * st + b) n m.
Proof.
  intros L a b a' b' La Lb La' Lb' E.
  destruct (Nat.lt_trichotomy a a') as [X|[X|X]].
  - exfalso. assert (a * st + st <= a' * st) by nia. lia.
  - subst. lia.
  - exfalso. assert (a' * st + st <= a * st) by nia. lia.
Qed.
Lemma inj_cols (st n m : nat) : n <= st -> inj2 (fun a b => a + b * st) n m.
Proof.
  intros L a b a' b' La Lb La' Lb' E.
  destruct (Nat.lt_trichotomy b b') as [X|[X|X]].
  - exfalso. assert (b * st + st <= b' * st) by nia. lia.
  - subst. lia.
  - exfalso. assert (b' * st + st <= b * st) by nia. lia.
Qed.
Lemma inj_out (transp : bool) (st n m : nat) : (if transp then m else n) <= st -> inj2 (out_pos transp st) n m.
Proof. destruct transp; intro L; unfold out_pos; [apply inj_rows|apply inj_cols]; auto. Qed.

Lemma zget_of_nat {A} (l : list A) n : zget l (Z.of_nat n) = nth_error l n.
Proof.
  unfold zget. pose proof (Zle_0_nat n). destruct (Z.ltb_spec (Z.of_nat n) 0); [lia|]. now rewrite Nat2Z.id.
Qed.
Lemma zget_nat {A} (l : list A) z n d : z = Z.of_nat n -> n < length l -> zget l z = Some (nth n l d).
Proof.
  intros -> L. unfold zget. destruct (Z.ltb_spec (Z.of_nat n) 0); [lia|].
  rewrite Nat2Z.id. now apply aget_nth.
Qed.
Lemma zset_nat {A} (l : list A) z n v : z = Z.of_nat n -> zset l z v = aset l n v.
Proof.
  intros ->. unfold zset. destruct (Z.ltb_spec (Z.of_nat n) 0); [lia|]. now rewrite Nat2Z.id.
Qed.

Section Ringed.
Context {A : Type} (r0 r1 : A) (radd rmul rsub : A -> A -> A) (ropp : A -> A).
Hypothesis Rth : ring_theory r0 r1 radd rmul rsub ropp eq.
Add Ring Rring : Rth.

Local Notation sum := (sum r0 radd).
Local Notation times := (times r0 radd).

Lemma sum_ext n f g : (forall i, i < n -> f i = g i) -> sum n f = sum n g.
Proof. induction n; cbn; intros H; [auto|]. rewrite IHn by auto. now rewrite H by lia. Qed.
Lemma sum_add n f g : sum n (fun i => radd (f i) (g i)) = radd (sum n f) (sum n g).
Proof. induction n; cbn; [ring|]. rewrite IHn. ring. Qed.
Lemma sum_scale n c f : sum n (fun i => rmul c (f i)) = rmul c (sum n f).
Proof. induction n; cbn; [ring|]. rewrite IHn. ring. Qed.
Lemma sum_zero n : sum n (fun _ => r0) = r0.
Proof. induction n; cbn; [auto|]. rewrite IHn. ring. Qed.
Lemma sum_app n m f : sum (n + m) f = radd (sum n f) (sum m (fun i => f (n + i))).
Proof.
  induction m; cbn.
  - rewrite Nat.add_0_r. ring.
  - replace (n + S m) with (S (n + m)) by lia. cbn. rewrite IHm. ring.
Qed.
Lemma sum_shift n f : sum (S n) f = radd (f 0) (sum n (fun i => f (S i))).
Proof. induction n; [cbn; ring|]. change (sum (S (S n)) f) with (radd (sum (S n) f) (f (S n))). rewrite IHn. cbn. ring. Qed.
Lemma sum_rev n f : sum n f = sum n (fun i => f (n - 1 - i)).
Proof.
  induction n; [reflexivity|]. rewrite (sum_shift n (fun i => f (S n - 1 - i))). cbn [ImOp_Spec.sum].
  replace (S n - 1 - 0) with n by lia. rewrite IHn.
  rewrite (sum_ext n (fun i => f (S n - 1 - S i)) (fun i => f (n - 1 - i))).
  - ring.
  - intros i L. f_equal. lia.
Qed.
Lemma sum_swap n m (f : nat -> nat -> A) : sum n (fun i => sum m (f i)) = sum m (fun j => sum n (fun i => f i j)).
Proof.
  induction n; cbn [ImOp_Spec.sum].
  - now rewrite sum_zero.
  - rewrite IHn, <- sum_add. reflexivity.
Qed.

(** ** Integral image *)
Definition corner (image : list A) (istride : nat) (y x : nat) : A :=
  sum (y + 1) (fun j => sum (x + 1) (fun i => pixel r0 image istride i j)).

Section Integral.
Variables (image out0 : list A) (ostride width height istride : nat).
Hypothesis Hi : forall x y, x < width -> y < height -> x + y * istride < length image.
Hypothesis Ho : forall x y, x < width -> y < height -> x + y * ostride < length out0.
Hypothesis Hs : width <= ostride.

Let pos := fun y x => y * ostride + x.
Let val := corner image istride.
Let bound : forall a b, a < height -> b < width -> pos a b < length out0.
Proof. intros a b La Lb. unfold pos. specialize (Ho b a Lb La). lia. Qed.
Let Pt (r x : nat) := painted pos val height width out0 (before r x).

Lemma integral_first_ok : 0 < height ->
  exists out t, iter width (integral_first radd image) (r0, 0%Z, 0%Z, out0) =
              Some (t, Z.of_nat width, Z.of_nat width, out) /\ Pt 1 0 out.
Proof.
  intro H0.
  destruct (iter_inv (fun x '(t, ip, op, out) =>
     t = sum x (fun i => pixel r0 image istride i 0) /\ ip = Z.of_nat x /\ op = Z.of_nat x /\ Pt 0 x out)
     (integral_first radd image) width (r0, 0%Z, 0%Z, out0)) as ([[[t ip] op] out] & E & _ & -> & -> & P).
  - split; [reflexivity|]. split; [reflexivity|]. split; [reflexivity|].
    apply painted_start. intros a b _ _ [X|[_ X]]; lia.
  - intros x [[[t ip] op] out] L (Et & -> & -> & P). cbn [integral_first].
    rewrite (zget_nat _ _ x r0 eq_refl) by (specialize (Hi x 0 L H0); lia). cbn [obind].
    rewrite (zset_nat _ _ (pos 0 x)) by (unfold pos; lia).
    edestruct (painted_set pos val height width out0 (before 0 x) (before 0 (x + 1))) as [E1 P1];
      [apply inj_rows; auto|exact H0|exact L|exact bound| |  |exact P|].
    + intros a' b' _ _ [X|[-> X]]; [lia|]. destruct (Nat.eq_dec b' x); [right; auto|left; right; lia].
    + instantiate (1 := radd t (nth x image r0)).
      unfold val, corner. rewrite Nat.add_0_l. cbn [ImOp_Spec.sum]. rewrite Nat.add_1_r. cbn [ImOp_Spec.sum].
      rewrite Et. unfold pixel at 3. rewrite Nat.mul_0_l, Nat.add_0_r. ring.
    + rewrite E1. cbn [obind]. eexists; split; [reflexivity|]. rewrite Nat.add_1_r. cbn [ImOp_Spec.sum].
      rewrite Nat.add_1_r in P1. split; [|split; [lia|split; [lia|exact P1]]]. rewrite Et.
      unfold pixel at 3. now rewrite Nat.mul_0_l, Nat.add_0_r.
  - exists out, t. split; [exact E|]. revert P. apply painted_weaken. intros a b La Lb [X|[X Y]]; [|lia].
    right. lia.
Qed.

Lemma integral_row_ok r j out : 1 <= r < height -> Pt r 0 out ->
  exists out', integral_row r0 radd ostride image width istride j
      (Z.of_nat ((r - 1) * istride + width), Z.of_nat ((r - 1) * ostride + width), out) =
    Some (Z.of_nat (r * istride + width), Z.of_nat (r * ostride + width), out') /\ Pt (r + 1) 0 out'.
Proof.
  intros [R1 R2] P0. unfold integral_row.
  assert (Q1 : r * istride = (r - 1) * istride + istride) by (destruct r; [lia|]; cbn; rewrite Nat.sub_0_r; lia).
  assert (Q2 : r * ostride = (r - 1) * ostride + ostride) by (destruct r; [lia|]; cbn; rewrite Nat.sub_0_r; lia).
  destruct (iter_inv (fun x '(t, ip, op, pp, out) =>
     t = sum x (fun i => pixel r0 image istride i r) /\ ip = Z.of_nat (r * istride + x) /\
     op = Z.of_nat (r * ostride + x) /\ pp = Z.of_nat ((r - 1) * ostride + x) /\ Pt r x out)
     (integral_next radd image) width
     (r0, (Z.of_nat ((r - 1) * istride + width) + (Z.of_nat istride - Z.of_nat width))%Z,
      (Z.of_nat ((r - 1) * ostride + width) + (Z.of_nat ostride - Z.of_nat width))%Z,
      (Z.of_nat ((r - 1) * ostride + width) + (Z.of_nat ostride - Z.of_nat width) - Z.of_nat ostride)%Z, out))
    as ([[[[t ip] op] pp] out'] & E & _ & -> & -> & _ & P).
  - split; [reflexivity|]. split; [lia|]. split; [lia|]. split; [lia|exact P0].
  - intros x [[[[t ip] op] pp] out1] L (Et & Eip & Eop & Epp & P). cbn [integral_next].
    rewrite (zget_nat _ _ _ r0 Eip) by (specialize (Hi x r L R2); lia). cbn [obind].
    assert (Hq : nth_error out1 ((r - 1) * ostride + x) = Some (val (r - 1) x)).
    { destruct P as (_ & P & _). apply P; [lia|auto|left; lia]. }
    rewrite Epp, zget_of_nat, Hq. cbn [obind].
    rewrite (zset_nat _ _ (pos r x)) by (unfold pos; lia).
    edestruct (painted_set pos val height width out0 (before r x) (before r (x + 1))) as [E1 P1];
      [apply inj_rows; auto|exact R2|exact L|exact bound| |  |exact P|].
    + intros a' b' _ _ [X|[-> X]]; [left; left; auto|]. destruct (Nat.eq_dec b' x); [right; auto|left; right; lia].
    + instantiate (1 := radd (val (r - 1) x) (radd t (nth (r * istride + x) image r0))).
      unfold val, corner. replace (r - 1 + 1) with r by lia. replace (r + 1) with (S r) by lia.
      cbn [ImOp_Spec.sum]. f_equal. rewrite Nat.add_1_r. cbn [ImOp_Spec.sum]. rewrite Et. f_equal.
      unfold pixel. f_equal. lia.
    + rewrite E1. cbn [obind]. eexists; split; [reflexivity|]. rewrite Nat.add_1_r. cbn [ImOp_Spec.sum].
      rewrite Nat.add_1_r in P1.
      split; [|split; [lia|split; [lia|split; [lia|exact P1]]]].
      rewrite Et. f_equal. unfold pixel. f_equal. lia.
  - rewrite E. cbn [obind]. exists out'. split; [reflexivity|].
    revert P. apply painted_weaken. intros a b La Lb [X|[X Y]]; [|lia].
    destruct (Nat.eq_dec a r); [right; lia|left; lia].
Qed.

Lemma imintegral_ok :
  exists out, imintegral r0 radd out0 ostride image width height istride = Some out /\
    filled pos val height width out0 out.
Proof.
  unfold imintegral. destruct (Nat.ltb_spec 0 height) as [H0|H0].
  - destruct (integral_first_ok H0) as (out & t & E & P). rewrite E. cbn [obind].
    destruct (iter_inv (fun j '(ip, op, out) => ip = Z.of_nat (j * istride + width) /\
        op = Z.of_nat (j * ostride + width) /\ Pt (j + 1) 0 out)
      (integral_row r0 radd ostride image width istride) (height - 1) (Z.of_nat width, Z.of_nat width, out))
      as ([[ip op] out'] & E' & _ & _ & P').
    + split; [reflexivity|]. split; [reflexivity|exact P].
    + intros j [[ip op] out1] L (-> & -> & P1).
      destruct (integral_row_ok (j + 1) j out1) as (out2 & E2 & P2); [lia|exact P1|].
      replace (j + 1 - 1) with j in E2 by lia. rewrite E2.
      eexists; split; [reflexivity|]. split; [reflexivity|]. split; [reflexivity|exact P2].
    + rewrite E'. cbn [obind]. exists out'. split; [reflexivity|].
      eapply painted_filled; [|exact P']. intros a b La Lb. left. lia.
  - replace height with 0 in * by lia. cbn. exists out0. split; [reflexivity|].
    split; [reflexivity|]. split; [intros; lia|reflexivity].
Qed.
End Integral.

(** sums over a rectangle from the corners: [cum a b] = sum over rows < a,
    columns < b *)
Definition cum (f : nat -> nat -> A) (a b : nat) : A := sum a (fun j => sum b (fun i => f i j)).

Lemma four_corners (f : nat -> nat -> A) x0 x1 y0 y1 : x0 <= x1 -> y0 <= y1 ->
  sum (y1 - y0) (fun j => sum (x1 - x0) (fun i => f (x0 + i) (y0 + j))) =
  radd (rsub (rsub (cum f y1 x1) (cum f y1 x0)) (cum f y0 x1)) (cum f y0 x0).
Proof.
  intros Lx Ly. unfold cum.
  replace y1 with (y0 + (y1 - y0)) at 2 3 by lia. rewrite !sum_app.
  rewrite (sum_ext (y1 - y0) (fun i => sum x1 (fun i0 => f i0 (y0 + i)))
     (fun j => radd (sum x0 (fun i0 => f i0 (y0 + j))) (sum (x1 - x0) (fun i => f (x0 + i) (y0 + j))))).
  - rewrite sum_add. ring.
  - intros j _. replace x1 with (x0 + (x1 - x0)) at 1 by lia. now rewrite sum_app.
Qed.
End Ringed.
