(** Proofs about local binary patterns. *)
From Coq Require Import List Arith ZArith NArith Lia Bool QArith Qcanon Qcabs Lqa.
From Verif Require Import Base Loop MserSort_Proofs ImOp_Spec ImOp_Proofs Gauss_Proofs Rat Lbp_Model Lbp_Spec.
Import ListNotations.
Local Open Scope nat_scope.

(** ** the mapping, by complete enumeration of the 256 strings *)
Definition view (transposed : bool) (k : nat) : nat := if transposed then transposed_bit k else k.

Lemma mapping_ok (transposed : bool) : exists m, init_uniform transposed = Some m /\ length m = 256 /\
  forall s, (s < 256)%N -> nth (N.to_nat s) m 0 = bin_of (fun k => N.testbit s (N.of_nat (view transposed k))).
Proof.
  destruct (init_uniform transposed) as [m|] eqn:E; [|destruct transposed; vm_compute in E; discriminate].
  exists m. split; [reflexivity|].
  assert (C : forallb (fun n => nth n m 0 =? bin_of (fun k => N.testbit (N.of_nat n) (N.of_nat (view transposed k)))) (seq 0 256) = true /\ length m = 256).
  { destruct transposed; vm_compute in E; injection E as <-; vm_compute; split; reflexivity. }
  destruct C as [C L]. split; [exact L|]. intros s Ls. rewrite forallb_forall in C.
  specialize (C (N.to_nat s)). rewrite N2Nat.id in C. apply Nat.eqb_eq, C, in_seq. lia.
Qed.

Lemma forallb_ext' {T} (f g : T -> bool) l : (forall x, In x l -> f x = g x) -> forallb f l = forallb g l.
Proof. induction l as [|a l IH]; intro H; cbn; [reflexivity|]. rewrite H by (left; auto). rewrite IH; auto. intros; apply H; right; auto. Qed.
Lemma find_ext' {T} (f g : T -> bool) l : (forall x, f x = g x) -> find f l = find g l.
Proof. intro H. induction l as [|a l IH]; cbn; [reflexivity|]. now rewrite H, IH. Qed.

Lemma bin_of_ext b b' : (forall k, k < 8 -> b k = b' k) -> bin_of b = bin_of b'.
Proof.
  intro H. unfold bin_of.
  assert (E1 : is_constant b = is_constant b').
  { unfold is_constant. apply forallb_ext'. intros t I. apply in_seq in I. rewrite !H by lia. reflexivity. }
  assert (E2 : forall ij : nat * nat, (let (i, j) := ij in is_run b i j) = (let (i, j) := ij in is_run b' i j)).
  { intros [i j]. unfold is_run. apply forallb_ext'. intros t I. apply in_seq in I. rewrite H by lia. reflexivity. }
  rewrite E1. destruct (is_constant b'); [reflexivity|]. rewrite (find_ext' _ _ _ E2). reflexivity.
Qed.

Lemma bin_of_lt b : bin_of b < 58.
Proof.
  unfold bin_of. destruct (is_constant b); [lia|].
  destruct (find _ _) as [[i j]|] eqn:F; [|lia].
  apply find_some in F as [I _]. apply in_prod_iff in I as [I J]. apply in_seq in I, J. lia.
Qed.

(** the 58 bins are documented: each run has its own *)
Lemma is_run_iff b i j : is_run b i j = true <-> forall t, t < 8 -> b t = ((t + 8 - i) mod 8 <? j).
Proof.
  unfold is_run. rewrite forallb_forall. split.
  - intros H t Lt. apply Bool.eqb_prop, H, in_seq. lia.
  - intros H t I. apply in_seq in I. rewrite H by lia. apply Bool.eqb_reflx.
Qed.
Lemma is_constant_iff b : is_constant b = true <-> forall t, t < 8 -> b t = b 0.
Proof.
  unfold is_constant. rewrite forallb_forall. split.
  - intros H t Lt. apply Bool.eqb_prop, H, in_seq. lia.
  - intros H t I. apply in_seq in I. rewrite H by lia. apply Bool.eqb_reflx.
Qed.

Lemma runs_differ : forallb (fun ij => let '(i, j) := ij in
   (bin_of (fun t => (t + 8 - i) mod 8 <? j) =? 7 * i + (j - 1)))%nat (list_prod (seq 0 8) (seq 1 7)) = true.
Proof. vm_compute. reflexivity. Qed.

Lemma bin_of_run b i j : i < 8 -> 1 <= j <= 7 -> (forall t, t < 8 -> b t = ((t + 8 - i) mod 8 <? j)) ->
  bin_of b = 7 * i + (j - 1).
Proof.
  intros Li Lj H. rewrite (bin_of_ext b _ H). pose proof runs_differ as R. rewrite forallb_forall in R.
  specialize (R (i, j)). cbv beta iota in R. apply Nat.eqb_eq, R, in_prod_iff. split; apply in_seq; lia.
Qed.

Lemma bin_of_other b : is_constant b = false -> (forall i j, i < 8 -> 1 <= j <= 7 -> is_run b i j = false) -> bin_of b = 57.
Proof.
  intros C R. unfold bin_of. rewrite C. destruct (find _ _) as [[i j]|] eqn:F; [|reflexivity].
  apply find_some in F as [I X]. apply in_prod_iff in I as [I J]. apply in_seq in I, J.
  rewrite R in X by lia. discriminate.
Qed.

(** ** weights along one axis *)
Local Open Scope Qc_scope.

Lemma axis_ok (size : nat) (x : nat) : (0 < size)%nat ->
  exists c1 w1 w2, axis size (Z.of_nat x) = (c1, w1, w2) /\ (-1 <= c1)%Z /\
  forall c : nat, tent size c x =
    (if (Z.of_nat c =? c1)%Z then w1 else 0) + (if (Z.of_nat c =? c1 + 1)%Z then w2 else 0).
Proof.
  intro Hs. unfold axis. eexists _, _, _. split; [reflexivity|].
  set (W := (zq (Z.of_nat x) + Q2Qc (1 # 2)) / nq size - Q2Qc (1 # 2)).
  assert (Hn : 0 < nq size) by (apply zq_lt with (a := 0%Z); lia).
  assert (Hx : 0 <= zq (Z.of_nat x)) by (apply zq_le with (a := 0%Z); lia).
  assert (Hq : 0 <= (zq (Z.of_nat x) + Q2Qc (1 # 2)) / nq size).
  { unfold Qcle. rewrite this_div. apply Qle_shift_div_l; [exact Hn|]. qc_prep. setoid_replace (0 * nq size)%Q with 0%Q by ring. lra. }
  pose proof (qfloor_le W) as F1. pose proof (qfloor_lt W) as F2. split.
  - assert (zq (-1) < zq (qfloor W + 1)); [|apply zq_lt_inv in H; lia].
    rewrite zq_plus, zq_1. change (zq (-1)) with (- (1)). unfold W in *.
    set (A := (zq (Z.of_nat x) + Q2Qc (1 # 2)) / nq size) in *. qc_lra.
  - intro c. unfold tent. fold (nq x) in *. 
    replace ((nq x + Q2Qc (1 # 2)) / nq size - (nq c + Q2Qc (1 # 2))) with (W - nq c)
      by (unfold W, nq; ring).
    clearbody W. clear Hq Hx Hn.
    destruct (Z.eqb_spec (Z.of_nat c) (qfloor W)) as [E|E]; [|destruct (Z.eqb_spec (Z.of_nat c) (qfloor W + 1)) as [E'|E']].
    + destruct (Z.eqb_spec (Z.of_nat c) (qfloor W + 1)); [lia|].
      assert (Ec : nq c = zq (qfloor W)) by (unfold nq; now rewrite E).
      rewrite Ec. rewrite Qcabs_pos by qc_lra.
      destruct (Qclt_le_dec (W - zq (qfloor W)) 1) as [D|D]; [ring|]. exfalso. qc_lra.
    + assert (Ec : nq c = zq (qfloor W) + 1) by (unfold nq; now rewrite E', zq_plus, zq_1).
      rewrite Ec. rewrite Qcabs_neg by qc_lra.
      destruct (Qclt_le_dec (- (W - (zq (qfloor W) + 1))) 1) as [D|D]; [ring|].
      rewrite Qcplus_0_l. qc_lra.
    + assert (D0 : 1 <= [W - nq c]); [|destruct (Qclt_le_dec [W - nq c] 1) as [D|D]; [exfalso; qc_lra|ring]].
      destruct (Z.lt_ge_cases (Z.of_nat c) (qfloor W)) as [L|L].
      * assert (zq (Z.of_nat c + 1) <= zq (qfloor W)) as X by (apply zq_le; lia). rewrite zq_plus, zq_1 in X.
        fold (nq c) in X. rewrite Qcabs_pos; qc_lra.
      * assert (zq (qfloor W + 1 + 1) <= zq (Z.of_nat c)) as X by (apply zq_le; lia). rewrite !zq_plus, zq_1 in X.
        fold (nq c) in X. rewrite Qcabs_neg; qc_lra.
Qed.

(** ** one pixel *)
Section Process.
Context {V : Type} (gt : V -> V -> bool) (image : list V) (width height size : nat) (dflt : V).
Hypothesis Him : length image = (width * height)%nat.
Hypothesis Hsize : (0 < size)%nat.
Definition im (u v : Z) : V := nth (Z.to_nat (Z.of_nat width * v + u)) image dflt.
Notation cw := (cwidth width size).
Notation ch := (cheight height size).
Notation cs := (cstride width height size).
Definition pos (cx cy k : nat) : nat := (cs * k + cw * cy + cx)%nat.
Definition holds (f : list Qc) (F : nat -> nat -> nat -> Qc) : Prop :=
  length f = (dimension * cs)%nat /\
  forall cx cy k, (cx < cw)%nat -> (cy < ch)%nat -> (k < dimension)%nat -> nth (pos cx cy k) f 0 = F cx cy k.

Lemma holds_ext f F G : holds f F ->
  (forall cx cy k, (cx < cw)%nat -> (cy < ch)%nat -> (k < dimension)%nat -> F cx cy k = G cx cy k) -> holds f G.
Proof. intros [L H] E. split; [exact L|]. intros. rewrite H by auto. auto. Qed.

Lemma pos_lt cx cy k : (cx < cw)%nat -> (cy < ch)%nat -> (k < dimension)%nat -> (pos cx cy k < dimension * cs)%nat.
Proof. intros. unfold pos, cstride. unfold dimension in *. nia. Qed.
Lemma pos_inj cx cy k u v w : (cx < cw)%nat -> (cy < ch)%nat -> (u < cw)%nat -> (v < ch)%nat ->
  pos cx cy k = pos u v w -> cx = u /\ cy = v /\ k = w.
Proof.
  intros L1 L2 L3 L4 E. unfold pos in E. 
  assert (A : (cw * cy + cx < cs)%nat) by (unfold cstride; nia).
  assert (B : (cw * v + u < cs)%nat) by (unfold cstride; nia).
  assert (k = w) by nia. subst w. assert (E' : (cw * cy + cx = cw * v + u)%nat) by lia.
  assert (cy = v) by nia. subst. lia.
Qed.

Lemma add_to_ok f F (u v w : nat) val : holds f F -> (u < cw)%nat -> (v < ch)%nat -> (w < dimension)%nat ->
  exists f', add_to width height size (Z.of_nat u) (Z.of_nat v) (Z.of_nat w) val f = Some f' /\
  holds f' (fun cx cy k => F cx cy k + (if (cx =? u)%nat && (cy =? v)%nat && (k =? w)%nat then val else 0)).
Proof.
  intros [L H] Lu Lv Lw. unfold add_to.
  replace (Z.of_nat cs * Z.of_nat w + Z.of_nat cw * Z.of_nat v + Z.of_nat u)%Z with (Z.of_nat (pos u v w)) by (unfold pos; lia).
  pose proof (pos_lt u v w Lu Lv Lw) as P. rewrite zget_of_nat, (aget_nth f _ 0) by lia. cbn [obind].
  unfold zset. destruct (Z.ltb_spec (Z.of_nat (pos u v w)) 0); [lia|]. rewrite Nat2Z.id, aset_lt by lia.
  eexists; split; [reflexivity|]. split; [rewrite upd_length; exact L|].
  intros cx cy k L1 L2 L3. rewrite nth_upd by lia.
  destruct (Nat.eqb_spec (pos cx cy k) (pos u v w)) as [E|E].
  - apply pos_inj in E as (-> & -> & ->); auto. rewrite !Nat.eqb_refl. cbn [andb]. now rewrite H.
  - rewrite H by auto. destruct (Nat.eqb_spec cx u) as [->|]; [|cbn; ring].
    destruct (Nat.eqb_spec cy v) as [->|]; [|cbn; ring]. destruct (Nat.eqb_spec k w) as [->|]; [|cbn; ring].
    destruct (E eq_refl).
Qed.

Lemma guarded_add (g : bool) f F (u v : Z) (w : nat) val : holds f F -> (w < dimension)%nat ->
  (g = true <-> (0 <= u < Z.of_nat cw /\ 0 <= v < Z.of_nat ch)%Z) ->
  exists f', (if g then add_to width height size u v (Z.of_nat w) val f else Some f) = Some f' /\
  holds f' (fun cx cy k => F cx cy k + (if (Z.of_nat cx =? u)%Z && (Z.of_nat cy =? v)%Z && (k =? w)%nat then val else 0)).
Proof.
  intros Hf Lw G. destruct g.
  - destruct (proj1 G eq_refl) as (Bu & Bv).
    destruct (add_to_ok f F (Z.to_nat u) (Z.to_nat v) w val Hf) as (f' & E & Hf'); [lia|lia|auto|].
    rewrite !Z2Nat.id in E by lia. exists f'. split; [exact E|]. apply (holds_ext _ _ _ Hf').
    intros cx cy k _ _ _. f_equal. 
    replace (cx =? Z.to_nat u)%nat with (Z.of_nat cx =? u)%Z.
    2:{ destruct (Z.eqb_spec (Z.of_nat cx) u), (Nat.eqb_spec cx (Z.to_nat u)); auto; lia. }
    replace (cy =? Z.to_nat v)%nat with (Z.of_nat cy =? v)%Z.
    2:{ destruct (Z.eqb_spec (Z.of_nat cy) v), (Nat.eqb_spec cy (Z.to_nat v)); auto; lia. }
    reflexivity.
  - exists f. split; [reflexivity|]. apply (holds_ext _ _ _ Hf). intros cx cy k L1 L2 L3.
    destruct (Z.eqb_spec (Z.of_nat cx) u) as [<-|]; [|cbn; ring].
    destruct (Z.eqb_spec (Z.of_nat cy) v) as [<-|]; [|cbn; ring].
    assert (X : false = true) by (apply G; lia). discriminate.
Qed.

(** the string of a pixel *)
Lemma at_ok (u v : Z) : (0 <= u < Z.of_nat width)%Z -> (0 <= v < Z.of_nat height)%Z ->
  at_ image width u v = Some (im u v).
Proof.
  intros Bu Bv. unfold at_, im, zget. 
  destruct (Z.ltb_spec (Z.of_nat width * v + u) 0); [nia|]. apply aget_nth. rewrite Him. nia.
Qed.

Definition word (b : nat -> bool) : N :=
  fold_left (fun s k => if b k then N.lor s (N.shiftl 1 (N.of_nat k)) else s) (seq 0 8) 0%N.
Lemma word_ok b : (word b < 256)%N /\ forall k, (k < 8)%nat -> N.testbit (word b) (N.of_nat k) = b k.
Proof.
  unfold word. cbn [seq fold_left].
  destruct (b 0%nat) eqn:E0, (b 1%nat) eqn:E1, (b 2%nat) eqn:E2, (b 3%nat) eqn:E3, (b 4%nat) eqn:E4, (b 5%nat) eqn:E5, (b 6%nat) eqn:E6, (b 7%nat) eqn:E7;
  (split; [vm_compute; reflexivity|]); intros k Lk;
  do 8 (destruct k as [|k]; [rewrite ?E0, ?E1, ?E2, ?E3, ?E4, ?E5, ?E6, ?E7; reflexivity|]); lia.
Qed.

Lemma bit_string_ok (x y : Z) : (1 <= x < Z.of_nat width - 1)%Z -> (1 <= y < Z.of_nat height - 1)%Z ->
  bit_string gt image width x y = Some (word (bits gt im x y)).
Proof.
  intros Bx By. unfold bit_string, neighbour_bit. rewrite !at_ok by lia. cbn [obind].
  unfold word. cbn [seq fold_left]. unfold bits, neighbour. cbn [nth fst snd N.of_nat].
  rewrite !Z.add_0_r. change (x + -1)%Z with (x - 1)%Z. change (y + -1)%Z with (y - 1)%Z. reflexivity.
Qed.

Variables (transposed : bool) (mapping : list nat).
Hypothesis Hmap : init_uniform transposed = Some mapping.
Definition bin (b : nat -> bool) : nat := bin_of (fun k => b (view transposed k)).

Lemma lookup (x y : Z) : aget mapping (N.to_nat (word (bits gt im x y))) = Some (bin (bits gt im x y)).
Proof.
  destruct (mapping_ok transposed) as (m & E & L & H). rewrite Hmap in E. injection E as <-.
  destruct (word_ok (bits gt im x y)) as (W & T).
  rewrite (aget_nth mapping _ 0%nat) by lia. rewrite H by exact W. f_equal. unfold bin. apply bin_of_ext.
  intros k Lk. apply T. destruct transposed; unfold view; [|exact Lk]. unfold transposed_bit. apply Nat.mod_upper_bound. lia.
Qed.

Definition term (x y cx cy k : nat) : Qc :=
  if (bin (bits gt im (Z.of_nat x) (Z.of_nat y)) =? k)%nat then tent size cx x * tent size cy y else 0.

Lemma pixel_ok f F (x y : nat) cy1 wy1 wy2 : holds f F -> (1 <= x)%nat -> (x + 1 < width)%nat -> (1 <= y)%nat -> (y + 1 < height)%nat ->
  axis size (Z.of_nat y) = (cy1, wy1, wy2) -> (cy1 < Z.of_nat ch)%Z ->
  exists f', pixel gt image width height size mapping (Z.of_nat y) cy1 wy1 wy2 x f = Some f' /\
  holds f' (fun cx cy k => F cx cy k + term x y cx cy k).
Proof.
  intros Hf L1 L2 L3 L4 Ay Cy. unfold pixel.
  destruct (axis_ok size x Hsize) as (cx1 & wx1 & wx2 & Ax & Gx & Tx).
  destruct (axis_ok size y Hsize) as (cy1' & wy1' & wy2' & Ay' & Gy & Ty).
  rewrite Ay in Ay'. injection Ay' as <- <- <-. rewrite Ax.
  destruct (Z.leb_spec (Z.of_nat cw) cx1) as [C|C].
  - exists f. split; [reflexivity|]. apply (holds_ext _ _ _ Hf). intros cx cy k B1 B2 B3.
    unfold term. rewrite Tx. destruct (Z.eqb_spec (Z.of_nat cx) cx1); [lia|].
    destruct (Z.eqb_spec (Z.of_nat cx) (cx1 + 1)); [lia|].
    destruct (_ =? k)%nat; ring.
  - rewrite bit_string_ok by lia. cbn [obind]. rewrite lookup. cbn [obind].
    remember (bin (bits gt im (Z.of_nat x) (Z.of_nat y))) as b eqn:Eb.
    assert (Lb : (b < dimension)%nat) by (rewrite Eb; unfold bin, dimension; apply bin_of_lt).
    destruct (guarded_add ((0 <=? cx1) && (0 <=? cy1))%Z f F cx1 cy1 b (wx1 * wy1) Hf Lb) as (f1 & E1 & H1).
    { rewrite andb_true_iff, !Z.leb_le. lia. }
    rewrite E1. cbn [obind].
    destruct (guarded_add ((cx1 + 1 <? Z.of_nat cw) && (0 <=? cy1))%Z _ _ (cx1 + 1)%Z cy1 b (wx2 * wy1) H1 Lb) as (f2 & E2 & H2).
    { rewrite andb_true_iff, Z.leb_le, Z.ltb_lt. lia. }
    rewrite E2. cbn [obind].
    destruct (guarded_add ((0 <=? cx1) && (cy1 + 1 <? Z.of_nat ch))%Z _ _ cx1 (cy1 + 1)%Z b (wx1 * wy2) H2 Lb) as (f3 & E3 & H3).
    { rewrite andb_true_iff, Z.leb_le, Z.ltb_lt. lia. }
    rewrite E3. cbn [obind].
    destruct (guarded_add ((cx1 + 1 <? Z.of_nat cw) && (cy1 + 1 <? Z.of_nat ch))%Z _ _ (cx1 + 1)%Z (cy1 + 1)%Z b (wx2 * wy2) H3 Lb) as (f4 & E4 & H4).
    { rewrite andb_true_iff, !Z.ltb_lt. lia. }
    exists f4. split; [exact E4|]. apply (holds_ext _ _ _ H4). intros cx cy k B1 B2 B3. cbv beta.
    unfold term. rewrite <- Eb, Tx, Ty. rewrite (Nat.eqb_sym b k).
    destruct (Z.eqb_spec (Z.of_nat cx) cx1), (Z.eqb_spec (Z.of_nat cx) (cx1 + 1)); try lia;
    destruct (Z.eqb_spec (Z.of_nat cy) cy1), (Z.eqb_spec (Z.of_nat cy) (cy1 + 1)); try lia;
    destruct (Nat.eqb_spec k b); cbn [andb]; ring.
Qed.

Lemma line_ok f F (y : nat) : holds f F -> (1 <= y)%nat -> (y + 1 < height)%nat ->
  exists f', line gt image width height size mapping y f = Some f' /\
  holds f' (fun cx cy k => F cx cy k + sum 0 Qcplus (width - 2) (fun x => term (x + 1) y cx cy k)).
Proof.
  intros Hf L1 L2. unfold line.
  destruct (axis_ok size y Hsize) as (cy1 & wy1 & wy2 & Ay & Gy & Ty). rewrite Ay.
  destruct (Z.leb_spec (Z.of_nat ch) cy1) as [C|C].
  - exists f. split; [reflexivity|]. apply (holds_ext _ _ _ Hf). intros cx cy k B1 B2 B3.
    rewrite (qsum_ext _ _ (fun _ => 0)).
    + rewrite (sum_zero _ _ _ _ _ _ Qcrt). ring.
    + intros x _. unfold term. rewrite Ty. destruct (Z.eqb_spec (Z.of_nat cy) cy1); [lia|].
      destruct (Z.eqb_spec (Z.of_nat cy) (cy1 + 1)); [lia|]. destruct (_ =? k)%nat; ring.
  - destruct (iter_from_inv (fun x f' => holds f' (fun cx cy k => F cx cy k + sum 0 Qcplus (x - 1) (fun x => term (x + 1) y cx cy k)))
      (pixel gt image width height size mapping (Z.of_nat y) cy1 wy1 wy2) (width - 2 + 1) (width - 2) 1 f) as (f' & E & Hf').
    + lia.
    + apply (holds_ext _ _ _ Hf). intros. cbn. ring.
    + intros x g B1 B2 Hg. 
      destruct (pixel_ok g _ x y cy1 wy1 wy2 Hg) as (g' & E & Hg'); auto; try lia.
      exists g'. split; [exact E|]. apply (holds_ext _ _ _ Hg'). intros cx cy k _ _ _.
      replace (x + 1 - 1)%nat with (S (x - 1)) by lia. cbn [sum]. replace (x - 1 + 1)%nat with x by lia. ring.
    + exists f'. split; [exact E|]. rewrite Nat.add_sub in Hf'. exact Hf'.
Qed.

Definition hist (cx cy k : nat) : Qc := histogram gt im width height size bin cx cy k.

Lemma accumulate_ok : exists f, accumulate gt image width height size mapping = Some f /\ holds f hist.
Proof.
  unfold accumulate. destruct (Nat.eqb_spec size 0); [lia|].
  destruct (iter_from_inv (fun y f' => holds f' (fun cx cy k => sum 0 Qcplus (y - 1) (fun y => sum 0 Qcplus (width - 2) (fun x => term (x + 1) (y + 1) cx cy k))))
      (line gt image width height size mapping) (height - 2 + 1) (height - 2) 1 (repeat 0 (dimension * cs))) as (f & E & Hf).
  - lia.
  - split; [apply repeat_length|]. intros. cbn [sum Nat.sub]. apply nth_repeat.
  - intros y g B1 B2 Hg. destruct (line_ok g _ y Hg) as (g' & E & Hg'); try lia.
    exists g'. split; [exact E|]. apply (holds_ext _ _ _ Hg'). intros cx cy k _ _ _.
    replace (y + 1 - 1)%nat with (S (y - 1)) by lia. cbn [sum]. replace (y - 1 + 1)%nat with y by lia. reflexivity.
  - exists f. split; [exact E|]. apply (holds_ext _ _ _ Hf). intros cx cy k _ _ _.
    rewrite Nat.add_sub. reflexivity.
Qed.

(** ** the normalisation *)
Variables (root : Qc -> Qc) (eps : Qc).
Definition total (F : nat -> nat -> nat -> Qc) (cx cy : nat) : Qc := sum 0 Qcplus dimension (fun k => F cx cy k).

Lemma normalize_cell_ok f F (u v : nat) : holds f F -> (u < cw)%nat -> (v < ch)%nat ->
  exists f', normalize_cell width height size root eps (v * cw + u) f = Some f' /\
  holds f' (fun cx cy k => if (cx =? u)%nat && (cy =? v)%nat
     then root (F u v k) / (root (total F u v) + eps) else F cx cy k).
Proof.
  intros Hf Lu Lv. unfold normalize_cell.
  assert (P : forall k, (v * cw + u + k * cs)%nat = pos u v k) by (intro k; unfold pos; lia).
  destruct (iter_inv (fun k norm => norm = sum 0 Qcplus k (fun k => F u v k))
    (fun k norm => do a <- aget f (v * cw + u + k * cs); Some (norm + a)) dimension 0) as (norm & E & Hn).
  - reflexivity.
  - intros k norm Lk ->. rewrite P, (aget_nth f _ 0) by (rewrite (proj1 Hf); now apply pos_lt). cbn [obind].
    eexists; split; [reflexivity|]. rewrite Nat.add_1_r. cbn [sum]. now rewrite (proj2 Hf) by auto.
  - rewrite E. cbn [obind]. fold (total F u v) in Hn. rewrite Hn.
    destruct (iter_inv (fun j g => holds g (fun cx cy k => if (cx =? u)%nat && (cy =? v)%nat && (k <? j)%nat
       then root (F u v k) / (root (total F u v) + eps) else F cx cy k))
      (fun k f => do a <- aget f (v * cw + u + k * cs); aset f (v * cw + u + k * cs) (root a / (root (total F u v) + eps)))
      dimension f) as (f' & E' & Hf').
    + apply (holds_ext _ _ _ Hf). intros. rewrite andb_false_r. reflexivity.
    + intros j g Lj [Lg Hg]. pose proof (pos_lt u v j Lu Lv Lj) as Lp.
      rewrite P, (aget_nth g _ 0) by lia. cbn [obind]. rewrite aset_lt by lia.
      eexists; split; [reflexivity|]. split; [rewrite upd_length; exact Lg|].
      intros cx cy k B1 B2 B3. rewrite nth_upd by lia. rewrite !Hg by auto.
      rewrite !Nat.eqb_refl, Nat.ltb_irrefl. cbn [andb].
      destruct (Nat.eqb_spec (pos cx cy k) (pos u v j)) as [Ep|Ep].
      * apply pos_inj in Ep as (-> & -> & ->); auto. rewrite !Nat.eqb_refl. cbn [andb].
        destruct (Nat.ltb_spec j (j + 1)); [reflexivity|lia].
      * destruct (Nat.eqb_spec cx u) as [->|]; [|reflexivity]. destruct (Nat.eqb_spec cy v) as [->|]; [|reflexivity].
        cbn [andb]. assert (k <> j) by (intro; subst; contradiction).
        destruct (Nat.ltb_spec k j), (Nat.ltb_spec k (j + 1)); auto; lia.
    + exists f'. split; [exact E'|]. apply (holds_ext _ _ _ Hf'). intros cx cy k _ _ B3.
      destruct (Nat.ltb_spec k dimension); [|lia]. now rewrite andb_true_r.
Qed.

Lemma process_ok : exists f, process gt image width height size root eps mapping = Some f /\
  holds f (fun cx cy k => root (hist cx cy k) / (root (total hist cx cy) + eps)).
Proof.
  unfold process. destruct accumulate_ok as (f0 & E0 & H0). rewrite E0. cbn [obind].
  set (G := fun cx cy k => root (hist cx cy k) / (root (total hist cx cy) + eps)).
  destruct (iter_inv (fun v f => holds f (fun cx cy k => if (cy <? v)%nat then G cx cy k else hist cx cy k))
    (fun cy f => iter cw (fun cx f => normalize_cell width height size root eps (cy * cw + cx) f) f) ch f0) as (f & E & Hf).
  - exact H0.
  - intros v g Lv Hg.
    destruct (iter_inv (fun u f => holds f (fun cx cy k => if ((cy <? v) || ((cy =? v) && (cx <? u)))%nat then G cx cy k else hist cx cy k))
      (fun cx f => normalize_cell width height size root eps (v * cw + cx) f) cw g) as (g' & E' & Hg').
    + apply (holds_ext _ _ _ Hg). intros. now rewrite andb_false_r, orb_false_r.
    + intros u h Lu Hh. destruct (normalize_cell_ok h _ u v Hh Lu Lv) as (h' & E' & Hh').
      exists h'. split; [exact E'|]. apply (holds_ext _ _ _ Hh'). intros cx cy k B1 B2 B3. unfold total at 1.
      rewrite !Nat.ltb_irrefl. cbn [orb]. rewrite !andb_false_r. cbn [orb].
      fold (total hist u v). fold (G u v k).
      destruct (Nat.eqb_spec cx u) as [->|], (Nat.eqb_spec cy v) as [->|]; cbn [andb].
      * destruct (Nat.ltb_spec u (u + 1)); [|lia]. now rewrite orb_true_r.
      * reflexivity.
      * destruct (Nat.ltb_spec cx u), (Nat.ltb_spec cx (u + 1)); auto; lia.
      * reflexivity.
    + exists g'. split; [exact E'|]. apply (holds_ext _ _ _ Hg'). intros cx cy k B1 B2 B3.
      destruct (Nat.ltb_spec cx cw); [|lia]. rewrite andb_true_r.
      destruct (Nat.ltb_spec cy v), (Nat.eqb_spec cy v), (Nat.ltb_spec cy (v + 1)); auto; lia.
  - exists f. split; [exact E|]. apply (holds_ext _ _ _ Hf). intros cx cy k B1 B2 B3.
    destruct (Nat.ltb_spec cy ch); [reflexivity|lia].
Qed.
End Process.

(** ** transposition *)
Lemma transposed_bit_invol k : (k < 8)%nat -> transposed_bit (transposed_bit k) = k.
Proof. intro L. do 8 (destruct k as [|k]; [reflexivity|]). lia. Qed.
Lemma neighbour_transposed k : (k < 8)%nat -> neighbour (transposed_bit k) = (snd (neighbour k), fst (neighbour k)).
Proof. intro L. do 8 (destruct k as [|k]; [reflexivity|]). lia. Qed.

Lemma histogram_ext {V} (gt : V -> V -> bool) (im im' : Z -> Z -> V) width height size bin bin' cx cy k :
  (forall x y, (x < width - 2)%nat -> (y < height - 2)%nat -> 
     bin (bits gt im (Z.of_nat (x + 1)) (Z.of_nat (y + 1))) = bin' (bits gt im' (Z.of_nat (y + 1)) (Z.of_nat (x + 1)))) ->
  histogram gt im width height size bin cx cy k = histogram gt im' height width size bin' cy cx k.
Proof.
  intro H. unfold histogram. rewrite (sum_swap _ _ _ _ _ _ Qcrt). apply qsum_ext. intros x Lx. apply qsum_ext. intros y Ly.
  rewrite H by auto. destruct (_ =? k)%nat; ring.
Qed.

Lemma hist_transposed {V} (gt : V -> V -> bool) (image image' : list V) (width height size : nat) (dflt : V) (tr : bool) cx cy k :
  (forall x y, (x < width)%nat -> (y < height)%nat -> nth (height * x + y) image' dflt = nth (width * y + x) image dflt) ->
  hist gt image width height size dflt tr cx cy k = hist gt image' height width size dflt (negb tr) cy cx k.
Proof.
  intro H. unfold hist. apply histogram_ext. intros x y Lx Ly. unfold bin. apply bin_of_ext. intros j Lj.
  assert (I : forall u v, (0 <= u < Z.of_nat width)%Z -> (0 <= v < Z.of_nat height)%Z -> im image width dflt u v = im image' height dflt v u).
  { intros u v Bu Bv. unfold im. specialize (H (Z.to_nat u) (Z.to_nat v)).
    replace (Z.to_nat (Z.of_nat width * v + u)) with (width * Z.to_nat v + Z.to_nat u)%nat by nia.
    replace (Z.to_nat (Z.of_nat height * u + v)) with (height * Z.to_nat u + Z.to_nat v)%nat by nia.
    symmetry. apply H; lia. }
  assert (B : forall t, (t < 8)%nat -> bits gt (im image width dflt) (Z.of_nat (x + 1)) (Z.of_nat (y + 1)) t =
                       bits gt (im image' height dflt) (Z.of_nat (y + 1)) (Z.of_nat (x + 1)) (transposed_bit t)).
  { intros t Lt. unfold bits. rewrite (neighbour_transposed t Lt). cbn [fst snd].
    assert (R : (-1 <= fst (neighbour t) <= 1 /\ -1 <= snd (neighbour t) <= 1)%Z)
      by (do 8 (destruct t as [|t]; [cbn; lia|]); lia).
    rewrite !I by lia. reflexivity. }
  assert (Lv : forall t, (t < 8)%nat -> (transposed_bit t < 8)%nat) by (intros; unfold transposed_bit; apply Nat.mod_upper_bound; lia).
  destruct tr; cbn [negb view].
  - rewrite B by auto. now rewrite transposed_bit_invol.
  - now rewrite B.
Qed.
