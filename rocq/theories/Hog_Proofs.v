(** Proofs about HOG: the flip permutation and the accumulation of gradients. *)
From Coq Require Import List Arith ZArith Lia Bool QArith Qcanon Qcabs Lqa Permutation.
From Verif Require Import Base Loop MserSort_Proofs ImOp_Spec ImOp_Proofs Rat Gauss_Model Gauss_Proofs Lbp_Model Lbp_Spec Lbp_Proofs.
From Verif Require Import Hog_Model Hog_Spec.
Import ListNotations.
Local Open Scope nat_scope.

(** ** the flip permutation *)
(** entry d of the permutation *)
Definition flip_channel (v : variant) (n d : nat) : nat :=
  match v with
  | Uoctti =>
    if d <? n then n - d
    else if d <? 2 * n then (n - (d - n) + n) mod (2 * n)
    else if d <? 3 * n then (n - (d - 2 * n)) mod n + 2 * n
    else block_flip (d - n * 3) + n * 3
  | DalalTriggs => (n - d mod n) mod n + block_flip (d / n) * n
  end.

Lemma permutation_ok v n perm : 0 < n -> length perm = hog_dimension v n ->
  exists p, hog_permutation v n perm = Some p /\ length p = hog_dimension v n /\
    forall d, d < hog_dimension v n -> nth d p 0 = flip_channel v n d.
Proof.
  intros Hn Lp. destruct v; cbn [hog_permutation hog_dimension flip_channel] in *.
  - destruct (iter_inv (fun o p => length p = 3 * n + 4 /\
        forall k, k < o -> nth k p 0 = n - k /\ nth (k + n) p 0 = (n - k + n) mod (2 * n) /\ nth (k + 2 * n) p 0 = (n - k) mod n + 2 * n)
      (fun o perm => do perm <- aset perm o (n - o);
                     do perm <- aset perm (o + n) ((n - o + n) mod (2 * n));
                     aset perm (o + 2 * n) ((n - o) mod n + 2 * n)) n perm) as (p & E & L & V).
    { split; [exact Lp|]. lia. }
    { intros o p Lo [L V]. rewrite aset_lt by lia. cbn [obind]. rewrite aset_lt by (rewrite upd_length; lia). cbn [obind].
      rewrite aset_lt by (rewrite !upd_length; lia). eexists; split; [reflexivity|].
      split; [rewrite !upd_length; exact L|]. intros k Lk.
      rewrite !nth_upd by (rewrite ?upd_length; lia).
      destruct (Nat.eq_dec k o) as [->|Nk].
      - rewrite !Nat.eqb_refl. 
        destruct (Nat.eqb_spec o (o + 2 * n)); [lia|]. destruct (Nat.eqb_spec o (o + n)); [lia|].
        destruct (Nat.eqb_spec (o + n) (o + 2 * n)); [lia|]. auto.
      - destruct (V k ltac:(lia)) as (V1 & V2 & V3).
        destruct (Nat.eqb_spec k (o + 2 * n)); [lia|]. destruct (Nat.eqb_spec k (o + n)); [lia|]. destruct (Nat.eqb_spec k o); [lia|].
        destruct (Nat.eqb_spec (k + n) (o + 2 * n)); [lia|]. destruct (Nat.eqb_spec (k + n) (o + n)); [lia|]. destruct (Nat.eqb_spec (k + n) o); [lia|].
        destruct (Nat.eqb_spec (k + 2 * n) (o + 2 * n)); [lia|]. destruct (Nat.eqb_spec (k + 2 * n) (o + n)); [lia|]. destruct (Nat.eqb_spec (k + 2 * n) o); [lia|].
        auto. }
    rewrite E. cbn [obind].
    destruct (iter_inv (fun o p' => length p' = 3 * n + 4 /\
        (forall k, k < 3 * n -> nth k p' 0 = nth k p 0) /\ forall k, k < o -> nth (k + n * 3) p' 0 = block_flip k + n * 3)
      (fun k perm => aset perm (k + n * 3) (block_flip k + n * 3)) 4 p) as (p' & E' & L' & W & V').
    { split; [exact L|]. split; [reflexivity|]. lia. }
    { intros o q Lo (Lq & Wq & Vq). rewrite aset_lt by lia. eexists; split; [reflexivity|].
      split; [rewrite upd_length; exact Lq|]. split; intros k Lk; rewrite nth_upd by lia.
      - destruct (Nat.eqb_spec k (o + n * 3)); [lia|]. auto.
      - destruct (Nat.eqb_spec (k + n * 3) (o + n * 3)) as [Ek|Ek].
        + now replace k with o by lia.
        + apply Vq. lia. }
    exists p'. split; [exact E'|]. split; [exact L'|]. intros d Ld.
    destruct (Nat.ltb_spec d n); [rewrite W by lia; apply V; lia|].
    destruct (Nat.ltb_spec d (2 * n)).
    { rewrite W by lia. replace d with (d - n + n) at 1 by lia. apply V. lia. }
    destruct (Nat.ltb_spec d (3 * n)).
    { rewrite W by lia. replace d with (d - 2 * n + 2 * n) at 1 by lia. apply V. lia. }
    replace d with (d - n * 3 + n * 3) at 1 by lia. apply V'. lia.
  - destruct (iter_inv (fun k p => length p = 4 * n /\
        forall d, d < k * n -> nth d p 0 = (n - d mod n) mod n + block_flip (d / n) * n)
      (fun k perm => iter n (fun o perm => aset perm (o + k * n) ((n - o) mod n + block_flip k * n)) perm) 4 perm) as (p & E & L & V).
    { split; [exact Lp|]. lia. }
    { intros k p Lk [L V].
      destruct (iter_inv (fun o p => length p = 4 * n /\
          forall d, d < k * n + o -> nth d p 0 = (n - d mod n) mod n + block_flip (d / n) * n)
        (fun o perm => aset perm (o + k * n) ((n - o) mod n + block_flip k * n)) n p) as (p' & E' & L' & V').
      - split; [exact L|]. intros d Ld. apply V. lia.
      - intros o q Lo [Lq Vq]. rewrite aset_lt by nia. eexists; split; [reflexivity|]. split; [rewrite upd_length; exact Lq|].
        intros d Ld. rewrite nth_upd by nia. destruct (Nat.eqb_spec d (o + k * n)) as [->|]; [|apply Vq; lia].
        rewrite Nat.mod_add, Nat.div_add, (Nat.mod_small o n), (Nat.div_small o n) by lia. reflexivity.
      - exists p'. split; [exact E'|]. split; [exact L'|]. intros d Ld. apply V'. lia. }
    exists p. split; [exact E|]. split; [exact L|]. intros d Ld. apply V. exact Ld.
Qed.

Lemma block_flip_lt k : k < 4 -> block_flip k < 4.
Proof. intro L. do 4 (destruct k as [|k]; [cbn; lia|]). lia. Qed.
Lemma block_flip_invol k : k < 4 -> block_flip (block_flip k) = k.
Proof. intro L. do 4 (destruct k as [|k]; [reflexivity|]). lia. Qed.

Lemma mod_flip n d : 0 < n -> d < n -> (n - d) mod n = if d =? 0 then 0 else n - d.
Proof.
  intros Hn Ld. destruct (Nat.eqb_spec d 0) as [->|].
  - rewrite Nat.sub_0_r. apply Nat.mod_same. lia.
  - apply Nat.mod_small. lia.
Qed.
Lemma flip_directed n d : 0 < n -> d < 2 * n -> flip_channel Uoctti n d = flip_orientation n d.
Proof.
  intros Hn Ld. unfold flip_channel, flip_orientation. destruct (Nat.ltb_spec d n).
  - replace (3 * n - d) with (n - d + 1 * (2 * n)) by lia. rewrite Nat.mod_add by lia. symmetry. apply Nat.mod_small. lia.
  - destruct (Nat.ltb_spec d (2 * n)); [|lia]. f_equal. lia.
Qed.
Lemma flip_orientation_lt n k : 0 < n -> flip_orientation n k < 2 * n.
Proof. intro. apply Nat.mod_upper_bound. lia. Qed.
Lemma flip_orientation_eq n k : 0 < n -> k < 2 * n -> flip_orientation n k = if k <=? n then n - k else 3 * n - k.
Proof.
  intros Hn Lk. unfold flip_orientation. destruct (Nat.leb_spec k n).
  - replace (3 * n - k) with (n - k + 1 * (2 * n)) by lia. rewrite Nat.mod_add by lia. apply Nat.mod_small. lia.
  - apply Nat.mod_small. lia.
Qed.

Lemma flip_channel_ok v n d : 0 < n -> d < hog_dimension v n ->
  flip_channel v n d < hog_dimension v n /\ flip_channel v n (flip_channel v n d) = d.
Proof.
  intros Hn Ld. destruct v.
  - cbn [hog_dimension] in *. destruct (Nat.lt_ge_cases d (2 * n)) as [L1|L1].
    + rewrite (flip_directed n d) by auto. pose proof (flip_orientation_lt n d Hn) as L2. split; [lia|].
      rewrite flip_directed by auto. rewrite (flip_orientation_eq n d) in * by auto.
      destruct (Nat.leb_spec d n); rewrite flip_orientation_eq by lia.
      * destruct (Nat.leb_spec (n - d) n); lia.
      * destruct (Nat.leb_spec (3 * n - d) n); lia.
    + destruct (Nat.lt_ge_cases d (3 * n)) as [L2|L2].
      * assert (E : flip_channel Uoctti n d = (n - (d - 2 * n)) mod n + 2 * n).
        { unfold flip_channel. destruct (Nat.ltb_spec d n); [lia|]. destruct (Nat.ltb_spec d (2 * n)); [lia|]. destruct (Nat.ltb_spec d (3 * n)); [reflexivity|lia]. }
        rewrite E, mod_flip by lia. 
        assert (B : (if d - 2 * n =? 0 then 0 else n - (d - 2 * n)) < n) by (destruct (Nat.eqb_spec (d - 2 * n) 0); lia).
        set (r := if d - 2 * n =? 0 then 0 else n - (d - 2 * n)) in *.
        split; [lia|]. unfold flip_channel.
        destruct (Nat.ltb_spec (r + 2 * n) n); [lia|]. destruct (Nat.ltb_spec (r + 2 * n) (2 * n)); [lia|]. destruct (Nat.ltb_spec (r + 2 * n) (3 * n)); [|lia].
        rewrite mod_flip by lia. unfold r. destruct (Nat.eqb_spec (d - 2 * n) 0); [cbn [Nat.add]; rewrite Nat.sub_diag; cbn [Nat.eqb]; lia|].
        destruct (Nat.eqb_spec (n - (d - 2 * n) + 2 * n - 2 * n) 0); lia.
      * assert (E : forall r, 3 * n <= r -> flip_channel Uoctti n r = block_flip (r - n * 3) + n * 3).
        { intros r Lr. unfold flip_channel. destruct (Nat.ltb_spec r n); [lia|]. destruct (Nat.ltb_spec r (2 * n)); [lia|]. destruct (Nat.ltb_spec r (3 * n)); [lia|reflexivity]. }
        rewrite (E d) by lia. pose proof (block_flip_lt (d - n * 3) ltac:(lia)). split; [lia|].
        rewrite E by lia. replace (block_flip (d - n * 3) + n * 3 - n * 3) with (block_flip (d - n * 3)) by lia.
        rewrite block_flip_invol by lia. lia.
  - cbn [hog_dimension flip_channel] in *.
    assert (Lq : d / n < 4) by (apply Nat.div_lt_upper_bound; lia).
    pose proof (Nat.mod_upper_bound d n ltac:(lia)) as Lm. pose proof (block_flip_lt _ Lq) as Lb.
    rewrite mod_flip by auto. set (r := if d mod n =? 0 then 0 else n - d mod n).
    assert (Lr : r < n) by (unfold r; destruct (Nat.eqb_spec (d mod n) 0); lia).
    split; [nia|]. rewrite Nat.mod_add, Nat.div_add, (Nat.mod_small r n), (Nat.div_small r n) by lia.
    cbn [Nat.add]. rewrite block_flip_invol by auto. rewrite mod_flip by auto.
    pose proof (Nat.div_mod d n ltac:(lia)) as D.
    unfold r. destruct (Nat.eqb_spec (d mod n) 0); [cbn; lia|].
    destruct (Nat.eqb_spec (n - d mod n) 0); lia.
Qed.

(** ** accumulation *)
Local Open Scope Qc_scope.
Section Bins.
Variables (hw hh planes : nat).
Definition pos (cx cy k : nat) : nat := (cx + cy * hw + k * (hw * hh))%nat.
Definition holds (f : list Qc) (F : nat -> nat -> nat -> Qc) : Prop :=
  length f = (hw * hh * planes)%nat /\
  forall cx cy k, (cx < hw)%nat -> (cy < hh)%nat -> (k < planes)%nat -> nth (pos cx cy k) f 0 = F cx cy k.
Lemma holds_ext f F G : holds f F ->
  (forall cx cy k, (cx < hw)%nat -> (cy < hh)%nat -> (k < planes)%nat -> F cx cy k = G cx cy k) -> holds f G.
Proof. intros [L H] E. split; [exact L|]. intros. rewrite H by auto. auto. Qed.
Lemma cell_lt cx cy : (cx < hw)%nat -> (cy < hh)%nat -> (cx + cy * hw < hw * hh)%nat.
Proof. nia. Qed.
Lemma pos_lt cx cy k : (cx < hw)%nat -> (cy < hh)%nat -> (k < planes)%nat -> (pos cx cy k < hw * hh * planes)%nat.
Proof. intros. unfold pos. pose proof (cell_lt cx cy H H0). nia. Qed.
Lemma pos_inj cx cy k u v w : (cx < hw)%nat -> (cy < hh)%nat -> (u < hw)%nat -> (v < hh)%nat ->
  pos cx cy k = pos u v w -> cx = u /\ cy = v /\ k = w.
Proof.
  intros L1 L2 L3 L4 E. unfold pos in E. pose proof (cell_lt cx cy L1 L2). pose proof (cell_lt u v L3 L4).
  assert (k = w) by nia. subst w. assert (E' : (cx + cy * hw = u + v * hw)%nat) by lia.
  assert (cy = v) by nia. subst. lia.
Qed.

Lemma add_cell_ok f F (u v w : nat) val : holds f F -> (u < hw)%nat -> (v < hh)%nat -> (w < planes)%nat ->
  exists f', add_cell hw hh (Z.of_nat u) (Z.of_nat v) (Z.of_nat w) val f = Some f' /\
  holds f' (fun cx cy k => F cx cy k + (if (cx =? u)%nat && (cy =? v)%nat && (k =? w)%nat then val else 0)).
Proof.
  intros [L H] Lu Lv Lw. unfold add_cell.
  replace (Z.of_nat u + Z.of_nat v * Z.of_nat hw + Z.of_nat w * Z.of_nat (hw * hh))%Z with (Z.of_nat (pos u v w)) by (unfold pos; lia).
  pose proof (pos_lt u v w Lu Lv Lw) as P. rewrite zget_of_nat, (aget_nth f _ 0) by lia. cbn [obind].
  unfold zset. destruct (Z.ltb_spec (Z.of_nat (pos u v w)) 0); [lia|]. rewrite Nat2Z.id, aset_lt by lia.
  eexists; split; [reflexivity|]. split; [rewrite upd_length; exact L|].
  intros cx cy k L1 L2 L3. rewrite nth_upd by lia.
  destruct (Nat.eqb_spec (pos cx cy k) (pos u v w)) as [E|E].
  - apply pos_inj in E as (-> & -> & ->); auto. rewrite !Nat.eqb_refl. cbn [andb]. now rewrite H.
  - rewrite H by auto. destruct (Nat.eqb_spec cx u) as [->|]; [|cbn; ring].
    destruct (Nat.eqb_spec cy v) as [->|]; [|cbn; ring]. destruct (Nat.eqb_spec k w) as [->|]; [|cbn; ring].
    destruct (E eq_refl).
Qed.

Lemma guarded (g : bool) f F (u v : Z) (w : nat) val : holds f F -> (w < planes)%nat ->
  (g = true <-> (0 <= u < Z.of_nat hw /\ 0 <= v < Z.of_nat hh)%Z) ->
  exists f', (if g then add_cell hw hh u v (Z.of_nat w) val f else Some f) = Some f' /\
  holds f' (fun cx cy k => F cx cy k + (if (Z.of_nat cx =? u)%Z && (Z.of_nat cy =? v)%Z && (k =? w)%nat then val else 0)).
Proof.
  intros Hf Lw G. destruct g.
  - destruct (proj1 G eq_refl) as (Bu & Bv).
    destruct (add_cell_ok f F (Z.to_nat u) (Z.to_nat v) w val Hf) as (f' & E & Hf'); [lia|lia|auto|].
    rewrite !Z2Nat.id in E by lia. exists f'. split; [exact E|]. apply (holds_ext _ _ _ Hf').
    intros cx cy k _ _ _. f_equal.
    replace (cx =? Z.to_nat u)%nat with (Z.of_nat cx =? u)%Z.
    2:{ destruct (Z.eqb_spec (Z.of_nat cx) u), (Nat.eqb_spec cx (Z.to_nat u)); auto; lia. }
    replace (cy =? Z.to_nat v)%nat with (Z.of_nat cy =? v)%Z.
    2:{ destruct (Z.eqb_spec (Z.of_nat cy) v), (Nat.eqb_spec cy (Z.to_nat v)); auto; lia. }
    reflexivity.
  - exists f. split; [reflexivity|]. apply (holds_ext _ _ _ Hf). intros cx cy k L1 L2 L3.
    destruct (Z.eqb_spec (Z.of_nat cx) u) as [<-|]; [|cbn; ring].
    destruct (Z.eqb_spec (Z.of_nat cy) v) as [<-|]; [|cbn; ring].
    assert (X : false = true) by (apply G; lia). discriminate.
Qed.

(** the first cell of a pixel is not past the last one *)
Lemma axis_upper (size width x c1 : nat) cc w1 w2 : (0 < size)%nat -> (x < width)%nat -> c1 = ((width + size / 2) / size)%nat ->
  axis size (Z.of_nat x) = (cc, w1, w2) -> (cc < Z.of_nat c1)%Z.
Proof.
  intros Hs Lx Ec A. unfold axis in A. injection A as <- _ _.
  set (W := (zq (Z.of_nat x) + Q2Qc (1 # 2)) / nq size - Q2Qc (1 # 2)).
  pose proof (qfloor_le W) as F1.
  assert (Hn : 0 < nq size) by (apply zq_lt with (a := 0%Z); lia).
  assert (Hn0 : nq size <> 0) by (intro E0; rewrite E0 in Hn; discriminate Hn).
  assert (M : (zq (qfloor W) + Q2Qc (1 # 2)) * nq size <= zq (Z.of_nat x) + Q2Qc (1 # 2)).
  { replace (zq (Z.of_nat x) + Q2Qc (1 # 2)) with ((W + Q2Qc (1 # 2)) * nq size) by (unfold W; field; exact Hn0).
    apply Qcmult_le_compat_r; [qc_lra|now apply Qclt_le_weak]. }
  assert (M2 : zq ((2 * qfloor W + 1) * Z.of_nat size) <= zq (2 * Z.of_nat x + 1)).
  { rewrite zq_mult, !zq_plus, !zq_mult, zq_1. fold (nq size).
    assert (E2 : zq 2 * Q2Qc (1 # 2) = 1) by (apply Qc_is_canon; reflexivity).
    replace ((zq 2 * zq (qfloor W) + 1) * nq size) with (zq 2 * ((zq (qfloor W) + Q2Qc (1 # 2)) * nq size)) by (rewrite <- E2; ring).
    replace (zq 2 * zq (Z.of_nat x) + 1) with (zq 2 * (zq (Z.of_nat x) + Q2Qc (1 # 2))) by (rewrite <- E2; ring).
    rewrite (Qcmult_comm (zq 2) (_ * nq size)), (Qcmult_comm (zq 2) (_ + _)). apply Qcmult_le_compat_r; [exact M|discriminate]. }
  apply zq_le_inv in M2. clear M F1 Hn Hn0.
  pose proof (Nat.div_mod (width + size / 2) size ltac:(lia)) as D. rewrite <- Ec in D.
  pose proof (Nat.mod_upper_bound (width + size / 2) size ltac:(lia)) as D1.
  pose proof (Nat.div_mod size 2 ltac:(lia)) as D2. pose proof (Nat.mod_upper_bound size 2 ltac:(lia)) as D3.
  clear Ec. set (q := (size / 2)%nat) in *. set (r := (size mod 2)%nat) in *. set (t := ((width + q) mod size)%nat) in *.
  set (z := qfloor W) in *. clearbody q r t z. destruct (Z.lt_ge_cases z (Z.of_nat c1)) as [L|L]; [exact L|exfalso].
  assert ((2 * Z.of_nat c1 + 1) * Z.of_nat size <= (2 * z + 1) * Z.of_nat size)%Z by nia.
  assert (Z.of_nat width + Z.of_nat q = Z.of_nat size * Z.of_nat c1 + Z.of_nat t)%Z by lia. nia.
Qed.

Variables (size width height : nat).
Hypothesis Hsize : (0 < size)%nat.
Hypothesis Hw : hw = ((width + size / 2) / size)%nat.
Hypothesis Hh : hh = ((height + size / 2) / size)%nat.

Definition vote (b : Z) (a : Qc) (x y cx cy k : nat) : Qc :=
  if (b =? Z.of_nat k)%Z then a * (tent size cx x * tent size cy y) else 0.

Lemma splat_ok f F amount a (x y : nat) (b : Z) : holds f F -> (x < width)%nat -> (y < height)%nat -> (b < Z.of_nat planes)%Z ->
  (forall wx wy, amount wx wy = a * (wx * wy)) ->
  exists f', splat hw hh size amount x y b f = Some f' /\ holds f' (fun cx cy k => F cx cy k + vote b a x y cx cy k).
Proof.
  intros Hf Lx Ly Lb Ha. unfold splat, vote. destruct (Z.ltb_spec b 0) as [Nb|Nb].
  - exists f. split; [reflexivity|]. apply (holds_ext _ _ _ Hf). intros cx cy k _ _ _.
    destruct (Z.eqb_spec b (Z.of_nat k)); [lia|]. ring.
  - destruct (axis_ok size x Hsize) as (cx1 & wx1 & wx2 & Ax & Gx & Tx).
    destruct (axis_ok size y Hsize) as (cy1 & wy1 & wy2 & Ay & Gy & Ty).
    pose proof (axis_upper size width x hw cx1 wx1 wx2 Hsize Lx Hw Ax) as Ux.
    pose proof (axis_upper size height y hh cy1 wy1 wy2 Hsize Ly Hh Ay) as Uy.
    rewrite Ax, Ay. rewrite <- (Z2Nat.id b Nb). set (bb := Z.to_nat b).
    assert (Lbb : (bb < planes)%nat) by (unfold bb; lia).
    destruct (guarded ((0 <=? cx1) && (0 <=? cy1))%Z f F cx1 cy1 bb (amount wx1 wy1) Hf Lbb) as (f1 & E1 & H1).
    { rewrite andb_true_iff, !Z.leb_le. lia. }
    rewrite E1. cbn [obind].
    destruct (guarded ((cx1 <? Z.of_nat hw - 1) && (0 <=? cy1))%Z _ _ (cx1 + 1)%Z cy1 bb (amount wx2 wy1) H1 Lbb) as (f2 & E2 & H2).
    { rewrite andb_true_iff, Z.leb_le, Z.ltb_lt. lia. }
    rewrite E2. cbn [obind].
    destruct (guarded ((cx1 <? Z.of_nat hw - 1) && (cy1 <? Z.of_nat hh - 1))%Z _ _ (cx1 + 1)%Z (cy1 + 1)%Z bb (amount wx2 wy2) H2 Lbb) as (f3 & E3 & H3).
    { rewrite andb_true_iff, !Z.ltb_lt. lia. }
    rewrite E3. cbn [obind].
    destruct (guarded ((0 <=? cx1) && (cy1 <? Z.of_nat hh - 1))%Z _ _ cx1 (cy1 + 1)%Z bb (amount wx1 wy2) H3 Lbb) as (f4 & E4 & H4).
    { rewrite andb_true_iff, Z.leb_le, Z.ltb_lt. lia. }
    exists f4. split; [exact E4|]. apply (holds_ext _ _ _ H4). intros cx cy k B1 B2 B3. cbv beta. rewrite !Ha, Tx, Ty.
    destruct (Z.eqb_spec (Z.of_nat bb) (Z.of_nat k)), (Nat.eqb_spec k bb); try lia;
    destruct (Z.eqb_spec (Z.of_nat cx) cx1), (Z.eqb_spec (Z.of_nat cx) (cx1 + 1)); try lia;
    destruct (Z.eqb_spec (Z.of_nat cy) cy1), (Z.eqb_spec (Z.of_nat cy) (cy1 + 1)); try lia;
    cbn [andb]; ring.
Qed.

(** the loops over the pixels *)
Lemma pixels_ok (x0 w y0 h : nat) (bin : nat -> nat -> nat -> Z) (amount : nat -> nat -> nat -> Qc) body f :
  (forall x y f F, (x0 <= x < x0 + w)%nat -> (y0 <= y < y0 + h)%nat -> holds f F ->
     exists f', body y x f = Some f' /\
       holds f' (fun cx cy k => F cx cy k + sum 0 Qcplus 2 (fun j => vote (bin x y j) (amount x y j) x y cx cy k))) ->
  holds f (fun _ _ _ => 0) ->
  exists f', iter_from h y0 (fun y => iter_from w x0 (body y)) f = Some f' /\ holds f' (hog_bins x0 w y0 h size bin amount).
Proof.
  intros B Hf.
  destruct (iter_from_inv (fun y f' => holds f' (fun cx cy k => sum 0 Qcplus (y - y0) (fun y => sum 0 Qcplus w (fun x =>
      sum 0 Qcplus 2 (fun j => vote (bin (x0 + x) (y0 + y) j)%nat (amount (x0 + x) (y0 + y) j)%nat (x0 + x) (y0 + y) cx cy k)))))
    (fun y => iter_from w x0 (body y)) (y0 + h) h y0 f) as (f' & E & Hf').
  - lia.
  - rewrite Nat.sub_diag. exact Hf.
  - intros y g Ly Lh Hg.
    destruct (iter_from_inv (fun x f' => holds f' (fun cx cy k =>
        sum 0 Qcplus (y - y0) (fun y => sum 0 Qcplus w (fun x =>
          sum 0 Qcplus 2 (fun j => vote (bin (x0 + x) (y0 + y) j)%nat (amount (x0 + x) (y0 + y) j)%nat (x0 + x) (y0 + y) cx cy k))) +
        sum 0 Qcplus (x - x0) (fun x => sum 0 Qcplus 2 (fun j => vote (bin (x0 + x) y j)%nat (amount (x0 + x) y j)%nat (x0 + x) y cx cy k))))
      (body y) (x0 + w) w x0 g) as (g' & E & Hg').
    + lia.
    + apply (holds_ext _ _ _ Hg). intros. rewrite (Nat.sub_diag x0). cbn [sum]. ring.
    + intros x g1 Lx Lw Hg1. destruct (B x y g1 _ ltac:(lia) ltac:(lia) Hg1) as (g2 & E2 & Hg2).
      exists g2. split; [exact E2|]. apply (holds_ext _ _ _ Hg2). intros cx cy k _ _ _.
      replace (x + 1 - x0)%nat with (S (x - x0)) by lia. cbn [sum]. replace (x0 + (x - x0))%nat with x by lia. ring.
    + exists g'. split; [exact E|]. apply (holds_ext _ _ _ Hg'). intros cx cy k _ _ _.
      replace (x0 + w - x0)%nat with w by lia. replace (y + 1 - y0)%nat with (S (y - y0)) by lia.
      remember (fun y1 => sum 0 Qcplus w (fun x => sum 0 Qcplus 2 (fun j => vote (bin (x0 + x) (y0 + y1) j)%nat (amount (x0 + x) (y0 + y1) j)%nat (x0 + x) (y0 + y1) cx cy k))) as G eqn:EG.
      change (sum 0 Qcplus (y - y0) G + sum 0 Qcplus w (fun x => sum 0 Qcplus 2 (fun j => vote (bin (x0 + x)%nat y j) (amount (x0 + x)%nat y j) (x0 + x) y cx cy k)) = sum 0 Qcplus (y - y0) G + G (y - y0)%nat).
      f_equal. rewrite EG. replace (y0 + (y - y0))%nat with y by lia. reflexivity.
  - exists f'. split; [exact E|]. apply (holds_ext _ _ _ Hf'). intros cx cy k _ _ _.
    replace (y0 + h - y0)%nat with h by lia. reflexivity.
Qed.
End Bins.

(** ** the votes of a pixel *)
Section Votes.
Variables (n : nat) (oxl oyl : list Qc).
Hypothesis Hox : length oxl = n.
Hypothesis Hoy : length oyl = n.
Definition ox_ (k : nat) : Qc := nth k oxl 0.
Definition oy_ (k : nat) : Qc := nth k oyl 0.

Lemma abs_score (s : Qc) : (if qlt s 0 then - s else s) = [s].
Proof.
  destruct (qlt s 0) eqn:E.
  - apply qlt_true in E. symmetry. apply Qcabs_neg. now apply Qclt_le_weak.
  - apply qlt_false in E. symmetry. now apply Qcabs_pos.
Qed.

Lemma two_closest_ok gx gy : (0 < n)%nat -> exists w0 b0 w1 b1 k1,
  two_closest n oxl oyl gx gy = Some (w0, b0, w1, b1) /\
  closest n ox_ oy_ gx gy k1 /\ b0 = directed_bin n ox_ oy_ gx gy k1 /\ w0 = [score ox_ oy_ gx gy k1] /\
  ((n = 1%nat /\ b1 = (-1)%Z) \/ exists k2, second n ox_ oy_ gx gy k1 k2 /\ b1 = directed_bin n ox_ oy_ gx gy k2).
Proof.
  intro Hn. unfold two_closest.
  set (sc := score ox_ oy_ gx gy). set (db := directed_bin n ox_ oy_ gx gy).
  destruct (iter_inv (fun j '(w0, b0, w1, b1) =>
      (j = 0%nat /\ w0 = - (1) /\ w1 = - (1) /\ b0 = (-1)%Z) \/
      exists k1, closest j ox_ oy_ gx gy k1 /\ b0 = db k1 /\ w0 = [sc k1] /\
        ((j = 1%nat /\ b1 = (-1)%Z /\ w1 = - (1)) \/ exists k2, second j ox_ oy_ gx gy k1 k2 /\ b1 = db k2 /\ w1 = [sc k2]))
    (fun k '(w0, b0, w1, b1) =>
      do u <- aget oxl k;
      do v <- aget oyl k;
      let score := gx * u + gy * v in
      let bin := Z.of_nat k in
      let '(score, bin) := if qlt score 0 then (- score, (bin + Z.of_nat n)%Z) else (score, bin) in
      Some (if qlt w0 score then (score, bin, w0, b0)
            else if qlt w1 score then (w0, b0, score, bin)
            else (w0, b0, w1, b1))) n (- (1), (-1)%Z, - (1), (-1)%Z)) as ([[[w0 b0] w1] b1] & E & I).
  - left. auto.
  - intros j [[[w0 b0] w1] b1] Lj I.
    rewrite (aget_nth oxl _ 0), (aget_nth oyl _ 0) by lia. cbn [obind]. fold (ox_ j) (oy_ j). cbv zeta.
    change (gx * ox_ j + gy * oy_ j) with (sc j).
    assert (Ep : (if qlt (sc j) 0 then (- sc j, (Z.of_nat j + Z.of_nat n)%Z) else (sc j, Z.of_nat j)) = ([sc j], db j)).
    { rewrite <- abs_score. unfold db, directed_bin. fold sc. destruct (qlt (sc j) 0) eqn:Es.
      - apply qlt_true in Es. destruct (Qclt_le_dec (sc j) 0) as [L|L]; [|exfalso; qc_lra]. now rewrite Nat2Z.inj_add.
      - apply qlt_false in Es. destruct (Qclt_le_dec (sc j) 0) as [L|L]; [exfalso; qc_lra|]. reflexivity. }
    rewrite Ep. clear Ep. eexists; split; [reflexivity|].
    pose proof (Qcabs_nonneg (sc j)) as Aj.
    destruct I as [(-> & -> & -> & ->)|(k1 & [Lk1 C] & -> & -> & S)].
    + destruct (qlt (- (1)) [sc 0%nat]) eqn:Q1; [|apply qlt_false in Q1; exfalso; qc_lra].
      right. exists 0%nat. split; [split; [lia|intros i Li; replace i with 0%nat by lia; apply Qcle_refl]|]. split; [reflexivity|]. split; [reflexivity|].
      left. auto.
    + destruct (qlt [sc k1] [sc j]) eqn:Q1.
      * apply qlt_true in Q1. right. exists j. split.
        { split; [lia|]. intros i Li. destruct (Nat.eq_dec i j) as [->|]; [apply Qcle_refl|].
          pose proof (C i ltac:(lia)) as X. fold sc in X |- *. qc_lra. }
        split; [reflexivity|]. split; [reflexivity|]. right. exists k1. split; [|auto].
        split; [lia|]. split; [lia|]. intros i Li Ni. apply C. lia.
      * apply qlt_false in Q1.
        assert (C' : closest (j + 1) ox_ oy_ gx gy k1).
        { split; [lia|]. intros i Li. destruct (Nat.eq_dec i j) as [->|]; [exact Q1|]. apply C. lia. }
        destruct S as [(-> & -> & ->)|(k2 & (Lk2 & Nk & Sb) & -> & ->)].
        -- destruct (qlt (- (1)) [sc 1%nat]) eqn:Q2; [|apply qlt_false in Q2; exfalso; qc_lra].
           right. exists k1. split; [exact C'|]. split; [reflexivity|]. split; [reflexivity|]. right. exists 1%nat. split; [|auto].
           split; [lia|]. split; [lia|]. intros i Li Ni. replace i with 1%nat by lia. apply Qcle_refl.
        -- destruct (qlt [sc k2] [sc j]) eqn:Q2.
           ++ apply qlt_true in Q2. right. exists k1. split; [exact C'|]. split; [reflexivity|]. split; [reflexivity|]. right. exists j. split; [|auto].
              split; [lia|]. split; [lia|]. intros i Li Ni. destruct (Nat.eq_dec i j) as [->|]; [apply Qcle_refl|].
              pose proof (Sb i ltac:(lia) Ni) as X. fold sc in X |- *. qc_lra.
           ++ apply qlt_false in Q2. right. exists k1. split; [exact C'|]. split; [reflexivity|]. split; [reflexivity|]. right. exists k2. split; [|auto].
              split; [lia|]. split; [exact Nk|]. intros i Li Ni. destruct (Nat.eq_dec i j) as [->|]; [exact Q2|]. apply Sb; [lia|exact Ni].
  - destruct I as [(-> & _)|(k1 & C & -> & -> & S)]; [lia|].
    exists [sc k1], (db k1), w1, b1, k1. split; [exact E|]. split; [exact C|]. split; [reflexivity|]. split; [reflexivity|].
    destruct S as [(-> & -> & _)|(k2 & Sb & -> & _)]; [left; auto|right; exists k2; auto].
Qed.

Lemma directed_bin_lt gx gy k : (k < n)%nat -> (0 <= directed_bin n ox_ oy_ gx gy k < Z.of_nat (2 * n))%Z.
Proof. intro L. unfold directed_bin. destruct (Qclt_le_dec _ _); lia. Qed.
End Votes.

(** ** the gradient *)
Lemma gradient_ok (image : list Qc) (width height channels x y : nat) :
  length image = (channels * (width * height))%nat -> (1 <= x)%nat -> (x + 1 < width)%nat -> (1 <= y)%nat -> (y + 1 < height)%nat ->
  let im x y k := nth (y * width + x + k * (width * height)) image 0 in
  exists gx gy, gradient image width height channels x y = Some (gx, gy, gx * gx + gy * gy) /\
    strongest im channels x y gx gy.
Proof.
  intros Li L1 L2 L3 L4 im. unfold gradient.
  destruct (iter_inv (fun j '(gx, gy, g2) => g2 = gx * gx + gy * gy /\ strongest im j x y gx gy)
    (fun k '(gx, gy, g2) =>
    let p := (y * width + x + k * (width * height))%nat in
    do a <- aget image (p + 1);
    do b <- aget image (p - 1);
    do c <- aget image (p + width);
    do d <- aget image (p - width);
    let gx' := (a - b)%Qc in
    let gy' := (c - d)%Qc in
    let g2' := (gx' * gx' + gy' * gy')%Qc in
    Some (if qlt g2 g2' then (gx', gy', g2') else (gx, gy, g2))) channels (0, 0, 0)) as ([[gx gy] g2] & E & -> & St).
  - split; [ring|]. split; [intros; lia|]. left. auto.
  - intros j [[gx gy] g2] Lj (-> & C & Ex). cbv zeta.
    assert (P : (y * width + x + width < width * height)%nat) by nia.
    assert (P' : (j * (width * height) + width * height <= length image)%nat) by (rewrite Li; nia).
    assert (P2 : (width + 1 <= y * width + x)%nat) by nia.
    set (m := (j * (width * height))%nat) in *.
    rewrite !(aget_nth image _ 0) by lia. cbn [obind].
    replace (y * width + x + m + 1)%nat with (y * width + (x + 1) + m)%nat by lia.
    replace (y * width + x + m - 1)%nat with (y * width + (x - 1) + m)%nat by lia.
    replace (y * width + x + m + width)%nat with ((y + 1) * width + x + m)%nat by lia.
    replace (y * width + x + m - width)%nat with ((y - 1) * width + x + m)%nat by nia.
    unfold m. fold (im (x + 1)%nat y j) (im (x - 1)%nat y j) (im x (y + 1)%nat j) (im x (y - 1)%nat j).
    eexists; split; [reflexivity|].
    set (dx := im (x + 1)%nat y j - im (x - 1)%nat y j). set (dy := im x (y + 1)%nat j - im x (y - 1)%nat j).
    destruct (qlt (gx * gx + gy * gy) (dx * dx + dy * dy)) eqn:Q1.
    + apply qlt_true in Q1. split; [reflexivity|]. split.
      * intros k Lk. destruct (Nat.eq_dec k j) as [->|]; [apply Qcle_refl|].
        eapply Qcle_trans; [apply C; lia|]. now apply Qclt_le_weak.
      * right. exists j. split; [lia|]. auto.
    + apply qlt_false in Q1. split; [reflexivity|]. split.
      * intros k Lk. destruct (Nat.eq_dec k j) as [->|]; [exact Q1|]. apply C. lia.
      * destruct Ex as [Ex|(k & Lk & Ek)]; [left; exact Ex|]. right. exists k. split; [lia|exact Ek].
  - exists gx, gy. auto.
Qed.

(** ** the buffers *)
Definition wf (n : nat) (s : option hog) : Prop :=
  match s with
  | None => True
  | Some s => length (h_bins s) = (h_width s * h_height s * n * 2)%nat /\ length (h_norm s) = (h_width s * h_height s)%nat
  end.
Lemma clear_all k l : length l = k -> clear k l = Some (repeat 0 k).
Proof.
  intro E. unfold clear. rewrite E, Nat.ltb_irrefl. rewrite <- E, skipn_all, app_nil_r. reflexivity.
Qed.
Lemma prepare_ok n s width height size : wf n s -> prepare n s width height size = prepare n None width height size.
Proof.
  intro Ws. unfold prepare. destruct (size =? 0)%nat; [reflexivity|]. destruct (negb _); [reflexivity|].
  destruct s as [s|]; [|reflexivity]. destruct Ws as [Wb Wn].
  destruct (Nat.eqb_spec (h_width s) ((width + size / 2) / size)) as [E1|]; [|reflexivity].
  destruct (Nat.eqb_spec (h_height s) ((height + size / 2) / size)) as [E2|]; [|reflexivity].
  cbn [andb]. rewrite E1, E2 in *. rewrite (clear_all _ _ Wb), (clear_all _ _ Wn). reflexivity.
Qed.
Lemma prepare_zero n s width height size s' : wf n s -> prepare n s width height size = Some s' ->
  let hw := ((width + size / 2) / size)%nat in let hh := ((height + size / 2) / size)%nat in
  (0 < size)%nat /\ s' = mk_hog hw hh (repeat 0 (hw * hh * n * 2)) (repeat 0 (hw * hh)).
Proof.
  intros Ws E. rewrite prepare_ok in E by exact Ws. unfold prepare in E.
  destruct (Nat.eqb_spec size 0); [discriminate|]. destruct (negb _); [discriminate|]. injection E as <-. split; [lia|reflexivity].
Qed.
Lemma prepare_some n s width height size : wf n s -> (0 < size)%nat -> (3 < width)%nat -> (3 < height)%nat ->
  let hw := ((width + size / 2) / size)%nat in let hh := ((height + size / 2) / size)%nat in
  (0 < hw)%nat -> (0 < hh)%nat ->
  prepare n s width height size = Some (mk_hog hw hh (repeat 0 (hw * hh * n * 2)) (repeat 0 (hw * hh))).
Proof.
  intros Ws Hs L1 L2 hw hh L3 L4. rewrite prepare_ok by exact Ws. unfold prepare. fold hw hh.
  destruct (Nat.eqb_spec size 0); [lia|]. rewrite !(proj2 (Nat.ltb_lt _ _)) by auto. reflexivity.
Qed.

Lemma zero_holds hw hh n : holds hw hh (2 * n) (repeat 0 (hw * hh * n * 2)) (fun _ _ _ => 0).
Proof. split; [rewrite repeat_length; lia|]. intros. apply nth_repeat. Qed.

(** ** vl_hog_put_image *)
Section PutImage.
Variables (n : nat) (sqrt_ acos_ : Qc -> Qc) (pi tiny : Qc) (oxl oyl : list Qc) (bilinear : bool).
Variables (image : list Qc) (width height channels size : nat).
Definition pixel_gradient (x y : nat) : Qc * Qc :=
  match gradient image width height channels x y with Some (gx, gy, _) => (gx, gy) | None => (0, 0) end.
Definition pixel_norm (x y : nat) : Qc := let '(gx, gy) := pixel_gradient x y in sqrt_ (gx * gx + gy * gy).
Definition pixel_votes (x y : nat) : Qc * Z * Qc * Z :=
  let '(gx, gy) := pixel_gradient x y in
  match votes n acos_ pi tiny oxl oyl bilinear gx gy (pixel_norm x y) with Some v => v | None => (0, (-1)%Z, 0, (-1)%Z) end.
Definition vote_bin (x y j : nat) : Z := let '(_, b0, _, b1) := pixel_votes x y in if (j =? 0)%nat then b0 else b1.
Definition vote_amount (x y j : nat) : Qc :=
  let '(w0, _, w1, _) := pixel_votes x y in pixel_norm x y * (if (j =? 0)%nat then w0 else w1).

Hypothesis Hox : length oxl = n.
Hypothesis Hoy : length oyl = n.
Hypothesis Hn : (0 < n)%nat.
Hypothesis Him : length image = (channels * (width * height))%nat.

(** what the votes are *)
Lemma pixel_votes_ok x y : (1 <= x)%nat -> (x + 1 < width)%nat -> (1 <= y)%nat -> (y + 1 < height)%nat ->
  let im x y k := nth (y * width + x + k * (width * height)) image 0 in
  exists gx gy k1, gradient image width height channels x y = Some (gx, gy, gx * gx + gy * gy) /\
    strongest im channels x y gx gy /\ pixel_gradient x y = (gx, gy) /\
    votes n acos_ pi tiny oxl oyl bilinear gx gy (sqrt_ (gx * gx + gy * gy)) = Some (pixel_votes x y) /\
    closest n (ox_ oxl) (oy_ oyl) gx gy k1 /\
    vote_bin x y 0 = directed_bin n (ox_ oxl) (oy_ oyl) gx gy k1 /\
    (bilinear = false -> vote_bin x y 1 = (-1)%Z /\ vote_amount x y 0 = sqrt_ (gx * gx + gy * gy)) /\
    (bilinear = true ->
      let norm := sqrt_ (gx * gx + gy * gy) in
      let a := acos_ (qmin ([score (ox_ oxl) (oy_ oyl) gx gy k1] / qmax norm tiny) 1) / (pi / nq n) in
      vote_amount x y 0 = norm * (1 - a) /\ vote_amount x y 1 = norm * a /\
      ((n = 1%nat /\ vote_bin x y 1 = (-1)%Z) \/
       exists k2, second n (ox_ oxl) (oy_ oyl) gx gy k1 k2 /\ vote_bin x y 1 = directed_bin n (ox_ oxl) (oy_ oyl) gx gy k2)).
Proof.
  intros L1 L2 L3 L4 im.
  destruct (gradient_ok image width height channels x y Him L1 L2 L3 L4) as (gx & gy & E & St).
  destruct (two_closest_ok n oxl oyl Hox Hoy gx gy Hn) as (w0 & b0 & w1 & b1 & k1 & E2 & C & Eb & Ew & S2).
  exists gx, gy, k1. split; [exact E|]. split; [exact St|].
  assert (Eg : pixel_gradient x y = (gx, gy)) by (unfold pixel_gradient; now rewrite E).
  split; [exact Eg|].
  unfold vote_amount, vote_bin, pixel_votes, pixel_norm. rewrite Eg. unfold votes. rewrite E2. cbn [obind].
  destruct bilinear; (split; [reflexivity|]); (split; [exact C|]); (split; [exact Eb|]); (split; [intro X; try discriminate X; try (split; [reflexivity|]; cbn [Nat.eqb]; ring)|]);
    intro X; try discriminate X.
  split; [|split; [|exact S2]]; cbn [Nat.eqb]; rewrite Ew; reflexivity.
Qed.

Lemma vote_bin_lt x y j : (1 <= x)%nat -> (x + 1 < width)%nat -> (1 <= y)%nat -> (y + 1 < height)%nat ->
  (vote_bin x y j < Z.of_nat (2 * n))%Z.
Proof.
  intros L1 L2 L3 L4. destruct (pixel_votes_ok x y L1 L2 L3 L4) as (gx & gy & k1 & _ & _ & _ & _ & [Lk _] & B0 & F & T).
  pose proof (directed_bin_lt n oxl oyl Hox Hoy gx gy k1 Lk) as D1.
  assert (Ej : vote_bin x y j = vote_bin x y 0 \/ vote_bin x y j = vote_bin x y 1).
  { unfold vote_bin. destruct (pixel_votes x y) as [[[? ?] ?] ?]. destruct (j =? 0)%nat; [left|right]; reflexivity. }
  destruct Ej as [->| ->]; [rewrite B0; lia|].
  destruct bilinear.
  - destruct (T eq_refl) as (_ & _ & [(_ & ->)|(k2 & (Lk2 & _) & ->)]); [lia|].
    pose proof (directed_bin_lt n oxl oyl Hox Hoy gx gy k2 Lk2). lia.
  - destruct (F eq_refl) as (-> & _). lia.
Qed.

Lemma put_image_ok s : wf n s -> (0 < size)%nat -> (3 < width)%nat -> (3 < height)%nat ->
  let hw := ((width + size / 2) / size)%nat in let hh := ((height + size / 2) / size)%nat in
  (0 < hw)%nat -> (0 < hh)%nat ->
  exists b, put_image n sqrt_ acos_ pi tiny oxl oyl bilinear s image width height channels size =
      Some (mk_hog hw hh b (repeat 0 (hw * hh))) /\
    holds hw hh (2 * n) b (hog_bins 1 (width - 2) 1 (height - 2) size vote_bin vote_amount).
Proof.
  intros Ws Hs W3 H3 hw hh Lw Lh. unfold put_image. rewrite (prepare_some n s width height size Ws Hs W3 H3 Lw Lh). cbn [obind h_width h_height h_bins h_norm].
  fold hw hh.
  destruct (pixels_ok hw hh (2 * n) size width height Hs eq_refl eq_refl 1 (width - 2) 1 (height - 2) vote_bin vote_amount
    (image_pixel n sqrt_ acos_ pi tiny oxl oyl bilinear image width height channels size hw hh) (repeat 0 (hw * hh * n * 2))) as (b & E & Hb).
  - intros x y f F Bx By Hf.
    destruct (pixel_votes_ok x y) as (gx & gy & k1 & Eg & _ & Ep & Ev & _); try lia.
    unfold image_pixel. rewrite Eg. cbn [obind]. rewrite Ev. cbn [obind].
    pose proof (vote_bin_lt x y 0) as B0. pose proof (vote_bin_lt x y 1) as B1.
    unfold vote_bin, vote_amount in *. unfold pixel_norm in *. rewrite Ep in *.
    destruct (pixel_votes x y) as [[[w0 b0] w1] b1]. cbn [Nat.eqb] in *.
    set (norm := sqrt_ (gx * gx + gy * gy)) in *.
    destruct (splat_ok hw hh (2 * n) size width height Hs eq_refl eq_refl f F (fun wx wy => norm * w0 * wx * wy) (norm * w0) x y b0 Hf) as (f1 & E1 & H1); [lia|lia|lia|intros; ring|].
    rewrite E1. cbn [obind].
    destruct (splat_ok hw hh (2 * n) size width height Hs eq_refl eq_refl f1 _ (fun wx wy => norm * w1 * wx * wy) (norm * w1) x y b1 H1) as (f2 & E2 & H2); [lia|lia|lia|intros; ring|].
    exists f2. split; [exact E2|]. apply (holds_ext _ _ _ _ _ _ H2). intros cx cy k _ _ _. cbn [sum Nat.eqb]. ring.
  - apply zero_holds.
  - rewrite E. cbn [obind]. exists b. split; [reflexivity|exact Hb].
Qed.
End PutImage.

(** ** vl_hog_put_polar_field *)
Section Polar.
Variables (n : nat) (step : Qc) (bilinear directed : bool) (modulus angle : list Qc) (width height size : nat).
Definition polar_bin (x y j : nat) : Z :=
  if Qclt_le_dec 0 (nth (y * width + x) modulus 0) then
    let '(_, b0, _, b1) := angle_votes n step bilinear directed (nth (y * width + x) angle 0) in if (j =? 0)%nat then b0 else b1
  else (-1)%Z.
Definition polar_amount (x y j : nat) : Qc :=
  let '(w0, _, w1, _) := angle_votes n step bilinear directed (nth (y * width + x) angle 0) in
  let w := if (j =? 0)%nat then w0 else w1 in
  nth (y * width + x) modulus 0 * (w * w).
Hypothesis Hn : (0 < n)%nat.
Hypothesis Hm : length modulus = (width * height)%nat.
Hypothesis Ha : length angle = (width * height)%nat.

Lemma angle_votes_lt a : let '(_, b0, _, b1) := angle_votes n step bilinear directed a in
  (b0 < Z.of_nat (2 * n))%Z /\ (b1 < Z.of_nat (2 * n))%Z.
Proof.
  unfold angle_votes. set (period := Z.of_nat (n * (if directed then 2 else 1))).
  assert (P : (0 < period <= Z.of_nat (2 * n))%Z) by (unfold period; destruct directed; lia).
  destruct bilinear; split; try lia;
  match goal with |- (?x mod _ < _)%Z => pose proof (Z.mod_pos_bound x period ltac:(lia)); lia end.
Qed.

Lemma put_polar_ok s : wf n s -> (0 < size)%nat -> (3 < width)%nat -> (3 < height)%nat ->
  let hw := ((width + size / 2) / size)%nat in let hh := ((height + size / 2) / size)%nat in
  (0 < hw)%nat -> (0 < hh)%nat ->
  exists b, put_polar_field n step bilinear directed s modulus angle width height size =
      Some (mk_hog hw hh b (repeat 0 (hw * hh))) /\
    holds hw hh (2 * n) b (hog_bins 0 width 0 height size polar_bin polar_amount).
Proof.
  intros Ws Hs W3 H3 hw hh Lw Lh. unfold put_polar_field. rewrite (prepare_some n s width height size Ws Hs W3 H3 Lw Lh). cbn [obind h_width h_height h_bins h_norm].
  fold hw hh.
  destruct (pixels_ok hw hh (2 * n) size width height Hs eq_refl eq_refl 0 width 0 height polar_bin polar_amount
    (polar_pixel n step bilinear directed modulus angle width size hw hh) (repeat 0 (hw * hh * n * 2))) as (b & E & Hb).
  - intros x y f F Bx By Hf. unfold polar_pixel.
    assert (Lp : (y * width + x < width * height)%nat) by nia.
    rewrite (aget_nth modulus _ 0), (aget_nth angle _ 0) by lia. cbn [obind].
    unfold polar_bin, polar_amount. pose proof (angle_votes_lt (nth (y * width + x) angle 0)) as B.
    destruct (angle_votes n step bilinear directed (nth (y * width + x) angle 0)) as [[[w0 b0] w1] b1]. destruct B as [B0 B1].
    set (m := nth (y * width + x) modulus 0).
    destruct (Qclt_le_dec 0 m) as [P|P].
    + rewrite (proj2 (qlt_true 0 m) P). cbn [negb].
      destruct (splat_ok hw hh (2 * n) size width height Hs eq_refl eq_refl f F (fun wx wy => m * (wx * w0) * (wy * w0)) (m * (w0 * w0)) x y b0 Hf) as (f1 & E1 & H1); [lia|lia|lia|intros; ring|].
      rewrite E1. cbn [obind].
      destruct (splat_ok hw hh (2 * n) size width height Hs eq_refl eq_refl f1 _ (fun wx wy => m * (wx * w1) * (wy * w1)) (m * (w1 * w1)) x y b1 H1) as (f2 & E2 & H2); [lia|lia|lia|intros; ring|].
      exists f2. split; [exact E2|]. apply (holds_ext _ _ _ _ _ _ H2). intros cx cy k _ _ _. cbn [sum Nat.eqb]. ring.
    + rewrite (proj2 (qlt_false 0 m) P). cbn [negb]. exists f. split; [reflexivity|].
      apply (holds_ext _ _ _ _ _ _ Hf). intros cx cy k _ _ _. cbn [sum Nat.eqb]. unfold vote.
      destruct (Z.eqb_spec (-1) (Z.of_nat k)); [lia|]. ring.
  - apply zero_holds.
  - change (iter_from height 0 (fun y => iter_from width 0 (polar_pixel n step bilinear directed modulus angle width size hw hh y)) (repeat 0 (hw * hh * n * 2))) with
      (iter height (fun y => iter width (polar_pixel n step bilinear directed modulus angle width size hw hh y)) (repeat 0 (hw * hh * n * 2))) in E.
    rewrite E. cbn [obind]. exists b. split; [reflexivity|exact Hb].
Qed.
End Polar.
