(** Proofs about HOG: the extraction of the features and its symmetry. *)
From Coq Require Import List Arith ZArith Lia Bool QArith Qcanon Qcabs Lqa Permutation.
From Verif Require Import Base Loop MserSort_Proofs ImOp_Spec ImOp_Proofs Rat Gauss_Model Gauss_Proofs Lbp_Model Lbp_Spec Vlad_Proofs.
From Verif Require Import Hog_Model Hog_Spec Hog_Proofs.
Import ListNotations.
Local Open Scope Qc_scope.

Section Extract.
Variables (n hw hh : nat) (v : variant) (transposed : bool) (isq : Qc -> Qc) (eps c02 c18 : Qc).
Variable h : nat -> nat -> nat -> Qc.
Hypothesis Hn : (0 < n)%nat.

(** ** norms *)
Lemma norms_ok s u0 : h_width s = hw -> h_height s = hh -> holds hw hh (2 * n) (h_bins s) h ->
  holds hw hh 1 (h_norm s) (fun x y _ => u0 x y) ->
  exists m, norms n s = Some m /\ holds hw hh 1 m (fun x y _ => u0 x y + cell_norm n h x y).
Proof.
  intros Ew Eh [Lb Vb] Hm. unfold norms. rewrite Ew, Eh. set (st := (hw * hh)%nat).
  set (sq := fun x y k => (h x y k + h x y (k + n)%nat) * (h x y k + h x y (k + n)%nat)).
  destruct (iter_inv (fun k m => holds hw hh 1 m (fun x y _ => u0 x y + sum 0 Qcplus k (fun k => sq x y k)))
    (fun k m => iter st (fun p m =>
      do h1 <- aget (h_bins s) (k * st + p);
      do h2 <- aget (h_bins s) (k * st + p + st * n);
      let h := (h1 + h2)%Qc in
      do a <- aget m p;
      aset m p (a + h * h)%Qc) m) n (h_norm s)) as (m & E & Hm').
  - apply (holds_ext _ _ _ _ _ _ Hm). intros. cbn [sum]. ring.
  - intros k m Lk Hk. destruct Hk as [Lm Vm].
    destruct (iter_inv (fun p m' => length m' = st /\
        (forall x y, (x < hw)%nat -> (y < hh)%nat -> nth (x + y * hw) m' 0 =
          nth (x + y * hw) m 0 + (if (x + y * hw <? p)%nat then sq x y k else 0)))
      (fun p m =>
      do h1 <- aget (h_bins s) (k * st + p);
      do h2 <- aget (h_bins s) (k * st + p + st * n);
      let h := (h1 + h2)%Qc in
      do a <- aget m p;
      aset m p (a + h * h)%Qc) st m) as (m' & E' & L' & V').
    + split; [unfold st; lia|]. intros. cbn. ring.
    + intros p m1 Lp [L1 V1].
      assert (D : exists x y, (x < hw)%nat /\ (y < hh)%nat /\ p = (x + y * hw)%nat).
      { assert (hw <> 0)%nat by (unfold st in Lp; lia). exists (p mod hw)%nat, (p / hw)%nat.
        split; [apply Nat.mod_upper_bound; lia|]. split; [apply Nat.div_lt_upper_bound; unfold st in Lp; lia|].
        rewrite (Nat.div_mod p hw) at 1 by lia. lia. }
      destruct D as (x & y & Lx & Ly & ->).
      pose proof (Vb x y k Lx Ly ltac:(lia)) as B1. pose proof (Vb x y (k + n)%nat Lx Ly ltac:(lia)) as B2. unfold pos in B1, B2.
      fold st in B1, B2, Lb.
      assert (P1 : (k * st + (x + y * hw) + st * n < st * (2 * n))%nat) by nia.
      rewrite (aget_nth (h_bins s) _ 0) by lia. cbn [obind]. rewrite (aget_nth (h_bins s) _ 0) by lia. cbn [obind].
      replace (k * st + (x + y * hw))%nat with (x + y * hw + k * st)%nat by lia.
      replace (x + y * hw + k * st + st * n)%nat with (x + y * hw + (k + n) * st)%nat by lia.
      rewrite B1, B2. cbv zeta. rewrite (aget_nth m1 _ 0) by lia. cbn [obind]. rewrite aset_lt by lia.
      eexists; split; [reflexivity|]. split; [rewrite upd_length; exact L1|]. intros x' y' Lx' Ly'.
      rewrite nth_upd by lia. destruct (Nat.eqb_spec (x' + y' * hw) (x + y * hw)) as [Ex|Ex].
      * assert (y' = y) by (clear - Lx Lx' Ex; nia). subst y'. assert (x' = x) by lia. subst x'.
        rewrite V1 by auto. rewrite Nat.ltb_irrefl. destruct (Nat.ltb_spec (x + y * hw) (x + y * hw + 1)); [|lia]. unfold sq. ring.
      * rewrite V1 by auto. destruct (Nat.ltb_spec (x' + y' * hw) (x + y * hw)), (Nat.ltb_spec (x' + y' * hw) (x + y * hw + 1)); auto; lia.
    + exists m'. split; [exact E'|]. split; [unfold st in L'; lia|]. intros x y z Lx Ly Lz. unfold pos. replace z with 0%nat by lia.
      cbn [Nat.mul]. rewrite Nat.add_0_r. rewrite V' by auto. pose proof (cell_lt hw hh x y Lx Ly).
      destruct (Nat.ltb_spec (x + y * hw) st); [|unfold st in *; lia].
      pose proof (Vm x y 0%nat Lx Ly ltac:(lia)) as B. unfold pos in B. cbn [Nat.mul] in B. rewrite Nat.add_0_r in B. rewrite B.
      rewrite Nat.add_1_r. cbn [sum]. ring.
  - exists m. split; [exact E|]. exact Hm'.
Qed.

(** ** factors *)
Variable u : nat -> nat -> Qc.
Notation gain_ := (gain hw hh u transposed isq eps).

Lemma clamp_low m x : (x < m)%nat -> clamp m (Z.of_nat x + Z.of_nat 0 - 1 + Z.of_nat 0) = (x - 1)%nat.
Proof. intro. unfold clamp. lia. Qed.
Lemma clamp_mid m x : (x < m)%nat -> clamp m (Z.of_nat x + Z.of_nat 0 - 1 + Z.of_nat 1) = x.
Proof. intro. unfold clamp. lia. Qed.
Lemma clamp_mid' m x : (x < m)%nat -> clamp m (Z.of_nat x + Z.of_nat 1 - 1 + Z.of_nat 0) = x.
Proof. intro. unfold clamp. lia. Qed.
Lemma clamp_high m x : (x < m)%nat -> clamp m (Z.of_nat x + Z.of_nat 1 - 1 + Z.of_nat 1) = Nat.min (x + 1) (m - 1).
Proof. intro. unfold clamp. lia. Qed.

Lemma factors_ok m x y : holds hw hh 1 m (fun x y _ => u x y) -> (x < hw)%nat -> (y < hh)%nat ->
  factors transposed isq eps hw hh m x y = Some (map (gain_ x y) [0; 1; 2; 3]%nat).
Proof.
  intros [L V] Lx Ly. unfold factors.
  assert (A : forall a b, (a < hw)%nat -> (b < hh)%nat -> aget m (a + b * hw) = Some (u a b)).
  { intros a b La Lb. pose proof (cell_lt hw hh a b La Lb). rewrite (aget_nth m _ 0) by lia. f_equal.
    pose proof (V a b 0%nat La Lb ltac:(lia)) as B. unfold pos in B. cbn [Nat.mul] in B. now rewrite Nat.add_0_r in B. }
  set (xp := Nat.min (x + 1) (hw - 1)). set (yp := Nat.min (y + 1) (hh - 1)).
  assert (Lxp : (xp < hw)%nat) by (unfold xp; lia). assert (Lyp : (yp < hh)%nat) by (unfold yp; lia).
  rewrite !A by lia. cbn [obind]. f_equal. cbn [map].
  unfold gain, block_norm. 
  destruct transposed; repeat (apply f_equal2); try reflexivity; apply f_equal;
    cbn [Nat.div Nat.divmod Nat.modulo fst snd sum Nat.sub];
    rewrite ?clamp_low, ?clamp_mid, ?clamp_mid', ?clamp_high by auto; fold xp yp; ring.
Qed.

(** ** one cell *)
Definition feature (x y d : nat) : Qc :=
  match v with
  | Uoctti => uoctti n hw hh h u transposed isq eps c02 c18 x y d
  | DalalTriggs => dalal_triggs n hw hh h u transposed isq eps c02 x y d
  end.
Notation dim := (hog_dimension v n).
Definition set_ (x y d : nat) (val : Qc) (G : nat -> nat -> nat -> Qc) : nat -> nat -> nat -> Qc :=
  fun cx cy k => if (cx =? x)%nat && (cy =? y)%nat && (k =? d)%nat then val else G cx cy k.

Lemma put_ok planes out G x y d val : holds hw hh planes out G -> (x < hw)%nat -> (y < hh)%nat -> (d < planes)%nat ->
  exists out', aset out (pos hw hh x y d) val = Some out' /\ holds hw hh planes out' (set_ x y d val G).
Proof.
  intros [L V] Lx Ly Ld. pose proof (pos_lt hw hh planes x y d Lx Ly Ld). rewrite aset_lt by lia.
  eexists; split; [reflexivity|]. split; [rewrite upd_length; exact L|]. intros cx cy k L1 L2 L3.
  rewrite nth_upd by lia. unfold set_. destruct (Nat.eqb_spec (pos hw hh cx cy k) (pos hw hh x y d)) as [E|E].
  - apply pos_inj in E as (-> & -> & ->); auto. now rewrite !Nat.eqb_refl.
  - rewrite V by auto. destruct (Nat.eqb_spec cx x) as [->|]; [|reflexivity].
    destruct (Nat.eqb_spec cy y) as [->|]; [|reflexivity]. destruct (Nat.eqb_spec k d) as [->|]; [|reflexivity]. destruct (E eq_refl).
Qed.

Lemma saturate_ok z : qmin c02 z = saturate c02 z.
Proof.
  unfold qmin, saturate. destruct (qlt c02 z) eqn:E.
  - apply qlt_true in E. destruct (Qclt_le_dec c02 z) as [L|L]; [reflexivity|exfalso; qc_lra].
  - apply qlt_false in E. destruct (Qclt_le_dec c02 z) as [L|L]; [exfalso; qc_lra|reflexivity].
Qed.

Notation dv x y k j := (directed_value hw hh h u transposed isq eps c02 x y k j).
Notation uv x y k j := (undirected_value n hw hh h u transposed isq eps c02 x y k j).

(** channels whose orientation is below k are written *)
Definition planes_of (d : nat) : bool := match v with Uoctti => (d <? 3 * n)%nat | DalalTriggs => true end.
Definition progress (x y k : nat) (G : nat -> nat -> nat -> Qc) : nat -> nat -> nat -> Qc :=
  fun cx cy d => if (cx =? x)%nat && (cy =? y)%nat && planes_of d && (d mod n <? k)%nat then feature x y d else G cx cy d.

Lemma mod_plane k i : (k < n)%nat -> ((k + i * n) mod n = k)%nat.
Proof. intro L. rewrite Nat.mod_add by lia. now apply Nat.mod_small. Qed.
Lemma plane_of d i : (i * n <= d < i * n + n)%nat -> d = (d mod n + i * n)%nat.
Proof.
  intro B. assert (E : (d / n = i)%nat) by (symmetry; apply Nat.div_unique with (r := (d - i * n)%nat); lia).
  pose proof (Nat.div_mod d n ltac:(lia)). rewrite E in *. lia.
Qed.

Lemma orientation_ok s x y k t out G : h_width s = hw -> h_height s = hh -> holds hw hh (2 * n) (h_bins s) h ->
  (x < hw)%nat -> (y < hh)%nat -> (k < n)%nat ->
  t = map (fun j => sum 0 Qcplus k (fun k => uv x y k j)) [0; 1; 2; 3]%nat ->
  holds hw hh dim out (progress x y k G) ->
  exists t' out', extract_orientation n v c02 s (map (gain_ x y) [0; 1; 2; 3]%nat) (x + hw * y) k (t, out) = Some (t', out') /\
    t' = map (fun j => sum 0 Qcplus (k + 1) (fun k => uv x y k j)) [0; 1; 2; 3]%nat /\
    holds hw hh dim out' (progress x y (k + 1) G).
Proof.
  intros Ew Eh [Lb Vb] Lx Ly Lk -> Ho. unfold extract_orientation. rewrite Ew, Eh.
  assert (A : forall q, (q < 2 * n)%nat -> aget (h_bins s) (x + hw * y + hw * hh * q) = Some (h x y q)).
  { intros q Lq. pose proof (pos_lt hw hh (2 * n) x y q Lx Ly Lq) as P. replace (x + hw * y + hw * hh * q)%nat with (pos hw hh x y q) by (unfold pos; lia).
    rewrite (aget_nth _ _ 0) by lia. f_equal. now apply Vb. }
  rewrite !A by lia. cbn [obind]. cbv zeta. cbn [map combine fst snd]. rewrite !saturate_ok.
  replace (x + hw * y + hw * hh * k)%nat with (pos hw hh x y k) by (unfold pos; lia).
  assert (P1 : forall i, (pos hw hh x y k + i * (hw * hh) * n)%nat = pos hw hh x y (k + i * n)) by (intro; unfold pos; lia).
  assert (P1' : (pos hw hh x y k + hw * hh * n)%nat = pos hw hh x y (k + 1 * n)) by (unfold pos; lia).
  assert (P0 : k = (k + 0 * n)%nat) by lia.
  assert (U : forall j, saturate c02 (gain_ x y j * h x y k + gain_ x y j * h x y (k + n)) = uv x y k j).
  { intro j. unfold undirected_value. f_equal. ring. }
  rewrite !U.
  assert (Dv : forall q j, saturate c02 (gain_ x y j * h x y q) = dv x y q j) by reflexivity.
  rewrite !Dv.
  assert (Et : [sum 0 Qcplus k (fun k0 : nat => uv x y k0 0%nat) + uv x y k 0%nat;
      sum 0 Qcplus k (fun k0 : nat => uv x y k0 1%nat) + uv x y k 1%nat;
      sum 0 Qcplus k (fun k0 : nat => uv x y k0 2%nat) + uv x y k 2%nat;
      sum 0 Qcplus k (fun k0 : nat => uv x y k0 3%nat) + uv x y k 3%nat] =
      map (fun j => sum 0 Qcplus (k + 1) (fun k => uv x y k j)) [0; 1; 2; 3]%nat).
  { cbn [map]. rewrite Nat.add_1_r. reflexivity. }
  rewrite Et. clear Et.
  (* final check: writing feature d in each plane of orientation k *)
  assert (Fin : forall out' G', holds hw hh dim out' G' ->
     (forall cx cy d, (cx < hw)%nat -> (cy < hh)%nat -> (d < dim)%nat ->
       G' cx cy d = if (cx =? x)%nat && (cy =? y)%nat && planes_of d && (d mod n =? k)%nat then feature x y d else progress x y k G cx cy d) ->
     holds hw hh dim out' (progress x y (k + 1) G)).
  { intros out' G' Hg Eg. apply (holds_ext _ _ _ _ _ _ Hg). intros cx cy d L1 L2 L3. rewrite Eg by auto. unfold progress.
    destruct ((cx =? x)%nat && (cy =? y)%nat && planes_of d); cbn [andb]; [|reflexivity].
    destruct (Nat.eqb_spec (d mod n) k), (Nat.ltb_spec (d mod n) (k + 1)), (Nat.ltb_spec (d mod n) k); auto; lia. }
  assert (Md : forall i, ((k + i * n) mod n = k)%nat) by (intro; now apply mod_plane).
  unfold feature, planes_of in *. destruct v; cbn [hog_dimension] in *.
  - (* Uoctti *)
    assert (F0 : uoctti n hw hh h u transposed isq eps c02 c18 x y (k + 0 * n) = half_sum [dv x y k 0; dv x y k 1; dv x y k 2; dv x y k 3]%nat).
    { unfold uoctti. destruct (Nat.ltb_spec (k + 0 * n) (2 * n)); [|lia]. rewrite <- P0. unfold half_sum. cbn [nth sum]. ring. }
    assert (F1 : uoctti n hw hh h u transposed isq eps c02 c18 x y (k + 1 * n) = half_sum [dv x y (k + n) 0; dv x y (k + n) 1; dv x y (k + n) 2; dv x y (k + n) 3]%nat).
    { unfold uoctti. destruct (Nat.ltb_spec (k + 1 * n) (2 * n)); [|lia]. rewrite Nat.mul_1_l. unfold half_sum. cbn [nth sum]. ring. }
    assert (F2 : uoctti n hw hh h u transposed isq eps c02 c18 x y (k + 2 * n) = half_sum [uv x y k 0; uv x y k 1; uv x y k 2; uv x y k 3]%nat).
    { unfold uoctti. destruct (Nat.ltb_spec (k + 2 * n) (2 * n)); [lia|]. destruct (Nat.ltb_spec (k + 2 * n) (3 * n)); [|lia].
      replace (k + 2 * n - 2 * n)%nat with k by lia. unfold half_sum. cbn [nth sum]. ring. }
    rewrite <- F0, <- F1, <- F2, P1', P1.
    replace (pos hw hh x y k) with (pos hw hh x y (k + 0 * n)) by (f_equal; lia).
    destruct (put_ok (3 * n + 4) out _ x y (k + 0 * n) (uoctti n hw hh h u transposed isq eps c02 c18 x y (k + 0 * n)) Ho Lx Ly ltac:(lia)) as (o1 & E1 & H1). rewrite E1. cbn [obind].
    destruct (put_ok (3 * n + 4) o1 _ x y (k + 1 * n) (uoctti n hw hh h u transposed isq eps c02 c18 x y (k + 1 * n)) H1 Lx Ly ltac:(lia)) as (o2 & E2 & H2). rewrite E2. cbn [obind].
    destruct (put_ok (3 * n + 4) o2 _ x y (k + 2 * n) (uoctti n hw hh h u transposed isq eps c02 c18 x y (k + 2 * n)) H2 Lx Ly ltac:(lia)) as (o3 & E3 & H3). rewrite E3. cbn [obind].
    eexists _, o3. split; [reflexivity|]. split; [reflexivity|]. apply (Fin _ _ H3). clear Fin. intros cx cy d L1 L2 L3. unfold set_.
    destruct (Nat.eqb_spec cx x) as [->|]; [|reflexivity]. destruct (Nat.eqb_spec cy y) as [->|]; [|reflexivity]. cbn [andb].
    destruct (Nat.eqb_spec d (k + 2 * n)) as [->|N2].
    { rewrite Md. destruct (Nat.ltb_spec (k + 2 * n) (3 * n)); [|lia]. now rewrite Nat.eqb_refl. }
    destruct (Nat.eqb_spec d (k + 1 * n)) as [->|N1].
    { rewrite Md. destruct (Nat.ltb_spec (k + 1 * n) (3 * n)); [|lia]. now rewrite Nat.eqb_refl. }
    destruct (Nat.eqb_spec d (k + 0 * n)) as [->|N0].
    { rewrite Md. destruct (Nat.ltb_spec (k + 0 * n) (3 * n)); [|lia]. now rewrite Nat.eqb_refl. }
    destruct (Nat.ltb_spec d (3 * n)) as [L|L]; [|reflexivity]. cbn [andb].
    destruct (Nat.eqb_spec (d mod n) k) as [Em|]; [|reflexivity]. exfalso.
    destruct (Nat.lt_ge_cases d n); [pose proof (plane_of d 0 ltac:(lia)); lia|].
    destruct (Nat.lt_ge_cases d (2 * n)); [pose proof (plane_of d 1 ltac:(lia)); lia|].
    pose proof (plane_of d 2 ltac:(lia)). lia.
  - (* Dalal-Triggs *)
    assert (Fi : forall i, uv x y k i = dalal_triggs n hw hh h u transposed isq eps c02 x y (k + i * n)).
    { intro i. unfold dalal_triggs. rewrite Md. f_equal. rewrite Nat.div_add by lia. rewrite Nat.div_small by lia. reflexivity. }
    cbn [nth]. rewrite !Fi, P1', !P1. replace (pos hw hh x y k) with (pos hw hh x y (k + 0 * n)) by (f_equal; lia).
    destruct (put_ok (4 * n) out _ x y (k + 0 * n) (dalal_triggs n hw hh h u transposed isq eps c02 x y (k + 0 * n)) Ho Lx Ly ltac:(lia)) as (o1 & E1 & H1). rewrite E1. cbn [obind].
    destruct (put_ok (4 * n) o1 _ x y (k + 1 * n) (dalal_triggs n hw hh h u transposed isq eps c02 x y (k + 1 * n)) H1 Lx Ly ltac:(lia)) as (o2 & E2 & H2). rewrite E2. cbn [obind].
    destruct (put_ok (4 * n) o2 _ x y (k + 2 * n) (dalal_triggs n hw hh h u transposed isq eps c02 x y (k + 2 * n)) H2 Lx Ly ltac:(lia)) as (o3 & E3 & H3). rewrite E3. cbn [obind].
    destruct (put_ok (4 * n) o3 _ x y (k + 3 * n) (dalal_triggs n hw hh h u transposed isq eps c02 x y (k + 3 * n)) H3 Lx Ly ltac:(lia)) as (o4 & E4 & H4). rewrite E4. cbn [obind].
    eexists _, o4. split; [reflexivity|]. split; [reflexivity|]. apply (Fin _ _ H4). clear Fin. intros cx cy d L1 L2 L3. unfold set_.
    destruct (Nat.eqb_spec cx x) as [->|]; [|reflexivity]. destruct (Nat.eqb_spec cy y) as [->|]; [|reflexivity]. cbn [andb].
    destruct (Nat.eqb_spec d (k + 3 * n)) as [->|N3]; [rewrite Md; now rewrite Nat.eqb_refl|].
    destruct (Nat.eqb_spec d (k + 2 * n)) as [->|N2]; [rewrite Md; now rewrite Nat.eqb_refl|].
    destruct (Nat.eqb_spec d (k + 1 * n)) as [->|N1]; [rewrite Md; now rewrite Nat.eqb_refl|].
    destruct (Nat.eqb_spec d (k + 0 * n)) as [->|N0]; [rewrite Md; now rewrite Nat.eqb_refl|].
    destruct (Nat.eqb_spec (d mod n) k) as [Em|]; [|reflexivity]. exfalso.
    destruct (Nat.lt_ge_cases d n); [pose proof (plane_of d 0 ltac:(lia)); lia|].
    destruct (Nat.lt_ge_cases d (2 * n)); [pose proof (plane_of d 1 ltac:(lia)); lia|].
    destruct (Nat.lt_ge_cases d (3 * n)); [pose proof (plane_of d 2 ltac:(lia)); lia|].
    pose proof (plane_of d 3 ltac:(lia)). lia.
Qed.

Lemma cell_ok s m x y out G : h_width s = hw -> h_height s = hh -> holds hw hh (2 * n) (h_bins s) h ->
  holds hw hh 1 m (fun x y _ => u x y) -> (x < hw)%nat -> (y < hh)%nat -> holds hw hh dim out G ->
  exists out', extract_cell n v transposed isq eps c02 c18 s m x y out = Some out' /\
    holds hw hh dim out' (fun cx cy d => if (cx =? x)%nat && (cy =? y)%nat then feature x y d else G cx cy d).
Proof.
  intros Ew Eh Hb Hm Lx Ly Ho. unfold extract_cell. rewrite Ew, Eh. rewrite (factors_ok m x y Hm Lx Ly). cbn [obind].
  destruct (iter_inv (fun k '(t, out') => t = map (fun j => sum 0 Qcplus k (fun k => uv x y k j)) [0; 1; 2; 3]%nat /\
      holds hw hh dim out' (progress x y k G))
    (extract_orientation n v c02 s (map (gain_ x y) [0; 1; 2; 3]%nat) (x + hw * y)) n (repeat 0 4, out)) as ([t o1] & E1 & Et & H1).
  - split; [reflexivity|]. apply (holds_ext _ _ _ _ _ _ Ho). intros. unfold progress. now rewrite andb_false_r.
  - intros k [t o] Lk [Et Hk]. destruct (orientation_ok s x y k t o G Ew Eh Hb Lx Ly Lk Et Hk) as (t' & o' & E & Et' & H').
    exists (t', o'). auto.
  - rewrite E1. cbn [obind].
    assert (Mn : forall d, (d mod n <? n)%nat = true) by (intro; apply Nat.ltb_lt, Nat.mod_upper_bound; lia).
    unfold progress, feature, planes_of in *. destruct v; cbn [hog_dimension] in *.
    + destruct (iter_inv (fun j o => holds hw hh (3 * n + 4) o (fun cx cy d => if (cx =? x)%nat && (cy =? y)%nat && (d <? 3 * n + j)%nat
          then uoctti n hw hh h u transposed isq eps c02 c18 x y d else G cx cy d))
        (fun j out => aset out (x + hw * y + hw * hh * n + 2 * (hw * hh) * n + j * (hw * hh)) (c18 * nth j t 0)) 4 o1) as (o2 & E2 & H2).
      * apply (holds_ext _ _ _ _ _ _ H1). intros cx cy d L1 L2 L3. rewrite Mn, andb_true_r, Nat.add_0_r. reflexivity.
      * intros j o Lj Hj. replace (x + hw * y + hw * hh * n + 2 * (hw * hh) * n + j * (hw * hh))%nat with (pos hw hh x y (3 * n + j)) by (unfold pos; lia).
        assert (Fj : c18 * nth j t 0 = uoctti n hw hh h u transposed isq eps c02 c18 x y (3 * n + j)).
        { unfold uoctti. destruct (Nat.ltb_spec (3 * n + j) (2 * n)); [lia|]. destruct (Nat.ltb_spec (3 * n + j) (3 * n)); [lia|].
          replace (3 * n + j - 3 * n)%nat with j by lia. f_equal. rewrite Et. do 4 (destruct j as [|j]; [reflexivity|]). lia. }
        rewrite Fj. pose proof (pos_lt hw hh (3 * n + 4) x y (3 * n + j) Lx Ly ltac:(lia)) as P. destruct Hj as [Lo Vo]. rewrite aset_lt by lia.
        eexists; split; [reflexivity|]. split; [rewrite upd_length; exact Lo|]. intros cx cy d L1 L2 L3. rewrite nth_upd by lia.
        destruct (Nat.eqb_spec (pos hw hh cx cy d) (pos hw hh x y (3 * n + j))) as [E|E].
        -- apply pos_inj in E as (-> & -> & ->); auto. rewrite !Nat.eqb_refl. destruct (Nat.ltb_spec (3 * n + j) (3 * n + (j + 1))); [reflexivity|lia].
        -- rewrite Vo by auto. destruct (Nat.eqb_spec cx x) as [->|]; [|reflexivity]. destruct (Nat.eqb_spec cy y) as [->|]; [|reflexivity]. cbn [andb].
           destruct (Nat.ltb_spec d (3 * n + j)), (Nat.ltb_spec d (3 * n + (j + 1))); auto; try lia.
           replace d with (3 * n + j)%nat in E by lia. destruct (E eq_refl).
      * exists o2. split; [exact E2|]. apply (holds_ext _ _ _ _ _ _ H2). intros cx cy d L1 L2 L3.
        destruct (Nat.ltb_spec d (3 * n + 4)); [|lia]. now rewrite andb_true_r.
    + exists o1. split; [reflexivity|]. apply (holds_ext _ _ _ _ _ _ H1). intros cx cy d L1 L2 L3. rewrite Mn, !andb_true_r. reflexivity.
Qed.
End Extract.

Lemma extract_ok n hw hh v transposed isq eps c02 c18 h u0 s out : (0 < n)%nat -> h_width s = hw -> h_height s = hh ->
  holds hw hh (2 * n) (h_bins s) h -> holds hw hh 1 (h_norm s) (fun x y _ => u0 x y) ->
  length out = (hw * hh * hog_dimension v n)%nat ->
  let u x y := u0 x y + cell_norm n h x y in
  exists s' out', extract n v transposed isq eps c02 c18 s out = Some (s', out') /\
    h_width s' = hw /\ h_height s' = hh /\ h_bins s' = h_bins s /\ holds hw hh 1 (h_norm s') (fun x y _ => u x y) /\
    holds hw hh (hog_dimension v n) out' (feature n hw hh v transposed isq eps c02 c18 h u).
Proof.
  intros Hn Ew Eh Hb Hm Lo u. unfold extract. destruct (norms_ok n hw hh h Hn s u0 Ew Eh Hb Hm) as (m & E & Hm').
  rewrite E. cbn [obind]. rewrite Ew, Eh. fold u in Hm'.
  set (F := feature n hw hh v transposed isq eps c02 c18 h u).
  set (G0 := fun cx cy d => nth (pos hw hh cx cy d) out 0).
  destruct (iter_inv (fun y o => holds hw hh (hog_dimension v n) o (fun cx cy d => if (cy <? y)%nat then F cx cy d else G0 cx cy d))
    (fun y out => iter hw (fun x out => extract_cell n v transposed isq eps c02 c18 s m x y out) out) hh out) as (o & E' & Ho).
  - split; [exact Lo|]. reflexivity.
  - intros y o Ly Hy.
    destruct (iter_inv (fun x o => holds hw hh (hog_dimension v n) o (fun cx cy d => if (cy <? y)%nat || ((cy =? y)%nat && (cx <? x)%nat) then F cx cy d else G0 cx cy d))
      (fun x out => extract_cell n v transposed isq eps c02 c18 s m x y out) hw o) as (o1 & E1 & H1).
    + apply (holds_ext _ _ _ _ _ _ Hy). intros. now rewrite andb_false_r, orb_false_r.
    + intros x o1 Lx H1. destruct (cell_ok n hw hh v transposed isq eps c02 c18 h Hn u s m x y o1 _ Ew Eh Hb Hm' Lx Ly H1) as (o2 & E2 & H2).
      exists o2. split; [exact E2|]. apply (holds_ext _ _ _ _ _ _ H2). intros cx cy d L1 L2 L3.
      destruct (Nat.eqb_spec cx x) as [->|]; cbn [andb].
      * destruct (Nat.eqb_spec cy y) as [->|]; cbn [andb].
        -- destruct (Nat.ltb_spec x (x + 1)); [|lia]. now rewrite orb_true_r.
        -- reflexivity.
      * destruct (Nat.ltb_spec cx x), (Nat.ltb_spec cx (x + 1)); auto; lia.
    + exists o1. split; [exact E1|]. apply (holds_ext _ _ _ _ _ _ H1). intros cx cy d L1 L2 L3.
      destruct (Nat.ltb_spec cx hw); [|lia]. rewrite andb_true_r.
      destruct (Nat.ltb_spec cy y), (Nat.eqb_spec cy y), (Nat.ltb_spec cy (y + 1)); auto; lia.
  - rewrite E'. cbn [obind]. eexists _, o. split; [reflexivity|]. cbn [h_width h_height h_bins h_norm].
    do 3 (split; [reflexivity|]). split; [exact Hm'|]. apply (holds_ext _ _ _ _ _ _ Ho). intros cx cy d L1 L2 L3.
    destruct (Nat.ltb_spec cy hh); [reflexivity|lia].
Qed.
