(** Superpixels: initial centers, assignments, means and the energy. *)
From Coq Require Import List Arith ZArith Bool Lia QArith Qcanon Qcabs Lqa Qround.
From Verif Require Import Base Loop MserSort_Proofs ImOp_Spec ImOp_Proofs Rat Gauss_Model Gauss_Proofs.
From Verif Require Homker_Proofs.
From Verif Require Import Kmeans_Spec Kmeans_Proofs KmeansUpdate_Proofs KmeansEnergy_Proofs Slic_Model SlicTiles_Spec.
Import ListNotations.
Local Open Scope nat_scope.

Lemma grid_inv {S} (P : nat -> S -> Prop) (f : nat -> nat -> S -> option S) a b s : P 0 s ->
  (forall x y s, x < a -> y < b -> P (x + y * a) s -> exists s', f y x s = Some s' /\ P (x + y * a + 1) s') ->
  exists s', iter b (fun y s => iter a (fun x s => f y x s) s) s = Some s' /\ P (a * b) s'.
Proof.
  intros P0 B. destruct (iter_inv (fun y s => P (y * a) s) (fun y s => iter a (fun x s => f y x s) s) b s) as (s' & E & H).
  - exact P0.
  - intros y s1 Hy P1. destruct (iter_inv (fun x s => P (x + y * a) s) (fun x s => f y x s) a s1) as (s2 & E2 & P2).
    + exact P1.
    + intros x s2 Hx P2. destruct (B x y s2 Hx Hy P2) as (s3 & E3 & P3). exists s3. split; [exact E3|].
      replace (x + 1 + y * a) with (x + y * a + 1) by lia. exact P3.
    + exists s2. split; [exact E2|]. replace ((y + 1) * a) with (a + y * a) by lia. exact P2.
  - exists s'. split; [exact E|]. replace (a * b) with (b * a) by lia. exact H.
Qed.
Lemma ksum_two n f : ksum (2 + n) f = (f 0%nat + f 1%nat + ksum n (fun k => f (S (S k))))%Qc.
Proof.
  rewrite (sum_app _ _ _ _ _ _ Qcrt 2 n f). cbn [sum]. cbn [Nat.add]. ring.
Qed.
Lemma cell_eq m r i r' i' : i < m -> i' < m -> m * r + i = m * r' + i' -> r = r' /\ i = i'.
Proof. intros H H' E. destruct (Nat.lt_trichotomy r r') as [L|[->|L]]; [nia|lia|nia]. Qed.

Section Tiles.
Variables (w h K rs : nat) (reg : Qc) (image : list Qc).
Hypothesis W : 0 < w.
Hypothesis H : 0 < h.
Hypothesis RS : 0 < rs.
Hypothesis LI : length image = w * h * K.
Local Notation n := (w * h).
Local Notation X := (numX w rs).
Local Notation Y := (numY h rs).
Local Notation R := (X * Y).
Local Notation ft := (feature w h image).
Local Notation cst := (cost w h K rs reg image).

Lemma coords x y : x < w -> (x + y * w) mod w = x /\ (x + y * w) / w = y.
Proof. intros L. rewrite Nat.mod_add, Nat.div_add, Nat.mod_small, Nat.div_small by lia. lia. Qed.
Lemma inside x y : x < w -> y < h -> x + y * w < n.
Proof. nia. Qed.
Lemma atimage_ok x y k : x < w -> y < h -> k < K -> atimage w h image x y k = Some (ft (x + y * w) (2 + k)).
Proof.
  intros Hx Hy Hk. unfold atimage. pose proof (inside x y Hx Hy).
  replace (x + y * w + k * w * h) with (x + y * w + k * (w * h)) by lia. rewrite (aget_nth image _ 0%Qc) by nia. reflexivity.
Qed.

(** *** The number of tiles *)
Lemma tiles_bounds m : m <= tiles rs m * rs /\ tiles rs m * rs < m + rs.
Proof.
  unfold tiles. pose proof (Nat.div_mod (m + rs - 1) rs ltac:(lia)). pose proof (Nat.mod_upper_bound (m + rs - 1) rs ltac:(lia)). nia.
Qed.
Lemma tiles_lt m u : u < tiles rs m <-> u * rs < m.
Proof. pose proof (tiles_bounds m). split; intros L; nia. Qed.
Lemma tiles_le m : tiles rs m <= m.
Proof. pose proof (tiles_bounds m). nia. Qed.
Lemma regions_le : R <= n.
Proof. pose proof (tiles_le w). pose proof (tiles_le h). unfold numX, numY. nia. Qed.

(** *** Edges *)
Definition term (k p : nat) : Qc :=
  (gap false (ft (p - 1) (2 + k)) (ft (p + 1) (2 + k)) + gap false (ft (p + w) (2 + k)) (ft (p - w) (2 + k)))%Qc.
Definition inner (p : nat) : bool := (0 <? p mod w) && (p mod w + 1 <? w) && (0 <? p / w) && (p / w + 1 <? h).
Lemma edge_step_ok k y x e : k < K -> 1 <= y -> y + 1 < h -> 1 <= x -> x + 1 < w -> length e = n ->
  exists e', edge_step w h image k y x e = Some e' /\ length e' = n /\
    forall p, p < n -> nth p e' 0%Qc = (nth p e 0 + if p =? x + y * w then term k p else 0)%Qc.
Proof.
  intros Hk Y1 Y2 X1 X2 LE. unfold edge_step. rewrite !atimage_ok by lia. cbn [obind].
  assert (IN : x + y * w < n) by (apply inside; lia). rewrite (aget_nth e _ 0%Qc) by lia. cbn [obind]. rewrite aset_lt by lia.
  eexists. split; [reflexivity|]. split; [rewrite upd_length; exact LE|]. intros p Hp. rewrite nth_upd by lia.
  destruct (Nat.eqb_spec p (x + y * w)) as [->|NE]; [|ring].
  unfold term, gap. replace (x - 1 + y * w) with (x + y * w - 1) by lia. replace (x + 1 + y * w) with (x + y * w + 1) by lia.
  replace (x + (y + 1) * w) with (x + y * w + w) by lia. replace (x + (y - 1) * w) with (x + y * w - w) by nia. reflexivity.
Qed.
Lemma edge_map_ok : exists e, edge_map w h K image = Some e /\ length e = n /\ forall p, p < n -> nth p e 0%Qc = edge w h K image p.
Proof.
  unfold edge_map.
  match goal with |- context [iter K ?b ?s] => destruct (iter_inv (fun k e => length e = n /\ forall p, p < n -> nth p e 0%Qc = if inner p then ksum k (fun k => term k p) else 0%Qc) b K s) as (e & E & LE & V) end.
  - split; [apply repeat_length|]. intros p Hp. rewrite nth_repeat. destruct (inner p); reflexivity.
  - intros k e0 Hk (L0 & V0).
    destruct (le_lt_dec h 2) as [SM|SM].
    { replace (h - 2) with 0 by lia. cbn [iter_from]. exists e0. split; [reflexivity|]. split; [exact L0|]. intros p Hp. rewrite V0 by exact Hp.
      assert (I : inner p = false); [|rewrite I; reflexivity]. unfold inner. destruct (Nat.ltb_spec 0 (p / w)), (Nat.ltb_spec (p / w + 1) h); rewrite ?andb_false_r; try reflexivity. lia. }
    match goal with |- context [iter_from (h - 2) 1 ?b ?s] => destruct (iter_from_inv (fun y e => length e = n /\ forall p, p < n -> nth p e 0%Qc = (nth p e0 0 + if inner p && (p / w <? y)%nat then term k p else 0)%Qc) b (h - 1) (h - 2) 1 s) as (e & E & LE & V) end.
    + lia.
    + split; [exact L0|]. intros p Hp. unfold inner. destruct (Nat.ltb_spec 0 (p / w)), (Nat.ltb_spec (p / w) 1); rewrite ?andb_false_r; cbn [andb]; try ring; try lia.
    + intros y e1 Y1 Y2 (L1 & V1).
      destruct (le_lt_dec w 2) as [SW|SW].
      { replace (w - 2) with 0 by lia. cbn [iter_from]. exists e1. split; [reflexivity|]. split; [exact L1|]. intros p Hp. rewrite V1 by exact Hp.
        assert (I : inner p = false); [|rewrite I; reflexivity]. unfold inner. destruct (Nat.ltb_spec 0 (p mod w)), (Nat.ltb_spec (p mod w + 1) w); cbn [andb]; try reflexivity. lia. }
      match goal with |- context [iter_from (w - 2) 1 ?b ?s] => destruct (iter_from_inv (fun x e => length e = n /\ forall p, p < n -> nth p e 0%Qc = (nth p e1 0 + if inner p && ((p / w =? y) && (p mod w <? x))%nat then term k p else 0)%Qc) b (w - 1) (w - 2) 1 s) as (e & E & LE & V) end.
      * lia.
      * split; [exact L1|]. intros p Hp. unfold inner. destruct (Nat.ltb_spec 0 (p mod w)), (Nat.ltb_spec (p mod w) 1); rewrite ?andb_false_r; cbn [andb]; rewrite ?andb_false_r; try ring; try lia.
      * intros x e2 X1 X2 (L2 & V2). destruct (edge_step_ok k y x e2 Hk Y1 ltac:(lia) X1 ltac:(lia) L2) as (e3 & E3 & L3 & V3).
        exists e3. split; [exact E3|]. split; [exact L3|]. intros p Hp. rewrite V3, V2 by exact Hp. rewrite <- Qcplus_assoc. f_equal.
        pose proof (Nat.div_mod p w ltac:(lia)) as DM. destruct (coords x y ltac:(lia)) as [C1 C2].
        destruct (Nat.eqb_spec p (x + y * w)) as [->|NE].
        -- unfold inner. rewrite C1, C2, Nat.eqb_refl. destruct (Nat.ltb_spec x x); [lia|]. destruct (Nat.ltb_spec x (x + 1)); [|lia].
           destruct (Nat.ltb_spec 0 x); [|lia]. destruct (Nat.ltb_spec (x + 1) w); [|lia]. destruct (Nat.ltb_spec 0 y); [|lia]. destruct (Nat.ltb_spec (y + 1) h); [|lia].
           cbn [andb]. ring.
        -- rewrite Qcplus_0_r. destruct (inner p); [|reflexivity]. cbn [andb]. destruct (Nat.eqb_spec (p / w) y) as [EY|]; [|reflexivity]. cbn [andb].
           destruct (Nat.ltb_spec (p mod w) x), (Nat.ltb_spec (p mod w) (x + 1)); try reflexivity; try lia.
      * exists e. split; [exact E|]. split; [exact LE|]. intros p Hp. rewrite V, V1 by exact Hp. rewrite <- Qcplus_assoc. f_equal.
        destruct (inner p) eqn:I; cbn [andb]; [|ring]. unfold inner in I. rewrite !andb_true_iff, !Nat.ltb_lt in I.
        destruct (Nat.eqb_spec (p / w) y), (Nat.ltb_spec (p / w) y), (Nat.ltb_spec (p / w) (y + 1)), (Nat.ltb_spec (p mod w) (w - 1)); cbn [andb]; try lia; ring.
    + exists e. split; [exact E|]. split; [exact LE|]. intros p Hp. rewrite V, V0 by exact Hp.
      destruct (inner p) eqn:I; cbn [andb]; [|ring]. unfold inner in I. rewrite !andb_true_iff, !Nat.ltb_lt in I.
      destruct (Nat.ltb_spec (p / w) (h - 1)); [|lia]. replace (k + 1) with (S k) by lia. cbn [sum]. reflexivity.
  - exists e. split; [exact E|]. split; [exact LE|]. intros p Hp. rewrite V by exact Hp. reflexivity.
Qed.

(** *** Initial centers *)

(** a search for the least value over a set that grows *)
Definition least (D : nat -> nat -> Prop) (f : nat -> Qc) (st : nat * nat * option Qc) : Prop :=
  let '(cx, cy, best) := st in
  match best with
  | None => forall x y, ~ D x y
  | Some b => D cx cy /\ b = f (cx + cy * w) /\ forall x y, D x y -> (b <= f (x + y * w)%nat)%Qc
  end.
Lemma least_ext D D' f st : (forall x y, D x y <-> D' x y) -> least D f st -> least D' f st.
Proof.
  intros E. destruct st as [[cx cy] [b|]]; cbn [least].
  - intros (A & B & C). split; [apply E; exact A|]. split; [exact B|]. intros x y Dxy. apply C. apply E. exact Dxy.
  - intros A x y Dxy. apply (A x y). apply E. exact Dxy.
Qed.
Lemma flattest_ok e x y : length e = n -> x < w -> y < h -> exists cx cy, flattest w h e x y = Some (cx, cy) /\
  around w h x y (cx + cy * w) /\ cx < w /\ cy < h /\ forall q, around w h x y q -> (nth (cx + cy * w) e 0 <= nth q e 0)%Qc.
Proof.
  intros LE Hx Hy. unfold flattest. set (xe := Nat.min (w - 1) (x + 1)). set (ye := Nat.min (h - 1) (y + 1)).
  assert (XE : x <= xe < w) by (unfold xe; lia). assert (YE : y <= ye < h) by (unfold ye; lia).
  set (f := fun q => nth q e 0%Qc).
  match goal with |- context [iter_from ?m (y - 1) ?b ?s] => destruct (iter_from_inv (fun yp st =>
    least (fun x' y' => x - 1 <= x' <= xe /\ y - 1 <= y' < yp) f st) b (ye + 1) m (y - 1) s) as ([[cx cy] best] & E & L) end.
  - lia.
  - cbn [least]. intros; lia.
  - intros yp st Y1 Y2 L.
    match goal with |- context [iter_from ?m (x - 1) ?b ?s] => destruct (iter_from_inv (fun xp st =>
      least (fun x' y' => x - 1 <= x' <= xe /\ (y - 1 <= y' < yp \/ y' = yp /\ x' < xp)) f st) b (xe + 1) m (x - 1) s) as (st' & E' & L') end.
    + lia.
    + eapply least_ext; [|exact L]. intros; cbv beta; lia.
    + clear L st. intros xp [[cx cy] best] X1 X2 L. pose proof (inside xp yp ltac:(lia) ltac:(lia)) as IN.
      rewrite (aget_nth e _ 0%Qc) by lia. cbn [obind]. eexists. split; [reflexivity|]. change (nth (xp + yp * w) e 0%Qc) with (f (xp + yp * w)).
      destruct best as [b|]; cbn [least] in L.
      * destruct L as (D & -> & M). destruct (qlt (f (xp + yp * w)) (f (cx + cy * w))) eqn:Q; cbn [least].
        -- apply qlt_true in Q. split; [lia|]. split; [reflexivity|]. intros x' y' D'.
           destruct (Nat.eq_dec y' yp) as [->|]; [destruct (Nat.eq_dec x' xp) as [->|]; [apply Qcle_refl|]|];
             (eapply Qcle_trans; [apply Qclt_le_weak; exact Q|]; apply M; lia).
        -- apply qlt_false in Q. split; [lia|]. split; [reflexivity|]. intros x' y' D'.
           destruct (Nat.eq_dec y' yp) as [->|]; [destruct (Nat.eq_dec x' xp) as [->|]; [exact Q|]|]; apply M; lia.
      * cbn [least]. split; [lia|]. split; [reflexivity|]. intros x' y' D'.
        destruct (Nat.eq_dec y' yp) as [E1|]; [destruct (Nat.eq_dec x' xp) as [E2|]; [subst; apply Qcle_refl|]|]; exfalso; apply (L x' y'); lia.
    + exists st'. split; [exact E'|]. eapply least_ext; [|exact L']. intros; cbv beta; lia.
  - rewrite E. cbn [obind]. destruct best as [b|]; cbn [least] in L.
    2:{ exfalso. apply (L x y). lia. }
    destruct L as (D & -> & M). exists cx, cy. split; [reflexivity|].
    destruct (coords cx cy ltac:(lia)) as [C1 C2]. pose proof (inside cx cy ltac:(lia) ltac:(lia)) as IN.
    split; [unfold around; rewrite C1, C2; lia|]. split; [lia|]. split; [lia|]. intros q (Q1 & Q2 & Q3 & Q4 & Q5).
    pose proof (Nat.div_mod q w ltac:(lia)) as DM. pose proof (Nat.mod_upper_bound q w ltac:(lia)) as MU.
    assert (q / w < h) by (apply Nat.div_lt_upper_bound; lia).
    specialize (M (q mod w) (q / w) ltac:(lia)). unfold f in M. replace (q mod w + q / w * w) with q in M by lia. exact M.
Qed.
Lemma center_at_ok cx cy cs : cx < w -> cy < h -> center_at w h K image cx cy cs = Some (cs ++ map (ft (cx + cy * w)) (seq 0 (2 + K))).
Proof.
  intros Hx Hy. unfold center_at. destruct (coords cx cy Hx) as [C1 C2].
  match goal with |- iter K ?b ?s = _ => destruct (iter_inv (fun k l => l = cs ++ map (ft (cx + cy * w)) (seq 0 (2 + k))) b K s) as (l & -> & ->) end.
  - cbn [seq map Nat.add feature]. rewrite C1, C2. reflexivity.
  - intros k l Hk ->. rewrite atimage_ok by assumption. cbn [obind]. eexists. split; [reflexivity|].
    replace (2 + (k + 1)) with ((2 + k) + 1) by lia. rewrite (seq_app (2 + k) 1), map_app, app_assoc. reflexivity.
  - reflexivity.
Qed.
Lemma nth_map_feature (f : nat -> Qc) m i : i < m -> nth i (map f (seq 0 m)) 0%Qc = f i.
Proof.
  intros L. rewrite (nth_indep _ 0%Qc (f 0)) by (rewrite map_length, seq_length; exact L). rewrite map_nth, seq_nth by exact L. reflexivity.
Qed.
Lemma nominal_ok m u : middle rs m u (nominal rs u m).
Proof.
  exists ((rs * (2 * u + 1) + 1) / 2). split; [|reflexivity]. set (v := rs * (2 * u + 1) + 1).
  pose proof (Nat.div_mod v 2 ltac:(lia)). pose proof (Nat.mod_upper_bound v 2 ltac:(lia)). lia.
Qed.
Lemma init_centers_ok e : length e = n -> (forall p, p < n -> nth p e 0%Qc = edge w h K image p) ->
  exists cs, init_centers w h K rs image e = Some cs /\ length cs = (2 + K) * R /\
    forall u v, u < X -> v < Y -> seed w h K rs image cs X u v.
Proof.
  intros LE EV. unfold init_centers.
  match goal with |- context [iter Y (fun v c1 => iter X (fun u c2 => @?f v u c2) c1) ?s0] =>
    destruct (grid_inv (fun j cs => length cs = (2 + K) * j /\ forall u v, u < X -> u + v * X < j -> seed w h K rs image cs X u v) f X Y s0) as (cs & E & L & V) end.
  - split; [cbn [length]; lia|]. intros; lia.
  - intros u v cs Hu Hv (L & V).
    destruct (flattest_ok e (nominal rs u w) (nominal rs v h) LE) as (cx & cy & -> & A & Hx & Hy & M); [unfold nominal; lia|unfold nominal; lia|].
    cbn [obind]. rewrite center_at_ok by assumption. eexists. split; [reflexivity|].
    assert (LM : length (map (ft (cx + cy * w)) (seq 0 (2 + K))) = 2 + K) by (rewrite map_length, seq_length; reflexivity).
    split; [rewrite app_length, LM, L; lia|].
    intros u' v' Hu' Hj. destruct (Nat.eq_dec (u' + v' * X) (u + v * X)) as [EQ|NE].
    + assert (u' = u /\ v' = v) as [-> ->].
      { destruct (cell_eq X v' u' v u Hu' Hu) as [-> ->]; [lia|auto]. }
      exists (nominal rs u w), (nominal rs v h), (cx + cy * w). split; [apply nominal_ok|]. split; [apply nominal_ok|]. split; [exact A|].
      split; [|intros i Hi; unfold coord; rewrite app_nth2 by (rewrite L; lia); rewrite L; replace ((2 + K) * (u + v * X) + i - (2 + K) * (u + v * X)) with i by lia; apply nth_map_feature; exact Hi].
      intros q Q. specialize (M q Q). rewrite !EV in M by (try apply Q; apply inside; assumption). exact M.
    + destruct (V u' v' Hu' ltac:(lia)) as (x & y & c & M1 & M2 & A' & M' & F). exists x, y, c. split; [exact M1|]. split; [exact M2|]. split; [exact A'|]. split; [exact M'|].
      intros i Hi. rewrite <- F by exact Hi. unfold coord. apply app_nth1. rewrite L. nia.
  - exists cs. split; [exact E|]. split; [exact L|]. intros u v Hu Hv. apply V; [exact Hu|]. nia.
Qed.

(** *** Assignments *)
Lemma distance_ok cs x y r : length cs = (2 + K) * R -> r < R -> x < w -> y < h ->
  distance w h K rs reg image cs x y r = Some (cst cs (x + y * w) r).
Proof.
  intros LC Hr Hx Hy. unfold distance. rewrite !(aget_nth cs _ 0%Qc) by nia. cbn [obind].
  match goal with |- context [iter K ?b ?s] => destruct (iter_inv (fun k acc => acc = ksum k (fun k => gap false (ft (x + y * w) (S (S k))) (coord K cs r (S (S k))))) b K s) as (acc & -> & ->) end.
  - reflexivity.
  - intros k acc Hk ->. rewrite (aget_nth cs _ 0%Qc) by nia. cbn [obind]. rewrite atimage_ok by assumption. cbn [obind]. eexists. split; [reflexivity|].
    replace (k + 1) with (S k) by lia. cbn [sum]. f_equal. unfold gap, coord. replace ((2 + K) * r + S (S k)) with ((2 + K) * r + k + 2) by lia. reflexivity.
  - cbn [obind]. f_equal. unfold cost. rewrite ksum_two.
    rewrite (qsum_ext K (fun k => weight rs reg (S (S k)) * _)%Qc (fun k => gap false (ft (x + y * w) (S (S k))) (coord K cs r (S (S k))))).
    2:{ intros k Hk. unfold weight. cbn [Nat.ltb Nat.leb]. ring. }
    unfold weight. cbn [Nat.ltb Nat.leb feature]. destruct (coords x y Hx) as [-> ->]. unfold gap, coord, factor. rewrite Nat.add_0_r. ring.
Qed.
Lemma tile_bounds x : (2 * Z.of_nat rs * tile rs x <= 2 * Z.of_nat x - Z.of_nat rs < 2 * Z.of_nat rs * (tile rs x + 1))%Z.
Proof.
  unfold tile. set (a := (2 * Z.of_nat x - Z.of_nat rs)%Z). set (b := (2 * Z.of_nat rs)%Z).
  pose proof (Z.div_mod a b ltac:(lia)). pose proof (Z.mod_pos_bound a b ltac:(lia)). lia.
Qed.
(** the loop bounds give the nearby tiles *)
Lemma tile_range m x u : x < m -> (Z.max 0 (tile rs x) <= u < Z.min (Z.of_nat (tiles rs m) - 1) (tile rs x + 1) + 1)%Z <-> (0 <= u)%Z /\ near rs m x (Z.to_nat u).
Proof.
  intros L. pose proof (tile_bounds x) as B. unfold near. split.
  - intros U. pose proof (proj1 (tiles_lt m (Z.to_nat u)) ltac:(lia)) as T.
    assert (tile rs x = u \/ (tile rs x = u - 1)%Z) as [E|E] by lia; rewrite E in B; (split; [lia|split; [exact T|nia]]).
  - intros (U & T & N1 & N2). apply tiles_lt in T.
    assert (tile rs x <= u)%Z by nia. assert (u <= tile rs x + 1)%Z by nia. lia.
Qed.
Lemma tile_some m x : x < m -> (Z.max 0 (tile rs x) < Z.min (Z.of_nat (tiles rs m) - 1) (tile rs x + 1) + 1)%Z.
Proof.
  intros L. pose proof (tile_bounds x) as B. pose proof (tiles_bounds m) as T. assert (tile rs x < Z.of_nat (tiles rs m))%Z by nia.
  assert (-1 <= tile rs x)%Z by nia. nia.
Qed.
Definition search (p : nat) (cs : list Qc) (seg : list Z) (D : Z -> Z -> Prop) (st : list Z * option Qc) : Prop :=
  let (s, best) := st in
  length s = n /\ (forall q, q <> p -> nth q s 0%Z = nth q seg 0%Z) /\
  match best with
  | None => forall u v, ~ D u v
  | Some d => exists u v, D u v /\ nth p s 0%Z = (u + v * Z.of_nat X)%Z /\ d = cst cs p (Z.to_nat (u + v * Z.of_nat X)) /\
      forall u v, D u v -> (d <= cst cs p (Z.to_nat (u + v * Z.of_nat X)))%Qc
  end.
Lemma search_ext p cs seg D D' st : (forall u v, D u v <-> D' u v) -> search p cs seg D st -> search p cs seg D' st.
Proof.
  intros E. destruct st as [s [d|]]; cbn [search]; intros (A & B & C); (split; [exact A|split; [exact B|]]).
  - destruct C as (u & v & C1 & C2 & C3 & C4). exists u, v. split; [apply E; exact C1|]. split; [exact C2|]. split; [exact C3|]. intros u' v' D2. apply C4. apply E. exact D2.
  - intros u v D2. apply (C u v). apply E. exact D2.
Qed.
Lemma assign_pixel_ok cs x y seg : length cs = (2 + K) * R -> length seg = n -> x < w -> y < h ->
  exists seg' d, assign_pixel w h K rs reg image cs x y seg = Some (seg', Some d) /\ length seg' = n /\
    (forall q, q <> x + y * w -> nth q seg' 0%Z = nth q seg 0%Z) /\
    closest w h K rs reg image X cs seg' (x + y * w) /\ d = cst cs (x + y * w) (label_of seg' (x + y * w)).
Proof.
  intros LC LS Hx Hy. unfold assign_pixel. set (p := x + y * w). assert (Hp : p < n) by (apply inside; assumption).
  pose proof (tile_some h y Hy) as SV. pose proof (tile_some w x Hx) as SU. fold Y in SV. fold X in SU.
  set (ua := Z.max 0 (tile rs x)) in *. set (ub := (Z.min (Z.of_nat X - 1) (tile rs x + 1) + 1)%Z) in *.
  set (va := Z.max 0 (tile rs y)) in *. set (vb := (Z.min (Z.of_nat Y - 1) (tile rs y + 1) + 1)%Z) in *.
  assert (UB : (ub <= Z.of_nat X)%Z) by (unfold ub; lia). assert (VB : (vb <= Z.of_nat Y)%Z) by (unfold vb; lia).
  assert (UA : (0 <= ua)%Z) by (unfold ua; lia). assert (VA : (0 <= va)%Z) by (unfold va; lia).
  match goal with |- context [zup va vb ?b ?s] => destruct (zup_inv (fun vp st => search p cs seg (fun u v => (ua <= u < ub /\ va <= v < vp)%Z) st) b va vb s) as ([seg' best] & E & S) end.
  - lia.
  - cbn [search]. split; [exact LS|]. split; [reflexivity|]. intros; lia.
  - intros vp st V S.
    match goal with |- context [zup ua ub ?b ?s] => destruct (zup_inv (fun up st => search p cs seg (fun u v => (ua <= u < ub /\ (va <= v < vp \/ v = vp /\ u < up))%Z) st) b ua ub s) as (st' & E' & S') end.
    + lia.
    + eapply search_ext; [|exact S]. intros; cbv beta; lia.
    + clear S st. intros up [s best] U S. cbn [search] in S. destruct S as (S1 & S2 & S3).
      rewrite distance_ok; [|exact LC|nia|exact Hx|exact Hy]. cbn [obind]. fold p.
      destruct (match best with Some b => qlt (cst cs p (Z.to_nat (up + vp * Z.of_nat X))) b | None => true end) eqn:T.
      * rewrite aset_lt by lia. cbn [obind]. eexists. split; [reflexivity|]. cbn [search]. split; [rewrite upd_length; exact S1|].
        split; [intros q NQ; rewrite nth_upd by lia; destruct (Nat.eqb_spec q p); [contradiction|apply S2; exact NQ]|].
        exists up, vp. split; [lia|]. split; [rewrite nth_upd, Nat.eqb_refl by lia; reflexivity|]. split; [reflexivity|].
        intros u v D. destruct (Z.eq_dec v vp) as [E1|]; [destruct (Z.eq_dec u up) as [E2|]; [subst; apply Qcle_refl|]|];
          (destruct best as [b|]; [destruct S3 as (u0 & v0 & _ & _ & _ & M); apply qlt_true in T; eapply Qcle_trans; [apply Qclt_le_weak; exact T|apply M; lia]|exfalso; apply (S3 u v); lia]).
      * destruct best as [b|]; [|discriminate]. apply qlt_false in T. destruct S3 as (u0 & v0 & D0 & N0 & -> & M).
        eexists. split; [reflexivity|]. cbn [search]. split; [exact S1|]. split; [exact S2|]. exists u0, v0. split; [lia|]. split; [exact N0|]. split; [reflexivity|].
        intros u v D. destruct (Z.eq_dec v vp) as [->|]; [destruct (Z.eq_dec u up) as [->|]; [exact T|]|]; apply M; lia.
    + exists st'. split; [exact E'|]. eapply search_ext; [|exact S']. intros; cbv beta; lia.
  - rewrite E. cbn [search] in S. destruct S as (S1 & S2 & S3). destruct best as [d|]; [|exfalso; apply (S3 ua va); lia].
    destruct S3 as (u & v & D & N & -> & M). exists seg', (cst cs p (Z.to_nat (u + v * Z.of_nat X))). split; [reflexivity|]. split; [exact S1|]. split; [exact S2|].
    destruct (coords x y Hx) as [C1 C2]. unfold closest, label_of. rewrite N. split; [|reflexivity]. split; [nia|]. split.
    + exists (Z.to_nat u), (Z.to_nat v). unfold p. rewrite C1, C2. split; [|split; [|nia]].
      * apply tile_range; [exact Hx|]. fold ua. fold X. fold ub. lia.
      * apply tile_range; [exact Hy|]. fold va. fold Y. fold vb. lia.
    + intros r (u' & v' & N1 & N2 & ->). unfold p in N1, N2. rewrite C1 in N1. rewrite C2 in N2.
      replace (u' + v' * X) with (Z.to_nat (Z.of_nat u' + Z.of_nat v' * Z.of_nat X)) by lia. apply M.
      rewrite <- (Nat2Z.id u') in N1. rewrite <- (Nat2Z.id v') in N2.
      pose proof (proj2 (tile_range w x (Z.of_nat u') Hx) ltac:(split; [lia|exact N1])) as R1.
      pose proof (proj2 (tile_range h y (Z.of_nat v') Hy) ltac:(split; [lia|exact N2])) as R2.
      fold X in R1. fold Y in R2. unfold ua, ub, va, vb. lia.
Qed.
Lemma closest_ext cs seg seg' p : nth p seg' 0%Z = nth p seg 0%Z -> closest w h K rs reg image X cs seg p -> closest w h K rs reg image X cs seg' p.
Proof. unfold closest, label_of. intros ->. auto. Qed.
Lemma assign_ok cs seg : length cs = (2 + K) * R -> length seg = n ->
  exists seg', assign w h K rs reg image cs seg = Some (seg', Some (total w h K rs reg image cs seg')) /\ length seg' = n /\
    forall p, p < n -> closest w h K rs reg image X cs seg' p.
Proof.
  intros LC LS. unfold assign.
  match goal with |- context [iter h (fun y t1 => iter w (fun x t2 => @?f y x t2) t1) ?s0] =>
    destruct (grid_inv (fun p (st : list Z * option Qc) => let (s, e) := st in length s = n /\ e = Some (ksum p (fun q => cst cs q (label_of s q))) /\ forall q, q < p -> closest w h K rs reg image X cs s q) f w h s0) as ([seg' e] & E & L & -> & V) end.
  - split; [exact LS|]. split; [reflexivity|]. intros; lia.
  - intros x y [s e] Hx Hy (L & -> & V). destruct (assign_pixel_ok cs x y s LC L Hx Hy) as (s' & d & -> & L' & SAME & C & ->). cbn [obind].
    eexists. split; [reflexivity|]. split; [exact L'|]. split.
    + f_equal. replace (x + y * w + 1) with (S (x + y * w)) by lia. cbn [sum]. f_equal. apply qsum_ext. intros q Hq. unfold label_of. rewrite SAME by lia. reflexivity.
    + intros q Hq. destruct (Nat.eq_dec q (x + y * w)) as [->|NE]; [exact C|]. apply closest_ext with (seg := s); [apply SAME; exact NE|apply V; lia].
  - exists seg'. split; [exact E|]. auto.
Qed.
Lemma nearby_lt p r : p < n -> nearby w h rs X p r -> r < R.
Proof.
  intros Hp (u & v & (U & _) & (V & _) & ->). apply tiles_lt in U, V. fold X in U. fold Y in V. nia.
Qed.

(** *** Means *)
Section Means.
Variable seg : list Z.
Hypothesis LS : length seg = n.
Hypothesis LAB : forall p, p < n -> label_of seg p < R.
Local Notation a := (label_of seg).
Definition sums (m : nat) (st : list nat * list Qc) : Prop :=
  let (masses, cs) := st in length masses = n /\ length cs = (2 + K) * R /\
  (forall r, r < R -> nth r masses 0 = mass m a r) /\
  forall r i, r < R -> i < 2 + K -> coord K cs r i = ksum m (fun q => if a q =? r then ft q i else 0%Qc).
Lemma add_cell cs r0 i0 v : length cs = (2 + K) * R -> r0 < R -> i0 < 2 + K ->
  exists cs', (do c <- aget cs ((2 + K) * r0 + i0); aset cs ((2 + K) * r0 + i0) (c + v)%Qc) = Some cs' /\ length cs' = (2 + K) * R /\
    forall r i, r < R -> i < 2 + K -> coord K cs' r i = (coord K cs r i + if ((r =? r0) && (i =? i0))%nat then v else 0)%Qc.
Proof.
  intros L Hr Hi. assert (B : (2 + K) * r0 + i0 < length cs) by nia. rewrite (aget_nth cs _ 0%Qc) by exact B. cbn [obind]. rewrite aset_lt by exact B.
  eexists. split; [reflexivity|]. split; [rewrite upd_length; exact L|]. intros r i Lr Lt. unfold coord. rewrite nth_upd by exact B.
  destruct (Nat.eqb_spec ((2 + K) * r + i) ((2 + K) * r0 + i0)) as [EQ|NE].
  - destruct (cell_eq _ _ _ _ _ Lt Hi EQ) as [-> ->]. rewrite !Nat.eqb_refl. reflexivity.
  - destruct (Nat.eqb_spec r r0) as [->|]; [|cbn [andb]; ring]. destruct (Nat.eqb_spec i i0) as [->|]; [contradiction|cbn [andb]; ring].
Qed.
Lemma accumulate_ok x y st : x < w -> y < h -> sums (x + y * w) st ->
  exists st', accumulate_pixel w h K image seg x y st = Some st' /\ sums (x + y * w + 1) st'.
Proof.
  intros Hx Hy S. destruct st as [masses cs]. destruct S as (L1 & L2 & V1 & V2). unfold accumulate_pixel. set (p := x + y * w) in *.
  assert (Hp : p < n) by (apply inside; assumption). rewrite (aget_nth seg p 0%Z) by lia. cbn [obind].
  change (Z.to_nat (nth p seg 0%Z)) with (a p). set (r0 := a p). assert (Hr : r0 < R) by (apply LAB; exact Hp).
  pose proof regions_le as RN. rewrite (aget_nth masses r0 0) by lia. cbn [obind]. rewrite (aset_lt masses) by lia. cbn [obind].
  destruct (coords x y Hx) as [C1 C2]. fold p in C1, C2.
  rewrite (Nat.mul_comm r0 (2 + K)).
  destruct (add_cell cs r0 0 (nq x) L2 Hr ltac:(lia)) as (c1 & E1 & M1 & W1). rewrite Nat.add_0_r in E1.
  destruct (aget cs ((2 + K) * r0)) as [v|]; [|discriminate]. cbn [obind] in E1 |- *. rewrite E1. cbn [obind].
  destruct (add_cell c1 r0 1 (nq y) M1 Hr ltac:(lia)) as (c2 & E2 & M2 & W2).
  destruct (aget c1 ((2 + K) * r0 + 1)) as [v2|]; [|discriminate]. cbn [obind] in E2 |- *. rewrite E2. cbn [obind].
  match goal with |- context [iter K ?b ?s] => destruct (iter_inv (fun k c => length c = (2 + K) * R /\ forall r i, r < R -> i < 2 + K ->
     coord K c r i = (coord K cs r i + if ((r =? r0) && (i <? 2 + k))%nat then ft p i else 0)%Qc) b K s) as (c3 & E3 & M3 & W3) end.
  - split; [exact M2|]. intros r i Lr Lt. rewrite W2, W1 by assumption. rewrite <- Qcplus_assoc. f_equal.
    destruct (Nat.eqb_spec r r0); cbn [andb]; [|ring]. destruct i as [|[|i]]; cbn [Nat.eqb Nat.ltb Nat.leb Nat.add feature]; rewrite ?C1, ?C2; ring.
  - intros k c Hk (M & WW). rewrite atimage_ok by assumption. cbn [obind]. fold p.
    replace ((2 + K) * r0 + k + 2) with ((2 + K) * r0 + (2 + k)) by lia.
    destruct (add_cell c r0 (2 + k) (ft p (2 + k)) M Hr ltac:(lia)) as (c' & E' & M' & W'). exists c'. split; [exact E'|]. split; [exact M'|].
    intros r i Lr Lt. rewrite W', WW by assumption. rewrite <- Qcplus_assoc. f_equal.
    destruct (Nat.eqb_spec r r0); cbn [andb]; [|ring]. destruct (Nat.eqb_spec i (2 + k)) as [->|].
    + destruct (Nat.ltb_spec (2 + k) (2 + k)), (Nat.ltb_spec (2 + k) (2 + (k + 1))); try lia. ring.
    + destruct (Nat.ltb_spec i (2 + k)), (Nat.ltb_spec i (2 + (k + 1))); try lia; ring.
  - rewrite E3. cbn [obind]. eexists. split; [reflexivity|]. split; [rewrite upd_length; exact L1|]. split; [exact M3|]. split.
    + intros r Lr. rewrite nth_upd by lia. unfold mass. rewrite count_S. fold (mass p a r). fold r0. destruct (Nat.eqb_spec r r0) as [->|NE].
      * rewrite V1, Nat.eqb_refl by exact Hr. reflexivity.
      * rewrite V1 by exact Lr. destruct (Nat.eqb_spec r0 r); [congruence|]. lia.
    + intros r i Lr Lt. rewrite W3, V2 by assumption. replace (p + 1) with (Datatypes.S p) by lia. cbn [sum]. f_equal. fold r0.
      destruct (Nat.ltb_spec i (2 + K)); [|lia]. rewrite andb_true_r, Nat.eqb_sym. reflexivity.
Qed.
Lemma tiny_pos : (0 < tiny)%Qc.
Proof. reflexivity. Qed.
Lemma tiny_one : (tiny < 1)%Qc.
Proof. reflexivity. Qed.
Lemma recompute_ok : exists cs, recompute w h K rs image seg = Some cs /\ length cs = (2 + K) * R /\
  forall r, r < R -> centroid w h K image seg cs r.
Proof.
  unfold recompute.
  match goal with |- context [iter h (fun y t1 => iter w (fun x t2 => @?f y x t2) t1) ?s0] =>
    destruct (grid_inv sums f w h s0) as ([masses c0] & E & (L1 & L2 & V1 & V2)) end.
  - split; [apply repeat_length|]. split; [apply repeat_length|]. split; [intros r _; apply nth_repeat|]. intros r i _ _. unfold coord. apply nth_repeat.
  - intros x y st Hx Hy S. apply accumulate_ok; assumption.
  - rewrite E. cbn [obind]. pose proof regions_le as RN.
    set (m := fun r => if qlt tiny (nq (mass n a r)) then nq (mass n a r) else tiny).
    match goal with |- context [iter R ?b ?s] => destruct (iter_inv (fun r0 c => length c = (2 + K) * R /\ forall r i, r < R -> i < 2 + K ->
      coord K c r i = if r <? r0 then (coord K c0 r i / m r)%Qc else coord K c0 r i) b R s) as (cs & E' & L' & V') end.
    + split; [exact L2|]. intros r i _ _. destruct (Nat.ltb_spec r 0); [lia|reflexivity].
    + intros r0 c Hr (L & V). rewrite (aget_nth masses r0 0) by lia. cbn [obind]. rewrite V1 by exact Hr. fold (m r0).
      match goal with |- context [iter (2 + K) ?b ?s] => destruct (iter_inv (fun i0 c => length c = (2 + K) * R /\ forall r i, r < R -> i < 2 + K ->
        coord K c r i = if ((r <? r0) || (r =? r0) && (i <? i0))%nat then (coord K c0 r i / m r)%Qc else coord K c0 r i) b (2 + K) s) as (c' & E2 & L3 & V3) end.
      * split; [exact L|]. intros r i Lr Lt. rewrite V by assumption. destruct (Nat.ltb_spec i 0); [lia|]. rewrite andb_false_r, orb_false_r. reflexivity.
      * intros i0 c' Hi (L3 & V3). assert (B : (2 + K) * r0 + i0 < length c') by nia. rewrite (aget_nth c' _ 0%Qc) by exact B. cbn [obind]. rewrite aset_lt by exact B.
        eexists. split; [reflexivity|]. split; [rewrite upd_length; exact L3|]. intros r i Lr Lt. unfold coord at 1. rewrite nth_upd by exact B.
        destruct (Nat.eqb_spec ((2 + K) * r + i) ((2 + K) * r0 + i0)) as [EQ|NE].
        -- destruct (cell_eq _ _ _ _ _ Lt Hi EQ) as [-> ->]. fold (coord K c' r0 i0). rewrite V3 by assumption. rewrite Nat.eqb_refl.
           destruct (Nat.ltb_spec r0 r0); [lia|]. destruct (Nat.ltb_spec i0 i0); [lia|]. destruct (Nat.ltb_spec i0 (i0 + 1)); [|lia]. reflexivity.
        -- fold (coord K c' r i). rewrite V3 by assumption. destruct (Nat.ltb_spec r r0); [reflexivity|]. destruct (Nat.eqb_spec r r0) as [->|]; [|reflexivity].
           cbn [orb andb]. assert (i <> i0) by (intros ->; contradiction). destruct (Nat.ltb_spec i i0), (Nat.ltb_spec i (i0 + 1)); try reflexivity; lia.
      * exists c'. split; [exact E2|]. split; [exact L3|]. intros r i Lr Lt. rewrite V3 by assumption. destruct (Nat.ltb_spec i (2 + K)); [|lia].
        rewrite andb_true_r. destruct (Nat.ltb_spec r r0), (Nat.eqb_spec r r0), (Nat.ltb_spec r (r0 + 1)); try reflexivity; lia.
    + exists cs. split; [exact E'|]. split; [exact L'|]. intros r Hr i Hi. rewrite V' by assumption. destruct (Nat.ltb_spec r R); [|lia].
      rewrite V2 by assumption. unfold m. destruct (Nat.eqb_spec (mass n a r) 0) as [Z|NZ].
      * rewrite Z. change (nq 0) with 0%Qc. destruct (qlt tiny 0) eqn:Q; [apply qlt_true in Q; exfalso; exact (Qclt_not_le _ _ Q (Qclt_le_weak _ _ tiny_pos))|].
        rewrite (qsum_ext n _ (fun _ => 0%Qc)); [rewrite (sum_zero _ _ _ _ _ _ Qcrt); unfold Qcdiv; ring|].
        intros q Hq. destruct (a q =? r) eqn:EQ; [|reflexivity]. exfalso. pose proof (count_pos n (fun q => a q =? r) q Hq EQ). unfold mass in Z. lia.
      * assert (P : (1 <= nq (mass n a r))%Qc) by (change 1%Qc with (nq 1); apply Homker_Proofs.nq_le; lia).
        assert (P0 : (0 < nq (mass n a r))%Qc) by (apply Homker_Proofs.nq_pos; lia).
        destruct (qlt tiny (nq (mass n a r))) eqn:Q.
        -- unfold is_mean. apply Qcmult_div_r. intros X0. rewrite X0 in P0. exact (Qclt_not_eq _ _ P0 eq_refl).
        -- apply qlt_false in Q. exfalso. apply (Qclt_not_le _ _ tiny_one). eapply Qcle_trans; [exact P|exact Q].
Qed.
End Means.

(** *** The energy *)
Hypothesis REG : (0 <= reg)%Qc.
Lemma weight_nonneg i : (0 <= weight rs reg i)%Qc.
Proof.
  unfold weight. destruct (i <? 2); [|discriminate]. unfold Qcdiv. apply Qc_mult_nonneg; [exact REG|].
  apply Qclt_le_weak. apply Homker_Proofs.Qcinv_pos. apply Homker_Proofs.nq_pos. nia.
Qed.
Lemma total_coords cs seg : total w h K rs reg image cs seg =
  ksum (2 + K) (fun i => weight rs reg i * energy false 1 n (fun p _ => ft p i) (fun r _ => coord K cs r i) (label_of seg))%Qc.
Proof.
  unfold total, cost. rewrite (sum_swap _ _ _ _ _ _ Qcrt). apply qsum_ext. intros i _. rewrite qsum_scale. f_equal.
  unfold energy, dist. apply qsum_ext. intros p _. cbn [sum]. ring.
Qed.
Lemma means_better cs cs' seg : (forall p, p < n -> label_of seg p < R) -> (forall r, r < R -> centroid w h K image seg cs' r) ->
  (total w h K rs reg image cs' seg <= total w h K rs reg image cs seg)%Qc.
Proof.
  intros LAB C. rewrite !total_coords. apply sum_le. intros i Hi. rewrite !(Qcmult_comm (weight rs reg i)). apply Qcmult_le_compat_r; [|apply weight_nonneg].
  apply energy_step with (K := R); [exact LAB|]. intros r d Hr _ NZ. left. unfold centre. specialize (C r Hr i Hi).
  destruct (Nat.eqb_spec (mass n (label_of seg) r) 0); [contradiction|]. exact C.
Qed.
Lemma closest_better cs seg seg' : (forall p, p < n -> closest w h K rs reg image X cs seg' p) -> (forall p, p < n -> nearby w h rs X p (label_of seg p)) ->
  (total w h K rs reg image cs seg' <= total w h K rs reg image cs seg)%Qc.
Proof. intros C N. unfold total. apply sum_le. intros p Hp. apply (C p Hp). apply N. exact Hp. Qed.

Definition rising (es : list Qc) : Prop := forall i j, i <= j -> j < length es -> (nth i es 0 <= nth j es 0)%Qc.
Lemma rising_cons e es : rising es -> (forall e0 t, es = e0 :: t -> (e <= e0)%Qc) -> rising (e :: es).
Proof.
  intros R1 F i j L B. destruct j as [|j]; [replace i with 0 by lia; apply Qcle_refl|]. destruct i as [|i]; cbn [nth length] in *; [|apply R1; lia].
  destruct es as [|e0 t]; [cbn in B; lia|]. eapply Qcle_trans; [apply (F e0 t); reflexivity|]. apply (R1 0 j); lia.
Qed.
Lemma kmeans_ok todo : forall cs seg es start, length cs = (2 + K) * R -> length seg = n -> rising es -> 0 < todo \/ es <> [] ->
  (es <> [] -> (forall p, p < n -> (0 <= nth p seg 0)%Z /\ nearby w h rs X p (label_of seg p)) /\ exists e0 t, es = e0 :: t /\ (total w h K rs reg image cs seg <= e0)%Qc) ->
  exists seg' cs' es', kmeans w h K rs reg image todo cs seg es start = Some (seg', cs', es') /\ length seg' = n /\ length cs' = (2 + K) * R /\
    rising es' /\ length es' <= length es + todo /\ es' <> [] /\ forall p, p < n -> (0 <= nth p seg' 0)%Z /\ nearby w h rs X p (label_of seg' p).
Proof.
  induction todo as [|todo IH]; intros cs seg es start LC LS RI T PRE; cbn [kmeans].
  - exists seg, cs, es. assert (NE : es <> []) by (destruct T; [lia|assumption]). split; [reflexivity|]. split; [exact LS|]. split; [exact LC|]. split; [exact RI|]. split; [lia|]. split; [exact NE|]. apply PRE. exact NE.
  - destruct (assign_ok cs seg LC LS) as (s1 & -> & L1 & C1). cbn [obind]. set (e := total w h K rs reg image cs s1).
    assert (N1 : forall p, p < n -> (0 <= nth p s1 0)%Z /\ nearby w h rs X p (label_of s1 p)) by (intros p Hp; destruct (C1 p Hp) as (A & B & _); auto).
    assert (RI' : rising (e :: es)).
    { apply rising_cons; [exact RI|]. intros e0 t ->. destruct PRE as (N0 & e1 & t1 & EQ & LE); [discriminate|]. injection EQ as <- <-.
      eapply Qcle_trans; [|exact LE]. apply closest_better; [exact C1|]. intros p Hp. apply N0. exact Hp. }
    destruct (match es with [] => false | _ => _ end) eqn:STOP.
    + exists s1, cs, (e :: es). split; [reflexivity|]. split; [exact L1|]. split; [exact LC|]. split; [exact RI'|]. split; [cbn [length]; lia|]. split; [discriminate|]. exact N1.
    + assert (LAB : forall p, p < n -> label_of s1 p < R) by (intros p Hp; apply (nearby_lt p); [exact Hp|apply N1; exact Hp]).
      destruct (recompute_ok s1 L1 LAB) as (c1 & -> & LC1 & CC). cbn [obind].
      destruct (IH c1 s1 (e :: es) (match es with [] => e | _ => start end) LC1 L1 RI') as (s2 & c2 & e2 & E & A1 & A2 & A3 & A4 & A5 & A6).
      * right. discriminate.
      * intros _. split; [exact N1|]. exists e, es. split; [reflexivity|]. apply means_better; assumption.
      * exists s2, c2, e2. split; [exact E|]. split; [exact A1|]. split; [exact A2|]. split; [exact A3|]. split; [cbn [length] in A4; lia|]. auto.
Qed.
Lemma raw_segment_ok seg : length seg = n -> exists seg' cs es, raw_segment w h K rs reg image seg = Some (seg', cs, es) /\ length seg' = n /\
  length cs = (2 + K) * R /\ rising es /\ length es <= 100 /\ es <> [] /\ forall p, p < n -> (0 <= nth p seg' 0)%Z /\ nearby w h rs X p (label_of seg' p).
Proof.
  intros LS. unfold raw_segment. destruct edge_map_ok as (e & -> & LE & EV). cbn [obind]. destruct (init_centers_ok e LE EV) as (cs & -> & LC & _). cbn [obind].
  apply (kmeans_ok 100 cs seg [] 0%Qc LC LS).
  - intros i j L B. cbn in B. lia.
  - left. lia.
  - intros X0. congruence.
Qed.
End Tiles.
