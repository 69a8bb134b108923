(** Lemmas on integral histograms. *)
From Coq Require Import List Arith Bool ZArith Lia.
Import ListNotations.
From Verif Require Import Base Loop IntHist_Model IntHist_Spec.
Local Open Scope nat_scope.

Lemma u32_eq a b k : (a = b + 2 ^ 32 * k)%Z -> u32 a = u32 b.
Proof. intros ->. unfold u32. rewrite Z.mul_comm. apply Z.mod_add. lia. Qed.
Lemma u32_of a : exists k, (u32 a = a + 2 ^ 32 * k)%Z.
Proof. exists (- (a / 2 ^ 32))%Z. unfold u32. rewrite Z.mod_eq by lia. ring. Qed.
Lemma u32_idem a : u32 (u32 a) = u32 a.
Proof. unfold u32. now rewrite Z.mod_mod by lia. Qed.
Lemma u32_add a b : u32 (u32 a + u32 b) = u32 (a + b).
Proof. destruct (u32_of a) as [k ->]. destruct (u32_of b) as [j ->]. apply (u32_eq _ _ (k + j)%Z). ring. Qed.
Lemma u32_sub a b : u32 (u32 a - u32 b) = u32 (a - b).
Proof. destruct (u32_of a) as [k ->]. destruct (u32_of b) as [j ->]. apply (u32_eq _ _ (k - j)%Z). ring. Qed.
Lemma u32_four a c e b : u32 (u32 a - u32 c + u32 e + u32 b) = u32 (a - c + e + b).
Proof. destruct (u32_of a) as [k ->]. destruct (u32_of c) as [j ->]. destruct (u32_of e) as [i ->]. destruct (u32_of b) as [h ->]. apply (u32_eq _ _ (k - j + i + h)%Z). ring. Qed.

Lemma sum_ext n : forall a f g, (forall i, a <= i < a + n -> f i = g i) -> sum n a f = sum n a g.
Proof. induction n as [|n IH]; intros a f g E; cbn [sum]; [reflexivity|]. rewrite (E a) by lia. f_equal. apply IH. intros i L. apply E. lia. Qed.
Lemma sum_snoc n : forall a f, sum (S n) a f = (sum n a f + f (a + n)%nat)%Z.
Proof. induction n as [|n IH]; intros a f; [cbn; rewrite Nat.add_0_r; ring|]. cbn [sum] in *. rewrite IH. replace (S a + n) with (a + S n) by lia. ring. Qed.
Lemma sum_add n : forall a f g, sum n a (fun i => f i + g i)%Z = (sum n a f + sum n a g)%Z.
Proof. induction n as [|n IH]; intros a f g; cbn [sum]; [ring|]. rewrite IH. ring. Qed.
Lemma sum_split n m : forall a f, sum (n + m) a f = (sum n a f + sum m (a + n)%nat f)%Z.
Proof. induction n as [|n IH]; intros a f; cbn [sum Nat.add]; [now rewrite Nat.add_0_r|]. rewrite IH. replace (S a + n) with (a + S n) by lia. ring. Qed.
Lemma box_step f x y : box f 0 0 (S x) (S y) = (box f 0 0 (S x) y - box f 0 0 x y + box f 0 0 x (S y) + f x y)%Z.
Proof. unfold box. rewrite !Nat.sub_0_r. rewrite !(sum_snoc y). rewrite !Nat.add_0_l. rewrite (sum_snoc x). cbn [Nat.add]. ring. Qed.
Lemma box_row f x : box f 0 0 (S x) 1 = (box f 0 0 x 1 + f x 0%nat)%Z.
Proof. unfold box. rewrite !Nat.sub_0_r. rewrite !(sum_snoc 0), (sum_snoc x). cbn. ring. Qed.
Lemma box_col f y : box f 0 0 1 (S y) = (box f 0 0 1 y + f 0%nat y)%Z.
Proof. unfold box. rewrite !Nat.sub_0_r. rewrite sum_snoc. cbn. ring. Qed.
Lemma box_inner f x1 y1 x2 y2 : x1 <= x2 -> y1 <= y2 -> box f x1 y1 x2 y2 = (box f 0 0 x2 y2 - box f 0 0 x1 y2 + box f 0 0 x1 y1 - box f 0 0 x2 y1)%Z.
Proof.
  intros X Y. unfold box. rewrite !Nat.sub_0_r. replace y2 with (y1 + (y2 - y1)) at 2 3 by lia. rewrite !(sum_split y1 (y2 - y1)). cbn [Nat.add].
  rewrite (sum_ext (y2 - y1) y1 (fun y => sum x2 0 (fun x => f x y)) (fun y => sum x1 0 (fun x => f x y) + sum (x2 - x1) x1 (fun x => f x y))%Z).
  - rewrite sum_add. ring.
  - intros i _. replace x2 with (x1 + (x2 - x1)) at 1 by lia. rewrite sum_split. reflexivity.
Qed.
Lemma box_empty f x1 y1 y2 : box f x1 y1 x1 y2 = 0%Z.
Proof. unfold box. rewrite Nat.sub_diag. induction (y2 - y1) as [|n IH] in y1 |- *; cbn [sum]; [reflexivity|]. rewrite IH. reflexivity. Qed.

Lemma box_empty_y f x1 y1 x2 : box f x1 y1 x2 y1 = 0%Z.
Proof. unfold box. rewrite Nat.sub_diag. reflexivity. Qed.

(** what an array holds *)
Definition holds (d : list Z) (n : nat) (f : nat -> Z) : Prop := length d = n /\ forall i, i < n -> nth_error d i = Some (u32 (f i)).
Lemma holds_get d n f i : holds d n f -> i < n -> aget d i = Some (u32 (f i)).
Proof. intros [_ E] L. now apply E. Qed.
Lemma holds_set d n f g t v : holds d n f -> t < n -> v = u32 (g t) -> (forall i, i < n -> i <> t -> f i = g i) -> exists d', aset d t v = Some d' /\ holds d' n g.
Proof.
  intros [L E] T -> G. exists (upd d t (u32 (g t))). split; [unfold aset; replace (t <? length d) with true by (symmetry; apply Nat.ltb_lt; lia); reflexivity|]. split; [now rewrite upd_length|]. intros i I.
  destruct (Nat.eq_dec t i) as [->|N]; [rewrite nth_error_upd_eq by lia; reflexivity|]. rewrite nth_error_upd_neq by auto. rewrite E by exact I. rewrite G by auto. reflexivity.
Qed.
Lemma holds_ext d n f g : holds d n f -> (forall i, i < n -> u32 (f i) = u32 (g i)) -> holds d n g.
Proof. intros [L E] G. split; [exact L|]. intros i I. rewrite E, G; auto. Qed.

Section integral.
  Variables (W H L : nat) (f : nat -> nat -> nat -> Z).
  Hypothesis HW : 1 <= W.
  Hypothesis HH : 1 <= H.
  Let K := W * H.
  (** the value of the entry i before and after the integration *)
  Definition src (i : nat) : Z := f (i / K) (i mod K mod W) (i mod K / W).
  Definition dst (i : nat) : Z := box (f (i / K)) 0 0 (S (i mod K mod W)) (S (i mod K / W)).
  Definition mix (t i : nat) : Z := if i <? t then dst i else src i.
  Lemma decode l x y : x < W -> y < H -> let i := l * K + W * y + x in i / K = l /\ i mod K mod W = x /\ i mod K / W = y.
  Proof.
    intros X Y i. assert (R : W * y + x < K) by (unfold K; nia). assert (KK : K <> 0) by (unfold K; nia). unfold i. rewrite <- Nat.add_assoc, (Nat.add_comm (l * K)). rewrite Nat.div_add, Nat.mod_add by exact KK. rewrite Nat.div_small, (Nat.mod_small _ K) by exact R.
    split; [reflexivity|]. rewrite (Nat.mul_comm W), (Nat.add_comm (y * W)). rewrite Nat.mod_add, Nat.div_add by lia. rewrite Nat.mod_small, Nat.div_small by exact X. auto.
  Qed.
  Lemma dst_at l x y : x < W -> y < H -> dst (l * K + W * y + x) = box (f l) 0 0 (S x) (S y).
  Proof. intros X Y. unfold dst. destruct (decode l x y X Y) as (-> & -> & ->). reflexivity. Qed.
  Lemma src_at l x y : x < W -> y < H -> src (l * K + W * y + x) = f l x y.
  Proof. intros X Y. unfold src. destruct (decode l x y X Y) as (-> & -> & ->). reflexivity. Qed.
  Lemma inside l x y : l < L -> x < W -> y < H -> l * K + W * y + x < K * L.
  Proof. intros A X Y. assert (W * y + x < K) by (unfold K; nia). nia. Qed.
  Lemma get_done d l x y t : l < L -> x < W -> y < H -> holds d (K * L) (mix t) -> l * K + W * y + x < t -> aget d (l * K + W * y + x) = Some (u32 (box (f l) 0 0 (S x) (S y))).
  Proof. intros A X Y Hd T. rewrite (holds_get _ _ _ _ Hd) by now apply inside. unfold mix. replace (_ <? t) with true by (symmetry; now apply Nat.ltb_lt). now rewrite dst_at. Qed.
  Lemma get_todo d l x y t : l < L -> x < W -> y < H -> holds d (K * L) (mix t) -> t <= l * K + W * y + x -> aget d (l * K + W * y + x) = Some (u32 (f l x y)).
  Proof. intros A X Y Hd T. rewrite (holds_get _ _ _ _ Hd) by now apply inside. unfold mix. replace (_ <? t) with false by (symmetry; now apply Nat.ltb_ge). now rewrite src_at. Qed.
  Lemma set_next d l x y v : l < L -> x < W -> y < H -> let t := l * K + W * y + x in holds d (K * L) (mix t) -> v = u32 (box (f l) 0 0 (S x) (S y)) -> exists d', aset d t v = Some d' /\ holds d' (K * L) (mix (S t)).
  Proof.
    intros A X Y t Hd E. apply (holds_set d (K * L) (mix t)); [exact Hd|now apply inside| |].
    - unfold mix. replace (t <? S t) with true by (symmetry; apply Nat.ltb_lt; lia). unfold t. now rewrite dst_at.
    - intros i I N. unfold mix. destruct (Nat.ltb_spec i t), (Nat.ltb_spec i (S t)); auto; lia.
  Qed.
  Lemma integral_ok l d : l < L -> holds d (K * L) (mix (l * K)) -> exists d', integral (l * K) W H d = Some d' /\ holds d' (K * L) (mix (S l * K)).
  Proof.
    intros A Hd. unfold integral. pose proof (get_todo d l 0 0 (l * K) A ltac:(lia) ltac:(lia) Hd ltac:(lia)) as G0. replace (l * K + W * 0 + 0) with (l * K) in G0 by lia. rewrite G0. cbn [obind].
    destruct (set_next d l 0 0 (u32 (f l 0 0)) A ltac:(lia) ltac:(lia)) as (d1 & E1 & H1); [replace (l * K + W * 0 + 0) with (l * K) by lia; exact Hd|rewrite box_row; unfold box; cbn; f_equal; ring|].
    replace (l * K + W * 0 + 0) with (l * K) in * by lia. rewrite E1. cbn [obind].
    destruct (iter_from_inv (fun x d => holds d (K * L) (mix (l * K + x))) (first_row (l * K)) W (W - 1) 1 d1) as (d2 & -> & H2); [lia|replace (l * K + 1) with (S (l * K)) by lia; exact H1| |].
    { intros x s X1 X2 Hs. unfold first_row. pose proof (get_done s l (x - 1) 0 (l * K + x) A ltac:(lia) ltac:(lia) Hs ltac:(lia)) as G1. replace (l * K + W * 0 + (x - 1)) with (l * K + x - 1) in G1 by lia. rewrite G1. cbn [obind].
      pose proof (get_todo s l x 0 (l * K + x) A ltac:(lia) ltac:(lia) Hs ltac:(lia)) as G2. replace (l * K + W * 0 + x) with (l * K + x) in G2 by lia. rewrite G2. cbn [obind]. rewrite u32_add.
      destruct (set_next s l x 0 (u32 (box (f l) 0 0 (S (x - 1)) 1 + f l x 0%nat)) A ltac:(lia) ltac:(lia)) as (s' & E' & H'); [replace (l * K + W * 0 + x) with (l * K + x) by lia; exact Hs|replace (S (x - 1)) with x by lia; now rewrite (box_row _ x)|].
      replace (l * K + W * 0 + x) with (l * K + x) in * by lia. exists s'. split; [exact E'|]. replace (l * K + (x + 1)) with (S (l * K + x)) by lia. exact H'. }
    cbn [obind].
    destruct (iter_from_inv (fun y d => holds d (K * L) (mix (l * K + W * y))) (integral_row (l * K) W) H (H - 1) 1 d2) as (d3 & -> & H3); [lia|replace (l * K + W * 1) with (l * K + W) by lia; exact H2| |].
    2:{ exists d3. split; [reflexivity|]. replace (S l * K) with (l * K + W * H) by (unfold K; lia). exact H3. }
    intros y s Y1 Y2 Hs. unfold integral_row. cbv zeta.
    pose proof (get_done s l 0 (y - 1) (l * K + W * y) A ltac:(lia) ltac:(lia) Hs ltac:(nia)) as G1. replace (l * K + W * (y - 1) + 0) with (l * K + W * y - W) in G1 by nia. rewrite G1. cbn [obind].
    pose proof (get_todo s l 0 y (l * K + W * y) A ltac:(lia) ltac:(lia) Hs ltac:(nia)) as G2. replace (l * K + W * y + 0) with (l * K + W * y) in G2 by lia. rewrite G2. cbn [obind]. rewrite u32_add.
    destruct (set_next s l 0 y (u32 (box (f l) 0 0 1 (S (y - 1)) + f l 0%nat y)) A ltac:(lia) ltac:(lia)) as (s1 & E1' & H1'); [replace (l * K + W * y + 0) with (l * K + W * y) by lia; exact Hs|replace (S (y - 1)) with y by lia; now rewrite (box_col _ y)|].
    replace (l * K + W * y + 0) with (l * K + W * y) in * by lia. rewrite E1'. cbn [obind].
    destruct (iter_from_inv (fun x d => holds d (K * L) (mix (l * K + W * y + x))) (next_row (l * K + W * y) W) W (W - 1) 1 s1) as (s2 & -> & H2'); [lia|replace (l * K + W * y + 1) with (S (l * K + W * y)) by lia; exact H1'| |].
    2:{ exists s2. split; [reflexivity|]. replace (l * K + W * (y + 1)) with (l * K + W * y + W) by lia. exact H2'. }
    intros x u X1 X2 Hu. unfold next_row.
    pose proof (get_done u l x (y - 1) (l * K + W * y + x) A ltac:(lia) ltac:(lia) Hu ltac:(nia)) as R1. replace (l * K + W * (y - 1) + x) with (l * K + W * y + x - W) in R1 by nia. rewrite R1. cbn [obind].
    pose proof (get_done u l (x - 1) (y - 1) (l * K + W * y + x) A ltac:(lia) ltac:(lia) Hu ltac:(nia)) as R2. replace (l * K + W * (y - 1) + (x - 1)) with (l * K + W * y + x - W - 1) in R2 by nia. rewrite R2. cbn [obind].
    pose proof (get_done u l (x - 1) y (l * K + W * y + x) A ltac:(lia) ltac:(lia) Hu ltac:(lia)) as R3. replace (l * K + W * y + (x - 1)) with (l * K + W * y + x - 1) in R3 by lia. rewrite R3. cbn [obind].
    pose proof (get_todo u l x y (l * K + W * y + x) A ltac:(lia) ltac:(lia) Hu ltac:(lia)) as R4. rewrite R4. cbn [obind]. rewrite u32_four.
    destruct (set_next u l x y (u32 (box (f l) 0 0 (S x) (S (y - 1)) - box (f l) 0 0 (S (x - 1)) (S (y - 1)) + box (f l) 0 0 (S (x - 1)) (S y) + f l x y)) A ltac:(lia) ltac:(lia) Hu) as (u' & E' & H'); [replace (S (x - 1)) with x by lia; replace (S (y - 1)) with y by lia; now rewrite (box_step _ x y)|].
    exists u'. split; [exact E'|]. replace (l * K + W * y + (x + 1)) with (S (l * K + W * y + x)) by lia. exact H'.
  Qed.
  Lemma integrals_ok d : holds d (K * L) src -> exists d', iter L (fun k => integral (k * K) W H) d = Some d' /\ holds d' (K * L) dst.
  Proof.
    intros Hd. destruct (iter_inv (fun l d => holds d (K * L) (mix (l * K))) (fun k => integral (k * K) W H) L d) as (d' & E & H').
    - apply (holds_ext _ _ src); [exact Hd|]. intros i _. unfold mix. reflexivity.
    - intros l s Ll Hs. destruct (integral_ok l s Ll Hs) as (s' & E & H'). exists s'. split; [exact E|]. now rewrite Nat.add_1_r.
    - exists d'. split; [exact E|]. apply (holds_ext _ _ (mix (L * K))); [exact H'|]. intros i I. unfold mix. replace (i <? L * K) with true by (symmetry; apply Nat.ltb_lt; lia). reflexivity.
  Qed.
End integral.

Section labels.
  Variables (labels : list nat) (mass : option (list Z)) (K maps L : nat).
  Hypothesis HK : 1 <= K.
  Hypothesis HN : length labels = maps * K.
  Hypothesis HL : forall l, In l labels -> l <= L.
  Hypothesis HM : match mass with None => True | Some m => K <= length m end.
  Definition mass_at (k : nat) : Z := match mass with None => 1%Z | Some m => nth k m 0%Z end.
  Definition hit (q i : nat) : Z := if nth (q * K + i mod K) labels 0 =? S (i / K) then mass_at (i mod K) else 0%Z.
  Definition upto (q k i : nat) : Z := (sum q 0 (fun q => hit q i) + (if (i mod K <? k)%nat then hit q i else 0))%Z.
  Lemma put_ok q k d : q < maps -> k < K -> holds d (K * L) (upto q k) -> exists d', put_label labels mass K q k d = Some d' /\ holds d' (K * L) (upto q (k + 1)).
  Proof.
    intros Q Kk Hd. assert (IL : q * K + k < length labels) by (rewrite HN; nia). unfold put_label. unfold aget at 1. rewrite (nth_error_nth' labels 0 IL). cbn [obind].
    pose proof (HL _ (nth_In labels 0 IL)) as BL. set (a := nth (q * K + k) labels 0) in *.
    assert (OTH : forall i, i mod K <> k -> upto q k i = upto q (k + 1) i). { intros i N. unfold upto. destruct (Nat.ltb_spec (i mod K) k), (Nat.ltb_spec (i mod K) (k + 1)); auto; lia. }
    assert (SAME : forall i, i mod K = k -> a <> S (i / K) -> upto q k i = upto q (k + 1) i). { intros i <- N. unfold upto. rewrite Nat.ltb_irrefl. replace (_ <? _ + 1) with true by (symmetry; apply Nat.ltb_lt; lia). unfold hit. fold a. destruct (Nat.eqb_spec a (S (i / K))); [congruence|reflexivity]. }
    destruct (Nat.eqb_spec a 0) as [A0|A0].
    - exists d. split; [reflexivity|]. apply (holds_ext _ _ _ _ Hd). intros i I. f_equal. destruct (Nat.eq_dec (i mod K) k); [apply SAME; [assumption|lia]|now apply OTH].
    - assert (EM : match mass with None => Some 1%Z | Some m => aget m k end = Some (mass_at k)). { unfold mass_at. destruct mass as [m|]; [|reflexivity]. unfold aget. apply nth_error_nth'. lia. }
      rewrite EM. cbn [obind]. assert (IN : k + (a - 1) * K < K * L) by nia. rewrite (holds_get _ _ _ _ Hd IN). cbn [obind].
      assert (D1 : (k + (a - 1) * K) mod K = k) by (rewrite Nat.mod_add by lia; now apply Nat.mod_small). assert (D2 : (k + (a - 1) * K) / K = a - 1) by (rewrite Nat.div_add by lia; rewrite Nat.div_small by exact Kk; lia).
      apply (holds_set d (K * L) (upto q k)); [exact Hd|exact IN| |].
      + destruct (u32_of (upto q k (k + (a - 1) * K))) as [z ->]. apply (u32_eq _ _ z). unfold upto. rewrite D1, Nat.ltb_irrefl. replace (k <? k + 1) with true by (symmetry; apply Nat.ltb_lt; lia).
        assert (HH : hit q (k + (a - 1) * K) = mass_at k). { unfold hit. rewrite D1, D2. fold a. replace (S (a - 1)) with a by lia. now rewrite Nat.eqb_refl. } rewrite HH. ring.
      + intros i I N. destruct (Nat.eq_dec (i mod K) k) as [E|E]; [|now apply OTH]. apply SAME; [exact E|]. intros X. apply N. pose proof (Nat.div_mod i K ltac:(lia)) as DM. rewrite E in DM. rewrite DM at 1. replace (i / K) with (a - 1) by lia. lia.
  Qed.
  Lemma distribute_ok : exists d, distribute labels mass K maps (repeat 0%Z (K * L)) = Some d /\ holds d (K * L) (fun i => sum maps 0 (fun q => hit q i)).
  Proof.
    unfold distribute. destruct (iter_inv (fun q d => holds d (K * L) (upto q 0)) (fun q => iter K (put_label labels mass K q)) maps (repeat 0%Z (K * L))) as (d & E & H).
    - split; [apply repeat_length|]. intros i I. rewrite nth_error_repeat by exact I. reflexivity.
    - intros q s Q Hs. destruct (iter_inv (fun k d => holds d (K * L) (upto q k)) (put_label labels mass K q) K s Hs) as (s' & E & H); [intros k u Kk Hu; now apply put_ok|]. exists s'. split; [exact E|].
      apply (holds_ext _ _ _ _ H). intros i I. f_equal. unfold upto. pose proof (Nat.mod_upper_bound i K ltac:(lia)). replace (i mod K <? K) with true by (symmetry; now apply Nat.ltb_lt). rewrite Nat.add_1_r, sum_snoc. cbn. ring.
    - exists d. split; [exact E|]. apply (holds_ext _ _ _ _ H). intros i I. f_equal. unfold upto. cbn. ring.
  Qed.
End labels.

Lemma passes_ok op d n f i K L h g : holds d n f -> holds h L g -> (forall k, k < L -> i + k * K < n) -> (forall a b, u32 (op (u32 a) (u32 b)) = u32 (op a b)) -> exists h', iter L (pass op d i K) h = Some h' /\ holds h' L (fun k => op (g k) (f (i + k * K))).
Proof.
  intros Hd Hh HI HO. destruct (iter_inv (fun t h => holds h L (fun k => if k <? t then op (g k) (f (i + k * K)) else g k)) (pass op d i K) L h) as (h' & E & H').
  - apply (holds_ext _ _ _ _ Hh). reflexivity.
  - intros k s Kk Hs. unfold pass. rewrite (holds_get _ _ _ _ Hd (HI k Kk)). cbn [obind]. rewrite (holds_get _ _ _ _ Hs Kk), Nat.ltb_irrefl. cbn [obind]. rewrite HO. eapply holds_set; [exact Hs|exact Kk| |].
    + cbv beta. replace (k <? k + 1) with true by (symmetry; apply Nat.ltb_lt; lia). reflexivity.
    + intros j J N. cbv beta. destruct (Nat.ltb_spec j k), (Nat.ltb_spec j (k + 1)); auto; lia.
  - exists h'. split; [exact E|]. apply (holds_ext _ _ _ _ H'). intros k Kk. cbv beta. replace (k <? L) with true by (symmetry; now apply Nat.ltb_lt). reflexivity.
Qed.
Lemma sample_box_ok W H L f d x1 y1 x2 y2 : 1 <= x1 <= x2 -> 1 <= y1 <= y2 -> x2 <= W -> y2 <= H -> holds d (W * H * L) (dst W H f) ->
  exists h, sample_box d W H L x1 y1 x2 y2 = Some (Some h) /\ holds h L (fun k => box (f k) (x1 - 1) (y1 - 1) x2 y2).
Proof.
  intros X Y XW YH Hd. unfold sample_box. replace (x2 <? x1) with false by (symmetry; apply Nat.ltb_ge; lia). replace (y2 <? y1) with false by (symmetry; apply Nat.ltb_ge; lia). replace (x1 <? 1) with false by (symmetry; apply Nat.ltb_ge; lia). replace (y1 <? 1) with false by (symmetry; apply Nat.ltb_ge; lia).
  replace (W <? x2) with false by (symmetry; apply Nat.ltb_ge; lia). replace (H <? y2) with false by (symmetry; apply Nat.ltb_ge; lia). cbn [orb]. cbv zeta. set (K := W * H) in *.
  assert (AT : forall x y k, x < W -> y < H -> dst W H f (x + y * W + k * K) = box (f k) 0 0 (S x) (S y)). { intros x y k Hx Hy. replace (x + y * W + k * K) with (k * K + W * y + x) by lia. apply dst_at; lia. }
  assert (BD : forall x y, x < W -> y < H -> forall k, k < L -> x + y * W + k * K < K * L). { intros x y Hx Hy k Hk. replace (x + y * W + k * K) with (k * K + W * y + x) by lia. apply inside; lia. }
  destruct (passes_ok (fun _ v => v) d (K * L) (dst W H f) (x2 - 1 + (y2 - 1) * W) K L (repeat 0%Z L) (fun _ => 0%Z) Hd) as (h1 & -> & H1).
  { split; [apply repeat_length|]. intros i I. rewrite nth_error_repeat by exact I. reflexivity. } { apply BD; lia. } { intros a b. apply u32_idem. }
  cbn [obind].
  assert (S2 : exists h2, (if 0 <? x1 - 1 then iter L (pass Z.sub d (x1 - 1 - 1 + (y2 - 1) * W) K) h1 else Some h1) = Some h2 /\ holds h2 L (fun k => box (f k) 0 0 x2 y2 - box (f k) 0 0 (x1 - 1)%nat y2)%Z).
  { assert (H1' : holds h1 L (fun k => box (f k) 0 0 x2 y2)). { apply (holds_ext _ _ _ _ H1). intros k Hk. rewrite AT by lia. do 2 f_equal; lia. }
    destruct (Nat.ltb_spec 0 (x1 - 1)) as [P|P].
    - destruct (passes_ok Z.sub d (K * L) (dst W H f) (x1 - 1 - 1 + (y2 - 1) * W) K L h1 _ Hd H1') as (h2 & E2 & H2); [apply BD; lia|apply u32_sub|]. exists h2. split; [exact E2|]. apply (holds_ext _ _ _ _ H2). intros k Hk. rewrite AT by lia. do 2 f_equal. f_equal; lia.
    - exists h1. split; [reflexivity|]. apply (holds_ext _ _ _ _ H1'). intros k Hk. replace (x1 - 1) with 0 by lia. rewrite box_empty. f_equal. ring. }
  destruct S2 as (h2 & -> & H2). cbn [obind].
  assert (S3 : exists h3, (if (0 <? x1 - 1) && (0 <? y1 - 1) then iter L (pass Z.add d (x1 - 1 - 1 + (y1 - 1 - 1) * W) K) h2 else Some h2) = Some h3 /\ holds h3 L (fun k => box (f k) 0 0 x2 y2 - box (f k) 0 0 (x1 - 1) y2 + box (f k) 0 0 (x1 - 1) (y1 - 1))%Z).
  { destruct (Nat.ltb_spec 0 (x1 - 1)) as [P|P]; [destruct (Nat.ltb_spec 0 (y1 - 1)) as [P'|P']|]; cbn [andb].
    - destruct (passes_ok Z.add d (K * L) (dst W H f) (x1 - 1 - 1 + (y1 - 1 - 1) * W) K L h2 _ Hd H2) as (h3 & E3 & H3); [apply BD; lia|apply u32_add|]. exists h3. split; [exact E3|]. apply (holds_ext _ _ _ _ H3). intros k Hk. rewrite AT by lia. do 2 f_equal. f_equal; lia.
    - exists h2. split; [reflexivity|]. apply (holds_ext _ _ _ _ H2). intros k Hk. replace (y1 - 1) with 0 by lia. rewrite !box_empty_y. f_equal. ring.
    - exists h2. split; [reflexivity|]. apply (holds_ext _ _ _ _ H2). intros k Hk. replace (x1 - 1) with 0 by lia. rewrite !box_empty. f_equal. ring. }
  destruct S3 as (h3 & -> & H3). cbn [obind].
  assert (S4 : exists h4, (if 0 <? y1 - 1 then iter L (pass Z.sub d (x2 - 1 + (y1 - 1 - 1) * W) K) h3 else Some h3) = Some h4 /\ holds h4 L (fun k => box (f k) 0 0 x2 y2 - box (f k) 0 0 (x1 - 1) y2 + box (f k) 0 0 (x1 - 1) (y1 - 1) - box (f k) 0 0 x2 (y1 - 1))%Z).
  { destruct (Nat.ltb_spec 0 (y1 - 1)) as [P|P].
    - destruct (passes_ok Z.sub d (K * L) (dst W H f) (x2 - 1 + (y1 - 1 - 1) * W) K L h3 _ Hd H3) as (h4 & E4 & H4); [apply BD; lia|apply u32_sub|]. exists h4. split; [exact E4|]. apply (holds_ext _ _ _ _ H4). intros k Hk. rewrite AT by lia. do 2 f_equal. f_equal; lia.
    - exists h3. split; [reflexivity|]. apply (holds_ext _ _ _ _ H3). intros k Hk. replace (y1 - 1) with 0 by lia. rewrite !box_empty_y. f_equal. ring. }
  destruct S4 as (h4 & -> & H4). cbn [obind]. exists h4. split; [reflexivity|]. apply (holds_ext _ _ _ _ H4). intros k Hk. cbv beta. rewrite (box_inner (f k) (x1 - 1) (y1 - 1) x2 y2) by lia. reflexivity.
Qed.
