(** Proofs about ImGrad_Model.v. *)
From Coq Require Import List Arith ZArith Lia Bool QArith Qcanon.
Import ListNotations.
From Verif Require Import Base Loop Rat ImGrad_Model ImGrad_Spec.
Local Open Scope nat_scope.

Lemma aget_some {A} (l : list A) i d : i < length l -> aget l i = Some (nth i l d).
Proof. intros H. unfold aget. now apply nth_error_nth'. Qed.
Lemma aset_some {A} (l : list A) i v : i < length l -> aset l i v = Some (upd l i v).
Proof. intros H. unfold aset. now rewrite (proj2 (Nat.ltb_lt _ _) H). Qed.
Lemma upd_same {A} (l : list A) i v : i < length l -> nth_error (upd l i v) i = Some v.
Proof. intros H. rewrite nth_error_upd, Nat.eqb_refl, (proj2 (Nat.ltb_lt _ _) H). reflexivity. Qed.
Lemma upd_other {A} (l : list A) i j v : j <> i -> nth_error (upd l i v) j = nth_error l j.
Proof. intros H. rewrite nth_error_upd, (proj2 (Nat.eqb_neq _ _) H). reflexivity. Qed.

(** the entries at [at_ i], i in [P], hold [val i]; the rest is that of [m] *)
Definition wrote {V I} (at_ : I -> nat) (val : I -> V) (m m' : list V) (P : I -> Prop) : Prop :=
  length m' = length m /\ (forall i, P i -> nth_error m' (at_ i) = Some (val i)) /\ (forall a, (forall i, P i -> a <> at_ i) -> nth_error m' a = nth_error m a).
Lemma wrote_none {V I} (at_ : I -> nat) (val : I -> V) m (P : I -> Prop) : (forall i, ~ P i) -> wrote at_ val m m P.
Proof. intros H. split; [auto|split; [intros i X; destruct (H i X)|auto]]. Qed.
Lemma wrote_step {V I} (at_ : I -> nat) (val : I -> V) m m' (P Q : I -> Prop) n : wrote at_ val m m' P -> at_ n < length m ->
  (forall i, P i -> at_ i <> at_ n) -> (forall i, Q i <-> P i \/ i = n) -> wrote at_ val m (upd m' (at_ n) (val n)) Q.
Proof.
  intros (L & A & B) H D E. split; [now rewrite upd_length|]. split.
  - intros i X. apply E in X. destruct X as [X| ->]; [rewrite upd_other; auto|apply upd_same; lia].
  - intros a X. rewrite upd_other; [apply B; intros i Y; apply X, E; auto|apply X, E; auto].
Qed.
Lemma wrote_ext {V I} (at_ : I -> nat) (val : I -> V) m m' (P Q : I -> Prop) : wrote at_ val m m' P -> (forall i, P i <-> Q i) -> wrote at_ val m m' Q.
Proof. intros (L & A & B) E. split; [auto|]. split; [intros i X; apply A, E, X|intros a X; apply B; intros i Y; apply X, E, Y]. Qed.

Section Gradient.
Context {V : Type}.
Variable f1 f2 : Qc -> Qc -> V.
Variable img : list Qc.
Variable yo ws hs w h : nat.
Variable m1 m2 : list V.
Hypothesis W : 2 <= w.
Hypothesis H : 2 <= h.
Hypothesis IMG : (h - 1) * yo + w <= length img.
Hypothesis LAY : layout w h ws hs.
Hypothesis M1 : forall x y, x < w -> y < h -> y * hs + x * ws < length m1.
Hypothesis M2 : forall x y, x < w -> y < h -> y * hs + x * ws < length m2.
Let at_ (i : nat * nat) : nat := snd i * hs + fst i * ws.
Let v1 (i : nat * nat) : V := f1 (horizontal img yo w (fst i) (snd i)) (vertical img yo h (fst i) (snd i)).
Let v2 (i : nat * nat) : V := f2 (horizontal img yo w (fst i) (snd i)) (vertical img yo h (fst i) (snd i)).
(** the pixels before column x of row y *)
Definition before (x y : nat) (i : nat * nat) : Prop := fst i < w /\ snd i < h /\ (snd i < y \/ (snd i = y /\ fst i < x)).
Definition state (x y : nat) (s : grad) : Prop := wrote at_ v1 m1 (g_m1 s) (before x y) /\ wrote at_ v2 m2 (g_m2 s) (before x y) /\
  g_p1 s = y * hs + x * ws /\ g_p2 s = y * hs + x * ws /\ g_src s = y * yo + x.
Lemma pixel_in x y : x < w -> y < h -> y * yo + x < length img.
Proof. intros A B. assert (y * yo <= (h - 1) * yo) by (apply Nat.mul_le_mono_r; lia). lia. Qed.
Lemma diff_ok a b x y x' y' : a = y * yo + x -> b = y' * yo + x' -> x < w -> y < h -> x' < w -> y' < h -> diff img a b = Some (pixel img yo x y - pixel img yo x' y')%Qc.
Proof. intros -> -> A B C D. unfold diff. rewrite !(aget_some img _ 0%Qc) by now apply pixel_in. reflexivity. Qed.
Lemma save_ok x y s gx gy : x < w -> y < h -> state x y s -> gx = horizontal img yo w x y -> gy = vertical img yo h x y -> exists s', save f1 f2 ws gx gy s = Some s' /\ state (x + 1) y s'.
Proof.
  intros A B (S1 & S2 & P1 & P2 & S) -> ->. unfold save. rewrite P1, P2.
  rewrite aset_some by (destruct S1 as [-> _]; auto). cbn [obind]. rewrite aset_some by (destruct S2 as [-> _]; auto). cbn [obind]. eexists. split; [reflexivity|].
  assert (D : forall i, before x y i -> at_ i <> at_ (x, y)).
  { intros [x' y'] (Bx & By & Bo) E. cbn [fst snd] in *. unfold at_ in E. cbn [fst snd] in E. destruct (LAY x' y' x y); auto. lia. }
  assert (Q : forall i, before (x + 1) y i <-> before x y i \/ i = (x, y)).
  { intros [x' y']. unfold before. cbn [fst snd]. split; intro K.
    - destruct (Nat.eq_dec x' x), (Nat.eq_dec y' y); subst; auto; left; lia.
    - destruct K as [K|K]; [lia|]. injection K as -> ->. lia. }
  split; [|split; [|split; [|split]]]; cbn [g_m1 g_m2 g_p1 g_p2 g_src].
  - apply (wrote_step at_ v1 m1 (g_m1 s) (before x y) _ (x, y)); auto. apply M1; auto.
  - apply (wrote_step at_ v2 m2 (g_m2 s) (before x y) _ (x, y)); auto. apply M2; auto.
  - lia.
  - lia.
  - lia.
Qed.
Lemma half_two q : half q = (q / Q2Qc 2)%Qc.
Proof. unfold half. rewrite Qcmult_comm. unfold Qcdiv. f_equal. Qed.
Lemma row_ok dy y s : y < h -> (forall x, x < w -> dy (y * yo + x) = Some (vertical img yo h x y)) -> state 0 y s -> exists s', grad_row f1 f2 img ws dy w s = Some s' /\ state w y s'.
Proof.
  intros B DY S. unfold grad_row. assert (E0 : g_src s = y * yo + 0) by apply S.
  rewrite (diff_ok _ _ 1 y 0 y) by (rewrite ?E0; lia). rewrite E0, DY by lia. cbn [obind].
  destruct (save_ok 0 y s (pixel img yo 1 y - pixel img yo 0 y)%Qc (vertical img yo h 0 y)) as (s1 & -> & S1); auto; try lia. cbn [obind].
  destruct (iter_inv (fun j s => state (1 + j) y s) (fun _ s => do d <- diff img (g_src s + 1) (g_src s - 1); do gy <- dy (g_src s); save f1 f2 ws (half d) gy s) (w - 2) s1) as (s2 & -> & S2).
  { exact S1. }
  { intros j s' J S'. assert (E : g_src s' = y * yo + (1 + j)) by apply S'. rewrite (diff_ok _ _ (2 + j) y j y) by (rewrite ?E; lia). rewrite E, DY by lia. cbn [obind].
    destruct (save_ok (1 + j) y s' (half (pixel img yo (2 + j) y - pixel img yo j y)) (vertical img yo h (1 + j) y)) as (s'' & -> & S''); auto; try lia.
    - rewrite half_two. unfold horizontal, derivative. rewrite (proj2 (Nat.eqb_neq (1 + j) 0)), (proj2 (Nat.eqb_neq (1 + j) (w - 1))) by lia. replace (1 + j + 1) with (2 + j) by lia. now replace (1 + j - 1) with j by lia.
    - exists s''. split; [reflexivity|]. now replace (1 + (j + 1)) with (1 + j + 1) by lia. }
  cbn [obind]. replace (1 + (w - 2)) with (w - 1) in S2 by lia. assert (E : g_src s2 = y * yo + (w - 1)) by apply S2.
  rewrite (diff_ok _ _ (w - 1) y (w - 2) y) by (rewrite ?E; lia). rewrite E, DY by lia. cbn [obind].
  destruct (save_ok (w - 1) y s2 (pixel img yo (w - 1) y - pixel img yo (w - 2) y)%Qc (vertical img yo h (w - 1) y)) as (s3 & -> & S3); auto; try lia.
  - unfold horizontal, derivative. rewrite (proj2 (Nat.eqb_neq (w - 1) 0)), Nat.eqb_refl by lia. now replace (w - 1 - 1) with (w - 2) by lia.
  - exists s3. split; [reflexivity|]. now replace (w - 1 + 1) with w in S3 by lia.
Qed.
Lemma next_row y s : y < h -> state w y s -> state 0 (S y) (Grad (g_m1 s) (g_m2 s) (S y * hs) (S y * hs) (S y * yo)).
Proof.
  intros B (S1 & S2 & _). assert (E : forall i, before w y i <-> before 0 (S y) i) by (intros [x' y']; unfold before; cbn [fst snd]; lia).
  split; [|split; [|split; [|split]]]; cbn [g_m1 g_m2 g_p1 g_p2 g_src]; try lia; eapply wrote_ext; eauto.
Qed.
Lemma gradient_ok : exists m1' m2', gradient f1 f2 img yo ws hs w h m1 m2 = Some (m1', m2') /\
  wrote at_ v1 m1 m1' (fun i => fst i < w /\ snd i < h) /\ wrote at_ v2 m2 m2' (fun i => fst i < w /\ snd i < h).
Proof.
  unfold gradient. rewrite (proj2 (Nat.eqb_neq h 0)) by lia.
  destruct (row_ok (dy_first img yo) 0 (Grad m1 m2 0 0 0)) as (s & -> & St); [lia| | |].
  { intros x X. unfold dy_first. rewrite (diff_ok _ _ x 1 x 0) by lia. reflexivity. }
  { split; [|split; [|split; [|split]]]; cbn [g_m1 g_m2 g_p1 g_p2 g_src]; try lia; apply wrote_none; intros [x' y']; unfold before; cbn [fst snd]; lia. }
  cbn [obind].
  destruct (iter_inv (fun j '(s, g, i) => state w j s /\ g = S j * hs /\ i = S j * yo) (fun _ '(s, g, i) =>
     do s <- grad_row f1 f2 img ws (dy_middle img yo) w (Grad (g_m1 s) (g_m2 s) g g i); Some (s, g + hs, i + yo)) (h - 2) (s, hs, yo)) as ([[s' g] i] & -> & S' & -> & ->).
  { split; [exact St|lia]. }
  { intros j [[s' g] i] J (S' & -> & ->). destruct (row_ok (dy_middle img yo) (S j) (Grad (g_m1 s') (g_m2 s') (S j * hs) (S j * hs) (S j * yo))) as (s'' & -> & S''); [lia| |apply next_row; auto; lia|].
    - intros x X. unfold dy_middle. rewrite (diff_ok _ _ x (S (S j)) x j) by lia. cbn [obind]. rewrite half_two. unfold vertical, derivative. rewrite (proj2 (Nat.eqb_neq (S j) 0)), (proj2 (Nat.eqb_neq (S j) (h - 1))) by lia. replace (S j + 1) with (S (S j)) by lia. now replace (S j - 1) with j by lia.
    - cbn [obind]. eexists. split; [reflexivity|]. replace (j + 1) with (S j) by lia. split; [exact S''|lia]. }
  cbn [obind]. replace (S (h - 2)) with (h - 1) by lia.
  destruct (row_ok (dy_last img yo) (h - 1) (Grad (g_m1 s') (g_m2 s') ((h - 1) * hs) ((h - 1) * hs) ((h - 1) * yo))) as (s'' & -> & S''); [lia| | |].
  { intros x X. unfold dy_last. assert (EE : (h - 1) * yo = (h - 2) * yo + yo) by (replace (h - 1) with (S (h - 2)) by lia; lia). rewrite (diff_ok _ _ x (h - 1) x (h - 2)); [|reflexivity|rewrite EE; clear; generalize ((h - 2) * yo); intros; lia|lia|lia|lia|lia]. unfold vertical, derivative. rewrite (proj2 (Nat.eqb_neq (h - 1) 0)), Nat.eqb_refl by lia. now replace (h - 1 - 1) with (h - 2) by lia. }
  { pose proof (next_row (h - 2) s' ltac:(lia) S') as N. now replace (S (h - 2)) with (h - 1) in N by lia. }
  cbn [obind]. exists (g_m1 s''), (g_m2 s''). split; [reflexivity|]. destruct S'' as (A & B & _).
  assert (E : forall i, before w (h - 1) i <-> fst i < w /\ snd i < h) by (intros [x' y']; unfold before; cbn [fst snd]; lia).
  split; eapply wrote_ext; eauto.
Qed.
End Gradient.

(** ** the Hessian *)
Lemma cell_inj w x y x' y' : x < w -> x' < w -> y * w + x = y' * w + x' -> x = x' /\ y = y'.
Proof.
  intros A B E. assert (y = y') as ->.
  { transitivity ((y * w + x) / w); [rewrite Nat.div_add_l, Nat.div_small by lia; lia|rewrite E, Nat.div_add_l, Nat.div_small by lia; lia]. }
  lia.
Qed.
Lemma cell_in w h x y : x < w -> y < h -> y * w + x < w * h.
Proof. intros A B. assert (S y * w <= h * w) by (apply Nat.mul_le_mono_r; lia). lia. Qed.
Section Borders.
Context {V : Type}.
Variable w h : nat.
Hypothesis W : 3 <= w.
Hypothesis H : 3 <= h.
Definition at2 (b : list V) (x y : nat) : option V := nth_error b (y * w + x).
Lemma aset_cell (b : list V) x y v : length b = w * h -> x < w -> y < h -> exists b', aset b (y * w + x) v = Some b' /\ length b' = w * h /\
  at2 b' x y = Some v /\ forall x' y', x' < w -> (x' <> x \/ y' <> y) -> at2 b' x' y' = at2 b x' y'.
Proof.
  intros L A B. pose proof (cell_in w h x y A B). rewrite aset_some by lia. eexists. split; [reflexivity|]. split; [now rewrite upd_length|]. unfold at2. split; [apply upd_same; lia|].
  intros x' y' A' D. apply upd_other. intros E. apply cell_inj in E; auto. lia.
Qed.
Lemma aget_cell (b : list V) x y : length b = w * h -> x < w -> y < h -> exists v, aget b (y * w + x) = Some v /\ at2 b x y = Some v.
Proof. intros L A B. pose proof (cell_in w h x y A B) as I. unfold aget, at2. destruct (nth_error b (y * w + x)) eqn:E; [eauto|]. apply nth_error_None in E. lia. Qed.
(** a row without its ends is copied to another row *)
Lemma copy_ok (b : list V) y y' : length b = w * h -> y < h -> y' < h -> y <> y' -> exists b', copy (w - 2) (y' * w + 1) (y * w + 1) b = Some b' /\ length b' = w * h /\
  forall x z, x < w -> at2 b' x z = if (z =? y') && (1 <=? x) && (x <=? w - 2) then at2 b x y else at2 b x z.
Proof.
  intros L A B D. unfold copy.
  destruct (iter_inv (fun j b' => length b' = w * h /\ forall x z, x < w -> at2 b' x z = if (z =? y') && (1 <=? x) && (x <=? j) then at2 b x y else at2 b x z)
    (fun i b' => do v <- aget b' (y * w + 1 + i); aset b' (y' * w + 1 + i) v) (w - 2) b) as (b' & -> & L' & E).
  - split; [auto|]. intros x z X. destruct (Nat.leb_spec 1 x), (Nat.leb_spec x 0); try lia; now rewrite ?andb_false_r, ?andb_true_r.
  - intros j b' J (L' & E). replace (y * w + 1 + j) with (y * w + (1 + j)) by lia. replace (y' * w + 1 + j) with (y' * w + (1 + j)) by lia.
    destruct (aget_cell b' (1 + j) y) as (v & -> & Ev); [auto|lia|lia|]. cbn [obind]. destruct (aset_cell b' (1 + j) y' v) as (b'' & -> & L'' & E1 & E2); [auto|lia|lia|].
    exists b''. split; [reflexivity|]. split; [auto|]. intros x z X. rewrite E in Ev by lia. rewrite (proj2 (Nat.eqb_neq y y')) in Ev by auto. cbn [andb] in Ev.
    destruct (Nat.eq_dec x (1 + j)) as [->|Nx], (Nat.eq_dec z y') as [->|Nz].
    + rewrite E1, Nat.eqb_refl. rewrite (proj2 (Nat.leb_le 1 (1 + j))), (proj2 (Nat.leb_le (1 + j) (j + 1))) by lia. now rewrite Ev.
    + rewrite E2 by auto. rewrite E by auto. rewrite (proj2 (Nat.eqb_neq z y')) by auto. reflexivity.
    + rewrite E2 by auto. rewrite E by auto. rewrite Nat.eqb_refl. destruct (Nat.leb_spec 1 x), (Nat.leb_spec x j), (Nat.leb_spec x (j + 1)); cbn [andb]; auto; lia.
    + rewrite E2 by auto. rewrite E by auto. rewrite (proj2 (Nat.eqb_neq z y')) by auto. reflexivity.
  - exists b'. auto.
Qed.
Lemma zget_cell2 (b : list V) i x y : length b = w * h -> x < w -> y < h -> i = Z.of_nat (y * w + x) -> exists v, zget b i = Some v /\ at2 b x y = Some v.
Proof. intros L A B ->. unfold zget. rewrite (proj2 (Z.ltb_ge _ _)) by lia. rewrite Nat2Z.id. now apply aget_cell. Qed.
Lemma zset_cell2 (b : list V) i x y v : length b = w * h -> x < w -> y < h -> i = Z.of_nat (y * w + x) -> exists b', zset b i v = Some b' /\ length b' = w * h /\
  at2 b' x y = Some v /\ forall x' y', x' < w -> (x' <> x \/ y' <> y) -> at2 b' x' y' = at2 b x' y'.
Proof. intros L A B ->. unfold zset. rewrite (proj2 (Z.ltb_ge _ _)) by lia. rewrite Nat2Z.id. now apply aset_cell. Qed.
Lemma borders_ok (b : list V) : length b = w * h -> exists b', hess_borders w h b = Some b' /\ length b' = w * h /\
  forall x y, x < w -> y < h -> at2 b' x y = at2 b (inner w x) (inner h y).
Proof.
  intros L. unfold hess_borders. rewrite (proj2 (Nat.ltb_ge w 2)) by lia.
  destruct (copy_ok b 1 0 L ltac:(lia) ltac:(lia) ltac:(lia)) as (b1 & E1 & L1 & V1). replace (0 * w + 1) with 1 in E1 by lia. replace (1 * w + 1) with (w + 1) in E1 by lia. rewrite E1. cbn [obind].
  match goal with |- context [iter (h - 1) ?body _] => destruct (iter_inv (fun j '(b', i, o) => length b' = w * h /\ i = j * w + 1 /\ o = j * w + 0 /\
      forall x y, x < w -> y < h -> at2 b' x y = if y <? j then at2 b1 (inner w x) y else at2 b1 x y) body (h - 1) (b1, 1, 0)) as ([[b2 i] o] & -> & L2 & -> & -> & V2) end.
  - split; [auto|]. split; [lia|]. split; [lia|]. intros x y X Y. now rewrite (proj2 (Nat.ltb_ge y 0)) by lia.
  - intros j [[b' i] o] J (L' & -> & -> & V'). destruct (aget_cell b' 1 j) as (v & -> & Ev); [auto|lia|lia|]. cbn [obind]. destruct (aset_cell b' 0 j v) as (b2 & -> & L2 & A1 & A2); [auto|lia|lia|]. cbn [obind].
    destruct (zget_cell2 b2 (Z.of_nat (j * w + 1) + Z.of_nat w - 3) (w - 2) j) as (u & -> & Eu); [auto|lia|lia|lia|]. cbn [obind].
    destruct (zset_cell2 b2 (Z.of_nat (j * w + 0) + Z.of_nat w - 1) (w - 1) j u) as (b3 & -> & L3 & B1 & B2); [auto|lia|lia|lia|]. cbn [obind]. eexists. split; [reflexivity|]. split; [auto|]. split; [lia|]. split; [lia|].
    rewrite A2 in Eu by lia. rewrite V' in Eu, Ev by lia. rewrite (proj2 (Nat.ltb_ge j j)) in Eu, Ev by lia.
    intros x y X Y. destruct (Nat.eq_dec y j) as [->|N].
    + rewrite (proj2 (Nat.ltb_lt j (j + 1))) by lia. destruct (Nat.eq_dec x (w - 1)) as [->|Nx].
      * rewrite B1, <- Eu. f_equal. unfold inner. lia.
      * rewrite B2 by auto. destruct (Nat.eq_dec x 0) as [->|N0].
        -- rewrite A1, <- Ev. f_equal. unfold inner. lia.
        -- rewrite A2 by auto. rewrite V' by auto. rewrite (proj2 (Nat.ltb_ge j j)) by lia. f_equal. unfold inner. lia.
    + rewrite B2, A2, V' by auto. destruct (Nat.ltb_spec y j), (Nat.ltb_spec y (j + 1)); auto; lia.
  - cbn [obind]. replace ((h - 1) * w + 1 - w) with ((h - 2) * w + 1) by (replace (h - 1) with (S (h - 2)) by lia; cbn [Nat.mul]; generalize ((h - 2) * w); intros; lia).
    destruct (aget_cell b2 1 (h - 2)) as (v & -> & Ev); [auto|lia|lia|]. cbn [obind]. destruct (aset_cell b2 0 (h - 1) v) as (b3 & -> & L3 & A1 & A2); [auto|lia|lia|]. cbn [obind].
    destruct (zget_cell2 b3 (Z.of_nat ((h - 2) * w + 1) + Z.of_nat w - 3) (w - 2) (h - 2)) as (u & -> & Eu); [auto|lia|lia|lia|]. cbn [obind].
    destruct (zset_cell2 b3 (Z.of_nat ((h - 1) * w + 0) + Z.of_nat w - 1) (w - 1) (h - 1) u) as (b4 & -> & L4 & B1 & B2); [auto|lia|lia|lia|]. cbn [obind].
    replace ((h - 1) * w + 0 + 1) with ((h - 1) * w + 1) by lia. destruct (copy_ok b4 (h - 2) (h - 1) L4 ltac:(lia) ltac:(lia) ltac:(lia)) as (b5 & -> & L5 & V5). exists b5. split; [reflexivity|]. split; [auto|].
    assert (T : forall x y, x < w -> 1 <= y -> at2 b1 x y = at2 b x y) by (intros x y X Y; rewrite V1 by auto; now rewrite (proj2 (Nat.eqb_neq y 0)) by lia).
    assert (T0 : forall x, 1 <= x -> x <= w - 2 -> at2 b1 x 0 = at2 b x 1) by (intros x X Y; rewrite V1 by lia; rewrite Nat.eqb_refl, (proj2 (Nat.leb_le 1 x)), (proj2 (Nat.leb_le x (w - 2))) by auto; reflexivity).
    rewrite A2 in Eu by lia. rewrite V2 in Eu, Ev by lia. rewrite (proj2 (Nat.ltb_lt (h - 2) (h - 1))) in Eu, Ev by lia. rewrite T in Eu, Ev by (unfold inner; lia).
    intros x y X Y. rewrite V5 by auto. destruct (Nat.eqb_spec y (h - 1)) as [->|N].
    + replace (inner h (h - 1)) with (h - 2) by (unfold inner; lia). cbn [andb]. destruct (Nat.leb_spec 1 x), (Nat.leb_spec x (w - 2)); cbn [andb].
      * rewrite B2, A2, V2 by lia. rewrite (proj2 (Nat.ltb_lt (h - 2) (h - 1))) by lia. apply T; unfold inner; lia.
      * replace x with (w - 1) by lia. rewrite B1, <- Eu. f_equal. unfold inner. lia.
      * replace x with 0 by lia. rewrite B2, A1 by lia. rewrite <- Ev. reflexivity.
      * lia.
    + cbn [andb]. rewrite B2, A2, V2 by (auto; lia). rewrite (proj2 (Nat.ltb_lt y (h - 1))) by lia. destruct (Nat.eq_dec y 0) as [->|N0].
      * replace (inner h 0) with 1 by (unfold inner; lia). apply T0; unfold inner; lia.
      * replace (inner h y) with y by (unfold inner; lia). apply T; unfold inner; lia.
Qed.
End Borders.
Section Hessian.
Variable factor : Qc.
Variable img buf : list Qc.
Variable w h : nat.
Hypothesis W : 3 <= w.
Hypothesis H : 3 <= h.
Hypothesis IMG : length img = w * h.
Hypothesis BUF : length buf = w * h.
Definition done (x y x' y' : nat) : Prop := 1 <= x' <= w - 2 /\ 1 <= y' <= h - 2 /\ (y' < y \/ (y' = y /\ x' < x)).
Definition hstate (x y : nat) (b : list Qc) : Prop := length b = w * h /\ forall x' y', done x y x' y' -> at2 w b x' y' = Some (hessian_det img w x' y' * factor)%Qc.
Lemma img_at i x y : i = y * w + x -> x < w -> y < h -> aget img i = Some (pixel img w x y).
Proof. intros -> A B. apply aget_some. rewrite IMG. now apply cell_in. Qed.
Lemma rows_ok : exists b, hess_rows factor img w h buf = Some b /\ length b = w * h /\
  forall x y, 1 <= x <= w - 2 -> 1 <= y <= h - 2 -> at2 w b x y = Some (hessian_det img w x y * factor)%Qc.
Proof.
  unfold hess_rows.
  match goal with |- context [iter (h - 2) ?body _] => destruct (iter_inv (fun j '(b, i, o) => hstate 1 (j + 1) b /\ i = (j + 1) * w /\ o = (j + 1) * w + 1) body (h - 2) (buf, w, 1 + w)) as ([[b i] o] & -> & (L & S) & _) end.
  - split; [split; [auto|intros x' y' D; unfold done in D; lia]|lia].
  - intros j [[b i] o] J (S & -> & ->). 
    rewrite (img_at _ 0 j) by (replace ((j + 1) * w) with (j * w + w) by lia; lia). rewrite (img_at ((j + 1) * w + 1 - w) 1 j) by (replace ((j + 1) * w) with (j * w + w) by lia; lia).
    rewrite (img_at ((j + 1) * w) 0 (j + 1)) by lia. rewrite (img_at ((j + 1) * w + 1) 1 (j + 1)) by lia. rewrite (img_at ((j + 1) * w + w) 0 (j + 2)) by lia. rewrite (img_at ((j + 1) * w + 1 + w) 1 (j + 2)) by lia. cbn [obind].
    match goal with |- context [iter (w - 2) ?body ?st] => destruct (iter_inv (fun k '(b, i, o, p11, p12, p21, p22, p31, p32) => hstate (k + 1) (j + 1) b /\ i = (j + 1) * w + (k + 2) /\ o = (j + 1) * w + (k + 1) /\
        p11 = pixel img w k j /\ p12 = pixel img w (k + 1) j /\ p21 = pixel img w k (j + 1) /\ p22 = pixel img w (k + 1) (j + 1) /\ p31 = pixel img w k (j + 2) /\ p32 = pixel img w (k + 1) (j + 2)) body (w - 2) st)
        as ([[[[[[[[b' i] o] p11] p12] p21] p22] p31] p32] & -> & S' & -> & -> & _) end.
    + repeat split; try apply S; lia.
    + intros k [[[[[[[[b' i] o] p11] p12] p21] p22] p31] p32] K ((L' & S') & -> & -> & -> & -> & -> & -> & -> & ->).
      rewrite (img_at ((j + 1) * w + (k + 2) - w) (k + 2) j) by (replace ((j + 1) * w) with (j * w + w) by lia; lia). rewrite (img_at _ (k + 2) (j + 1)) by lia. rewrite (img_at ((j + 1) * w + (k + 2) + w) (k + 2) (j + 2)) by lia. cbn [obind].
      match goal with |- context [aset b' _ ?v] => destruct (aset_cell w h W H b' (k + 1) (j + 1) v L' ltac:(lia) ltac:(lia)) as (b'' & -> & L'' & A1 & A2) end. cbn [obind].
      eexists. split; [reflexivity|]. replace (k + 1 + 1) with (k + 2) by lia. split; [|repeat split; lia]. split; [auto|]. intros x' y' D.
      destruct (Nat.eq_dec x' (k + 1)) as [->|Nx]; [destruct (Nat.eq_dec y' (j + 1)) as [->|Ny]|].
      * rewrite A1. f_equal. unfold window, hessian_det. replace (k + 1 + 1) with (k + 2) by lia. replace (k + 1 - 1) with k by lia. replace (j + 1 + 1) with (j + 2) by lia. replace (j + 1 - 1) with j by lia.
        field. intros E. apply (f_equal this) in E. vm_compute in E. discriminate E.
      * rewrite A2 by lia. apply S'. unfold done in *. lia.
      * rewrite A2 by (unfold done in D; lia). apply S'. unfold done in *. lia.
    + cbn [obind]. eexists. split; [reflexivity|]. destruct S' as (L' & S'). split; [|lia]. split; [auto|]. intros x' y' D. apply S'. unfold done in *. lia.
  - cbn [obind]. exists b. split; [reflexivity|]. split; [auto|]. intros x y X Y. apply S. unfold done. lia.
Qed.
Lemma det_hessian_ok : exists b, det_hessian factor img w h buf = Some b /\ length b = w * h /\
  forall x y, x < w -> y < h -> nth_error b (y * w + x) = Some (factor * hessian_det img w (inner w x) (inner h y))%Qc.
Proof.
  unfold det_hessian. rewrite (proj2 (Nat.eqb_neq w 0)), (proj2 (Nat.eqb_neq h 0)) by lia. cbn [orb]. destruct rows_ok as (b & -> & L & V). cbn [obind].
  destruct (borders_ok w h W H b L) as (b' & -> & L' & V'). exists b'. split; [reflexivity|]. split; [auto|]. intros x y X Y. change (at2 w b' x y = Some (factor * hessian_det img w (inner w x) (inner h y))%Qc). rewrite V', V by (auto; unfold inner; lia). f_equal. ring.
Qed.
End Hessian.

Lemma layout_rows w h ws hs : 0 < ws -> (w - 1) * ws < hs -> layout w h ws hs.
Proof.
  intros P Q x y x' y' X Y X' Y' E.
  assert (A : forall x, x < w -> x * ws < hs) by (intros z Z; assert (z * ws <= (w - 1) * ws) by (apply Nat.mul_le_mono_r; lia); lia).
  destruct (cell_inj hs (x * ws) y (x' * ws) y' (A x X) (A x' X') E) as [U V]. split; [|auto]. apply Nat.mul_cancel_r in U; lia.
Qed.
(** loops that write one entry per index *)
Lemma dog_ok l1 l2 n dog : n <= length l1 -> n <= length l2 -> n <= length dog -> exists r, dog_response l1 l2 n dog = Some r /\ length r = length dog /\
  (forall k, k < n -> nth_error r k = Some (nth k l2 0 - nth k l1 0)%Qc) /\ (forall k, n <= k -> nth_error r k = nth_error dog k).
Proof.
  intros A B C. unfold dog_response.
  match goal with |- context [iter n ?body _] => destruct (iter_inv (fun j r => wrote (fun k => k) (fun k => (nth k l2 0 - nth k l1 0)%Qc) dog r (fun k => k < j)) body n dog) as (r & -> & L & V & U) end.
  - apply wrote_none. lia.
  - intros j r J S. rewrite (aget_some l2 j 0%Qc), (aget_some l1 j 0%Qc) by lia. cbn [obind]. rewrite aset_some by (destruct S as [-> _]; lia). eexists. split; [reflexivity|].
    apply (wrote_step (fun k => k) (fun k => (nth k l2 0 - nth k l1 0)%Qc) dog r (fun k => k < j) _ j S); lia.
  - exists r. split; [reflexivity|]. split; [auto|]. split; [auto|]. intros k K. apply U. lia.
Qed.
Lemma harris_ok smooth factor alpha img w h j1 j2 j3 harris : 2 <= w -> 2 <= h -> length img = w * h -> (forall l, length (smooth l) = length l) ->
  length j1 = w * h -> length j2 = w * h -> length j3 = w * h -> length harris = w * h ->
  exists xx yy xy r, length xx = w * h /\ length yy = w * h /\ length xy = w * h /\
    (forall x y, x < w -> y < h -> let gx := horizontal img w w x y in let gy := vertical img w h x y in
       nth_error xx (y * w + x) = Some (gx * gx)%Qc /\ nth_error yy (y * w + x) = Some (gy * gy)%Qc /\ nth_error xy (y * w + x) = Some (gx * gy)%Qc) /\
    harris_response smooth factor alpha img w h j1 j2 j3 harris = Some r /\ length r = w * h /\
    forall k, k < w * h -> nth_error r k = Some (factor * harris_score alpha (nth k (smooth xx) 0) (nth k (smooth yy) 0) (nth k (smooth xy) 0))%Qc.
Proof.
  intros W H IMG SM J1 J2 J3 JH. unfold harris_response, imgradient.
  assert (IN : forall x y, x < w -> y < h -> y * w + x * 1 < w * h) by (intros; rewrite Nat.mul_1_r; now apply cell_in).
  destruct (gradient_ok (fun gx _ : Qc => gx) (fun _ gy : Qc => gy) img w 1 w w h j1 j2) as (gx & gy & -> & (L1 & V1 & _) & (L2 & V2 & _)); auto.
  { rewrite IMG. replace (w * h) with (S (h - 1) * w) by (replace (S (h - 1)) with h by lia; lia). lia. }
  { apply layout_rows; lia. }
  { intros. rewrite J1. auto. }
  { intros. rewrite J2. auto. }
  cbn [obind].
  match goal with |- context [iter (w * h) ?body (gx, gy, j3)] => destruct (iter_inv (fun j '(xx, yy, xy) =>
      wrote (fun k => k) (fun k => (nth k gx 0 * nth k gx 0)%Qc) gx xx (fun k => k < j) /\ wrote (fun k => k) (fun k => (nth k gy 0 * nth k gy 0)%Qc) gy yy (fun k => k < j) /\
      wrote (fun k => k) (fun k => (nth k gx 0 * nth k gy 0)%Qc) j3 xy (fun k => k < j)) body (w * h) (gx, gy, j3)) as ([[xx yy] xy] & -> & (LX & VX & _) & (LY & VY & _) & (LXY & VXY & _)) end.
  - repeat split; auto; try (intros; lia).
  - intros j [[xx yy] xy] J (SX & SY & SXY).
    assert (EX : aget xx j = Some (nth j gx 0%Qc)) by (unfold aget; destruct SX as (_ & _ & U); rewrite U by lia; apply nth_error_nth'; lia).
    assert (EY : aget yy j = Some (nth j gy 0%Qc)) by (unfold aget; destruct SY as (_ & _ & U); rewrite U by lia; apply nth_error_nth'; lia). rewrite EX, EY. cbn [obind].
    rewrite aset_some by (destruct SX as [-> _]; lia). cbn [obind]. rewrite aset_some by (destruct SY as [-> _]; lia). cbn [obind]. rewrite aset_some by (destruct SXY as [-> _]; lia). cbn [obind]. eexists. split; [reflexivity|]. split; [|split].
    + apply (wrote_step (fun k => k) (fun k => (nth k gx 0 * nth k gx 0)%Qc) gx xx (fun k => k < j) _ j SX); lia.
    + apply (wrote_step (fun k => k) (fun k => (nth k gy 0 * nth k gy 0)%Qc) gy yy (fun k => k < j) _ j SY); lia.
    + apply (wrote_step (fun k => k) (fun k => (nth k gx 0 * nth k gy 0)%Qc) j3 xy (fun k => k < j) _ j SXY); lia.
  - cbn [obind]. cbv zeta.
    match goal with |- context [iter (w * h) ?body harris] => destruct (iter_inv (fun j r => wrote (fun k => k) (fun k => (factor * harris_score alpha (nth k (smooth xx) 0) (nth k (smooth yy) 0) (nth k (smooth xy) 0))%Qc) harris r (fun k => k < j)) body (w * h) harris) as (r & E & L & V & U) end.
    + apply wrote_none. lia.
    + intros j r J S. rewrite (aget_some (smooth xx) j 0%Qc), (aget_some (smooth yy) j 0%Qc), (aget_some (smooth xy) j 0%Qc) by (rewrite SM; lia). cbn [obind]. rewrite aset_some by (destruct S as [-> _]; lia). eexists. split; [reflexivity|].
      apply (wrote_step (fun k => k) (fun k => (factor * harris_score alpha (nth k (smooth xx) 0) (nth k (smooth yy) 0) (nth k (smooth xy) 0))%Qc) harris r (fun k => k < j) _ j S); lia.
    + exists xx, yy, xy, r. split; [lia|]. split; [lia|]. split; [lia|]. split; [|split; [exact E|split; [lia|exact V]]].
      intros x y X Y. pose proof (cell_in w h x y X Y) as I. specialize (V1 (x, y) (conj X Y)). specialize (V2 (x, y) (conj X Y)). cbn [fst snd] in V1, V2. rewrite Nat.mul_1_r in V1, V2.
      rewrite VX, VY, VXY by lia. rewrite (nth_error_nth _ _ 0%Qc V1), (nth_error_nth _ _ 0%Qc V2). auto.
Qed.
