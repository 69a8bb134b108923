(** Proofs about the SIFT detector. *)
From Coq Require Import List Arith ZArith Lia Bool QArith Qcanon Qcabs Sorted.
Import ListNotations.
From Coq Require Import Lqa.
From Verif Require Import Base Loop Rat MserSort_Proofs ImOp_Spec KmeansEnergy_Proofs Homker_Proofs Sift_Proofs Gauss_Spec Gauss_Proofs Gauss_Props Sift_Model Sift_Spec SiftDetect_Spec.
From Verif Require Gauss_Model.
From Verif Require Import SiftDetect_Model.
Notation qlt := Gauss_Model.qlt.
Notation tiny := Gauss_Model.tiny.
Local Open Scope nat_scope.

(** ** the solver is that of mathop.c *)
Lemma nine (A : list Qc) : length A = 9 -> exists a b c d e f g h i, A = [a;b;c;d;e;f;g;h;i].
Proof. intros L. do 10 (destruct A as [|? A]; try discriminate L). repeat eexists. Qed.
Lemma three (b : list Qc) : length b = 3 -> exists x y z, b = [x;y;z].
Proof. intros L. do 4 (destruct b as [|? b]; try discriminate L). repeat eexists. Qed.

Lemma pivot_same A b j : length A = 9 -> length b = 3 -> j < 3 ->
  exists q qa p, pivot A j = Some (q, qa, p) /\ Gauss_Model.pivot 3 (A ++ b) j = Some (q, qa, if p <? 3 then Some p else None) /\ (p < 3 -> j <= p).
Proof.
  intros LA Lb Lj. destruct (nine A LA) as (a0 & a1 & a2 & a3 & a4 & a5 & a6 & a7 & a8 & ->). destruct (three b Lb) as (b0 & b1 & b2 & ->).
  unfold pivot, Gauss_Model.pivot, Gauss_Model.pivot_step, Gauss_Model.mget, aat.
  destruct j as [|[|[|j]]]; [| | |lia]; cbn -[Qcabs qlt]; repeat (match goal with |- context [qlt ?a ?b] => destruct (qlt a b) end; cbn -[Qcabs qlt]);
    do 3 eexists; (split; [reflexivity|split; [reflexivity|lia]]).
Qed.
Lemma swap_same A b i j q : length A = 9 -> length b = 3 -> i < 3 -> j < 3 ->
  exists A1 b1 u v x, swap_row A i j q = Some A1 /\ aget b j = Some u /\ aget b i = Some v /\
    (do b <- aset b j v; aset b i u) = Some b1 /\ aget b1 j = Some x /\
    aset b1 j (x / q)%Qc = Some (upd b1 j (x / q)%Qc) /\ length A1 = 9 /\ length b1 = 3 /\
    iter_from (4 - j) j (Gauss_Model.swap_step 3 i j q) (A ++ b) = Some (A1 ++ upd b1 j (x / q)%Qc).
Proof.
  intros LA Lb Li Lj. destruct (nine A LA) as (a0 & a1 & a2 & a3 & a4 & a5 & a6 & a7 & a8 & ->). destruct (three b Lb) as (b0 & b1 & b2 & ->).
  unfold swap_row, Gauss_Model.swap_step, Gauss_Model.mget, Gauss_Model.mset, aat.
  destruct i as [|[|[|i]]]; [| | |lia]; (destruct j as [|[|[|j]]]; [| | |lia]); cbn -[Qcdiv]; do 5 eexists; repeat (split; [reflexivity|]); reflexivity.
Qed.
Lemma clear_same A b j : length A = 9 -> length b = 3 -> j < 3 ->
  exists A1 b1, clear_below A b j = Some (A1, b1) /\ length A1 = 9 /\ length b1 = 3 /\
    iter_from (3 - (j + 1)) (j + 1) (Gauss_Model.elim_row 3 4 j) (A ++ b) = Some (A1 ++ b1).
Proof.
  intros LA Lb Lj. destruct (nine A LA) as (a0 & a1 & a2 & a3 & a4 & a5 & a6 & a7 & a8 & ->). destruct (three b Lb) as (b0 & b1 & b2 & ->).
  unfold clear_below, Gauss_Model.elim_row, Gauss_Model.elim_cell, Gauss_Model.mget, Gauss_Model.mset, aat.
  destruct j as [|[|[|j]]]; [| | |lia]; cbn -[Qcminus Qcmult]; do 2 eexists; repeat (split; [reflexivity|]); reflexivity.
Qed.
Lemma eliminate_same n : forall j A b, j + n = 3 -> length A = 9 -> length b = 3 ->
  exists A1 b1 ok m, eliminate n j A b = Some (A1, b1, ok) /\ Gauss_Model.columns_loop 3 n 4 j (A ++ b) = Some (ok, m) /\
    length A1 = 9 /\ length b1 = 3 /\ (ok = true -> m = A1 ++ b1) /\ (ok = false -> b1 = [0;0;0]%Qc /\ length m = 12).
Proof.
  induction n as [|n IH]; intros j A b E LA Lb; cbn [eliminate Gauss_Model.columns_loop].
  - do 4 eexists. repeat (split; [reflexivity|]). split; [exact LA|]. split; [exact Lb|]. split; [reflexivity|discriminate].
  - destruct (pivot_same A b j LA Lb ltac:(lia)) as (q & qa & p & E1 & E2 & Hp). unfold Gauss_Model.column. rewrite E1, E2. cbn [obind].
    destruct (qlt qa tiny) eqn:Q.
    + do 4 eexists. repeat (split; [reflexivity|]). split; [exact LA|]. split; [reflexivity|]. split; [discriminate|]. intros _. split; [reflexivity|].
      rewrite app_length. lia.
    + destruct (Nat.ltb_spec p 3) as [Lp|Lp].
      2: { exfalso. destruct (pivot_ok 3 4 ltac:(lia) (A ++ b) j) as (q' & qa' & p' & E3 & _ & P); [unfold sized; rewrite app_length; lia|lia|].
           rewrite E2 in E3. injection E3 as <- <- <-. rewrite P in Q. discriminate Q. }
      cbn [obind]. destruct (swap_same A b p j q LA Lb Lp ltac:(lia)) as (A1 & b1 & u & v & x & F1 & F2 & F3 & F4 & F5 & F6 & L1 & L2 & F7).
      rewrite F1, F7. cbn [obind]. rewrite F2. cbn [obind]. rewrite F3. cbn [obind].
      destruct (aset b j v) as [b'|]; cbn [obind] in F4; [|discriminate]. cbn [obind]. rewrite F4. cbn [obind]. rewrite F5. cbn [obind]. rewrite F6. cbn [obind].
      destruct (clear_same A1 (upd b1 j (x / q)%Qc) j L1 ltac:(now rewrite upd_length) ltac:(lia)) as (A2 & b2 & G1 & L3 & L4 & G2).
      rewrite G1, G2. cbn [obind]. destruct (IH (j + 1) A2 b2) as (A3 & b3 & ok & m & I1 & I2 & I3 & I4 & I5 & I6); auto; [lia|].
      exists A3, b3, ok, m. auto 10.
Qed.
Lemma back_same A b : length A = 9 -> length b = 3 ->
  exists b1 b2, back_one A 2 b = Some b1 /\ back_one A 1 b1 = Some b2 /\ length b2 = 3 /\ Gauss_Model.back 3 4 (A ++ b) = Some (A ++ b2).
Proof.
  intros LA Lb. destruct (nine A LA) as (a0 & a1 & a2 & a3 & a4 & a5 & a6 & a7 & a8 & ->). destruct (three b Lb) as (b0 & b1 & b2 & ->).
  do 2 eexists. split; [reflexivity|]. split; [reflexivity|]. split; [reflexivity|].
  unfold Gauss_Model.back, Gauss_Model.back_row, Gauss_Model.back_cell, Gauss_Model.mget, Gauss_Model.mset. cbn -[Qcminus Qcmult].
  apply (f_equal Some). repeat (apply (f_equal2 (@cons Qc)); [first [reflexivity|ring]|]). reflexivity.
Qed.
Lemma back_zero A : length A = 9 -> (do b <- back_one A 2 [0;0;0]%Qc; back_one A 1 b) = Some [0;0;0]%Qc.
Proof.
  intros LA. destruct (nine A LA) as (a0 & a1 & a2 & a3 & a4 & a5 & a6 & a7 & a8 & ->). unfold back_one, aat. cbn -[Qcminus Qcmult Q2Qc].
  apply (f_equal Some). repeat (apply (f_equal2 (@cons Qc)); [first [reflexivity|ring]|]). reflexivity.
Qed.
(** the solver finds the only solution, or returns 0 for a nearly singular matrix *)
Lemma solve3_ok A b : length A = 9 -> length b = 3 ->
  exists x ok, solve3 A b = Some (x, ok) /\ length x = 3 /\
    (ok = true -> forall y, length y = 3 -> (system 3 A b y <-> y = x)) /\
    (ok = false -> x = [0;0;0]%Qc /\ nearly_singular 3 A).
Proof.
  intros LA Lb. destruct (eliminate_same 3 0 A b eq_refl LA Lb) as (A1 & b1 & ok & m & E & EG & L1 & L2 & Ht & Hf).
  unfold solve3. rewrite E. cbn [obind].
  destruct (C50_solve_3 A b LA Lb) as (ok' & x & SG & St & Sf). unfold Gauss_Model.solve3, Gauss_Model.gaussian_elimination in SG.
  rewrite !firstn_all2 in SG by lia. rewrite EG in SG. cbn [obind] in SG. destruct ok.
  - rewrite (Ht eq_refl) in SG. destruct (back_same A1 b1 L1 L2) as (c1 & c2 & B1 & B2 & L3 & B3). rewrite B1. cbn [obind]. rewrite B2. cbn [obind].
    rewrite B3 in SG. cbn [obind] in SG. exists c2, true. split; [reflexivity|]. split; [exact L3|]. split; [|discriminate]. intros _.
    rewrite !(aget_nth _ _ 0%Qc) in SG by (rewrite app_length; lia). cbn [obind] in SG.
    rewrite !app_nth2 in SG by lia. rewrite L1 in SG. cbn [Nat.sub] in SG. injection SG as <- <-.
    destruct (three c2 L3) as (x0 & x1 & x2 & ->). cbn [nth] in St.
    destruct (St eq_refl) as (_ & S1 & S2). intros y Ly. split; [intro H; now apply S2|intros ->; exact S1].
  - destruct (Hf eq_refl) as [-> Lm]. pose proof (back_zero A1 L1) as BZ.
    destruct (back_one A1 2 [0;0;0]%Qc) as [c1|]; cbn [obind] in *; [|discriminate]. rewrite BZ. cbn [obind].
    do 2 eexists. split; [reflexivity|]. split; [reflexivity|]. split; [discriminate|]. intros _. split; [reflexivity|].
    rewrite !(aget_nth _ _ 0%Qc) in SG by lia. cbn [obind] in SG. injection SG as <- _. now apply Sf.
Qed.

(** ** extrema *)
Definition directions : list (Z * Z * Z) :=
  [(1,0,0); (-1,0,0); (0,0,1); (0,0,-1); (0,1,0); (0,-1,0);
   (1,1,0); (-1,1,0); (1,-1,0); (-1,-1,0);
   (1,0,1); (-1,0,1); (0,1,1); (0,-1,1); (1,1,1); (-1,1,1); (1,-1,1); (-1,-1,1);
   (1,0,-1); (-1,0,-1); (0,1,-1); (0,-1,-1); (1,1,-1); (-1,1,-1); (1,-1,-1); (-1,-1,-1)]%Z.
Lemma directions_all a b c : In (a, b, c) directions <-> near a /\ near b /\ near c /\ (a, b, c) <> (0, 0, 0)%Z.
Proof.
  unfold near. split.
  - intros H. unfold directions in H. repeat (destruct H as [H|H]; [injection H as <- <- <-; repeat (split; [lia|]); discriminate|]). destruct H.
  - intros (Ha & Hb & Hc & N). assert (Ea : (a = -1 \/ a = 0 \/ a = 1)%Z) by lia. assert (Eb : (b = -1 \/ b = 0 \/ b = 1)%Z) by lia. assert (Ec : (c = -1 \/ c = 0 \/ c = 1)%Z) by lia.
    destruct Ea as [->|[->| ->]]; destruct Eb as [->|[->| ->]]; destruct Ec as [->|[->| ->]]; unfold directions; cbn [In]; tauto.
Qed.
Lemma neighbours_dirs xo yo so : neighbours xo yo so = map (fun '(a, b, c) => a * xo + b * yo + c * so)%Z directions.
Proof. unfold neighbours, directions. cbn [map]. repeat (apply (f_equal2 (@cons Z)); [ring|]). reflexivity. Qed.

Lemma zgets_map {T} (l : list Qc) (f : T -> Z) (g : T -> Qc) (ts : list T) :
  (forall t, In t ts -> zget l (f t) = Some (g t)) -> zgets l (map f ts) = Some (map g ts).
Proof.
  induction ts as [|t ts IH]; intros H; cbn [map zgets]; [reflexivity|]. rewrite H by (now left). cbn [obind]. rewrite IH by (intros; apply H; now right). reflexivity.
Qed.

Lemma sorted_snoc {T} (R : T -> T -> Prop) l p : StronglySorted R l -> (forall q, In q l -> R q p) -> StronglySorted R (l ++ [p]).
Proof.
  intros H. induction H as [|a l H IH F]; intros L; cbn [app]; [repeat constructor|]. constructor; [apply IH; intros; apply L; now right|].
  apply Forall_app. split; [exact F|]. constructor; [apply L; now left|constructor].
Qed.

Section Detect.
Variables (dog : list Qc) (w h n : nat) (D : volume).
Definition place (x y s : Z) : Z := (x + Z.of_nat w * y + Z.of_nat (w * h) * (s + 1))%Z.
Definition sees : Prop := forall x y s, (0 <= x < Z.of_nat w)%Z -> (0 <= y < Z.of_nat h)%Z -> (-1 <= s <= Z.of_nat n)%Z ->
  zget dog (place x y s) = Some (val D x y s).
Hypothesis See : sees.

Lemma inner_near m x d : inner m x -> near d -> (0 <= x + d < Z.of_nat m)%Z.
Proof. clear. unfold inner, near. lia. Qed.
Lemma is_peak_ok tp x y s : inner w x -> inner h y -> (0 <= s < Z.of_nat n)%Z ->
  exists p, is_peak dog w h tp (place x y s) = Some p /\ (p = true <-> extremum tp D x y s).
Proof.
  intros Hx Hy Hs. unfold is_peak. rewrite See by (unfold inner in *; lia). cbn [obind].
  rewrite neighbours_dirs, map_map.
  rewrite (zgets_map dog _ (fun '(a, b, c) => val D (x + a) (y + b) (s + c))).
  2: { intros [[a b] c] Hi. apply directions_all in Hi. destruct Hi as (Ha & Hb & Hc & _).
       rewrite <- See; [f_equal; unfold place; ring|now apply inner_near|now apply inner_near|unfold near in Hc; lia]. }
  cbn [obind]. eexists. split; [reflexivity|]. rewrite orb_true_iff, !andb_true_iff, !negb_true_iff, !qlt_false, !forallb_forall. unfold extremum, local_max, local_min.
  change point8 with (zq 8 / zq 10)%Qc.
  assert (M : (forall q, In q (map (fun '(a, b, c) => val D (x + a) (y + b) (s + c)) directions) -> qlt q (val D x y s) = true) <->
     (forall dx dy ds, near dx -> near dy -> near ds -> (dx, dy, ds) <> (0, 0, 0)%Z -> (val D (x + dx) (y + dy) (s + ds) < val D x y s)%Qc)).
  { split.
    - intros H a b c Ha Hb Hc N. apply qlt_true. apply H. change (val D (x + a) (y + b) (s + c)) with ((fun '(a, b, c) => val D (x + a) (y + b) (s + c)) (a, b, c)).
      apply in_map. apply directions_all. auto.
    - intros H q Hq. apply in_map_iff in Hq. destruct Hq as ([[a b] c] & <- & Hi). apply directions_all in Hi. apply qlt_true. now apply H. }
  assert (M' : (forall q, In q (map (fun '(a, b, c) => val D (x + a) (y + b) (s + c)) directions) -> qlt (val D x y s) q = true) <->
     (forall dx dy ds, near dx -> near dy -> near ds -> (dx, dy, ds) <> (0, 0, 0)%Z -> (val D x y s < val D (x + dx) (y + dy) (s + ds))%Qc)).
  { split.
    - intros H a b c Ha Hb Hc N. apply qlt_true. apply H. change (val D (x + a) (y + b) (s + c)) with ((fun '(a, b, c) => val D (x + a) (y + b) (s + c)) (a, b, c)).
      apply in_map. apply directions_all. auto.
    - intros H q Hq. apply in_map_iff in Hq. destruct Hq as ([[a b] c] & <- & Hi). apply directions_all in Hi. apply qlt_true. now apply H. }
  rewrite M, M'. tauto.
Qed.

(** the candidates before a position *)
Definition found (tp : Qc) (q : Z * Z * Z) (keys : list (Z * Z * Z)) : Prop :=
  StronglySorted earlier keys /\
  forall x y s, In (x, y, s) keys <-> inner w x /\ inner h y /\ (0 <= s < Z.of_nat n)%Z /\ extremum tp D x y s /\ earlier (x, y, s) q.
Lemma found_next tp q q' keys : found tp q keys ->
  (forall x y s, inner w x -> inner h y -> (0 <= s < Z.of_nat n)%Z -> (earlier (x, y, s) q <-> earlier (x, y, s) q')) -> found tp q' keys.
Proof.
  clear See. intros (S & H) E. split; [exact S|]. intros x y s. rewrite H. split; intros (A1 & A2 & A3 & A4 & A5); (split; [exact A1|split; [exact A2|split; [exact A3|split; [exact A4|]]]]); apply (E x y s A1 A2 A3); exact A5.
Qed.
Lemma candidates_ok tp : exists keys, candidates dog w h n tp = Some keys /\ StronglySorted earlier keys /\
  forall x y s, In (x, y, s) keys <-> inner w x /\ inner h y /\ (0 <= s < Z.of_nat n)%Z /\ extremum tp D x y s.
Proof.
  unfold candidates.
  assert (G : exists st, iter n (fun s st =>
      do (pt, keys) <- iter (h - 2) (fun y st =>
          do (pt, keys) <- iter (w - 2) (fun x (st : Z * list (Z * Z * Z)) =>
              let (pt, keys) := st in
              do p <- is_peak dog w h tp pt;
              Some ((pt + 1)%Z, if p then keys ++ [(Z.of_nat x + 1, Z.of_nat y + 1, Z.of_nat s)%Z] else keys)) st;
          Some ((pt + 2)%Z, keys)) st;
      Some ((pt + 2 * Z.of_nat w)%Z, keys)) ((1 + Z.of_nat w + Z.of_nat (w * h))%Z, []) = Some st /\ found tp (0, 0, Z.of_nat n)%Z (snd st)).
  2: { destruct G as ([pt keys] & -> & S & H). cbn [obind snd] in *. exists keys. split; [reflexivity|]. split; [exact S|].
       intros x y s. rewrite H. unfold earlier. split; [tauto|]. intros (A1 & A2 & A3 & A4). repeat (split; [assumption|]). left. lia. }
  set (good := fun s (st : Z * list (Z * Z * Z)) => found tp (0, 0, Z.of_nat s)%Z (snd st) /\ (2 <= w -> 2 <= h -> fst st = place 1 1 (Z.of_nat s))).
  match goal with |- context [iter n ?b ?s0] => destruct (iter_inv good b n s0) as (st & E & G1 & _) end.
  - split; [|intros; unfold place; cbn [fst]; lia]. cbn [snd]. split; [constructor|]. intros x y s. unfold earlier, inner. split; [intros []|lia].
  - intros s [pt0 keys0] Ls (F0 & P0). cbn [fst snd] in F0, P0.
    set (goody := fun y (st : Z * list (Z * Z * Z)) => found tp (0, Z.of_nat y + 1, Z.of_nat s)%Z (snd st) /\ (2 <= w -> 2 <= h -> fst st = place 1 (Z.of_nat y + 1) (Z.of_nat s))).
    match goal with |- context [iter (h - 2) ?b ?s0] => destruct (iter_inv goody b (h - 2) s0) as ([pt1 keys1] & E1 & G1 & P1) end.
    + split; [|exact P0]. eapply found_next; [exact F0|]. cbn [snd]. unfold earlier, inner. lia.
    + intros y [pt2 keys2] Ly (F2 & P2). cbn [fst snd] in F2, P2.
      set (goodx := fun x (st : Z * list (Z * Z * Z)) => found tp (Z.of_nat x + 1, Z.of_nat y + 1, Z.of_nat s)%Z (snd st) /\ (2 <= w -> fst st = place (Z.of_nat x + 1) (Z.of_nat y + 1) (Z.of_nat s))).
      match goal with |- context [iter (w - 2) ?b ?s0] => destruct (iter_inv goodx b (w - 2) s0) as ([pt3 keys3] & E3 & G3 & P3) end.
      * split; [|intros; apply P2; lia]. eapply found_next; [exact F2|]. cbn [snd]. unfold earlier, inner. lia.
      * intros x [pt4 keys4] Lx ((S4 & F4) & P4). cbn [fst snd] in S4, F4, P4. rewrite P4 by lia.
        destruct (is_peak_ok tp (Z.of_nat x + 1) (Z.of_nat y + 1) (Z.of_nat s)) as (p & E4 & R4); [unfold inner; lia|unfold inner; lia|lia|].
        rewrite E4. cbn [obind]. eexists. split; [reflexivity|]. split; [|cbn [fst]; intros; unfold place; lia]. cbn [snd].
        assert (T : forall a b c, earlier (a, b, c) (Z.of_nat (x + 1) + 1, Z.of_nat y + 1, Z.of_nat s)%Z <->
            earlier (a, b, c) (Z.of_nat x + 1, Z.of_nat y + 1, Z.of_nat s)%Z \/ (a, b, c) = (Z.of_nat x + 1, Z.of_nat y + 1, Z.of_nat s)%Z).
        { intros a b c. unfold earlier. split; [intros H|intros [H|H]; [lia|injection H as -> -> ->; lia]].
          destruct (Z.eq_dec a (Z.of_nat x + 1)) as [->|]; [|left; lia]. destruct (Z.eq_dec b (Z.of_nat y + 1)) as [->|]; [|left; lia].
          destruct (Z.eq_dec c (Z.of_nat s)) as [->|]; [now right|left; lia]. }
        destruct p.
        -- split.
           ++ apply sorted_snoc; [exact S4|]. intros [[a b] c] Hq. apply F4 in Hq. tauto.
           ++ intros a b c. rewrite in_app_iff, F4, T. cbn [In]. split.
              ** intros [H|[H|[]]]; [tauto|]. injection H as <- <- <-. unfold inner. repeat (split; [lia|]). split; [now apply R4|now right].
              ** intros (A1 & A2 & A3 & A4 & [A5|A5]); [tauto|]. right. left. congruence.
        -- split; [exact S4|]. intros a b c. rewrite F4, T. split; [tauto|]. intros (A1 & A2 & A3 & A4 & [A5|A5]); [tauto|].
           injection A5 as -> -> ->. apply R4 in A4. discriminate.
      * rewrite E3. cbn [obind]. eexists. split; [reflexivity|]. split.
        -- eapply found_next; [exact G3|]. cbn [snd]. unfold earlier, inner. lia.
        -- intros Hw Hh. cbn [fst] in *. rewrite P3 by exact Hw. unfold place. nia.
    + rewrite E1. cbn [obind]. eexists. split; [reflexivity|]. split.
      * eapply found_next; [exact G1|]. cbn [snd]. unfold earlier, inner. lia.
      * intros Hw Hh. cbn [fst] in *. rewrite P1 by assumption. unfold place. nia.
  - exists st. split; [exact E|exact G1].
Qed.

(** ** refinement *)
Definition jet_at (x y s : Z) : jet :=
  Jet (val D x y s) (D_x D x y s) (D_y D x y s) (D_s D x y s) (D_xx D x y s) (D_yy D x y s) (D_ss D x y s) (D_xy D x y s) (D_xs D x y s) (D_ys D x y s).
Lemma around_ok x y s dx dy ds : inner w x -> inner h y -> (0 <= s < Z.of_nat n)%Z -> near dx -> near dy -> near ds ->
  around dog w h (place x y s) dx dy ds = Some (val D (x + dx) (y + dy) (s + ds)).
Proof.
  intros Hx Hy Hs Nx Ny Ns. unfold around. rewrite <- See; [f_equal; unfold place; ring|now apply inner_near|now apply inner_near|unfold near in Ns; lia].
Qed.
Lemma derivatives_ok x y s : inner w x -> inner h y -> (0 <= s < Z.of_nat n)%Z -> derivatives dog w h (place x y s) = Some (jet_at x y s).
Proof.
  intros Hx Hy Hs. unfold derivatives. rewrite !(around_ok x y s) by (auto; unfold near; lia). cbn [obind]. rewrite !Z.add_0_r.
  unfold jet_at, D_x, D_y, D_s, D_xx, D_yy, D_ss, D_xy, D_xs, D_ys, half.
  change (x + -1)%Z with (x - 1)%Z. change (y + -1)%Z with (y - 1)%Z. change (s + -1)%Z with (s - 1)%Z.
  apply (f_equal Some). f_equal; unfold Qcdiv; ring.
Qed.
Lemma newton_ok x y s : let d := jet_at x y s in
  exists b0 b1 b2 ok, solve3 [d_xx d; d_xy d; d_xs d; d_xy d; d_yy d; d_ys d; d_xs d; d_ys d; d_ss d] [- d_x d; - d_y d; - d_s d]%Qc = Some ([b0; b1; b2], ok) /\
    newton D x y s (b0, b1, b2).
Proof.
  clear See. intros d. destruct (solve3_ok [d_xx d; d_xy d; d_xs d; d_xy d; d_yy d; d_ys d; d_xs d; d_ys d; d_ss d] [- d_x d; - d_y d; - d_s d]%Qc eq_refl eq_refl) as (b & ok & E & L & Ht & Hf).
  destruct (three b L) as (b0 & b1 & b2 & ->). exists b0, b1, b2, ok. split; [exact E|]. unfold newton. destruct ok.
  - left. intros [[c0 c1] c2]. specialize (Ht eq_refl [c0; c1; c2] eq_refl).
    transitivity ([c0; c1; c2] = [b0; b1; b2]); [|split; intro H; injection H as -> -> ->; reflexivity]. rewrite <- Ht.
    unfold hessian, system. split.
    + intros H. pose proof (f_equal (fun p => fst (fst p)) H) as H0. pose proof (f_equal (fun p => snd (fst p)) H) as H1. pose proof (f_equal snd H) as H2. cbn [fst snd] in H0, H1, H2. intros [|[|[|i]]] Li; [| | |lia]; cbn [sum nth Nat.add Nat.mul]; unfold d, jet_at; cbn [d_xx d_xy d_xs d_yy d_ys d_ss d_x d_y d_s].
      * rewrite <- H0. ring.
      * rewrite <- H1. ring.
      * rewrite <- H2. ring.
    + intros H. pose proof (H 0 ltac:(lia)) as H0. pose proof (H 1 ltac:(lia)) as H1. pose proof (H 2 ltac:(lia)) as H2.
      cbn [sum nth Nat.add Nat.mul] in H0, H1, H2. unfold d, jet_at in H0, H1, H2. cbn [d_xx d_xy d_xs d_yy d_ys d_ss d_x d_y d_s] in H0, H1, H2.
      rewrite <- H0, <- H1, <- H2. f_equal; [f_equal|]; ring.
  - right. destruct (Hf eq_refl) as [Hz (v & j & Lj & Vj & T)]. injection Hz as -> -> ->. split; [reflexivity|].
    exists (v 0), (v 1), (v 2). split; [destruct j as [|[|[|j]]]; auto; lia|]. unfold hessian.
    pose proof (T 0 ltac:(lia)) as T0. pose proof (T 1 ltac:(lia)) as T1. pose proof (T 2 ltac:(lia)) as T2.
    unfold entry in T0, T1, T2. cbn [sum nth Nat.add Nat.mul] in T0, T1, T2. unfold d, jet_at in T0, T1, T2. cbn [d_xx d_xy d_xs d_yy d_ys d_ss d_x d_y d_s] in T0, T1, T2.
    rewrite !Qcplus_0_l in T0, T1, T2. split; [exact T0|]. split; [exact T1|exact T2].
Qed.
Lemma move_ok b x m : inner m x -> pixel_step b x m (move b x m) /\ inner m (x + move b x m).
Proof.
  clear. intros Hx. unfold pixel_step, move. change point6 with (zq 6 / zq 10)%Qc. set (c := (zq 6 / zq 10)%Qc). assert (C : (- c < c)%Qc) by reflexivity.
  unfold inner in *. destruct (qlt c b) eqn:E1; destruct (qlt b (- c)) eqn:E2.
  - apply qlt_true in E1, E2. destruct (Qclt_not_le _ _ (Qclt_trans _ _ _ (Qclt_trans _ _ _ E1 E2) C) (Qcle_refl c)).
  - apply qlt_true in E1. apply qlt_false in E2. cbn [andb]. destruct (Z.ltb_spec x (Z.of_nat m - 2)); cbn [andb]; (split; [|lia]); (split; [lia|]); split; intros.
    + destruct (Qclt_not_le _ _ H0 E2).
    + tauto.
    + destruct (Qclt_not_le _ _ H0 E2).
    + reflexivity.
  - apply qlt_true in E2. apply qlt_false in E1. cbn [andb]. destruct (Z.ltb_spec 1 x); cbn [andb]; (split; [|lia]); (split; [intros K; destruct (Qclt_not_le _ _ K E1)|]); split; intros; try lia; tauto.
  - apply qlt_false in E1, E2. cbn [andb]. split; [|lia]. split; [intros K; destruct (Qclt_not_le _ _ K E1)|]. split; [intros K; destruct (Qclt_not_le _ _ K E2)|reflexivity].
Qed.
Lemma refine_loop_ok s : (0 <= s < Z.of_nat n)%Z -> forall k x y dx dy last, inner w (x + dx) -> inner h (y + dy) ->
  exists x' y' b0 b1 b2, refine_loop (S k) dog w h x y s dx dy last = Some (x', y', jet_at x' y' s, [b0; b1; b2]) /\
    inner w x' /\ inner h y' /\ refined D w h s k (x + dx) (y + dy) x' y' (b0, b1, b2).
Proof.
  intros Hs. induction k as [|k IH]; intros x y dx dy last Hx Hy.
  - cbn [refine_loop]. change (x + dx + Z.of_nat w * (y + dy) + Z.of_nat (w * h) * (s + 1))%Z with (place (x + dx) (y + dy) s).
    rewrite derivatives_ok by assumption. cbn [obind]. destruct (newton_ok (x + dx) (y + dy) s) as (b0 & b1 & b2 & ok & E & N). rewrite E. cbn [obind aget nth_error].
    exists (x + dx)%Z, (y + dy)%Z, b0, b1, b2. split; [destruct (_ && _); reflexivity|]. split; [exact Hx|]. split; [exact Hy|]. now apply R_last.
  - remember (S k) as k1 eqn:Ek. cbn [refine_loop]. change (x + dx + Z.of_nat w * (y + dy) + Z.of_nat (w * h) * (s + 1))%Z with (place (x + dx) (y + dy) s).
    rewrite derivatives_ok by assumption. cbn [obind]. destruct (newton_ok (x + dx) (y + dy) s) as (b0 & b1 & b2 & ok & E & N). rewrite E. cbn [obind aget nth_error].
    destruct (move_ok b0 _ _ Hx) as [Mx Ix]. destruct (move_ok b1 _ _ Hy) as [My Iy].
    set (mx := move b0 (x + dx) w) in *. set (my := move b1 (y + dy) h) in *.
    destruct ((mx =? 0)%Z && (my =? 0)%Z) eqn:Q.
    + apply andb_true_iff in Q. destruct Q as [Q1 Q2]. apply Z.eqb_eq in Q1, Q2. rewrite Q1 in Mx. rewrite Q2 in My.
      exists (x + dx)%Z, (y + dy)%Z, b0, b1, b2. split; [reflexivity|]. split; [exact Hx|]. split; [exact Hy|]. now apply R_stop.
    + subst k1. destruct (IH (x + dx)%Z (y + dy)%Z mx my (jet_at (x + dx) (y + dy) s, [b0; b1; b2]) Ix Iy) as (x' & y' & c0 & c1 & c2 & E' & Hx' & Hy' & R).
      exists x', y', c0, c1, c2. split; [exact E'|]. split; [exact Hx'|]. split; [exact Hy'|].
      eapply R_step; [exact N|exact Mx|exact My| |exact R]. intros K. injection K as K1 K2. rewrite K1, K2 in Q. discriminate.
Qed.
Lemma refine_ok x y s : inner w x -> inner h y -> (0 <= s < Z.of_nat n)%Z ->
  exists x' y' b0 b1 b2, refine dog w h x y s = Some (x', y', jet_at x' y' s, [b0; b1; b2]) /\
    inner w x' /\ inner h y' /\ refined D w h s 4 x y x' y' (b0, b1, b2).
Proof.
  intros Hx Hy Hs. unfold refine.
  destruct (refine_loop_ok s Hs 4 x y 0 0 (no_jet, [0; 0; 0]%Qc)) as (x' & y' & b0 & b1 & b2 & E & H); [now rewrite Z.add_0_r|now rewrite Z.add_0_r|].
  rewrite !Z.add_0_r in H. exists x', y', b0, b1, b2. auto.
Qed.

(** ** acceptance *)
Lemma Qc_pos_of_nonneg (t : Qc) : (0 <= t)%Qc -> t <> 0%Qc -> (0 < t)%Qc.
Proof. clear. intros L N. destruct (Qcle_lt_or_eq _ _ L) as [H|H]; [exact H|congruence]. Qed.
Lemma score_ok te trace det : (0 <= te)%Qc ->
  (negb (Qc_eq_bool det 0) && (Qc_eq_bool te 0 || qlt (trace * trace / det) ((te + 1) * (te + 1) / te)) && negb (qlt (trace * trace / det) 0) = true <->
   (0 < det /\ te * (trace * trace) < (te + 1) * (te + 1) * det \/ det < 0 /\ trace = 0))%Qc.
Proof.
  clear. intros Ht. rewrite !andb_true_iff, orb_true_iff, !negb_true_iff, qlt_true, qlt_false.
  assert (Q : forall a b, Qc_eq_bool a b = true <-> a = b) by (intros a b; split; [apply Qc_eq_bool_correct|intros ->; unfold Qc_eq_bool; destruct (Qc_eq_dec b b); congruence]).
  assert (Q' : forall a b, Qc_eq_bool a b = false <-> a <> b) by (intros a b; rewrite <- Q; destruct (Qc_eq_bool a b); split; congruence).
  rewrite Q, Q'. 
  assert (Dv : forall a b, b <> 0%Qc -> (a / b * b = a)%Qc) by (intros a b N; now field).
  assert (Sg : forall d : Qc, d <> 0%Qc -> (0 < d \/ d < 0)%Qc).
  { intros d N. destruct (Qclt_le_dec 0 d) as [L|L]; [now left|]. right. destruct (Qcle_lt_or_eq _ _ L); [assumption|contradiction]. }
  assert (Sq : (0 <= trace * trace)%Qc) by apply Qc_square_nonneg.
  assert (T0 : (trace * trace = 0 -> trace = 0)%Qc) by (intro E; destruct (Qcmult_integral _ _ E); assumption).
  split.
  - intros ((N & B) & P). specialize (Dv (trace * trace)%Qc det N). set (sc := (trace * trace / det)%Qc) in *. destruct (Sg det N) as [L|L].
    + left. split; [exact L|]. destruct B as [->|B]; [ring_simplify; exact L|].
      destruct (Qc_eq_dec te 0) as [->|Nt]; [ring_simplify; exact L|].
      pose proof (Qc_pos_of_nonneg te Ht Nt) as Pt. assert (E : ((te + 1) * (te + 1) / te * te = (te + 1) * (te + 1))%Qc) by now field.
      set (bd := ((te + 1) * (te + 1) / te)%Qc) in *. rewrite <- Dv, <- E.
      replace (te * (sc * det))%Qc with (sc * (te * det))%Qc by ring. replace (bd * te * det)%Qc with (bd * (te * det))%Qc by ring.
      apply Qcmult_lt_compat_r; [|exact B]. now apply Qc_mul_pos.
    + right. split; [exact L|]. apply T0. rewrite <- Dv. clear T0 Q Q' Sg Ht B. apply Qcle_antisym; [|rewrite Dv; exact Sq].
      apply Qcle_minus_iff. replace (0 + - (sc * det))%Qc with (sc * - det)%Qc by ring. apply Qc_mult_nonneg; [exact P|].
      apply Qclt_le_weak. apply Qclt_minus_iff in L. now rewrite Qcplus_0_l in L.
  - intros [(L & B)|(L & ->)].
    + assert (N : det <> 0%Qc) by (intros ->; exact (Qclt_not_le _ _ L (Qcle_refl _))). specialize (Dv (trace * trace)%Qc det N). set (sc := (trace * trace / det)%Qc) in *.
      split; [split; [exact N|]|].
      * destruct (Qc_eq_dec te 0) as [->|Nt]; [now left|]. right.
        pose proof (Qc_pos_of_nonneg te Ht Nt) as Pt. assert (E : ((te + 1) * (te + 1) / te * te = (te + 1) * (te + 1))%Qc) by now field.
        set (bd := ((te + 1) * (te + 1) / te)%Qc) in *. rewrite <- Dv, <- E in B.
        destruct (Qclt_le_dec sc bd) as [X|X]; [exact X|]. exfalso. apply (Qclt_not_le _ _ B).
        replace (te * (sc * det))%Qc with (sc * (te * det))%Qc by ring. replace (bd * te * det)%Qc with (bd * (te * det))%Qc by ring.
        apply Qcmult_le_compat_r; [exact X|]. apply Qclt_le_weak. now apply Qc_mul_pos.
      * destruct (Qclt_le_dec sc 0) as [X|X]; [|exact X]. exfalso. apply (Qclt_not_le (sc * det) 0); [|rewrite Dv; exact Sq].
        replace 0%Qc with (0 * det)%Qc by ring. now apply Qcmult_lt_compat_r.
    + assert (N : det <> 0%Qc) by (intros ->; exact (Qclt_not_le _ _ L (Qcle_refl _))). replace (0 * 0 / det)%Qc with 0%Qc by now field.
      split; [split; [exact N|]|apply Qcle_refl].
      destruct (Qc_eq_dec te 0) as [->|Nt]; [now left|]. right. pose proof (Qc_pos_of_nonneg te Ht Nt) as Pt.
      assert (P1 : (0 < te + 1)%Qc) by (clear - Pt; qc_prep; change (this 1%Qc) with 1%Q in *; change (this 0%Qc) with 0%Q in *; lra).
      unfold Qcdiv. apply Qc_mul_pos; [now apply Qc_mul_pos|]. now apply Qcinv_pos.
Qed.
Lemma accept_ok tp te x y s b0 b1 b2 : (0 <= te)%Qc ->
  (accept tp te w h n x y s (jet_at x y s) b0 b1 b2 = true <-> kept D tp te w h n x y s (b0, b1, b2)).
Proof.
  clear See. intros Ht. unfold accept, kept, jet_at. cbn [d_xx d_xy d_xs d_yy d_ys d_ss d_x d_y d_s d_v].
  pose proof (score_ok te (D_xx D x y s + D_yy D x y s)%Qc (D_xx D x y s * D_yy D x y s - D_xy D x y s * D_xy D x y s)%Qc Ht) as SC.
  rewrite <- SC. change onehalf3 with (nq 3 / nq 2)%Qc. unfold half.
  rewrite !andb_true_iff, !negb_true_iff, !qlt_true, !qlt_false. tauto.
Qed.
End Detect.

(** ** the whole detector *)
Lemma firstn_snoc {T} (l : list T) i d : i < length l -> firstn (S i) l = firstn i l ++ (nth i l d :: nil).
Proof. revert i. induction l as [|a l IH]; intros i L; cbn [length] in L; [lia|]. destruct i; [reflexivity|]. cbn [firstn nth app]. f_equal. apply IH. lia. Qed.
Lemma compute_dog_ok octave w h n dog (wh := w * h) : wh * (n + 3) <= length octave -> wh * (n + 2) <= length dog ->
  exists dog', compute_dog octave w h n dog = Some dog' /\ length dog' = length dog /\ sees dog' w h n (difference octave w h).
Proof.
  intros LO LD. set (v := fun i => (nth (i + wh) octave 0 - nth i octave 0)%Qc).
  assert (E : compute_dog octave w h n dog = Some (put 0 (wh * (n + 2)) v dog)).
  { unfold compute_dog. fold wh.
    match goal with |- context [iter (n + 2) ?b ?s0] => destruct (iter_inv (fun s st => st = (wh * s, put 0 (wh * s) v dog)) b (n + 2) s0) as (st & E & ->) end.
    - now rewrite Nat.mul_0_r.
    - intros s st Ls ->.
      match goal with |- context [iter wh ?b ?s0] => destruct (iter_inv (fun i st => st = (wh * s + i, put 0 (wh * s + i) v dog)) b wh s0) as (st & E & ->) end.
      + now rewrite Nat.add_0_r.
      + intros i st Li ->. assert (wh * s + wh <= wh * (n + 2)) by nia. rewrite (aget_nth octave ((s + 1) * wh + i) 0%Qc) by nia. cbn [obind].
        rewrite (aget_nth octave (s * wh + i) 0%Qc) by nia. cbn [obind]. rewrite aset_lt by (rewrite put_length; nia). cbn [obind]. eexists. split; [reflexivity|].
        rewrite Nat.add_assoc. f_equal. rewrite <- put_snoc by nia. f_equal. unfold v. f_equal; f_equal; nia.
      + rewrite E. eexists. split; [reflexivity|]. replace (wh * (s + 1)) with (wh * s + wh) by nia. reflexivity.
    - rewrite E. reflexivity. }
  rewrite E. eexists. split; [reflexivity|]. split; [now apply put_length|].
  intros x y s Hx Hy Hs. set (i := Z.to_nat (s + 1) * wh + Z.to_nat y * w + Z.to_nat x).
  assert (Li : i < wh * (n + 2)).
  { assert (Z.to_nat (s + 1) <= n + 1) by lia. assert (Z.to_nat y * w + Z.to_nat x < wh) by (unfold wh; assert (Z.to_nat y < h) by lia; assert (Z.to_nat x < w) by lia; nia). unfold i. nia. }
  replace (place w h x y s) with (Z.of_nat i) by (unfold place, i, wh; nia).
  rewrite zget_nth by (rewrite put_length; lia). rewrite nth_put by lia. cbn [Nat.leb andb plus].
  destruct (Nat.ltb_spec i (wh * (n + 2))); [|lia]. rewrite Nat.sub_0_r. unfold v, val, difference, stored. fold wh.
  replace (Z.to_nat (s + 2)) with (Z.to_nat (s + 1) + 1) by lia. f_equal. f_equal; f_equal; unfold i; lia.
Qed.

(** the keypoint for a refined pixel *)
Definition key_of (pow : Qc -> Qc -> Qc) (c : config) (o x y s : Z) (b : Qc * Qc * Qc) : keypoint :=
  let '(b0, b1, b2) := b in
  {| k_o := o; k_ix := x; k_iy := y; k_is := s; k_s := (zq s + b2)%Qc;
     k_x := ((zq x + b0) * pow (nq 2) (zq o))%Qc; k_y := ((zq y + b1) * pow (nq 2) (zq o))%Qc;
     k_sigma := (scale0 pow (c_S c) * pow (nq 2) ((zq s + b2) / nq (c_S c)) * pow (nq 2) (zq o))%Qc |}.
(** what becomes of a candidate *)
Definition outcome (pow : Qc -> Qc -> Qc) (c : config) (o : Z) (w h : nat) (D : volume) (p : Z * Z * Z) (out : list keypoint) : Prop :=
  let '(x, y, s) := p in
  exists x' y' b, refined D w h s 4 x y x' y' b /\ inner w x' /\ inner h y' /\
    (kept D (c_peak c) (c_edge c) w h (c_S c) x' y' s b /\ out = key_of pow c o x' y' s b :: nil \/
     ~ kept D (c_peak c) (c_edge c) w h (c_S c) x' y' s b /\ out = []).

Lemma detect_ok pow f (c := f_cfg f) (w := f_ow f) (h := f_oh f) (n := c_S c) (D := difference (f_octave f) w h) :
  w * h * (n + 3) <= length (f_octave f) -> w * h * (n + 2) <= length (f_dog f) -> (0 <= c_edge c)%Qc ->
  exists dog keys cands outs,
    detect pow f = Some {| f_cfg := c; f_ocur := f_ocur f; f_ow := w; f_oh := h; f_temp := f_temp f; f_octave := f_octave f; f_dog := dog;
          f_grad := f_grad f; f_grado := f_grado f; f_filt := f_filt f; f_fsigma := f_fsigma f; f_fwidth := f_fwidth f; f_keys := keys |} /\
    length dog = length (f_dog f) /\ sees dog w h n D /\
    StronglySorted earlier cands /\
    (forall x y s, In (x, y, s) cands <-> inner w x /\ inner h y /\ (0 <= s < Z.of_nat n)%Z /\ extremum (c_peak c) D x y s) /\
    Forall2 (outcome pow c (f_ocur f) w h D) cands outs /\ keys = concat outs.
Proof.
  intros LO LD Te. destruct (compute_dog_ok (f_octave f) w h n (f_dog f) LO LD) as (dog & E & Ld & See).
  destruct (candidates_ok dog w h n D See (c_peak c)) as (cs & EC & SC & HC).
  unfold detect. fold c w h n. rewrite E. cbn [obind]. rewrite EC. cbn [obind].
  match goal with |- context [iter (length cs) ?b ?s0] =>
    destruct (iter_inv (fun i keys => exists outs, Forall2 (outcome pow c (f_ocur f) w h D) (firstn i cs) outs /\ keys = concat outs) b (length cs) s0) as (keys & EI & outs & HF & HK) end.
  - exists []. split; [constructor|reflexivity].
  - intros i keys Li (outs & HF & HK). rewrite (aget_nth cs i (0, 0, 0)%Z) by exact Li. cbn [obind].
    destruct (nth i cs (0, 0, 0)%Z) as [[x y] s] eqn:En. cbn [fst snd].
    assert (Hin : In (x, y, s) cs) by (rewrite <- En; apply nth_In; exact Li). apply HC in Hin. destruct Hin as (Hx & Hy & Hs & _).
    destruct (refine_ok dog w h n D See x y s Hx Hy Hs) as (x' & y' & b0 & b1 & b2 & ER & Hx' & Hy' & RR). rewrite ER. cbn [obind aget nth_error].
    eexists. split; [reflexivity|]. pose proof (accept_ok w h n D (c_peak c) (c_edge c) x' y' s b0 b1 b2 Te) as AK.
    rewrite Nat.add_1_r. rewrite (firstn_snoc cs i (0, 0, 0)%Z) by exact Li. rewrite En.
    destruct (accept _ _ _ _ _ _ _ _ _ _ _ _) eqn:A.
    + exists (outs ++ ((key_of pow c (f_ocur f) x' y' s (b0, b1, b2) :: nil) :: nil)). split.
      * apply Forall2_app; [exact HF|]. constructor; [|constructor]. exists x', y', (b0, b1, b2). split; [exact RR|]. split; [exact Hx'|]. split; [exact Hy'|]. left. split; [now apply AK|reflexivity].
      * rewrite concat_app, HK. reflexivity.
    + exists (outs ++ (nil :: nil)). split.
      * apply Forall2_app; [exact HF|]. constructor; [|constructor]. exists x', y', (b0, b1, b2). split; [exact RR|]. split; [exact Hx'|]. split; [exact Hy'|]. right. split; [|reflexivity]. intro K. apply AK in K. discriminate.
      * rewrite concat_app, HK. cbn. now rewrite app_nil_r.
  - rewrite EI. cbn [obind]. rewrite firstn_all in HF. exists dog, keys, cs, outs. split; [reflexivity|]. auto 10.
Qed.
