(** Proofs about the extrema of the cornerness measures. *)
From Coq Require Import List Arith ZArith Lia Bool QArith Qcanon Qcabs Sorted.
Import ListNotations.
From Verif Require Import Base Loop Rat MserSort_Proofs ImOp_Spec KmeansEnergy_Proofs Homker_Proofs Gauss_Spec Gauss_Proofs Gauss_Props Sift_Model SiftDetect_Spec SiftDetect_Model.
From Verif Require Sift_Proofs.
From Verif Require Import SiftDetect_Proofs Covdet_Model Covdet_Proofs CovdetExt_Model CovdetExt_Spec.
Local Open Scope nat_scope.

(** ** the buffer *)
Definition lists (k : nat) (keys : list (list Z)) (st : nat * list Z) : Prop :=
  fst st = length keys /\ Forall (fun p => length p = k) keys /\ exists rest, snd st = concat keys ++ rest.
Lemma concat_length {T} k (keys : list (list T)) : Forall (fun p => length p = k) keys -> length (concat keys) = k * length keys.
Proof. induction 1 as [|p l Hp _ IH]; cbn [concat length]; [lia|]. rewrite app_length, IH, Hp. lia. Qed.
Lemma skipn_tail {T} j (l : list T) a s : skipn j l = a :: s -> skipn (S j) l = s.
Proof. revert l. induction j as [|j IH]; intros [|b l] E; cbn [skipn] in *; try discriminate; [now injection E|]. now apply IH. Qed.
Lemma write_ok (pre p mid rest : list Z) : length mid = length p ->
  iter (length p) (fun j b => do v <- aget p j; aset b (length pre + j) v) (pre ++ mid ++ rest) = Some (pre ++ p ++ rest).
Proof.
  intros L.
  destruct (iter_inv (fun j b => b = pre ++ firstn j p ++ skipn j mid ++ rest) (fun j b => do v <- aget p j; aset b (length pre + j) v) (length p) (pre ++ mid ++ rest)) as (b & E & H).
  - reflexivity.
  - intros j b Lj ->. destruct (nth_error p j) as [v|] eqn:Ev; [|apply nth_error_None in Ev; lia]. unfold aget at 1. rewrite Ev. cbn [obind].
    destruct (skipn j mid) as [|a s] eqn:Es; [apply (f_equal (@length Z)) in Es; rewrite skipn_length in Es; cbn in Es; lia|].
    assert (Es' : skipn (S j) mid = s) by (now apply (skipn_tail j mid a)).
    eexists. split; [|reflexivity]. rewrite Nat.add_1_r, Es'. rewrite <- Nat.add_1_r. rewrite (firstn_S p j v Ev).
    replace (pre ++ firstn j p ++ (a :: s) ++ rest) with ((pre ++ firstn j p) ++ a :: s ++ rest) by (rewrite <- !app_assoc; reflexivity).
    replace (length pre + j) with (length (pre ++ firstn j p)) by (rewrite app_length, firstn_length; lia).
    rewrite aset_app. f_equal. rewrite <- !app_assoc. reflexivity.
  - rewrite E, H. rewrite firstn_all, skipn_all2 by lia. reflexivity.
Qed.
Lemma record_ok junk k p keys st : length p = k -> lists k keys st -> exists st', record junk p st = Some st' /\ lists k (keys ++ p :: nil) st'.
Proof.
  intros <- (N & F & rest & B). destruct st as [n b]. cbn [fst snd] in N, B. subst n b. unfold record. cbv zeta. set (k := length p) in *.
  pose proof (concat_length _ _ F) as Lc.
  set (b := if _ <? _ then _ else _). assert (X : exists mid rest', length mid = k /\ b = concat keys ++ mid ++ rest').
  { subst b. set (m := k * (length keys + 1) + 2000 * k - length (concat keys ++ rest)).
    destruct (Nat.ltb_spec (length (concat keys ++ rest)) (k * (length keys + 1))) as [H|H]; rewrite app_length in H.
    - subst m. set (j := map junk _). exists (firstn k (rest ++ j)), (skipn k (rest ++ j)). rewrite firstn_skipn, app_assoc. split; [|reflexivity].
      apply firstn_length_le. unfold j. rewrite app_length, map_length, seq_length, app_length. lia.
    - exists (firstn k rest), (skipn k rest). rewrite firstn_skipn. split; [|reflexivity]. apply firstn_length_le. lia. }
  destruct X as (mid & rest' & Lm & ->). replace (length keys + 1 - 1) with (length keys) by lia. rewrite <- Lc. unfold k. rewrite write_ok by (unfold k in Lm; lia). cbn [obind].
  eexists. split; [reflexivity|]. split; [rewrite app_length; reflexivity|]. split; [apply Forall_app; auto|].
  exists rest'. cbn [snd]. rewrite concat_app. cbn [concat]. rewrite app_nil_r, <- app_assoc. reflexivity.
Qed.

(** ** the scan *)
Section Scan.
Variables (junk : nat -> Z) (k : nat) (test : Z -> option bool).
Definition scan_row (W : nat) (key : nat -> list Z) (st : Z * (nat * list Z)) : option (Z * (nat * list Z)) :=
  iter W (fun x (st : Z * (nat * list Z)) => let (pt, r) := st in
    do p <- test pt; do r <- (if p : bool then record junk (key x) r else Some r); Some ((pt + 1)%Z, r)) st.
Lemma row_ok W (p : nat -> bool) (key : nat -> list Z) p0 keys r : (forall x, x < W -> test (p0 + Z.of_nat x)%Z = Some (p x)) -> (forall x, length (key x) = k) -> lists k keys r ->
  exists r', scan_row W key (p0, r) = Some ((p0 + Z.of_nat W)%Z, r') /\ lists k (keys ++ map key (filter p (seq 0 W))) r'.
Proof.
  intros T K H. unfold scan_row.
  match goal with |- context [iter W ?b ?s0] => destruct (iter_inv (fun x (st : Z * (nat * list Z)) => fst st = (p0 + Z.of_nat x)%Z /\ lists k (keys ++ map key (filter p (seq 0 x))) (snd st)) b W s0) as ([pt r'] & E & P & G) end.
  - cbn [fst snd seq filter map]. rewrite app_nil_r. split; [lia|exact H].
  - intros x [pt r1] Lx [P G]. cbn [fst snd] in P, G. subst pt. rewrite T by exact Lx. cbn [obind].
    rewrite seq_app, filter_app, map_app, app_assoc. cbn [seq filter Nat.add]. destruct (p x).
    + destruct (record_ok junk k (key x) _ _ (K x) G) as (r2 & E2 & G2). rewrite E2. cbn [obind]. eexists. split; [reflexivity|]. split; [cbn [fst]; lia|exact G2].
    + cbn [obind]. eexists. split; [reflexivity|]. cbn [map]. rewrite app_nil_r. split; [cbn [fst]; lia|exact G].
  - cbn [fst] in P. subst pt. exists r'. split; [exact E|exact G].
Qed.
Definition scan_plane (H W : nat) (key : nat -> nat -> list Z) (st : Z * (nat * list Z)) : option (Z * (nat * list Z)) :=
  iter H (fun y st => do (pt, r) <- scan_row W (key y) st; Some ((pt + 2)%Z, r)) st.
Definition plane_keys (H W : nat) (p : nat -> nat -> bool) (key : nat -> nat -> list Z) : list (list Z) :=
  flat_map (fun y => map (key y) (filter (p y) (seq 0 W))) (seq 0 H).
Lemma plane_ok H W (p : nat -> nat -> bool) key p0 keys r :
  (forall y x, y < H -> x < W -> test (p0 + Z.of_nat y * (Z.of_nat W + 2) + Z.of_nat x)%Z = Some (p y x)) -> (forall y x, length (key y x) = k) -> lists k keys r ->
  exists r', scan_plane H W key (p0, r) = Some ((p0 + Z.of_nat H * (Z.of_nat W + 2))%Z, r') /\ lists k (keys ++ plane_keys H W p key) r'.
Proof.
  intros T K G0. unfold scan_plane.
  match goal with |- context [iter H ?b ?s0] => destruct (iter_inv (fun y (st : Z * (nat * list Z)) => fst st = (p0 + Z.of_nat y * (Z.of_nat W + 2))%Z /\ lists k (keys ++ plane_keys y W p key) (snd st)) b H s0) as ([pt r'] & E & P & G) end.
  - cbn [fst snd]. unfold plane_keys. cbn [seq flat_map]. rewrite app_nil_r. split; [lia|exact G0].
  - intros y [pt r1] Ly [P G]. cbn [fst snd] in P, G. subst pt.
    destruct (row_ok W (p y) (key y) (p0 + Z.of_nat y * (Z.of_nat W + 2))%Z _ r1 (fun x Lx => T y x Ly Lx) (K y) G) as (r2 & E2 & G2). rewrite E2. cbn [obind].
    eexists. split; [reflexivity|]. split; [cbn [fst]; lia|]. cbn [snd]. unfold plane_keys in *. rewrite seq_app, flat_map_app, app_assoc. cbn [seq flat_map Nat.add]. now rewrite app_nil_r.
  - cbn [fst] in P. subst pt. exists r'. split; [exact E|exact G].
Qed.
Definition scan_volume (D H W : nat) (skip : Z) (key : nat -> nat -> nat -> list Z) (st : Z * (nat * list Z)) : option (Z * (nat * list Z)) :=
  iter D (fun z st => do (pt, r) <- scan_plane H W (key z) st; Some ((pt + skip)%Z, r)) st.
Definition volume_keys (D H W : nat) (p : nat -> nat -> nat -> bool) (key : nat -> nat -> nat -> list Z) : list (list Z) :=
  flat_map (fun z => plane_keys H W (p z) (key z)) (seq 0 D).
Lemma volume_ok D H W skip (p : nat -> nat -> nat -> bool) key p0 keys r (S := (Z.of_nat H * (Z.of_nat W + 2) + skip)%Z) :
  (forall z y x, z < D -> y < H -> x < W -> test (p0 + Z.of_nat z * S + Z.of_nat y * (Z.of_nat W + 2) + Z.of_nat x)%Z = Some (p z y x)) -> (forall z y x, length (key z y x) = k) -> lists k keys r ->
  exists r', scan_volume D H W skip key (p0, r) = Some ((p0 + Z.of_nat D * S)%Z, r') /\ lists k (keys ++ volume_keys D H W p key) r'.
Proof.
  intros T K G0. unfold scan_volume.
  match goal with |- context [iter D ?b ?s0] => destruct (iter_inv (fun z (st : Z * (nat * list Z)) => fst st = (p0 + Z.of_nat z * S)%Z /\ lists k (keys ++ volume_keys z H W p key) (snd st)) b D s0) as ([pt r'] & E & P & G) end.
  - cbn [fst snd]. unfold volume_keys. cbn [seq flat_map]. rewrite app_nil_r. split; [lia|exact G0].
  - intros z [pt r1] Lz [P G]. cbn [fst snd] in P, G. subst pt.
    destruct (plane_ok H W (p z) (key z) (p0 + Z.of_nat z * S)%Z _ r1 (fun y x Ly Lx => T z y x Lz Ly Lx) (K z) G) as (r2 & E2 & G2). rewrite E2. cbn [obind].
    eexists. split; [reflexivity|]. split; [cbn [fst]; subst S; lia|]. cbn [snd]. unfold volume_keys in *. rewrite seq_app, flat_map_app, app_assoc. cbn [seq flat_map Nat.add]. now rewrite app_nil_r.
  - cbn [fst] in P. subst pt. exists r'. split; [exact E|exact G].
Qed.
End Scan.

(** ** order *)
Lemma sorted_app {T} (R : T -> T -> Prop) l m : StronglySorted R l -> StronglySorted R m -> (forall a b, In a l -> In b m -> R a b) -> StronglySorted R (l ++ m).
Proof.
  intros Hl Hm H. induction Hl as [|a l Hl IH F]; cbn [app]; [exact Hm|]. constructor; [apply IH; intros; apply H; [now right|assumption]|].
  apply Forall_app. split; [exact F|]. apply Forall_forall. intros b Hb. apply H; [now left|exact Hb].
Qed.
Lemma sorted_flat_map {T} (R : T -> T -> Prop) (f : nat -> list T) n : (forall i, i < n -> StronglySorted R (f i)) ->
  (forall i j a b, i < j -> j < n -> In a (f i) -> In b (f j) -> R a b) -> StronglySorted R (flat_map f (seq 0 n)).
Proof.
  induction n as [|n IH]; intros Hs Hc; [constructor|]. rewrite seq_S, flat_map_app. cbn [flat_map Nat.add]. rewrite app_nil_r.
  apply sorted_app; [apply IH; [intros i Li; apply Hs; lia|intros i j a b Lij Ljn; apply Hc; lia]|apply Hs; lia|].
  intros a b Ha Hb. apply in_flat_map in Ha. destruct Ha as (i & Hi & Ha). apply in_seq in Hi. now apply (Hc i n a b); [lia|lia|..].
Qed.
Lemma sorted_map_filter {T} (R : T -> T -> Prop) (key : nat -> T) p n : (forall i j, i < j -> R (key i) (key j)) -> StronglySorted R (map key (filter p (seq 0 n))).
Proof.
  intros H. induction n as [|n IH]; [constructor|]. rewrite seq_S, filter_app, map_app. apply sorted_app; [exact IH| |].
  - cbn [filter Nat.add]. destruct (p n); cbn [map]; repeat constructor.
  - intros a b Ha Hb. apply in_map_iff in Ha. destruct Ha as (i & <- & Hi). apply filter_In in Hi. destruct Hi as [Hi _]. apply in_seq in Hi.
    cbn [filter Nat.add] in Hb. destruct (p n); cbn [map In] in Hb; [|tauto]. destruct Hb as [<-|[]]. apply H. lia.
Qed.

(** ** the test *)
Lemma zget_nth (m : list Qc) p : (0 <= p < Z.of_nat (length m))%Z -> zget m p = Some (nth (Z.to_nat p) m 0%Qc).
Proof. intros H. unfold zget. destruct (Z.ltb_spec p 0); [lia|]. apply aget_nth. lia. Qed.
Lemma volume_see m w h d x y z : w * h * d <= length m -> (0 <= x < Z.of_nat w)%Z -> (0 <= y < Z.of_nat h)%Z -> (0 <= z < Z.of_nat d)%Z ->
  zget m (x + Z.of_nat w * y + Z.of_nat (w * h) * z)%Z = Some (val (volume_of m w h) x y z).
Proof.
  intros L Hx Hy Hz. unfold val, volume_of. apply zget_nth. split; [nia|].
  assert (A : (x + Z.of_nat w * y < Z.of_nat (w * h))%Z) by nia. assert (B : (Z.of_nat (w * h) * (z + 1) <= Z.of_nat (w * h * d))%Z) by nia. nia.
Qed.
Lemma image_see m w h x y : w * h <= length m -> (0 <= x < Z.of_nat w)%Z -> (0 <= y < Z.of_nat h)%Z ->
  zget m (x + Z.of_nat w * y)%Z = Some (pix (image_of m w) x y).
Proof. intros L Hx Hy. unfold pix, image_of. apply zget_nth. split; [nia|]. nia. Qed.

Lemma compare_all (v : Qc) {T} (g : T -> Qc) (ts : list T) :
  (forallb (fun n => qlt n v) (map g ts) = true <-> forall t, In t ts -> (g t < v)%Qc) /\
  (forallb (fun n => qlt v n) (map g ts) = true <-> forall t, In t ts -> (v < g t)%Qc).
Proof.
  rewrite !forallb_forall. split; (split; intros H; [intros t Ht; apply qlt_true; apply H; now apply in_map|]);
    intros q Hq; apply in_map_iff in Hq; destruct Hq as (t & <- & Ht); apply qlt_true; now apply H.
Qed.
Lemma is_extremum3_ok t m w h d x y z : w * h * d <= length m -> inner w x -> inner h y -> inner d z ->
  exists p, is_extremum t (neighbours 1 (Z.of_nat w) (Z.of_nat (w * h))) m (x + Z.of_nat w * y + Z.of_nat (w * h) * z)%Z = Some p /\ (p = true <-> extremal t (volume_of m w h) x y z).
Proof.
  intros L Hx Hy Hz. unfold is_extremum. set (V := volume_of m w h). rewrite (volume_see m w h d) by (auto; unfold inner in *; lia). fold V. cbn [obind].
  rewrite neighbours_dirs, map_map.
  rewrite (zgets_map m _ (fun '(a, b, c) => val V (x + a) (y + b) (z + c))).
  2: { intros [[a b] c] Hi. apply directions_all in Hi. destruct Hi as (Ha & Hb & Hc & _).
       unfold V. rewrite <- (volume_see m w h d); [f_equal; ring|exact L|now apply inner_near|now apply inner_near|now apply inner_near]. }
  cbn [obind]. eexists. split; [reflexivity|]. rewrite orb_true_iff, !andb_true_iff, !negb_true_iff, !qlt_false.
  destruct (compare_all (val V x y z) (fun '(a, b, c) => val V (x + a) (y + b) (z + c)) directions) as [C1 C2]. rewrite C1, C2.
  assert (Q : forall P : Z -> Z -> Z -> Prop, (forall t, In t directions -> let '(a, b, c) := t in P a b c) <-> (forall a b c, near a -> near b -> near c -> (a, b, c) <> (0, 0, 0)%Z -> P a b c)).
  { intros P. split; intros H.
    - intros a b c Ha Hb Hc N. apply (H (a, b, c)). now apply directions_all.
    - intros [[a b] c] Hi. apply directions_all in Hi. now apply H. }
  unfold extremal, local_max, local_min.
  rewrite <- (Q (fun a b c => val V (x + a) (y + b) (z + c) < val V x y z)%Qc), <- (Q (fun a b c => val V x y z < val V (x + a) (y + b) (z + c))%Qc).
  assert (S1 : forall (P : Qc -> Prop), (forall t, In t directions -> P (let '(a, b, c) := t in val V (x + a) (y + b) (z + c))) <-> (forall t, In t directions -> let '(a, b, c) := t in P (val V (x + a) (y + b) (z + c)))).
  { intros P. split; intros H [[a b] c] Hi; exact (H (a, b, c) Hi). }
  rewrite (S1 (fun q => q < val V x y z)%Qc), (S1 (fun q => val V x y z < q)%Qc). tauto.
Qed.
Definition directions2 : list (Z * Z) := [(1,0); (-1,0); (0,1); (0,-1); (1,1); (-1,1); (1,-1); (-1,-1)]%Z.
Lemma directions2_all a b : In (a, b) directions2 <-> near a /\ near b /\ (a, b) <> (0, 0)%Z.
Proof.
  unfold near. split.
  - intros H. unfold directions2 in H. repeat (destruct H as [H|H]; [injection H as <- <-; repeat (split; [lia|]); discriminate|]). destruct H.
  - intros (Ha & Hb & N). assert (Ea : (a = -1 \/ a = 0 \/ a = 1)%Z) by lia. assert (Eb : (b = -1 \/ b = 0 \/ b = 1)%Z) by lia.
    destruct Ea as [->|[->| ->]]; destruct Eb as [->|[->| ->]]; unfold directions2; cbn [In]; tauto.
Qed.
Lemma is_extremum2_ok t m w h x y : w * h <= length m -> inner w x -> inner h y ->
  exists p, is_extremum t (neighbours2 1 (Z.of_nat w)) m (x + Z.of_nat w * y)%Z = Some p /\ (p = true <-> extremal2 t (image_of m w) x y).
Proof.
  intros L Hx Hy. unfold is_extremum. set (V := image_of m w). rewrite (image_see m w h) by (auto; unfold inner in *; lia). fold V. cbn [obind].
  assert (Nd : neighbours2 1 (Z.of_nat w) = map (fun '(a, b) => a * 1 + b * Z.of_nat w)%Z directions2).
  { unfold neighbours2, directions2. cbn [map]. repeat (apply (f_equal2 (@cons Z)); [ring|]). reflexivity. }
  rewrite Nd, map_map.
  rewrite (zgets_map m _ (fun '(a, b) => pix V (x + a) (y + b))).
  2: { intros [a b] Hi. apply directions2_all in Hi. destruct Hi as (Ha & Hb & _).
       unfold V. rewrite <- (image_see m w h); [f_equal; ring|exact L|now apply inner_near|now apply inner_near]. }
  cbn [obind]. eexists. split; [reflexivity|]. rewrite orb_true_iff, !andb_true_iff, !negb_true_iff, !qlt_false.
  destruct (compare_all (pix V x y) (fun '(a, b) => pix V (x + a) (y + b)) directions2) as [C1 C2]. rewrite C1, C2.
  assert (Q : forall P : Z -> Z -> Prop, (forall t, In t directions2 -> let '(a, b) := t in P a b) <-> (forall a b, near a -> near b -> (a, b) <> (0, 0)%Z -> P a b)).
  { intros P. split; intros H.
    - intros a b Ha Hb N. apply (H (a, b)). now apply directions2_all.
    - intros [a b] Hi. apply directions2_all in Hi. now apply H. }
  unfold extremal2, above, below.
  rewrite <- (Q (fun a b => pix V (x + a) (y + b) < pix V x y)%Qc), <- (Q (fun a b => pix V x y < pix V (x + a) (y + b))%Qc).
  assert (S1 : forall (P : Qc -> Prop), (forall t, In t directions2 -> P (let '(a, b) := t in pix V (x + a) (y + b))) <-> (forall t, In t directions2 -> let '(a, b) := t in P (pix V (x + a) (y + b)))).
  { intros P. split; intros H [a b] Hi; exact (H (a, b) Hi). }
  rewrite (S1 (fun q => q < pix V x y)%Qc), (S1 (fun q => pix V x y < q)%Qc). tauto.
Qed.

(** ** the extrema *)
Lemma map_flat_map {A B C} (f : B -> C) (g : A -> list B) l : map f (flat_map g l) = flat_map (fun a => map f (g a)) l.
Proof. induction l as [|a l IH]; cbn [flat_map map]; [reflexivity|]. now rewrite map_app, IH. Qed.
Lemma firstn_concat (k : nat) (keys : list (list Z)) n rest : Forall (fun p => length p = k) keys -> n = length keys -> firstn (k * n) (concat keys ++ rest) = concat keys.
Proof. intros F ->. rewrite <- (concat_length _ _ F). rewrite firstn_app, firstn_all, Nat.sub_diag. cbn [firstn]. apply app_nil_r. Qed.
Definition yes (o : option bool) : bool := match o with Some b => b | None => false end.

Lemma extrema3_ok junk t m w h d b : w * h * d <= length m ->
  exists n b' keys, extrema3 junk t m w h d b = Some (n, b') /\ n = length keys /\ firstn (3 * n) b' = written3 keys /\ StronglySorted earlier keys /\
    forall x y z, In (x, y, z) keys <-> inner w x /\ inner h y /\ inner d z /\ extremal t (volume_of m w h) x y z.
Proof.
  intros L. set (test := is_extremum t (neighbours 1 (Z.of_nat w) (Z.of_nat (w * h))) m).
  set (place := fun z y x : nat => (Z.of_nat x + 1 + Z.of_nat w * (Z.of_nat y + 1) + Z.of_nat (w * h) * (Z.of_nat z + 1))%Z).
  set (p := fun z y x : nat => yes (test (place z y x))).
  set (key := fun z y x : nat => [Z.of_nat x + 1; Z.of_nat y + 1; Z.of_nat z + 1]%Z).
  set (trip := fun z y x : nat => (Z.of_nat x + 1, Z.of_nat y + 1, Z.of_nat z + 1)%Z).
  assert (T : forall z y x, z < d - 2 -> y < h - 2 -> x < w - 2 -> test (place z y x) = Some (p z y x) /\ (p z y x = true <-> extremal t (volume_of m w h) (Z.of_nat x + 1) (Z.of_nat y + 1) (Z.of_nat z + 1))).
  { intros z y x Lz Ly Lx. unfold p. destruct (is_extremum3_ok t m w h d (Z.of_nat x + 1) (Z.of_nat y + 1) (Z.of_nat z + 1) L) as (q & E & R); [unfold inner; lia..|].
    unfold test, place. rewrite E. cbn [yes]. split; [reflexivity|exact R]. }
  set (keys := flat_map (fun z => flat_map (fun y => map (trip z y) (filter (p z y) (seq 0 (w - 2)))) (seq 0 (h - 2))) (seq 0 (d - 2))).
  assert (KK : volume_keys (d - 2) (h - 2) (w - 2) p key = map (fun '(a, b, c) => [a; b; c]) keys).
  { unfold volume_keys, plane_keys, keys. rewrite map_flat_map. apply flat_map_ext. intros z. rewrite map_flat_map. apply flat_map_ext. intros y. now rewrite map_map. }
  destruct (volume_ok junk 3 test (d - 2) (h - 2) (w - 2) (2 * Z.of_nat w) p key (1 + Z.of_nat w + Z.of_nat (w * h)) nil (0, b)) as (r' & E & N & F & rest & B).
  - intros z y x Lz Ly Lx. rewrite <- (proj1 (T z y x Lz Ly Lx)). f_equal. unfold place. nia.
  - reflexivity.
  - split; [reflexivity|]. split; [constructor|]. exists b. reflexivity.
  - destruct r' as [n b']. cbn [fst snd app] in N, F, B. exists n, b', keys. split.
    { unfold extrema3. unfold scan_volume, scan_plane, scan_row in E. fold test. etransitivity; [|exact (f_equal (fun o => do (_, r) <- o; Some r) E)]. reflexivity. }
    split; [rewrite N, KK; apply map_length|]. split.
    { rewrite B. rewrite (firstn_concat 3 _ n rest F N), KK. unfold written3. rewrite flat_map_concat_map. reflexivity. }
    split.
    + unfold keys. apply sorted_flat_map.
      * intros z Lz. apply sorted_flat_map.
        -- intros y Ly. apply sorted_map_filter. intros i j Lij. unfold trip, earlier. lia.
        -- intros i j a c Lij Lj Ha Hc. apply in_map_iff in Ha. apply in_map_iff in Hc. destruct Ha as (x1 & <- & _). destruct Hc as (x2 & <- & _). unfold trip, earlier. lia.
      * intros i j a c Lij Lj Ha Hc. apply in_flat_map in Ha. destruct Ha as (y1 & _ & Ha). apply in_flat_map in Hc. destruct Hc as (y2 & _ & Hc).
        apply in_map_iff in Ha. apply in_map_iff in Hc. destruct Ha as (x1 & <- & _). destruct Hc as (x2 & <- & _). unfold trip, earlier. lia.
    + intros x y z. unfold keys. rewrite in_flat_map. split.
      * intros (z0 & Hz & H). apply in_flat_map in H. destruct H as (y0 & Hy & H). apply in_map_iff in H. destruct H as (x0 & E0 & H). apply filter_In in H. destruct H as [Hx H].
        apply in_seq in Hx, Hy, Hz. unfold trip in E0. injection E0 as <- <- <-. unfold inner. repeat (split; [lia|]). apply T; [lia..|exact H].
      * intros (Hx & Hy & Hz & H). unfold inner in *. exists (Z.to_nat (z - 1)). split; [apply in_seq; lia|]. apply in_flat_map. exists (Z.to_nat (y - 1)). split; [apply in_seq; lia|].
        apply in_map_iff. exists (Z.to_nat (x - 1)). assert (Q : trip (Z.to_nat (z - 1)) (Z.to_nat (y - 1)) (Z.to_nat (x - 1)) = (x, y, z)) by (unfold trip; rewrite !Z2Nat.id by lia; f_equal; [f_equal|]; lia).
        split; [exact Q|]. apply filter_In. split; [apply in_seq; lia|]. apply T; [lia..|]. unfold trip in Q. injection Q as -> -> ->. exact H.
Qed.
Lemma extrema2_ok junk t m w h b : w * h <= length m ->
  exists n b' keys, extrema2 junk t m w h b = Some (n, b') /\ n = length keys /\ firstn (2 * n) b' = written2 keys /\ StronglySorted earlier2 keys /\
    forall x y, In (x, y) keys <-> inner w x /\ inner h y /\ extremal2 t (image_of m w) x y.
Proof.
  intros L. set (test := is_extremum t (neighbours2 1 (Z.of_nat w)) m).
  set (place := fun y x : nat => (Z.of_nat x + 1 + Z.of_nat w * (Z.of_nat y + 1))%Z).
  set (p := fun y x : nat => yes (test (place y x))).
  set (key := fun y x : nat => [Z.of_nat x + 1; Z.of_nat y + 1]%Z).
  set (pair_ := fun y x : nat => (Z.of_nat x + 1, Z.of_nat y + 1)%Z).
  assert (T : forall y x, y < h - 2 -> x < w - 2 -> test (place y x) = Some (p y x) /\ (p y x = true <-> extremal2 t (image_of m w) (Z.of_nat x + 1) (Z.of_nat y + 1))).
  { intros y x Ly Lx. unfold p. destruct (is_extremum2_ok t m w h (Z.of_nat x + 1) (Z.of_nat y + 1) L) as (q & E & R); [unfold inner; lia..|].
    unfold test, place. rewrite E. cbn [yes]. split; [reflexivity|exact R]. }
  set (keys := flat_map (fun y => map (pair_ y) (filter (p y) (seq 0 (w - 2)))) (seq 0 (h - 2))).
  assert (KK : plane_keys (h - 2) (w - 2) p key = map (fun '(a, b) => [a; b]) keys).
  { unfold plane_keys, keys. rewrite map_flat_map. apply flat_map_ext. intros y. now rewrite map_map. }
  destruct (plane_ok junk 2 test (h - 2) (w - 2) p key (1 + Z.of_nat w) nil (0, b)) as (r' & E & N & F & rest & B).
  - intros y x Ly Lx. rewrite <- (proj1 (T y x Ly Lx)). f_equal. unfold place. nia.
  - reflexivity.
  - split; [reflexivity|]. split; [constructor|]. exists b. reflexivity.
  - destruct r' as [n b']. cbn [fst snd app] in N, F, B. exists n, b', keys. split.
    { unfold extrema2. unfold scan_plane, scan_row in E. fold test. etransitivity; [|exact (f_equal (fun o => do (_, r) <- o; Some r) E)]. reflexivity. }
    split; [rewrite N, KK; apply map_length|]. split.
    { rewrite B. rewrite (firstn_concat 2 _ n rest F N), KK. unfold written2. rewrite flat_map_concat_map. reflexivity. }
    split.
    + unfold keys. apply sorted_flat_map.
      * intros y Ly. apply sorted_map_filter. intros i j Lij. unfold pair_, earlier2. cbn [fst snd]. lia.
      * intros i j a c Lij Lj Ha Hc. apply in_map_iff in Ha. apply in_map_iff in Hc. destruct Ha as (x1 & <- & _). destruct Hc as (x2 & <- & _). unfold pair_, earlier2. cbn [fst snd]. lia.
    + intros x y. unfold keys. rewrite in_flat_map. split.
      * intros (y0 & Hy & H). apply in_map_iff in H. destruct H as (x0 & E0 & H). apply filter_In in H. destruct H as [Hx H].
        apply in_seq in Hx, Hy. unfold pair_ in E0. injection E0 as <- <-. unfold inner. repeat (split; [lia|]). apply T; [lia..|exact H].
      * intros (Hx & Hy & H). unfold inner in *. exists (Z.to_nat (y - 1)). split; [apply in_seq; lia|].
        apply in_map_iff. exists (Z.to_nat (x - 1)). assert (Q : pair_ (Z.to_nat (y - 1)) (Z.to_nat (x - 1)) = (x, y)) by (unfold pair_; rewrite !Z2Nat.id by lia; f_equal; lia).
        split; [exact Q|]. apply filter_In. split; [apply in_seq; lia|]. apply T; [lia..|]. unfold pair_ in Q. injection Q as -> ->. exact H.
Qed.

(** ** refinement *)
Section Walk.
Context {J B : Type}.
Variables (w h dim : nat) (solve : Z -> Z -> option (J * bool * list Qc)) (der : Z -> Z -> J) (there : Z -> Z -> option B -> Prop) (part : B -> Qc * Qc) (rep : B -> list Qc).
Hypothesis rep0 : forall v, aget (rep v) 0 = Some (fst (part v)).
Hypothesis rep1 : forall v, aget (rep v) 1 = Some (snd (part v)).
Hypothesis solve_ok : forall x y, inner w x -> inner h y -> exists o ok b, solve x y = Some (der x y, ok, b) /\ there x y o /\ length b = dim /\
  match o with Some v => ok = true /\ b = rep v | None => ok = false end.
Lemma walk_ok : forall k x y dx dy last, inner w (x + dx) -> inner h (y + dy) ->
  exists x' y' o ok b, walk w h solve (S k) x y dx dy last = Some (x', y', der x' y', ok, b) /\ inner w x' /\ inner h y' /\
    steps w h there part k (x + dx) (y + dy) x' y' o /\ match o with Some v => ok = true /\ b = rep v | None => ok = false /\ b = repeat 0%Qc dim end.
Proof.
  assert (Z0 : forall b : list Qc, map (fun _ => 0%Qc) b = repeat 0%Qc (length b)) by (induction b; cbn; congruence).
  induction k as [|k IH]; intros x y dx dy last Hx Hy; destruct (solve_ok _ _ Hx Hy) as (o & ok & b & E & T & Lb & M).
  - cbn [walk]. rewrite E. cbn [obind]. exists (x + dx)%Z, (y + dy)%Z, o. destruct o as [v|].
    + destruct M as [-> ->]. rewrite rep0, rep1. cbn [obind]. exists true, (rep v). split; [destruct (_ && _); reflexivity|]. split; [exact Hx|]. split; [exact Hy|]. split; [now apply S_last|]. auto.
    + subst ok. exists false, (repeat 0%Qc dim). rewrite Z0, Lb. split; [reflexivity|]. split; [exact Hx|]. split; [exact Hy|]. split; [now apply S_none|]. auto.
  - remember (S k) as k1 eqn:Ek. cbn [walk]. rewrite E. cbn [obind]. destruct o as [v|].
    + destruct M as [-> ->]. rewrite rep0, rep1. cbn [obind].
      destruct (move_ok (fst (part v)) _ _ Hx) as [Mx Ix]. destruct (move_ok (snd (part v)) _ _ Hy) as [My Iy].
      set (mx := move (fst (part v)) (x + dx) w) in *. set (my := move (snd (part v)) (y + dy) h) in *.
      destruct ((mx =? 0)%Z && (my =? 0)%Z) eqn:Q.
      * apply andb_true_iff in Q. destruct Q as [Q1 Q2]. apply Z.eqb_eq in Q1, Q2. rewrite Q1 in Mx. rewrite Q2 in My.
        exists (x + dx)%Z, (y + dy)%Z, (Some v), true, (rep v). split; [reflexivity|]. split; [exact Hx|]. split; [exact Hy|]. split; [now apply S_stop|]. auto.
      * subst k1. destruct (IH (x + dx)%Z (y + dy)%Z mx my (Some ((x + dx)%Z, (y + dy)%Z, der (x + dx) (y + dy), true, rep v)) Ix Iy) as (x' & y' & o & ok & b & E' & Hx' & Hy' & R & M).
        exists x', y', o, ok, b. split; [exact E'|]. split; [exact Hx'|]. split; [exact Hy'|]. split; [|exact M].
        eapply S_step; [exact T|exact Mx|exact My| |exact R]. intros K. injection K as K1 K2. rewrite K1, K2 in Q. discriminate.
    + subst ok. exists (x + dx)%Z, (y + dy)%Z, None, false, (repeat 0%Qc dim). rewrite Z0, Lb. split; [reflexivity|]. split; [exact Hx|]. split; [exact Hy|]. split; [now apply S_none|]. auto.
Qed.
End Walk.

Lemma qlt_iff a b (x : bool) : x = qlt a b -> (x = true <-> (a < b)%Qc).
Proof. intros ->. apply qlt_true. Qed.
Lemma close_within_ok n x b : close b && within n (zq x + b)%Qc = true <-> fits n x b.
Proof. unfold close, within, fits. rewrite !andb_true_iff, !negb_true_iff, !qlt_false, qlt_true. change onehalf3 with (nq 3 / nq 2)%Qc. tauto. Qed.

Section Volume.
Variables (m : list Qc) (w h d : nat) (z : Z).
Hypothesis L : w * h * d <= length m.
Hypothesis Hz : inner d z.
Let V := volume_of m w h.
Lemma around3_ok x y dx dy ds : inner w x -> inner h y -> near dx -> near dy -> near ds ->
  around m w h (x + Z.of_nat w * y + Z.of_nat (w * h) * z)%Z dx dy ds = Some (val V (x + dx) (y + dy) (z + ds)).
Proof.
  intros Hx Hy Nx Ny Ns. unfold around, V. rewrite <- (volume_see m w h d); [f_equal; ring|exact L|now apply inner_near|now apply inner_near|now apply inner_near].
Qed.
Lemma derivatives3_ok x y : inner w x -> inner h y -> derivatives m w h (x + Z.of_nat w * y + Z.of_nat (w * h) * z)%Z = Some (jet_at V x y z).
Proof.
  intros Hx Hy. unfold derivatives. rewrite !(around3_ok x y) by (auto; unfold near; lia). cbn [obind]. rewrite !Z.add_0_r.
  unfold jet_at, D_x, D_y, D_s, D_xx, D_yy, D_ss, D_xy, D_xs, D_ys, half.
  change (x + -1)%Z with (x - 1)%Z. change (y + -1)%Z with (y - 1)%Z. change (z + -1)%Z with (z - 1)%Z.
  apply (f_equal Some). f_equal; unfold Qcdiv; ring.
Qed.
Lemma solve_at3_ok x y : inner w x -> inner h y -> exists o ok b, solve_at3 m w h z x y = Some (jet_at V x y z, ok, b) /\ stationary V x y z o /\ length b = 3 /\
  match o with Some v => ok = true /\ b = (let '(b0, b1, b2) := v in [b0; b1; b2]) | None => ok = false end.
Proof.
  intros Hx Hy. unfold solve_at3. rewrite derivatives3_ok by assumption. cbn [obind]. set (j := jet_at V x y z).
  destruct (C50_solve_3 [d_xx j; d_xy j; d_xs j; d_xy j; d_yy j; d_ys j; d_xs j; d_ys j; d_ss j] [- d_x j; - d_y j; - d_s j]%Qc eq_refl eq_refl) as (ok & b & E & Ht & Hf).
  rewrite E. cbn [obind].
  assert (Lb : length b = 3). { unfold Gauss_Model.solve3 in E. destruct (Gauss_Model.gaussian_elimination _ _ _) as [[ok' m']|]; [|discriminate]. cbn [obind] in E.
    destruct (aget m' 9); [|discriminate]. destruct (aget m' 10); [|discriminate]. destruct (aget m' 11); [|discriminate]. cbn [obind] in E. now injection E as _ <-. }
  destruct (three b Lb) as (b0 & b1 & b2 & ->). destruct ok.
  - exists (Some (b0, b1, b2)), true, [b0; b1; b2]. split; [reflexivity|]. split; [|auto].
    destruct (Ht eq_refl) as (_ & Sb & U). cbn [stationary].
    assert (SE : forall c0 c1 c2, hessian V x y z (c0, c1, c2) = (- D_x V x y z, - D_y V x y z, - D_s V x y z)%Qc <->
       system 3 [d_xx j; d_xy j; d_xs j; d_xy j; d_yy j; d_ys j; d_xs j; d_ys j; d_ss j] [- d_x j; - d_y j; - d_s j]%Qc [c0; c1; c2]).
    { intros c0 c1 c2. unfold hessian, system. split.
      + intros H. pose proof (f_equal (fun p => fst (fst p)) H) as H0. pose proof (f_equal (fun p => snd (fst p)) H) as H1. pose proof (f_equal snd H) as H2. cbn [fst snd] in H0, H1, H2. intros [|[|[|i]]] Li; [| | |lia]; cbn [sum nth Nat.add Nat.mul]; unfold j, jet_at; cbn [d_xx d_xy d_xs d_yy d_ys d_ss d_x d_y d_s].
        * rewrite <- H0. ring.
        * rewrite <- H1. ring.
        * rewrite <- H2. ring.
      + intros H. pose proof (H 0 ltac:(lia)) as H0. pose proof (H 1 ltac:(lia)) as H1. pose proof (H 2 ltac:(lia)) as H2.
        cbn [sum nth Nat.add Nat.mul] in H0, H1, H2. unfold j, jet_at in H0, H1, H2. cbn [d_xx d_xy d_xs d_yy d_ys d_ss d_x d_y d_s] in H0, H1, H2.
        rewrite <- H0, <- H1, <- H2. f_equal; [f_equal|]; ring. }
    intros [[c0 c1] c2]. rewrite SE. split.
    + intros H. apply (U [c0; c1; c2] eq_refl) in H. injection H as -> -> ->. reflexivity.
    + intros H. injection H as -> -> ->. exact Sb.
  - exists None, false, [b0; b1; b2]. split; [reflexivity|]. split; [|auto].
    destruct (Hf eq_refl) as (v & i & Li & Vi & T). exists (v 0), (v 1), (v 2). split; [destruct i as [|[|[|i]]]; auto; lia|]. unfold hessian.
    pose proof (T 0 ltac:(lia)) as T0. pose proof (T 1 ltac:(lia)) as T1. pose proof (T 2 ltac:(lia)) as T2.
    unfold entry in T0, T1, T2. cbn [sum nth Nat.add Nat.mul] in T0, T1, T2. unfold j, jet_at in T0, T1, T2. cbn [d_xx d_xy d_xs d_yy d_ys d_ss d_x d_y d_s] in T0, T1, T2.
    rewrite !Qcplus_0_l in T0, T1, T2. split; [exact T0|]. split; [exact T1|exact T2].
Qed.
Lemma refine3_ok root x y : inner w x -> inner h y ->
  exists x' y' o ok, inner w x' /\ inner h y' /\ steps w h (fun x y => stationary V x y z) fst 4 x y x' y' o /\
    (let '(b0, b1, b2) := match o with Some b => b | None => (0, 0, 0)%Qc end in
     refine3 root m w h d x y z = Some (Ext3 x' y' z (zq x' + b0) (zq y' + b1) (zq z + b2)
       (val V x' y' z + (D_x V x' y' z * b0 + D_y V x' y' z * b1 + D_s V x' y' z * b2) / nq 2) (edge_score root (D_xx V x' y' z) (D_yy V x' y' z) (D_xy V x' y' z)), ok)%Qc /\
     (ok = true <-> o <> None /\ fits w x' b0 /\ fits h y' b1 /\ fits d z b2)).
Proof.
  intros Hx Hy.
  destruct (walk_ok w h 3 (solve_at3 m w h z) (fun x y => jet_at V x y z) (fun x y => stationary V x y z) fst (fun v => let '(b0, b1, b2) := v in [b0; b1; b2]))
    with (k := 4) (x := x) (y := y) (dx := 0%Z) (dy := 0%Z) (last := @None (Z * Z * jet * bool * list Qc)) as (x' & y' & o & ok & b & E & Hx' & Hy' & St & M).
  - intros [[? ?] ?]. reflexivity.
  - intros [[? ?] ?]. reflexivity.
  - intros x0 y0 H1 H2. apply solve_at3_ok; assumption.
  - now rewrite Z.add_0_r.
  - now rewrite Z.add_0_r.
  - rewrite !Z.add_0_r in St. exists x', y', o. unfold refine3. rewrite E. cbn [obind].
    destruct o as [[[b0 b1] b2]|].
    + destruct M as [-> ->]. cbn [aget nth_error obind]. cbv zeta. cbn [e_x e_y e_z]. eexists. split; [exact Hx'|]. split; [exact Hy'|]. split; [exact St|]. split; [reflexivity|].
      rewrite <- !close_within_ok. cbn [andb]. rewrite !andb_true_iff. split; [intros H; split; [discriminate|]; tauto|tauto].
    + destruct M as [-> ->]. cbn [repeat aget nth_error obind]. cbv zeta. cbn [e_x e_y e_z]. eexists. split; [exact Hx'|]. split; [exact Hy'|]. split; [exact St|]. split; [reflexivity|].
      cbn [andb]. split; [discriminate|]. intros [X _]. now destruct X.
Qed.
End Volume.

Section Image.
Variables (m : list Qc) (w h : nat).
Hypothesis L : w * h <= length m.
Let V := image_of m w.
Definition jet2_at (x y : Z) : jet2 := Jet2 (pix V x y) (I_x V x y) (I_y V x y) (I_xx V x y) (I_yy V x y) (I_xy V x y).
Lemma around2_ok x y dx dy : inner w x -> inner h y -> near dx -> near dy ->
  around2 m w (x + Z.of_nat w * y)%Z dx dy = Some (pix V (x + dx) (y + dy)).
Proof. intros Hx Hy Nx Ny. unfold around2, V. rewrite <- (image_see m w h); [f_equal; ring|exact L|now apply inner_near|now apply inner_near]. Qed.
Lemma derivatives2_ok x y : inner w x -> inner h y -> derivatives2 m w (x + Z.of_nat w * y)%Z = Some (jet2_at x y).
Proof.
  intros Hx Hy. unfold derivatives2. rewrite !(around2_ok x y) by (auto; unfold near; lia). cbn [obind]. rewrite !Z.add_0_r.
  unfold jet2_at, I_x, I_y, I_xx, I_yy, I_xy, half.
  change (x + -1)%Z with (x - 1)%Z. change (y + -1)%Z with (y - 1)%Z.
  apply (f_equal Some). f_equal; unfold Qcdiv; ring.
Qed.
Lemma solve_at2_ok x y : inner w x -> inner h y -> exists o ok b, solve_at2 m w x y = Some (jet2_at x y, ok, b) /\ stationary2 V x y o /\ length b = 2 /\
  match o with Some v => ok = true /\ b = [fst v; snd v] | None => ok = false end.
Proof.
  intros Hx Hy. unfold solve_at2. rewrite derivatives2_ok by assumption. cbn [obind]. set (j := jet2_at x y).
  destruct (C50_solve_2 [j_xx j; j_xy j; j_xy j; j_yy j] [- j_x j; - j_y j]%Qc eq_refl eq_refl) as (ok & b & E & Ht & Hf).
  rewrite E. cbn [obind].
  assert (Lb : length b = 2). { unfold Gauss_Model.solve2 in E. destruct (Gauss_Model.gaussian_elimination _ _ _) as [[ok' m']|]; [|discriminate]. cbn [obind] in E.
    destruct (aget m' 4); [|discriminate]. destruct (aget m' 5); [|discriminate]. cbn [obind] in E. now injection E as _ <-. }
  destruct b as [|b0 [|b1 [|]]]; try discriminate Lb. destruct ok.
  - exists (Some (b0, b1)), true, [b0; b1]. split; [reflexivity|]. split; [|auto].
    destruct (Ht eq_refl) as (_ & Sb & U). cbn [stationary2].
    assert (SE : forall c0 c1, hessian2 V x y (c0, c1) = (- I_x V x y, - I_y V x y)%Qc <-> system 2 [j_xx j; j_xy j; j_xy j; j_yy j] [- j_x j; - j_y j]%Qc [c0; c1]).
    { intros c0 c1. unfold hessian2, system. cbn [fst snd]. split.
      + intros H. pose proof (f_equal fst H) as H0. pose proof (f_equal snd H) as H1. cbn [fst snd] in H0, H1. intros [|[|i]] Li; [| |lia]; cbn [sum nth Nat.add Nat.mul]; unfold j, jet2_at; cbn [j_xx j_xy j_yy j_x j_y].
        * rewrite <- H0. ring.
        * rewrite <- H1. ring.
      + intros H. pose proof (H 0 ltac:(lia)) as H0. pose proof (H 1 ltac:(lia)) as H1.
        cbn [sum nth Nat.add Nat.mul] in H0, H1. unfold j, jet2_at in H0, H1. cbn [j_xx j_xy j_yy j_x j_y] in H0, H1.
        rewrite <- H0, <- H1. f_equal; ring. }
    intros [c0 c1]. rewrite SE. split.
    + intros H. apply (U [c0; c1] eq_refl) in H. injection H as -> ->. reflexivity.
    + intros H. injection H as -> ->. exact Sb.
  - exists None, false, [b0; b1]. split; [reflexivity|]. split; [|auto].
    destruct (Hf eq_refl) as (v & i & Li & Vi & T). exists (v 0), (v 1). split; [destruct i as [|[|i]]; auto; lia|]. unfold hessian2. cbn [fst snd].
    pose proof (T 0 ltac:(lia)) as T0. pose proof (T 1 ltac:(lia)) as T1.
    unfold entry in T0, T1. cbn [sum nth Nat.add Nat.mul] in T0, T1. unfold j, jet2_at in T0, T1. cbn [j_xx j_xy j_yy j_x j_y] in T0, T1.
    rewrite !Qcplus_0_l in T0, T1. split; [exact T0|exact T1].
Qed.
Lemma refine2_ok root x y : inner w x -> inner h y ->
  exists x' y' o ok, inner w x' /\ inner h y' /\ steps w h (stationary2 V) (fun b => b) 4 x y x' y' o /\
    (let '(b0, b1) := match o with Some b => b | None => (0, 0)%Qc end in
     refine2 root m w h x y = Some (Ext2 x' y' (zq x' + b0) (zq y' + b1)
       (pix V x' y' + (I_x V x' y' * b0 + I_y V x' y' * b1) / nq 2) (edge_score root (I_xx V x' y') (I_yy V x' y') (I_xy V x' y')), ok)%Qc /\
     (ok = true <-> o <> None /\ fits w x' b0 /\ fits h y' b1)).
Proof.
  intros Hx Hy.
  destruct (walk_ok w h 2 (solve_at2 m w) jet2_at (stationary2 V) (fun b : Qc * Qc => b) (fun v => [fst v; snd v]))
    with (k := 4) (x := x) (y := y) (dx := 0%Z) (dy := 0%Z) (last := @None (Z * Z * jet2 * bool * list Qc)) as (x' & y' & o & ok & b & E & Hx' & Hy' & St & M).
  - reflexivity.
  - reflexivity.
  - intros x0 y0 H1 H2. apply solve_at2_ok; assumption.
  - now rewrite Z.add_0_r.
  - now rewrite Z.add_0_r.
  - rewrite !Z.add_0_r in St. exists x', y', o. unfold refine2. rewrite E. cbn [obind].
    destruct o as [[b0 b1]|].
    + destruct M as [-> ->]. cbn [aget nth_error obind fst snd]. cbv zeta. cbn [p_x p_y]. eexists. split; [exact Hx'|]. split; [exact Hy'|]. split; [exact St|]. split; [reflexivity|].
      rewrite <- !close_within_ok. cbn [andb]. rewrite !andb_true_iff. split; [intros H; split; [discriminate|]; tauto|tauto].
    + destruct M as [-> ->]. cbn [repeat aget nth_error obind]. cbv zeta. cbn [p_x p_y]. eexists. split; [exact Hx'|]. split; [exact Hy'|]. split; [exact St|]. split; [reflexivity|].
      cbn [andb]. split; [discriminate|]. intros [X _]. now destruct X.
Qed.
End Image.

(** ** the edge score *)
Lemma div_nonneg (a b : Qc) : (0 <= a)%Qc -> (0 < b)%Qc -> (0 <= a / b)%Qc.
Proof. intros Ha Hb. apply Qc_mult_nonneg; [exact Ha|]. apply Qclt_le_weak. now apply Qcinv_pos. Qed.
Lemma edge_ratio root xx yy xy q b : square_root root -> eigenvalues xx yy xy (q * b) b -> b <> 0%Qc -> (1 <= q)%Qc -> edge_score root xx yy xy = Some q.
Proof.
  intros R [Tr Det] Nb Hq. unfold edge_score. cbv zeta. rewrite Tr, Det.
  assert (Pq : (0 < q)%Qc) by (eapply Qclt_le_trans; [|exact Hq]; reflexivity). pose proof (qc_pos_neq _ Pq) as Nq.
  replace (isz (q * b * b)) with false by (symmetry; apply isz_false; intros X; destruct (Qcmult_integral _ _ X) as [Y|Y]; [destruct (Qcmult_integral _ _ Y)|]; contradiction).
  replace ((q * b + b) * (q * b + b) / (q * b * b))%Qc with ((q + 1) * (q + 1) / q)%Qc by (field; auto).
  set (al := ((q + 1) * (q + 1) / q)%Qc).
  assert (Pa : (0 <= al)%Qc) by (apply div_nonneg; [apply Qc_square_nonneg|exact Pq]).
  replace (qlt al 0) with false by (symmetry; now apply qlt_false).
  assert (M : (0 <= al / nq 4 - 1)%Qc).
  { replace (al / nq 4 - 1)%Qc with ((q - 1) * (q - 1) / (nq 4 * q))%Qc.
    - apply div_nonneg; [apply Qc_square_nonneg|]. now apply Sift_Proofs.Qc_mul_pos.
    - unfold al. change (nq 4) with (1 + 1 + 1 + 1)%Qc. field. split; [exact Nq|discriminate]. }
  replace (qmax (al / nq 4 - 1) 0) with (al / nq 4 - 1)%Qc.
  2: { unfold qmax. destruct (qlt 0 (al / nq 4 - 1)) eqn:Q; [reflexivity|]. apply qlt_false in Q. now apply Qcle_antisym. }
  set (g := ((q * q - 1) / (nq 2 * q))%Qc).
  assert (Pg : (0 <= g)%Qc).
  { apply div_nonneg; [|now apply Sift_Proofs.Qc_mul_pos]. replace (q * q - 1)%Qc with ((q - 1) * (q + 1))%Qc by ring. apply Qc_mult_nonneg; [|]; clear - Hq Pq; qc_lra. }
  replace ((al / nq 4 - 1) * al)%Qc with (g * g)%Qc.
  2: { unfold g, al. change (nq 4) with (1 + 1 + 1 + 1)%Qc. change (nq 2) with (1 + 1)%Qc. field. split; [exact Nq|split; discriminate]. }
  rewrite (R g Pg). f_equal. unfold g, al, half. change (nq 2) with (1 + 1)%Qc. field. split; [exact Nq|discriminate].
Qed.
Lemma edge_none root xx yy xy : (xx * yy - xy * xy = 0 \/ xx * yy - xy * xy < 0 /\ xx + yy <> 0)%Qc -> edge_score root xx yy xy = None.
Proof.
  intros H. unfold edge_score. cbv zeta. set (det := (xx * yy - xy * xy)%Qc) in *. destruct (isz det) eqn:Z; [reflexivity|]. apply isz_false in Z.
  destruct H as [H|[H T]]; [contradiction|]. set (tr := (xx + yy)%Qc) in *.
  replace (qlt (tr * tr / det) 0) with true; [reflexivity|]. symmetry. apply qlt_true.
  assert (P : (0 < - det)%Qc) by (clear - H; qc_lra). pose proof (Qcinv_pos _ P) as PI.
  replace (tr * tr / det)%Qc with (- ((tr * tr) * / (- det)))%Qc by (field; split; [exact Z|intros X; apply Z; rewrite <- (Qcopp_involutive det), X; reflexivity]).
  assert (Q : (0 < tr * tr * / (- det))%Qc).
  { apply Sift_Proofs.Qc_mul_pos; [|exact PI]. apply Qc_pos_of_nonneg; [apply Qc_square_nonneg|]. intros X. destruct (Qcmult_integral _ _ X); contradiction. }
  clear - Q. qc_lra.
Qed.
Lemma edge_saddle root xx yy xy : square_root root -> (xx * yy - xy * xy < 0)%Qc -> (xx + yy = 0)%Qc -> edge_score root xx yy xy = Some (- (1))%Qc.
Proof.
  intros R H T. unfold edge_score. cbv zeta. rewrite T. set (det := (xx * yy - xy * xy)%Qc) in *. replace (isz det) with false by (symmetry; apply isz_false; intros X; rewrite X in H; discriminate).
  replace (0 * 0 / det)%Qc with 0%Qc by (unfold Qcdiv; ring). replace (qlt 0 0) with false by reflexivity.
  replace (qmax (0 / nq 4 - 1) 0 * 0)%Qc with (0 * 0)%Qc by ring. rewrite (R 0%Qc) by apply Qcle_refl. reflexivity.
Qed.

(** ** the features *)
Lemma written3_get b keys i x y z : firstn (3 * length keys) b = written3 keys -> nth_error keys i = Some (x, y, z) ->
  aget b (3 * i) = Some x /\ aget b (3 * i + 1) = Some y /\ aget b (3 * i + 2) = Some z.
Proof.
  intros F E. assert (Li : i < length keys) by (apply nth_error_Some; congruence).
  assert (W : forall i keys, nth_error keys i = Some (x, y, z) -> nth_error (written3 keys) (3 * i) = Some x /\ nth_error (written3 keys) (3 * i + 1) = Some y /\ nth_error (written3 keys) (3 * i + 2) = Some z).
  { clear. induction i as [|i IH]; intros [|[[a c] e] keys] E; try discriminate E.
    - injection E as -> -> ->. cbn. auto.
    - cbn [nth_error] in E. destruct (IH keys E) as (A1 & A2 & A3). unfold written3. cbn [flat_map app]. fold (written3 keys).
      replace (3 * S i + 2) with (3 + (3 * i + 2)) by lia. replace (3 * S i + 1) with (3 + (3 * i + 1)) by lia. replace (3 * S i) with (3 + 3 * i) by lia. cbn [nth_error Nat.add]. auto. }
  destruct (W i keys E) as (A1 & A2 & A3). rewrite <- F in A1, A2, A3.
  assert (G : forall j v, nth_error (firstn (3 * length keys) b) j = Some v -> aget b j = Some v).
  { intros j v H. unfold aget. rewrite <- (firstn_skipn (3 * length keys) b). rewrite nth_error_app1; [exact H|]. apply nth_error_Some. congruence. }
  auto.
Qed.
Lemma written2_get b keys i x y : firstn (2 * length keys) b = written2 keys -> nth_error keys i = Some (x, y) ->
  aget b (2 * i) = Some x /\ aget b (2 * i + 1) = Some y.
Proof.
  intros F E. assert (Li : i < length keys) by (apply nth_error_Some; congruence).
  assert (W : forall i keys, nth_error keys i = Some (x, y) -> nth_error (written2 keys) (2 * i) = Some x /\ nth_error (written2 keys) (2 * i + 1) = Some y).
  { clear. induction i as [|i IH]; intros [|[a c] keys] E; try discriminate E.
    - injection E as -> ->. cbn. auto.
    - cbn [nth_error] in E. destruct (IH keys E) as (A1 & A2). unfold written2. cbn [flat_map app]. fold (written2 keys).
      replace (2 * S i + 1) with (2 + (2 * i + 1)) by lia. replace (2 * S i) with (2 + 2 * i) by lia. cbn [nth_error Nat.add]. auto. }
  destruct (W i keys E) as (A1 & A2). rewrite <- F in A1, A2.
  assert (G : forall j v, nth_error (firstn (2 * length keys) b) j = Some v -> aget b j = Some v).
  { intros j v H. unfold aget. rewrite <- (firstn_skipn (2 * length keys) b). rewrite nth_error_app1; [exact H|]. apply nth_error_Some. congruence. }
  auto.
Qed.
(** a loop appending what is found for each of some items *)
Lemma collect {T} {K} (keys : list K) (outcome : K -> list T -> Prop) (body : nat -> list T -> option (list T)) :
  (forall i k l, nth_error keys i = Some k -> exists out, body i l = Some (l ++ out) /\ outcome k out) ->
  exists outs, iter (length keys) body nil = Some (concat outs) /\ Forall2 outcome keys outs.
Proof.
  intros H.
  destruct (iter_inv (fun i l => exists outs, l = concat outs /\ Forall2 outcome (firstn i keys) outs) body (length keys) nil) as (l & E & outs & -> & F).
  - exists nil. split; [reflexivity|constructor].
  - intros i l Li (outs & -> & F). destruct (nth_error keys i) as [k|] eqn:Ek; [|apply nth_error_None in Ek; lia].
    destruct (H i k (concat outs) Ek) as (out & E & O). exists (concat outs ++ out). split; [exact E|]. exists (outs ++ out :: nil). split; [rewrite concat_app; cbn [concat]; now rewrite app_nil_r|].
    rewrite (firstn_S keys i k Ek). apply Forall2_app; [exact F|]. constructor; [exact O|constructor].
  - rewrite firstn_all in F. eauto.
Qed.
