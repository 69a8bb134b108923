(** Distances over the integers, the brute-force and the pruned assignment. *)
From Coq Require Import List Arith ZArith Lia Bool.
Import ListNotations.
From Verif Require Import Base Loop MserSort_Proofs Ikm_Model Ikm_Spec.
Local Open Scope nat_scope.

Lemma zsum_ext n f g : (forall i, i < n -> f i = g i) -> zsum n f = zsum n g.
Proof. induction n as [|n IH]; intro H; cbn [zsum]; [reflexivity|]. rewrite IH by (intros; apply H; lia). rewrite H by lia. reflexivity. Qed.
Lemma zsum_nonneg n f : (forall i, i < n -> (0 <= f i)%Z) -> (0 <= zsum n f)%Z.
Proof. induction n as [|n IH]; intro H; cbn [zsum]; [lia|]. specialize (IH ltac:(intros; apply H; lia)). specialize (H n ltac:(lia)). lia. Qed.
Lemma zsum_le n f g : (forall i, i < n -> (f i <= g i)%Z) -> (zsum n f <= zsum n g)%Z.
Proof. induction n as [|n IH]; intro H; cbn [zsum]; [lia|]. specialize (IH ltac:(intros; apply H; lia)). specialize (H n ltac:(lia)). lia. Qed.
Lemma sqdist_nonneg M u v : (0 <= sqdist M u v)%Z.
Proof. apply zsum_nonneg. intros. apply Z.square_nonneg. Qed.
Lemma sqdist_ext M u u' v v' : (forall i, i < M -> u i = u' i) -> (forall i, i < M -> v i = v' i) -> sqdist M u v = sqdist M u' v'.
Proof. intros A B. apply zsum_ext. intros i L. now rewrite A, B. Qed.
Lemma sqdist_sym M u v : sqdist M u v = sqdist M v u.
Proof. apply zsum_ext. intros. ring. Qed.
Lemma sqdist_self M u : sqdist M u u = 0%Z.
Proof. unfold sqdist. induction M as [|M IH]; cbn [zsum]; [reflexivity|]. rewrite IH. ring. Qed.
Lemma sqdist_zero M u v : sqdist M u v = 0%Z -> forall i, i < M -> u i = v i.
Proof.
  unfold sqdist. induction M as [|M IH]; cbn [zsum]; intros E i L; [lia|].
  pose proof (zsum_nonneg M (fun i => (u i - v i) * (u i - v i))%Z ltac:(intros; apply Z.square_nonneg)) as P.
  pose proof (Z.square_nonneg (u M - v M)) as Q. assert ((u M - v M) * (u M - v M) = 0)%Z by lia.
  destruct (Nat.eq_dec i M) as [->|]; [nia|]. apply IH; lia.
Qed.

Lemma square_bound (a b : Z) : (0 <= b -> a * a <= b * b -> a <= b)%Z.
Proof. intros. nia. Qed.
Lemma cauchy_z n u v :
  (zsum n (fun i => u i * v i) * zsum n (fun i => u i * v i) <= zsum n (fun i => u i * u i) * zsum n (fun i => v i * v i))%Z.
Proof.
  induction n as [|n IH]; cbn [zsum]; [lia|].
  pose proof (zsum_nonneg n (fun i => u i * u i)%Z ltac:(intros; apply Z.square_nonneg)) as HU.
  pose proof (zsum_nonneg n (fun i => v i * v i)%Z ltac:(intros; apply Z.square_nonneg)) as HV.
  set (P := zsum n (fun i => (u i * v i)%Z)) in *. set (U := zsum n (fun i => (u i * u i)%Z)) in *. set (V := zsum n (fun i => (v i * v i)%Z)) in *.
  clearbody P U V. set (a := u n). set (b := v n). clearbody a b.
  assert (K : (2 * (P * (a * b)) <= U * (b * b) + V * (a * a))%Z).
  { apply square_bound; [nia|].
    assert (A : (2 * (P * (a * b)) * (2 * (P * (a * b))) <= 4 * ((U * (b * b)) * (V * (a * a))))%Z).
    { replace (2 * (P * (a * b)) * (2 * (P * (a * b))))%Z with (4 * ((P * P) * ((a * b) * (a * b))))%Z by ring.
      replace (U * (b * b) * (V * (a * a)))%Z with ((U * V) * ((a * b) * (a * b)))%Z by ring.
      assert (Q : (0 <= (a * b) * (a * b))%Z) by apply Z.square_nonneg. pose proof (Z.mul_le_mono_nonneg_r _ _ _ Q IH). lia. }
    pose proof (Z.square_nonneg (U * (b * b) - V * (a * a))) as S. nia. }
  nia.
Qed.
(** the squared triangle inequality *)
Lemma triangle M x a b :
  let X := sqdist M x a in let Y := sqdist M x b in let E := sqdist M a b in
  ((X + Y - E) * (X + Y - E) <= 4 * (X * Y))%Z.
Proof.
  cbv zeta. pose proof (cauchy_z M (fun i => x i - a i)%Z (fun i => x i - b i)%Z) as C.
  assert (R : (sqdist M x a + sqdist M x b - sqdist M a b = 2 * zsum M (fun i => (x i - a i) * (x i - b i)))%Z).
  { clear C. unfold sqdist. induction M as [|M IH]; cbn [zsum]; [reflexivity|].
    assert (P : ((x M - a M) * (x M - a M) + (x M - b M) * (x M - b M) - (a M - b M) * (a M - b M) = 2 * ((x M - a M) * (x M - b M)))%Z) by ring. lia. }
  cbv beta in C. rewrite R. change (zsum M (fun i => (x i - a i) * (x i - a i))%Z) with (sqdist M x a) in C.
  change (zsum M (fun i => (x i - b i) * (x i - b i))%Z) with (sqdist M x b) in C. lia.
Qed.
Lemma prune M x a b : (4 * sqdist M x a <= sqdist M a b)%Z -> (sqdist M x a <= sqdist M x b)%Z.
Proof.
  intro H. pose proof (triangle M x a b) as T. cbv zeta in T.
  pose proof (sqdist_nonneg M x a). pose proof (sqdist_nonneg M x b).
  set (X := sqdist M x a) in *. set (Y := sqdist M x b) in *. set (E := sqdist M a b) in *. clearbody X Y E. nia.
Qed.
Lemma root_bound l d : (0 <= l -> 0 <= d -> l * d <= ((Z.sqrt l + 1) * (Z.sqrt d + 1)) * ((Z.sqrt l + 1) * (Z.sqrt d + 1)))%Z.
Proof.
  intros. destruct (Z.sqrt_spec l) as [_ A]; [assumption|]. destruct (Z.sqrt_spec d) as [_ B]; [assumption|].
  pose proof (Z.sqrt_nonneg l). pose proof (Z.sqrt_nonneg d).
  set (p := (Z.sqrt l + 1)%Z) in *. set (q := (Z.sqrt d + 1)%Z) in *.
  replace (Z.succ (Z.sqrt l)) with p in A by reflexivity. replace (Z.succ (Z.sqrt d)) with q in B by reflexivity.
  replace ((p * q) * (p * q))%Z with ((p * p) * (q * q))%Z by ring. apply Z.mul_le_mono_nonneg; lia.
Qed.
(** a lower bound after the center a moves to b *)
Lemma lower_moves M x a b l : let d := sqdist M a b in
  (l <= sqdist M x a -> d < l -> l + d - 2 * (Z.sqrt l + 1) * (Z.sqrt d + 1) <= sqdist M x b)%Z.
Proof.
  cbv zeta. intros Hl Hd. pose proof (triangle M a x b) as T. cbv zeta in T. rewrite (sqdist_sym M a x) in T.
  pose proof (sqdist_nonneg M a b). pose proof (root_bound l (sqdist M a b) ltac:(lia) ltac:(lia)) as P.
  pose proof (Z.sqrt_nonneg l). pose proof (Z.sqrt_nonneg (sqdist M a b)).
  rewrite <- Z.mul_assoc.
  set (p := ((Z.sqrt l + 1) * (Z.sqrt (sqdist M a b) + 1))%Z) in *. assert (1 <= p)%Z by (unfold p; nia). clearbody p.
  set (Y := sqdist M x a) in *. set (Y' := sqdist M x b) in *. set (d := sqdist M a b) in *. clearbody Y Y' d.
  assert (PD : (d < p)%Z).
  { destruct (Z_lt_le_dec d p) as [|G]; [assumption|exfalso]. assert (p * p <= d * d)%Z by nia. assert (d * d < l * d)%Z by nia. lia. }
  destruct (Z_le_gt_dec (l + d - 2 * p) Y') as [|G]; [assumption|exfalso].
  assert (A : (0 <= Y - l + 2 * p < Y + d - Y')%Z) by lia.
  assert (B : ((Y - l + 2 * p) * (Y - l + 2 * p) < 4 * (Y * d))%Z) by nia.
  set (k := (Y - l)%Z) in *. assert (Y = l + k)%Z by lia. assert (0 <= k)%Z by lia. clearbody k. subst Y. nia.
Qed.
Lemma upper_moves M x a b u : let d := sqdist M a b in
  (sqdist M x a <= u -> sqdist M x b <= u + d + 2 * (Z.sqrt u + 1) * (Z.sqrt d + 1))%Z.
Proof.
  cbv zeta. intros Hu. pose proof (triangle M a x b) as T. cbv zeta in T. rewrite (sqdist_sym M a x) in T.
  pose proof (sqdist_nonneg M a b). pose proof (sqdist_nonneg M x a).
  pose proof (root_bound u (sqdist M a b) ltac:(lia) ltac:(lia)) as P.
  pose proof (Z.sqrt_nonneg u). pose proof (Z.sqrt_nonneg (sqdist M a b)). rewrite <- Z.mul_assoc.
  set (p := ((Z.sqrt u + 1) * (Z.sqrt (sqdist M a b) + 1))%Z) in *. assert (0 <= p)%Z by (unfold p; nia). clearbody p.
  set (X := sqdist M x a) in *. set (X' := sqdist M x b) in *. set (d := sqdist M a b) in *. clearbody X X' d. nia.
Qed.

(** ** The loops *)
Lemma dist2_ok M a oa b ob : oa + M <= length a -> ob + M <= length b ->
  dist2 M a oa b ob = Some (sqdist M (fun i => nth (oa + i) a 0%Z) (fun i => nth (ob + i) b 0%Z)).
Proof.
  intros A B. unfold dist2. set (u := fun i => nth (oa + i) a 0%Z). set (v := fun i => nth (ob + i) b 0%Z).
  match goal with |- iter M ?f ?s = _ => destruct (iter_inv (fun j acc => acc = zsum j (fun i => (u i - v i) * (u i - v i))%Z) f M s) as (r & -> & ->) end;
    [reflexivity| |reflexivity].
  intros j s L ->. rewrite (aget_nth a _ 0%Z), (aget_nth b _ 0%Z) by lia. cbn [obind]. eexists. split; [reflexivity|].
  rewrite Nat.add_1_r. reflexivity.
Qed.
Lemma row_fits (M K k : nat) : k < K -> k * M + M <= M * K.
Proof. nia. Qed.
Lemma cell_lt (K k c : nat) : k < K -> c < K -> k * K + c < K * K.
Proof. nia. Qed.

Definition at_ (l : list Z) (o : nat) : nat -> Z := fun i => nth (o + i) l 0%Z.
Lemma push_one_ok M K cs data o : length cs = M * K -> o + M <= length data ->
  (K = 0 -> push_one M K cs data o = Some no_center) /\
  (0 < K -> exists k, push_one M K cs data o = Some (Z.of_nat k) /\ first_nearest M K cs (at_ data o) k).
Proof.
  intros LC LD. split; intro HK; [subst K; reflexivity|]. unfold push_one. set (u := at_ data o).
  match goal with |- context [iter K ?f ?s] => destruct (iter_inv (fun j (b : option (nat * Z)) =>
    match b with None => j = 0 | Some (k, d) => d = sqdist M u (coord M cs k) /\ first_nearest M j cs u k end) f K s) as (r & -> & I) end.
  - reflexivity.
  - intros j b L I. cbv beta. rewrite dist2_ok by (pose proof (row_fits M K j); lia). cbn [obind]. fold (at_ data o). fold u.
    change (fun i => nth (j * M + i) cs 0%Z) with (coord M cs j). rewrite Nat.add_1_r.
    destruct b as [[k d]|]; eexists; (split; [reflexivity|]); cbv beta iota.
    + destruct I as [-> (B1 & B2 & B3)]. destruct (Z.ltb_spec (sqdist M u (coord M cs j)) (sqdist M u (coord M cs k))); cbv beta iota; (split; [reflexivity|]).
      * split; [lia|]. split; [|intros c Lc; specialize (B2 c Lc); lia].
        intros c Lc. destruct (Nat.eq_dec c j) as [->|]; [lia|]. specialize (B2 c ltac:(lia)). lia.
      * split; [lia|]. split; [|assumption]. intros c Lc. destruct (Nat.eq_dec c j) as [->|]; [lia|]. apply B2. lia.
    + subst j. split; [reflexivity|]. split; [lia|]. split; [|lia]. intros c Lc. replace c with 0 by lia. lia.
  - cbn [obind]. destruct r as [[k d]|]; [|lia]. exists k. split; [reflexivity|apply I].
Qed.
Lemma first_nearest_unique M K cs u k k' : first_nearest M K cs u k -> first_nearest M K cs u k' -> k = k'.
Proof.
  intros (A1 & A2 & A3) (B1 & B2 & B3). destruct (Nat.lt_trichotomy k k') as [L|[L|L]]; [|assumption|].
  - specialize (B3 k L). specialize (A2 k' B1). lia.
  - specialize (A3 k' L). specialize (B2 k A1). lia.
Qed.
Lemma first_nearest_ext M K cs u u' k : (forall i, i < M -> u i = u' i) -> first_nearest M K cs u k -> first_nearest M K cs u' k.
Proof.
  intros E (A & B & C). assert (D : forall c, sqdist M u (coord M cs c) = sqdist M u' (coord M cs c)) by (intro; apply sqdist_ext; auto).
  split; [assumption|]. split; intros c L; rewrite <- !D; auto.
Qed.

Lemma nth_upd_z l i j (v d : Z) : i < length l -> nth j (upd l i v) d = if j =? i then v else nth j l d.
Proof. apply nth_upd. Qed.
Lemma update_inter_ok M K cs d : length cs = M * K -> length d = K * K ->
  exists d', update_inter M K cs d = Some d' /\ current M K cs d'.
Proof.
  intros LC LD. unfold update_inter.
  set (good := fun (d : list Z) k c => nth (k * K + c) d 0%Z = (sqdist M (coord M cs k) (coord M cs c) / 4)%Z).
  match goal with |- context [iter K ?f ?s] => destruct (iter_inv (fun j (d : list Z) => length d = K * K /\
    forall k c, k < K -> c < K -> k < j -> good d k c) f K s) as (r & -> & L & I) end.
  - split; [assumption|lia].
  - intros k s Lk [Ls Is]. cbv beta.
    match goal with |- context [iter K ?f ?s] => destruct (iter_inv (fun j (d : list Z) => length d = K * K /\
      forall k' c, k' < K -> c < K -> k' < k \/ k' = k /\ c < j -> good d k' c) f K s) as (r & -> & L & I) end.
    + split; [assumption|]. intros k' c A B [C|C]; [auto|lia].
    + intros kp t Lp [Lt It]. cbv beta.
      assert (E : (if k =? kp then Some 0%Z else dist2 M cs (kp * M) cs (k * M)) = Some (sqdist M (coord M cs kp) (coord M cs k))).
      { destruct (Nat.eqb_spec k kp) as [->|]; [now rewrite sqdist_self|]. apply dist2_ok; rewrite LC; apply row_fits; assumption. }
      rewrite E. cbn [obind]. pose proof (cell_lt K k kp Lk Lp). pose proof (cell_lt K kp k Lp Lk).
      rewrite aset_lt by lia. cbn [obind]. rewrite aset_lt by (rewrite upd_length; lia).
      eexists. split; [reflexivity|]. rewrite !upd_length. split; [assumption|].
      intros k' c A B C. unfold good. rewrite nth_upd by (rewrite upd_length; lia). rewrite nth_upd by lia.
      rewrite Z.shiftr_div_pow2 by lia. change (2 ^ 2)%Z with 4%Z.
      destruct (Nat.eqb_spec (k' * K + c) (k * K + kp)) as [E1|E1].
      * assert (k' = k) by nia. assert (c = kp) by nia. subst. now rewrite sqdist_sym.
      * destruct (Nat.eqb_spec (k' * K + c) (kp * K + k)) as [E2|E2].
        -- assert (k' = kp) by nia. assert (c = k) by nia. subst. reflexivity.
        -- apply It; try assumption. destruct C as [C|[-> C]]; [now left|right]. split; [reflexivity|].
           destruct (Nat.eq_dec c kp) as [->|]; [congruence|lia].
    + exists r. split; [reflexivity|]. split; [assumption|]. intros k' c A B C. apply I; try assumption.
      destruct (Nat.eq_dec k' k) as [->|]; [right; auto|left; lia].
  - exists r. split; [reflexivity|]. split; [assumption|]. intros k c A B. now apply I.
Qed.

Lemma push_elkan_ok M K cs d data o : length cs = M * K -> o + M <= length data -> current M K cs d -> 0 < K ->
  fits M K cs (at_ data o) ->
  exists k, push_elkan_one M K cs d data o = Some (Z.of_nat k) /\ first_nearest M K cs (at_ data o) k.
Proof.
  intros LC LD [Ld Cd] HK F. unfold push_elkan_one. set (u := at_ data o) in *.
  match goal with |- context [iter K ?f ?s] => destruct (iter_inv (fun j (st : nat * Z) =>
    let (cx, best) := st in cx < K /\ (j = 0 -> cx = 0 /\ best = acc_max) /\
      (0 < j -> best = sqdist M u (coord M cs cx) /\ first_nearest M j cs u cx)) f K s) as (r & -> & I) end.
  - cbv beta iota. split; [assumption|]. split; [auto|lia].
  - intros j [cx best] L (A & B & C). cbv beta iota. rewrite Nat.add_1_r.
    rewrite (aget_nth d _ 0%Z) by (rewrite Ld, Nat.mul_comm; apply cell_lt; assumption). cbn [obind].
    rewrite (Nat.mul_comm K cx), Cd by assumption.
    rewrite dist2_ok by (pose proof (row_fits M K j); lia). cbn [obind]. fold (at_ data o). fold u.
    change (fun i => nth (j * M + i) cs 0%Z) with (coord M cs j).
    destruct (Nat.eq_dec j 0) as [->|Hj].
    + destruct (B eq_refl) as [-> ->]. rewrite sqdist_self. change (0 / 4 <? acc_max)%Z with true. cbv beta iota.
      specialize (F 0 HK). destruct (Z.ltb_spec (sqdist M u (coord M cs 0)) acc_max); [|lia].
      eexists. split; [reflexivity|]. cbv beta iota. split; [assumption|]. split; [lia|]. intros _. split; [reflexivity|].
      split; [lia|]. split; [|lia]. intros c Lc. replace c with 0 by lia. lia.
    + destruct C as [-> (B1 & B2 & B3)]; [lia|]. clear B.
      destruct (Z.ltb_spec (sqdist M (coord M cs cx) (coord M cs j) / 4) (sqdist M u (coord M cs cx))) as [Hd|Hd].
      * destruct (Z.ltb_spec (sqdist M u (coord M cs j)) (sqdist M u (coord M cs cx))); eexists; (split; [reflexivity|]); cbv beta iota.
        -- split; [assumption|]. split; [lia|]. intros _. split; [reflexivity|]. split; [lia|]. split; [|intros c Lc; specialize (B2 c Lc); lia].
           intros c Lc. destruct (Nat.eq_dec c j) as [->|]; [lia|]. specialize (B2 c ltac:(lia)). lia.
        -- split; [assumption|]. split; [lia|]. intros _. split; [reflexivity|]. split; [lia|]. split; [|assumption].
           intros c Lc. destruct (Nat.eq_dec c j) as [->|]; [lia|]. apply B2. lia.
      * eexists; (split; [reflexivity|]); cbv beta iota. split; [assumption|]. split; [lia|]. intros _. split; [reflexivity|].
        split; [lia|]. split; [|assumption]. intros c Lc. destruct (Nat.eq_dec c j) as [->|]; [|apply B2; lia].
        apply prune. pose proof (Z.mul_div_le (sqdist M (coord M cs cx) (coord M cs j)) 4 ltac:(lia)). lia.
  - destruct r as [cx best]. cbn [obind]. exists cx. split; [reflexivity|]. apply I. lia.
Qed.

Lemma push_datum_ok f data o : ready f -> o + fM f <= length data -> 0 < fK f -> (elkan f = true -> fits (fM f) (fK f) (centers f) (at_ data o)) ->
  exists k, push_datum f data o = Some (Z.of_nat k) /\ first_nearest (fM f) (fK f) (centers f) (at_ data o) k.
Proof.
  intros [LC T] LD HK F. unfold push_datum. destruct (elkan f).
  - apply push_elkan_ok; auto.
  - now apply push_one_ok.
Qed.
Lemma push_ok f asgn data N : ready f -> N * fM f <= length data -> N <= length asgn -> 0 < fK f ->
  (forall x, x < N -> elkan f = true -> fits (fM f) (fK f) (centers f) (coord (fM f) data x)) ->
  exists out, push f asgn data N = Some out /\ length out = length asgn /\ (forall x, N <= x -> nth x out 0%Z = nth x asgn 0%Z) /\
    forall x, x < N -> exists k, nth x out 0%Z = Z.of_nat k /\ first_nearest (fM f) (fK f) (centers f) (coord (fM f) data x) k.
Proof.
  intros R LD LA HK F. unfold push.
  match goal with |- context [iter N ?g ?s] => destruct (iter_inv (fun j out => length out = length asgn /\ (forall x, j <= x -> nth x out 0%Z = nth x asgn 0%Z) /\
    forall x, x < j -> exists k, nth x out 0%Z = Z.of_nat k /\ first_nearest (fM f) (fK f) (centers f) (coord (fM f) data x) k) g N s) as (r & -> & I) end.
  - split; [reflexivity|]. split; [auto|lia].
  - intros j out L (A & B & C). cbv beta. rewrite Nat.add_1_r.
    destruct (push_datum_ok f data (j * fM f) R ltac:(nia) HK (F j L)) as (k & -> & Hk). cbn [obind].
    rewrite aset_lt by lia. eexists. split; [reflexivity|]. rewrite upd_length. split; [assumption|].
    split; intros x Lx; rewrite nth_upd by lia; destruct (Nat.eqb_spec x j) as [->|]; try (apply B; lia); try (apply C; lia); [lia|].
    exists k. split; [reflexivity|assumption].
  - exists r. split; [reflexivity|exact I].
Qed.
