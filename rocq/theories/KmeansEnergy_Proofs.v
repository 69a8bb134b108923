(** Proofs about k-means: the energy never increases. *)
From Coq Require Import List Arith ZArith Lia Bool QArith Qcanon Qcabs Lqa Permutation.
From Verif Require Import Base Loop MserSort_Proofs ImOp_Spec ImOp_Proofs Rat Gauss_Model Gauss_Proofs Vlad_Proofs.
From Verif Require Homker_Proofs.
From Verif Require Import Kmeans_Model Kmeans_Spec Kmeans_Proofs KmeansUpdate_Proofs.
Import ListNotations.
Local Open Scope nat_scope.

Lemma sum_le n f g : (forall i, i < n -> (f i <= g i)%Qc) -> (ksum n f <= ksum n g)%Qc.
Proof.
  induction n as [|n IH]; intro L; [cbn; qc_lra|]. cbn [sum]. pose proof (IH ltac:(auto)). pose proof (L n ltac:(auto)).
  generalize dependent (ksum n f). generalize dependent (ksum n g). generalize dependent (f n). generalize dependent (g n). intros. qc_lra.
Qed.
Lemma sum_count n p c : ksum n (fun x => if p x : bool then c else 0%Qc) = (nq (count n p) * c)%Qc.
Proof.
  induction n as [|n IH]; [apply Qc_is_canon; cbn; ring|]. cbn [sum]. rewrite IH. replace (S n) with (n + 1) by lia. rewrite count_S. destruct (p n).
  - rewrite Homker_Proofs.nq_S. ring.
  - rewrite Nat.add_0_r. ring.
Qed.
Lemma Qc_square_nonneg (x : Qc) : (0 <= x * x)%Qc.
Proof.
  destruct (Qclt_le_dec x 0) as [L|L].
  - replace (x * x)%Qc with (- x * - x)%Qc by ring. apply Qclt_le_weak in L. rewrite <- (Qcmult_0_l (- x)%Qc). apply Qcmult_le_compat_r; qc_lra.
  - rewrite <- (Qcmult_0_l x). now apply Qcmult_le_compat_r.
Qed.
Lemma Qc_mult_nonneg (x y : Qc) : (0 <= x)%Qc -> (0 <= y)%Qc -> (0 <= x * y)%Qc.
Proof. intros. rewrite <- (Qcmult_0_l y). now apply Qcmult_le_compat_r. Qed.
Lemma nq_nonneg n : (0 <= nq n)%Qc.
Proof. change 0%Qc with (nq 0). apply Homker_Proofs.nq_le. lia. Qed.

(** means and medians minimise the sums *)
Lemma mean_min N a k f v w : is_mean N a k f v ->
  (ksum N (fun x => if a x =? k then gap false (f x) v else 0%Qc) <= ksum N (fun x => if a x =? k then gap false (f x) w else 0%Qc))%Qc.
Proof.
  intro M. red in M.
  assert (E : ksum N (fun x => if a x =? k then gap false (f x) w else 0%Qc) =
    (ksum N (fun x => if a x =? k then gap false (f x) v else 0%Qc) + nq (mass N a k) * ((v - w) * (v - w)))%Qc).
  { rewrite (qsum_ext N _ (fun x => (if a x =? k then gap false (f x) v else 0) + (((1 + 1) * (v - w)) * (if a x =? k then f x else 0) + (if a x =? k then (w - v) * (v + w) else 0)))%Qc)
      by (intros x _; unfold gap; destruct (a x =? k); ring).
    rewrite !qsum_add, qsum_scale, sum_count. rewrite <- M. unfold mass. ring. }
  rewrite E. pose proof (Qc_mult_nonneg _ _ (nq_nonneg (mass N a k)) (Qc_square_nonneg (v - w))) as P.
  generalize dependent (nq (mass N a k) * ((v - w) * (v - w)))%Qc. intros q _ P.
  generalize (ksum N (fun x => if a x =? k then gap false (f x) v else 0%Qc)). intro. qc_lra.
Qed.

Lemma abs_cases (x : Qc) : (0 <= x /\ Qcabs x = x)%Qc \/ (x < 0 /\ Qcabs x = - x)%Qc.
Proof.
  destruct (Qclt_le_dec x 0) as [L|L].
  - right. split; [exact L|]. apply Qcabs_neg. qc_lra.
  - left. split; [exact L|]. now apply Qcabs_pos.
Qed.
Lemma median_min N a k f v w : is_median N a k f v ->
  (ksum N (fun x => if a x =? k then gap true (f x) v else 0%Qc) <= ksum N (fun x => if a x =? k then gap true (f x) w else 0%Qc))%Qc.
Proof.
  intros (_ & M1 & M2). set (g := fun w x => if a x =? k then gap true (f x) w else 0%Qc). change (ksum N (g v) <= ksum N (g w))%Qc.
  (* c counts the values on the far side *)
  assert (Step : forall (p : nat -> bool) (e : Qc), (0 <= e)%Qc -> 2 * count N (fun x => (a x =? k) && p x) <= mass N a k ->
     (forall x, (gap true (f x) v + (if p x then - e else e) <= gap true (f x) w)%Qc) -> (ksum N (g v) <= ksum N (g w))%Qc).
  { intros p e He Hc Hp.
    assert (L : (ksum N (fun x => g v x + ((if a x =? k then e else 0) + (- (1 + 1) * e) * (if (a x =? k) && p x then 1 else 0))) <= ksum N (g w))%Qc).
    { apply sum_le. intros x _. unfold g. specialize (Hp x). destruct (a x =? k); cbn [andb]; [|match goal with |- (?u <= _)%Qc => replace u with 0%Qc by ring end; apply Qcle_refl].
      destruct (p x); generalize dependent (gap true (f x) v); generalize dependent (gap true (f x) w); intros; qc_lra. }
    rewrite !qsum_add, qsum_scale, !sum_count in L. fold (mass N a k) in L.
    set (cn := count N (fun x => (a x =? k) && p x)) in *.
    assert (P : (0 <= nq (mass N a k) * e + - (1 + 1) * e * (nq cn * 1))%Qc).
    { replace (nq (mass N a k) * e + - (1 + 1) * e * (nq cn * 1))%Qc with ((nq (mass N a k) - nq (2 * cn)) * e)%Qc.
      - apply Qc_mult_nonneg; [|exact He]. pose proof (proj2 (Homker_Proofs.nq_le _ _) Hc). generalize dependent (nq (2 * cn)). generalize (nq (mass N a k)). intros. qc_lra.
      - replace (2 * cn) with (cn + cn) by lia. assert (Ea : nq (cn + cn) = (nq cn + nq cn)%Qc).
        { clear. assert (A : forall n m, nq (n + m) = (nq n + nq m)%Qc).
          { intros n m. induction n as [|n IH]; [cbn [Nat.add]; change (nq 0) with 0%Qc; ring|]. replace (S n + m) with (n + m + 1) by lia. replace (S n) with (n + 1) by lia. rewrite !Homker_Proofs.nq_S, IH. ring. }
          apply A. }
        rewrite Ea. ring. }
    generalize dependent (nq (mass N a k) * e + - (1 + 1) * e * (nq cn * 1))%Qc. generalize dependent (ksum N (g v)). generalize dependent (ksum N (g w)). intros. qc_lra. }
  destruct (Qclt_le_dec v w) as [L|L].
  - apply (Step (fun x => qless v (f x)) (w - v)%Qc); [qc_lra|exact M2|]. intro x. unfold gap, qless.
    destruct (abs_cases (f x - v)) as [[A1 ->]|[A1 ->]], (abs_cases (f x - w)) as [[A2 ->]|[A2 ->]]; destruct (Qclt_le_dec v (f x)); qc_lra.
  - apply (Step (fun x => qless (f x) v) (v - w)%Qc); [qc_lra|exact M1|]. intro x. unfold gap, qless.
    destruct (abs_cases (f x - v)) as [[A1 ->]|[A1 ->]], (abs_cases (f x - w)) as [[A2 ->]|[A2 ->]]; destruct (Qclt_le_dec (f x) v); qc_lra.
Qed.

(** the energy, cluster by cluster and coordinate by coordinate *)
Section Energy.
Variables (l1 : bool) (dim K N : nat) (X : nat -> nat -> Qc) (a : nat -> nat).
Hypothesis Ha : forall x, x < N -> a x < K.
Lemma energy_clusters C : energy l1 dim N X C a = ksum dim (fun d => ksum K (fun k => ksum N (fun x => if a x =? k then gap l1 (X x d) (C k d) else 0%Qc))).
Proof.
  unfold energy, dist. rewrite (sum_swap _ _ _ _ _ _ Qcrt). apply qsum_ext. intros d _.
  rewrite (sum_swap _ _ _ _ _ _ Qcrt). apply qsum_ext. intros x Lx. symmetry.
  rewrite (qsum_ext K _ (fun k => if k =? a x then gap l1 (X x d) (C (a x) d) else 0%Qc)).
  - exact (Gauss_Proofs.qsum_single 0 0 (le_n 0) (a x) (gap l1 (X x d) (C (a x) d)) K (Ha x Lx)).
  - intros k _. rewrite Nat.eqb_sym. destruct (Nat.eqb_spec k (a x)) as [->|]; reflexivity.
Qed.
Definition centre (k : nat) (f : nat -> Qc) (v : Qc) : Prop := if l1 then is_median N a k f v else is_mean N a k f v.
Lemma energy_step C C' :
  (forall k d, k < K -> d < dim -> mass N a k <> 0 -> centre k (fun x => X x d) (C' k d) \/ C' k d = C k d) ->
  (energy l1 dim N X C' a <= energy l1 dim N X C a)%Qc.
Proof.
  intro H. rewrite !energy_clusters. apply sum_le. intros d Ld. apply sum_le. intros k Lk.
  destruct (Nat.eq_dec (mass N a k) 0) as [E|E].
  - apply sum_le. intros x Lx. destruct (a x =? k) eqn:Ek; [|apply Qcle_refl]. exfalso. pose proof (count_pos N (fun x => a x =? k) x Lx Ek). unfold mass in E. lia.
  - destruct (H k d Lk Ld E) as [M| ->]; [|apply Qcle_refl]. unfold centre in M. destruct l1; [now apply median_min|now apply mean_min].
Qed.
End Energy.

(** the refinement loop *)
Section Refine.
Variables (dim K : nat) (data : list Qc) (N : nat) (choose : nat -> nat).
Hypothesis Hd : dim * N <= length data.
Hypothesis HK : K <= N.
Hypothesis HN : 0 < N.
Hypothesis Hch : forall t, choose t < N.
Notation X := (view dim data).
Notation asgf asg := (fun x => nth x asg 0).

(** what an update of the centers does *)
Definition updated (mt : metric) (asg : list nat) (C C' : nat -> nat -> Qc) : Prop :=
  forall k, k < K ->
    if mass N (asgf asg) k =? 0 then a_datum dim data N C' k
    else forall d, d < dim -> centre (is_l1 mt) N (asgf asg) k (fun x => X x d) (C' k d) \/
      (mt = L1 /\ d <> 0 /\ C' k d = C k d /\ exists k', k' < K /\ mass N (asgf asg) k' = 0).

Definition perms_ok (mt : metric) (perms : list (list nat)) : Prop :=
  mt = L1 -> length perms = dim /\ forall d, d < dim -> sorting dim data N d (nth d perms []).
Lemma permutations_ok mt : exists perms, permutations dim data N mt = Some perms /\ perms_ok mt perms.
Proof.
  destruct mt; cbn [permutations].
  - destruct (sort_data_ok dim K data N Hd HK (repeat 0 N) (repeat_length 0 N) HN) as (p & E & L & V). exists p. split; [exact E|]. intros _. auto.
  - exists []. split; [reflexivity|]. discriminate.
Qed.

Lemma update_ok mt lloyd perms asg centers t : perms_ok mt perms -> length asg = N -> (forall x, x < N -> nth x asg 0 < K) -> length centers = dim * K ->
  exists centers' t', update dim K data N choose mt lloyd perms asg centers t = Some (centers', t') /\ length centers' = dim * K /\
    updated mt asg (view dim centers) (view dim centers') /\
    (lloyd = false -> forall k, k < K -> mass N (asgf asg) k <> 0 -> forall d, d < dim -> centre (is_l1 mt) N (asgf asg) k (fun x => X x d) (view dim centers' k d)).
Proof.
  intros Hp La Ha Ll. unfold update. destruct (masses_ok dim K data N Hd HK asg La Ha) as (m & Em & Lm & Vm). rewrite Em. cbn [obind].
  unfold updated, centre. destruct mt; cbn [is_l1].
  - destruct (Hp eq_refl) as [Lp Sp]. destruct lloyd.
    + destruct (update_l1_lloyd_ok dim K data N choose Hd HK asg La Ha Hch m perms centers t Lm Vm Lp Sp Ll) as (c' & t' & E & L & V).
      exists c', t'. split; [exact E|]. split; [exact L|]. split; [|discriminate]. intros k Lk. specialize (V k Lk).
      destruct (mass N (asgf asg) k =? 0); [exact V|]. intros d Ld. specialize (V d Ld). unfold no_empty in V.
      destruct (existsb _ _) eqn:Ex; cbn [negb orb] in V; [|now left]. destruct (Nat.eqb_spec d 0) as [->|Nd]; [now left|]. right.
      repeat split; auto. apply existsb_exists in Ex as (k' & Ik & E0). apply in_seq in Ik. apply Nat.eqb_eq in E0. exists k'. split; [lia|exact E0].
    + destruct (update_l1_elkan_ok dim K data N choose Hd HK asg La Ha Hch m perms centers t Lm Vm Lp Sp Ll) as (c' & t' & E & L & V).
      exists c', t'. split; [exact E|]. split; [exact L|]. split.
      * intros k Lk. specialize (V k Lk). destruct (mass N (asgf asg) k =? 0); [exact V|]. intros d Ld. left. auto.
      * intros _ k Lk Mk d Ld. specialize (V k Lk). destruct (Nat.eqb_spec (mass N (asgf asg) k) 0); [lia|]. auto.
  - destruct (update_l2_ok dim K data N choose Hd HK asg La Ha Hch m centers t Lm Vm Ll) as (c' & t' & E & L & V).
    exists c', t'. split; [exact E|]. split; [exact L|]. split.
    + intros k Lk. specialize (V k Lk). destruct (mass N (asgf asg) k =? 0); [exact V|]. intros d Ld. left. auto.
    + intros _ k Lk Mk d Ld. specialize (V k Lk). destruct (Nat.eqb_spec (mass N (asgf asg) k) 0); [lia|]. auto.
Qed.

Lemma updated_energy mt asg C C' : (forall x, x < N -> nth x asg 0 < K) -> updated mt asg C C' ->
  (energy (is_l1 mt) dim N X C' (asgf asg) <= energy (is_l1 mt) dim N X C (asgf asg))%Qc.
Proof.
  intros Ha U. apply energy_step with (K := K); [exact Ha|]. intros k d Lk Ld Mk. specialize (U k Lk).
  destruct (Nat.eqb_spec (mass N (asgf asg) k) 0); [lia|]. destruct (U d Ld) as [M|(_ & _ & E & _)]; auto.
Qed.

Lemma total_ok dst : length dst = N -> total N dst = Some (ksum N (fun x => nth x dst 0%Qc)).
Proof.
  intro L. unfold total. destruct (iter_inv (fun j e => e = ksum j (fun x => nth x dst 0%Qc)) (fun x e => do d <- aget dst x; Some (e + d)%Qc) N 0%Qc) as (e & E & V).
  - reflexivity.
  - intros j e Lj ->. rewrite (aget_nth dst j 0%Qc) by lia. cbn [obind]. eexists; split; [reflexivity|]. now rewrite Nat.add_1_r.
  - rewrite E. now rewrite V.
Qed.

Section Loop.
Variable quant : nat -> list Qc -> list nat -> list Qc -> option (list nat * list Qc).
Variable mt : metric.
Variable good : nat -> list Qc -> list nat -> Prop.
Notation Dist centers := (dist (is_l1 mt) dim X (view dim centers)).
Hypothesis Hquant : forall it centers asg dst, length centers = dim * K -> length asg = N -> length dst = N ->
  (0 < it -> forall x, x < N -> nth x asg 0 < K) ->
  exists asg' dst', quant it centers asg dst = Some (asg', dst') /\ length asg' = N /\ length dst' = N /\ good it centers asg' /\
    forall x, x < N -> nth x asg' 0 < K /\ nth x dst' 0%Qc = Dist centers x (nth x asg' 0) /\
      (0 < it -> (Dist centers x (nth x asg' 0%nat) <= Dist centers x (nth x asg 0%nat))%Qc).
Variables (perms : list (list nat)) (minvar : Qc).
Hypothesis Hp : perms_ok mt perms.
Notation En centers asg := (energy (is_l1 mt) dim N X (view dim centers) (asgf asg)).

Lemma refine_ok todo : forall it centers t asg dst previous initial,
  length centers = dim * K -> length asg = N -> length dst = N ->
  (0 < it -> (forall x, x < N -> nth x asg 0 < K) /\ exists p i, previous = Some p /\ initial = Some i /\ (En centers asg <= p)%Qc /\ (p <= i)%Qc) ->
  (it = 0 -> previous = None) ->
  exists es centers' asg', refine dim K data N choose quant mt perms minvar todo it centers t asg dst previous initial = Some (es, centers', asg') /\
    length centers' = dim * K /\ length asg' = N /\ (forall x, x < N -> nth x asg' 0 < K) /\
    (exists e es', es = e :: es' /\ forall p, previous = Some p -> (e <= p)%Qc) /\
    descending es /\ last es 0%Qc = En centers' asg' /\ length es <= todo + 1 /\ good (it + length es - 1) centers' asg' /\
    (1 < length es -> exists it' cB aB, good it' cB aB /\ (forall x, x < N -> nth x aB 0 < K) /\ updated mt aB (view dim cB) (view dim centers')).
Proof.
  induction todo as [|todo IH]; intros it centers t asg dst previous initial Lc La Ld Hpos H0.
  all: destruct (Hquant it centers asg dst Lc La Ld (fun P => proj1 (Hpos P))) as (a1 & d1 & Eq & La1 & Ld1 & G1 & V1).
  all: assert (Ha1 : forall x, x < N -> nth x a1 0 < K) by (intros x Lx; apply (V1 x Lx)).
  all: assert (Et : total N d1 = Some (En centers a1)) by (rewrite total_ok by exact Ld1; f_equal; apply qsum_ext; intros x Lx; apply (V1 x Lx)).
  all: assert (Le : forall p, previous = Some p -> (En centers a1 <= p)%Qc) by
    (intros p Ep; destruct (Nat.eq_dec it 0) as [Z|Z]; [rewrite (H0 Z) in Ep; discriminate|];
     destruct (Hpos ltac:(lia)) as (_ & p' & i & Ep' & _ & Lp & _); rewrite Ep in Ep'; injection Ep' as <-;
     apply Qcle_trans with (En centers asg); [|exact Lp]; apply sum_le; intros x Lx; apply (V1 x Lx); lia).
  all: cbn [refine]; rewrite Eq; cbn [obind]; rewrite Et; cbn [obind].
  all: assert (Fin : exists es centers' asg', Some ((En centers a1 :: nil), centers, a1) = Some (es, centers', asg') /\
    length centers' = dim * K /\ length asg' = N /\ (forall x, x < N -> nth x asg' 0 < K) /\
    (exists e es', es = e :: es' /\ forall p, previous = Some p -> (e <= p)%Qc) /\
    descending es /\ last es 0%Qc = En centers' asg' /\ length es <= 1 /\ good (it + length es - 1) centers' asg' /\
    (1 < length es -> exists it' cB aB, good it' cB aB /\ (forall x, x < N -> nth x aB 0 < K) /\ updated mt aB (view dim cB) (view dim centers'))) by
    (exists (En centers a1 :: nil), centers, a1; split; [reflexivity|]; split; [exact Lc|]; split; [exact La1|]; split; [exact Ha1|];
     split; [exists (En centers a1), []; split; [reflexivity|exact Le]|]; split; [exact I|]; split; [reflexivity|]; split; [cbn; lia|];
     split; [cbn [length]; replace (it + 1 - 1) with it by lia; exact G1|cbn; lia]).
  - destruct Fin as (es & c' & a' & F1 & F2 & F3 & F4 & F5 & F6 & F7 & F8 & F8' & F9); exists es, c', a'; repeat (split; [first [assumption | lia]|]); apply F9.
  - assert (Fin' : exists es centers' asg', Some ((En centers a1 :: nil), centers, a1) = Some (es, centers', asg') /\
    length centers' = dim * K /\ length asg' = N /\ (forall x, x < N -> nth x asg' 0 < K) /\
    (exists e es', es = e :: es' /\ forall p, previous = Some p -> (e <= p)%Qc) /\
    descending es /\ last es 0%Qc = En centers' asg' /\ length es <= S todo + 1 /\ good (it + length es - 1) centers' asg' /\
    (1 < length es -> exists it' cB aB, good it' cB aB /\ (forall x, x < N -> nth x aB 0 < K) /\ updated mt aB (view dim cB) (view dim centers'))).
    { destruct Fin as (es & c' & a' & F1 & F2 & F3 & F4 & F5 & F6 & F7 & F8 & F8' & F9). exists es, c', a'. repeat (split; [first [assumption | lia]|]); apply F9. }
    clear Fin. set (e1 := En centers a1) in *.
    destruct (match previous with Some p => if Qc_eq_dec e1 p then true else false | None => false end) eqn:Eeq; [exact Fin'|].
    assert (Hstop : exists stop, match it, previous, initial with
               | S _, Some p, Some i => if Qc_eq_dec (i - e1) 0 then None else Some (qlt ((p - e1) / (i - e1))%Qc minvar)
               | S _, _, _ => None
               | O, _, _ => Some false
               end = Some stop).
    { destruct it as [|it]; [eauto|]. destruct (Hpos ltac:(lia)) as (_ & p & i & Ep & Ei & _ & Lpi). rewrite Ep, Ei in *.
      destruct (Qc_eq_dec e1 p) as [|Ne]; [discriminate|]. destruct (Qc_eq_dec (i - e1) 0) as [Z|Z]; [|eauto]. exfalso. apply Ne.
      pose proof (Le p eq_refl) as Lp. apply Qcle_antisym; [exact Lp|]. replace e1 with i; [exact Lpi|]. rewrite <- (Qcplus_0_l e1), <- Z. ring. }
    destruct Hstop as [stop Es]. 
    match goal with |- context [obind ?m _] => replace m with (Some stop) end. cbn [obind]. destruct stop; [exact Fin'|].
    destruct (update_ok mt true perms a1 centers t Hp La1 Ha1 Lc) as (c2 & t2 & E2 & L2_ & U2 & _). rewrite E2. cbn [obind].
    pose proof (updated_energy mt a1 _ _ Ha1 U2) as Le2.
    destruct (IH (it + 1) c2 t2 a1 d1 (Some e1) (match it with O => Some e1 | _ => initial end) L2_ La1 Ld1) as (es & c3 & a3 & E3 & L3 & La3 & Ha3 & (e & es' & Ee & Lpe) & De & Last & Len & G3 & U3).
    + intros _. split; [exact Ha1|]. destruct it as [|it].
      * exists e1, e1. repeat split; [exact Le2|apply Qcle_refl].
      * destruct (Hpos ltac:(lia)) as (_ & p & i & Ep & Ei & _ & Lpi). exists e1, i. split; [reflexivity|]. split; [exact Ei|]. split; [exact Le2|].
        apply Qcle_trans with p; [apply Le; exact Ep|exact Lpi].
    + lia.
    + rewrite E3. cbn [obind]. exists (e1 :: es), c3, a3. split; [reflexivity|]. split; [exact L3|]. split; [exact La3|]. split; [exact Ha3|].
      split; [exists e1, es; split; [reflexivity|exact Le]|]. split.
      * rewrite Ee in *. split; [now apply Lpe|exact De].
      * split; [rewrite Ee in *; exact Last|]. split; [cbn [length]; lia|]. split.
        -- cbn [length]. replace (it + S (length es) - 1) with (it + 1 + length es - 1) by lia. exact G3.
        -- intros _. destruct (Nat.eq_dec (length es) 1) as [L1_|L1_].
           ++ assert (c3 = c2).
              { (* the recursive call stopped at once *)
                clear - E3 L1_. destruct todo as [|todo]; cbn [refine] in E3;
                (destruct (quant (it + 1) c2 a1 d1) as [[qa qd]|]; [|discriminate]); cbn [obind] in E3;
                (destruct (total N qd) as [ee|]; [|discriminate]); cbn [obind] in E3.
                - congruence.
                - destruct (Qc_eq_dec ee e1); [congruence|].
                  match type of E3 with obind ?m _ = _ => destruct m as [[|]|] end; cbn [obind] in E3; [congruence| |discriminate].
                  destruct (update _ _ _ _ _ _ _ _ _ _) as [[uc ut]|]; [|discriminate]. cbn [obind] in E3.
                  match type of E3 with obind ?m _ = _ => destruct m as [[[res rc] ra]|] eqn:Er end; [|discriminate]. cbn [obind] in E3. injection E3 as <- _ _.
                  cbn [length] in L1_. destruct res; [|cbn in L1_; lia]. exfalso. clear - Er. destruct todo; cbn [refine] in Er;
                  repeat match type of Er with
                  | obind ?m _ = _ => destruct m as [?|]; [|discriminate]; cbn [obind] in Er
                  | (let '(_, _) := ?p in _) = _ => destruct p
                  | (if ?b then _ else _) = _ => destruct b
                  | match ?b with _ => _ end = _ => destruct b
                  end; discriminate. }
              subst c3. exists it, centers, a1. auto.
           ++ apply U3. rewrite Ee in *. cbn [length] in *. lia.
Qed.
End Loop.
End Refine.
