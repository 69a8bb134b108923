(** Lemmas on the accumulators, the loops over pairs and the merge of sparse columns. *)
From Coq Require Import List Arith Bool ZArith QArith Qcanon Qcabs Lia.
Import ListNotations.
From Verif Require Import Base Rat Loop Gauss_Model Gauss_Proofs Bins_Proofs AllDist_Model AllDist_Spec.
Local Open Scope nat_scope.

Lemma abs_diff_abs x y : abs_diff x y = Qcabs (x - y).
Proof.
  unfold abs_diff. destruct (qlt x y) eqn:E; cbn [negb].
  - apply qlt_true in E. rewrite Qcabs_neg by qc_lra. ring.
  - apply qlt_false in E. rewrite Qcabs_pos by qc_lra. reflexivity.
Qed.
Lemma q_eq_dec x y : q_eq x y = if Qc_eq_dec x y then true else false.
Proof.
  unfold q_eq. destruct (Qc_eq_dec x y) as [->|N].
  - assert (E : qlt y y = false) by (apply qlt_false, Qcle_refl). now rewrite E.
  - destruct (qlt x y) eqn:E; [reflexivity|]. destruct (qlt y x) eqn:F; [reflexivity|]. apply qlt_false in E, F. exfalso. apply N. now apply Qcle_antisym.
Qed.
Lemma c_min_least x y : c_min x y = least x y.
Proof.
  unfold c_min, least. destruct (qlt y x) eqn:E; cbn [negb].
  - apply qlt_true in E. destruct (Qclt_le_dec x y); [qc_lra|reflexivity].
  - apply qlt_false in E. destruct (Qclt_le_dec x y); [reflexivity|]. apply Qcle_antisym; assumption.
Qed.
Lemma abs_sq x : (Qcabs x * Qcabs x = x * x)%Qc.
Proof. destruct (Qclt_le_dec x 0) as [H|H]; [rewrite Qcabs_neg by qc_lra; ring|rewrite Qcabs_pos by exact H; reflexivity]. Qed.
Lemma abs_sym x y : Qcabs (x - y) = Qcabs (y - x).
Proof. replace (y - x)%Qc with (- (x - y))%Qc by ring. now rewrite Qcabs_opp. Qed.

Section Norm.
Variable rt : Qc -> Qc.

(** what a pair of components adds *)
Definition term (n : norm) (x y : Qc) : Qc :=
  match n with
  | LINF => 0%Qc
  | L2 => ((x - y) * (x - y))%Qc
  | L1 => Qcabs (x - y)
  | L0 => if Qc_eq_dec x y then 0%Qc else 1%Qc
  | CHI2 => if Qc_eq_dec (x + y) 0 then 0%Qc else ((x - y) * (x - y) / (x + y))%Qc
  | HELL => (x + y - zq 2 * rt (x * y))%Qc
  | KL2 => (x * y)%Qc
  | KL1 | MIN => least x y
  | KCHI2 => if Qc_eq_dec (x + y) 0 then 0%Qc else (zq 2 * (x * y / (x + y)))%Qc
  | KHELL => rt (x * y)
  end.
Lemma two_nz : zq 2 <> 0%Qc.
Proof. discriminate. Qed.
(** the new value of the accumulator *)
Definition acc1 (n : norm) (acc x y : Qc) : Qc := match n with LINF => c_max acc (abs_diff x y) | _ => (acc + term n x y)%Qc end.
Lemma divide_some x y : y <> 0%Qc -> divide x y = Some (x / y)%Qc.
Proof. intros N. unfold divide. rewrite q_eq_dec. destruct (Qc_eq_dec y 0); [contradiction|reflexivity]. Qed.
Lemma accumulate_some n acc x y : accumulate rt n acc x y = Some (acc1 n acc x y).
Proof.
  destruct n; unfold accumulate, acc1, term; cbv zeta; rewrite ?q_eq_dec, ?abs_diff_abs, ?c_min_least, ?abs_sq; try reflexivity.
  - destruct (Qc_eq_dec x y); reflexivity.
  - destruct (Qc_eq_dec (x + y) 0) as [E|E]; cbn [negb]; [f_equal; ring|]. rewrite divide_some by exact E. reflexivity.
  - destruct (Qc_eq_dec (x + y) 0) as [E|E].
    + rewrite E. replace (0 / zq 2)%Qc with 0%Qc by (unfold Qcdiv; ring). destruct (Qc_eq_dec 0 0); [cbn [negb]; f_equal; ring|contradiction].
    + destruct (Qc_eq_dec ((x + y) / zq 2) 0) as [F|F]; cbn [negb].
      * exfalso. apply E. transitivity ((x + y) / zq 2 * zq 2)%Qc; [field; exact two_nz|rewrite F; ring].
      * rewrite divide_some by exact F. cbn [obind]. f_equal. f_equal. field. split; [exact E|exact two_nz].
Qed.
Lemma accumulate_term n acc x y : n <> LINF -> acc1 n acc x y = (acc + term n x y)%Qc.
Proof. intros N. destruct n; [contradiction|..]; reflexivity. Qed.
(** the accumulator after L components *)
Fixpoint fold (n : norm) (L : nat) (x y : nat -> Qc) : Qc := match L with O => 0%Qc | S L => acc1 n (fold n L x y) (x L) (y L) end.
Lemma fold_sum n L x y : n <> LINF -> fold n L x y = sum L (fun l => term n (x l) (y l)).
Proof. intros N. induction L as [|L IH]; [reflexivity|]. cbn [fold sum]. now rewrite accumulate_term, IH. Qed.
Lemma sum_ext L f g : (forall l, l < L -> f l = g l) -> sum L f = sum L g.
Proof. induction L as [|L IH]; intros H; [reflexivity|]. cbn [sum]. rewrite IH by (intros; apply H; lia). now rewrite H by lia. Qed.
Lemma sum_scale L c f : sum L (fun l => c * f l)%Qc = (c * sum L f)%Qc.
Proof. induction L as [|L IH]; cbn [sum]; [ring|]. rewrite IH. ring. Qed.
Lemma c_max_cases a b : (c_max a b = a /\ (b <= a)%Qc) \/ (c_max a b = b /\ (a <= b)%Qc).
Proof. unfold c_max. destruct (qlt a b) eqn:E; cbn [negb]; [right; apply qlt_true in E; split; [reflexivity|qc_lra]|left; apply qlt_false in E; auto]. Qed.
Lemma fold_dist n L x y : dist_of rt n L x y (fold n L x y).
Proof.
  destruct n; try (cbn [dist_of]; rewrite fold_sum by discriminate; reflexivity).
  - cbn [dist_of]. induction L as [|L [A B]]; [split; [intros; lia|left; auto]|]. cbn [fold acc1]. rewrite abs_diff_abs. destruct (c_max_cases (fold LINF L x y) (Qcabs (x L - y L))) as [[-> H]|[-> H]].
    + split; [intros l Hl; destruct (Nat.eq_dec l L) as [->|]; [exact H|apply A; lia]|]. right. destruct B as [[-> B]|(l & Hl & B)]; [exists 0; split; [lia|]|exists l; split; [lia|exact B]]. apply Qcle_antisym; [|exact H]. rewrite B. apply Qcabs_nonneg.
    + split; [intros l Hl; destruct (Nat.eq_dec l L) as [->|]; [apply Qcle_refl|eapply Qcle_trans; [apply A; lia|exact H]]|]. right. exists L. split; [lia|reflexivity].
  - cbn [dist_of]. rewrite fold_sum by discriminate. rewrite <- sum_scale. apply sum_ext. intros l _. cbn [term]. destruct (Qc_eq_dec (x l + y l) 0); ring.
Qed.
Lemma term_sym n x y : term n x y = term n y x.
Proof.
  destruct n; cbn [term]; rewrite ?(Qcmult_comm y x), ?(Qcplus_comm y x), ?(abs_sym y x); try reflexivity.
  - ring.
  - destruct (Qc_eq_dec x y), (Qc_eq_dec y x); congruence.
  - destruct (Qc_eq_dec (x + y) 0); [reflexivity|]. f_equal. ring.
  - unfold least. destruct (Qclt_le_dec x y), (Qclt_le_dec y x); try reflexivity; [qc_lra|apply Qcle_antisym; assumption].
  - unfold least. destruct (Qclt_le_dec x y), (Qclt_le_dec y x); try reflexivity; [qc_lra|apply Qcle_antisym; assumption].
Qed.
Lemma fold_sym n L x y : fold n L x y = fold n L y x.
Proof.
  assert (D : n = LINF \/ n <> LINF) by (destruct n; (now left) || (right; discriminate)). destruct D as [->|N].
  - induction L as [|L IH]; [reflexivity|]. cbn [fold acc1]. now rewrite IH, !abs_diff_abs, abs_sym.
  - rewrite !fold_sum by exact N. apply sum_ext. intros. apply term_sym.
Qed.
Lemma fold_ext n L x y x' y' : (forall l, l < L -> x l = x' l) -> (forall l, l < L -> y l = y' l) -> fold n L x y = fold n L x' y'.
Proof. induction L as [|L IH]; intros A B; [reflexivity|]. cbn [fold]. rewrite IH by (intros; (apply A + apply B); lia). now rewrite A, B by lia. Qed.

Lemma column_dist_ok n s1 s2 L N1 N2 j1 j2 : L * N1 <= length s1 -> L * N2 <= length s2 -> j1 < N1 -> j2 < N2 -> column_dist rt n s1 s2 L j1 j2 = Some (fold n L (full_at s1 L j1) (full_at s2 L j2)).
Proof.
  intros A B J K. unfold column_dist. destruct (iter_inv (fun l acc => acc = fold n l (full_at s1 L j1) (full_at s2 L j2)) (fun l acc => do x <- aget s1 (L * j1 + l); do y <- aget s2 (L * j2 + l); accumulate rt n acc x y) L 0%Qc eq_refl) as (s & E & ->); [|exact E].
  intros l acc Hl ->. unfold aget. rewrite (nth_error_nth' s1 0%Qc) by nia. cbn [obind]. rewrite (nth_error_nth' s2 0%Qc) by nia. cbn [obind]. rewrite accumulate_some. eexists. split; [reflexivity|]. now rewrite Nat.add_1_r.
Qed.

(** the loops over the pairs *)
Lemma pair_inj N a b c d : a < N -> c < N -> b * N + a = d * N + c -> a = c /\ b = d.
Proof. intros A C E. assert (b = d) by nia. subst d. split; lia. Qed.
Lemma core_ok d v N1 N2 self : (forall j1 j2, j1 < N1 -> j2 < N2 -> d j1 j2 = Some (v j1 j2)) -> (self = true -> N2 = N1 /\ forall j1 j2, v j1 j2 = v j2 j1) ->
  exists out, core d N1 N2 self = Some out /\ length out = N1 * N2 /\ forall j1 j2, j1 < N1 -> j2 < N2 -> nth_error out (j2 * N1 + j1) = Some (v j1 j2).
Proof.
  intros HD HS. set (inv := fun (j2 j1 : nat) (out : list Qc) => length out = N1 * N2 /\ forall a b, a < N1 -> b < j2 \/ (b = j2 /\ a < j1) -> nth_error out (b * N1 + a) = Some (v a b)).
  unfold core. match goal with |- exists out, iter N2 ?body ?init = Some out /\ _ => destruct (iter_inv (fun j2 out => inv j2 0 out) body N2 init) as (out & E & L & H) end.
  - split; [apply repeat_length|]. intros a b _ [B|[_ B]]; lia.
  - intros j2 out J2 I0. match goal with |- exists s', iter N1 ?body out = Some s' /\ _ => destruct (iter_inv (fun j1 out => inv j2 j1 out) body N1 out I0) as (out' & E & L & H) end.
    + intros j1 o J1 [L H].
      assert (W : exists w, (if negb self || (j2 <=? j1) then d j1 j2 else zget o (mirror N1 j1 j2)) = Some w /\ w = v j1 j2).
      { destruct (negb self || (j2 <=? j1)) eqn:C; [rewrite HD by assumption; eauto|]. apply orb_false_iff in C. destruct C as [C1 C2]. apply negb_false_iff in C1. apply Nat.leb_gt in C2. destruct (HS C1) as [-> SY].
        replace (mirror N1 j1 j2) with (Z.of_nat (j1 * N1 + j2)) by (unfold mirror; nia). unfold zget. destruct (Z.ltb_spec (Z.of_nat (j1 * N1 + j2)) 0); [lia|]. rewrite Nat2Z.id. unfold aget. rewrite (H j2 j1) by lia. eauto. }
      destruct W as (w & -> & ->). cbn [obind]. unfold aset. assert (B : j2 * N1 + j1 < length o) by nia. apply Nat.ltb_lt in B. rewrite B. apply Nat.ltb_lt in B. eexists. split; [reflexivity|]. split; [now rewrite upd_length|].
      intros a b A [Bb|[-> Bb]].
      * rewrite nth_error_upd_neq; [apply H; auto|]. intros Q. destruct (pair_inj _ _ _ _ _ A J1 (eq_sym Q)). lia.
      * destruct (Nat.eq_dec a j1) as [->|Na]; [apply nth_error_upd_eq; exact B|]. rewrite nth_error_upd_neq by lia. apply H; [exact A|right; lia].
    + exists out'. split; [exact E|]. split; [exact L|]. intros a b A [B|[_ B]]; [|lia]. apply H; [exact A|lia].
  - exists out. split; [exact E|]. split; [exact L|]. intros j1 j2 J1 J2. apply H; auto.
Qed.

(** sparse columns *)
Fixpoint fold_from (n : norm) (k l : nat) (x y : nat -> Qc) (acc : Qc) : Qc := match k with O => acc | S k => fold_from n k (S l) x y (acc1 n acc (x l) (y l)) end.
Lemma fold_from_fold n x y k : forall l, fold_from n k l x y (fold n l x y) = fold n (l + k) x y.
Proof. induction k as [|k IH]; intros l; cbn [fold_from]; [now rewrite Nat.add_0_r|]. change (acc1 n (fold n l x y) (x l) (y l)) with (fold n (S l) x y). rewrite IH. f_equal. lia. Qed.
Hypothesis rt0 : rt 0 = 0%Qc.
Definition good (n : norm) (acc : Qc) : Prop := n = LINF -> (0 <= acc)%Qc.
Lemma term_zero n : term n 0 0 = 0%Qc.
Proof.
  assert (Z1 : (0 * 0)%Qc = 0%Qc) by ring. assert (Z2 : (0 + 0)%Qc = 0%Qc) by ring. assert (Z3 : (0 - 0)%Qc = 0%Qc) by ring.
  destruct n; cbn [term]; rewrite ?Z3, ?Z1, ?Z2, ?rt0; try reflexivity; try ring; try (destruct (Qc_eq_dec 0 0); [reflexivity|contradiction]); try (unfold least; destruct (Qclt_le_dec 0 0); reflexivity). apply Qcabs_pos, Qcle_refl.
Qed.
Lemma accumulate_zero n acc : good n acc -> acc1 n acc 0 0 = acc.
Proof.
  intros G. assert (D : n = LINF \/ n <> LINF) by (destruct n; (now left) || (right; discriminate)). destruct D as [->|N].
  - cbn [acc1]. specialize (G eq_refl). rewrite abs_diff_abs. replace (0 - 0)%Qc with 0%Qc by ring. rewrite Qcabs_pos by apply Qcle_refl. destruct (c_max_cases acc 0) as [[-> _]|[-> H]]; [reflexivity|]. apply Qcle_antisym; assumption.
  - rewrite accumulate_term, term_zero by exact N. ring.
Qed.
Lemma good_step n acc x y : good n acc -> good n (acc1 n acc x y).
Proof. intros G ->. specialize (G eq_refl). cbn [acc1]. destruct (c_max_cases acc (abs_diff x y)) as [[-> _]|[-> H]]; [exact G|]. eapply Qcle_trans; eassumption. Qed.
Lemma fold_from_skip n x y m : forall l acc k, good n acc -> (forall i, l <= i < l + m -> x i = 0%Qc /\ y i = 0%Qc) -> fold_from n (m + k) l x y acc = fold_from n k (l + m) x y acc.
Proof.
  induction m as [|m IH]; intros l acc k G H; [now rewrite Nat.add_0_r|]. cbn [Nat.add fold_from]. destruct (H l ltac:(lia)) as [-> ->]. rewrite accumulate_zero by exact G. rewrite IH; [f_equal; lia|exact G|]. intros i I. apply H. lia.
Qed.

(** the entries from the offset p, nz of them, are those of the function f from the row l *)
Definition rep (s : sparse) (p nz l L : nat) (f : nat -> Qc) : Prop :=
  length (ir s) = length (pr s) /\ p + nz <= length (pr s) /\
  (forall q r, p <= q < p + nz -> nth_error (ir s) q = Some r -> l <= r < L) /\
  (forall q q' r r', p <= q < q' -> q' < p + nz -> nth_error (ir s) q = Some r -> nth_error (ir s) q' = Some r' -> r < r') /\
  (forall i, l <= i < L -> (exists q, p <= q < p + nz /\ nth_error (ir s) q = Some i /\ nth_error (pr s) q = Some (f i)) \/ ((forall q, p <= q < p + nz -> nth_error (ir s) q <> Some i) /\ f i = 0%Qc)).
Lemma rep_nil s p l L f : rep s p 0 l L f -> forall i, l <= i < L -> f i = 0%Qc.
Proof. intros (_ & _ & _ & _ & H) i I. destruct (H i I) as [(q & Q & _)|[_ E]]; [lia|exact E]. Qed.
Lemma rep_head s p nz l L f : rep s p (S nz) l L f -> exists r, nth_error (ir s) p = Some r /\ nth_error (pr s) p = Some (f r) /\ l <= r < L /\ (forall i, l <= i < r -> f i = 0%Qc).
Proof.
  intros (E & B & R & S & H). destruct (nth_some (ir s) p ltac:(lia)) as [r P]. pose proof (R p r ltac:(lia) P) as Rr. exists r. split; [exact P|]. split; [|split; [exact Rr|]].
  - destruct (H r Rr) as [(q & Q & Q1 & Q2)|[H1 _]]; [|exfalso; apply (H1 p); [lia|exact P]]. destruct (Nat.eq_dec q p) as [->|N]; [exact Q2|]. pose proof (S p q r r ltac:(lia) ltac:(lia) P Q1). lia.
  - intros i I. destruct (H i ltac:(lia)) as [(q & Q & Q1 & Q2)|[_ Z]]; [|exact Z]. destruct (Nat.eq_dec q p) as [->|N]; [rewrite P in Q1; injection Q1 as ->; lia|]. pose proof (S p q r i ltac:(lia) ltac:(lia) P Q1). lia.
Qed.
Lemma rep_tail s p nz l L f r : rep s p (S nz) l L f -> nth_error (ir s) p = Some r -> rep s (S p) nz (S r) L f.
Proof.
  intros (E & B & R & S & H) P. split; [exact E|]. split; [lia|]. split; [|split].
  - intros q t Q T. pose proof (R q t ltac:(lia) T). pose proof (S p q r t ltac:(lia) ltac:(lia) P T). lia.
  - intros q q' t t' Q Q'. apply S; lia.
  - intros i I. pose proof (R p r ltac:(lia) P). destruct (H i ltac:(lia)) as [(q & Q & Q1 & Q2)|[H1 Z]].
    + left. exists q. split; [|auto]. destruct (Nat.eq_dec q p) as [->|N]; [rewrite P in Q1; injection Q1 as ->; lia|lia].
    + right. split; [|exact Z]. intros q Q. apply H1. lia.
Qed.
Lemma rep_later s p nz l l' L f : rep s p nz l L f -> l <= l' -> (forall q r, p <= q < p + nz -> nth_error (ir s) q = Some r -> l' <= r) -> rep s p nz l' L f.
Proof.
  intros (E & B & R & S & H) LL G. split; [exact E|]. split; [exact B|]. split; [|split; [exact S|]].
  - intros q r Q T. pose proof (R q r Q T). pose proof (G q r Q T). lia.
  - intros i I. apply H. lia.
Qed.
Lemma rep_later_nil s p l l' L f : rep s p 0 l L f -> l <= l' -> rep s p 0 l' L f.
Proof. intros H LL. apply (rep_later _ _ _ l); auto. intros; lia. Qed.
Lemma rep_rows s p nz l L f r : rep s p (S nz) l L f -> nth_error (ir s) p = Some r -> forall q t, p <= q < p + S nz -> nth_error (ir s) q = Some t -> r <= t.
Proof. intros (E & B & R & S & H) P q t Q T. destruct (Nat.eq_dec q p) as [->|N]; [rewrite P in T; injection T as ->; lia|]. pose proof (S p q r t ltac:(lia) ltac:(lia) P T). lia. Qed.

Lemma merge_ok n a b L f g : forall fuel p1 p2 nz1 nz2 l acc, nz1 + nz2 < fuel -> l <= L -> good n acc -> rep a p1 nz1 l L f -> rep b p2 nz2 l L g ->
  merge rt n a b fuel p1 p2 nz1 nz2 acc = Some (fold_from n (L - l) l f g acc).
Proof.
  induction fuel as [|fuel IH]; intros p1 p2 nz1 nz2 l acc F LL G RA RB; [lia|]. cbn [merge]. destruct nz1 as [|nz1], nz2 as [|nz2]; cbn [Nat.eqb andb].
  - f_equal. replace (L - l) with ((L - l) + 0) by lia. rewrite fold_from_skip; [reflexivity|exact G|]. intros i I. split; eapply rep_nil; try eassumption; lia.
  - destruct (rep_head _ _ _ _ _ _ RB) as (r & P & V & Rr & Z). unfold aget. rewrite V. cbn [obind]. rewrite accumulate_some. cbn [obind Nat.sub]. rewrite Nat.sub_0_r.
    pose proof (rep_nil _ _ _ _ _ RA) as ZA. rewrite (IH _ _ _ _ (S r)); [|lia|lia|now apply good_step|apply (rep_later_nil _ _ l); [exact RA|lia]|eapply rep_tail; eassumption].
    f_equal. replace (L - l) with ((r - l) + S (L - S r)) by lia. rewrite fold_from_skip; [|exact G|intros i I; split; [apply ZA|apply Z]; lia]. replace (l + (r - l)) with r by lia. cbn [fold_from]. now rewrite (ZA r) by lia.
  - destruct (rep_head _ _ _ _ _ _ RA) as (r & P & V & Rr & Z). unfold aget. rewrite V. cbn [obind]. rewrite accumulate_some. cbn [obind Nat.sub]. rewrite Nat.sub_0_r.
    pose proof (rep_nil _ _ _ _ _ RB) as ZB. rewrite (IH _ _ _ _ (S r)); [|lia|lia|now apply good_step|eapply rep_tail; eassumption|apply (rep_later_nil _ _ l); [exact RB|lia]].
    f_equal. replace (L - l) with ((r - l) + S (L - S r)) by lia. rewrite fold_from_skip; [|exact G|intros i I; split; [apply Z|apply ZB]; lia]. replace (l + (r - l)) with r by lia. cbn [fold_from]. now rewrite (ZB r) by lia.
  - destruct (rep_head _ _ _ _ _ _ RA) as (r & P & V & Rr & Z). destruct (rep_head _ _ _ _ _ _ RB) as (r' & P' & V' & Rr' & Z'). unfold aget. rewrite P, P', V, V'. cbn [obind].
    destruct (Nat.ltb_spec r r') as [C|C]; [|destruct (Nat.ltb_spec r' r) as [C'|C']].
    + rewrite accumulate_some. cbn [obind Nat.sub]. rewrite Nat.sub_0_r. rewrite (IH _ _ _ _ (S r)); [|lia|lia|now apply good_step|eapply rep_tail; eassumption|].
      2:{ apply (rep_later _ _ _ l); [exact RB|lia|]. intros q t Q T. pose proof (rep_rows _ _ _ _ _ _ _ RB P' q t Q T). lia. }
      f_equal. replace (L - l) with ((r - l) + S (L - S r)) by lia. rewrite fold_from_skip; [|exact G|intros i I; split; [apply Z|apply Z']; lia]. replace (l + (r - l)) with r by lia. cbn [fold_from]. now rewrite (Z' r) by lia.
    + rewrite accumulate_some. cbn [obind Nat.sub]. rewrite Nat.sub_0_r. rewrite (IH _ _ _ _ (S r')); [|lia|lia|now apply good_step| |eapply rep_tail; eassumption].
      2:{ apply (rep_later _ _ _ l); [exact RA|lia|]. intros q t Q T. pose proof (rep_rows _ _ _ _ _ _ _ RA P q t Q T). lia. }
      f_equal. replace (L - l) with ((r' - l) + S (L - S r')) by lia. rewrite fold_from_skip; [|exact G|intros i I; split; [apply Z|apply Z']; lia]. replace (l + (r' - l)) with r' by lia. cbn [fold_from]. now rewrite (Z r') by lia.
    + assert (r' = r) by lia. subst r'. rewrite accumulate_some. cbn [obind Nat.sub]. rewrite !Nat.sub_0_r. rewrite (IH _ _ _ _ (S r)); [|lia|lia|now apply good_step|eapply rep_tail; eassumption|eapply rep_tail; eassumption].
      f_equal. replace (L - l) with ((r - l) + S (L - S r)) by lia. rewrite fold_from_skip; [|exact G|intros i I; split; [apply Z|apply Z']; lia]. replace (l + (r - l)) with r by lia. reflexivity.
Qed.
(** a column of a well-formed sparse matrix *)
Lemma rep_column s L N j f : well_formed s L N -> j < N -> (forall l, l < L -> sparse_at s j l (f l)) ->
  exists a b, nth_error (jc s) j = Some a /\ nth_error (jc s) (S j) = Some b /\ a <= b /\ rep s a (b - a) 0 L f.
Proof.
  intros (LJ & E & W) J H. destruct (W j J) as (a & b & A & B & AB & R & S). exists a, b. split; [exact A|]. split; [exact B|]. split; [lia|].
  split; [exact E|]. split; [lia|]. split; [|split].
  - intros q r Q T. split; [lia|]. apply (R q); [lia|exact T].
  - intros q q' r r' Q Q' T T'. apply (S q q'); auto; lia.
  - intros i I. destruct (H i ltac:(lia)) as (a' & b' & A' & B' & D). rewrite A in A'. injection A' as <-. rewrite B in B'. injection B' as <-. destruct D as [(p & P & D)|[D Z]]; [left; exists p; split; [lia|exact D]|right]. split; [|exact Z]. intros q Q. apply D. lia.
Qed.
Lemma sparse_dist_ok n s t L N1 N2 f g j1 j2 : well_formed s L N1 -> well_formed t L N2 -> j1 < N1 -> j2 < N2 -> (forall l, l < L -> sparse_at s j1 l (f l)) -> (forall l, l < L -> sparse_at t j2 l (g l)) ->
  sparse_dist rt n s t j1 j2 = Some (fold n L f g).
Proof.
  intros WS WT J1 J2 HF HG. destruct (rep_column s L N1 j1 f WS J1 HF) as (a0 & a1 & A0 & A1 & AA & RA). destruct (rep_column t L N2 j2 g WT J2 HG) as (b0 & b1 & B0 & B1 & BB & RB).
  unfold sparse_dist, aget. rewrite !Nat.add_1_r, A0, A1, B0, B1. cbn [obind]. rewrite (merge_ok n s t L f g _ _ _ _ _ 0) ; [|lia|lia|intros _; apply Qcle_refl|exact RA|exact RB]. f_equal. rewrite Nat.sub_0_r. change 0%Qc with (fold n 0 f g). now rewrite fold_from_fold.
Qed.
End Norm.
