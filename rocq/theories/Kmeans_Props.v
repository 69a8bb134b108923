(** Theorems about k-means, vl/kmeans.c. *)
From Coq Require Import List Arith ZArith Lia Bool QArith Qcanon Qcabs Lqa Permutation.
From Verif Require Import Base Loop MserSort_Proofs ImOp_Spec ImOp_Proofs Rat Gauss_Model Gauss_Proofs Vlad_Proofs.
From Verif Require Import Kmeans_Model Kmeans_Spec Kmeans_Proofs KmeansUpdate_Proofs KmeansEnergy_Proofs KmeansElkan_Model KmeansElkan_Proofs KmeansSeed_Proofs Hog_Props.
Import ListNotations.
Local Open Scope nat_scope.

(** *** C42: quantisation *)
Theorem C42_quantize : forall comp dim K centers data N asg dst,
  0 < K -> dim * K <= length centers -> dim * N <= length data -> length asg = N -> length dst = N ->
  exists asg' dst', quantize comp dim K centers data N asg dst = Some (asg', dst') /\ length asg' = N /\ length dst' = N /\
    forall x, x < N ->
      first_nearest K (fun k => comp (rowv dim data x) (rowv dim centers k)) (nth x asg' 0) /\
      nth x dst' 0%Qc = comp (rowv dim data x) (rowv dim centers (nth x asg' 0)).
Proof. intros. now apply quantize_ok. Qed.

(** the distances are the usual ones *)
Theorem C42_distances : forall mt dim data centers x k, dim * x + dim <= length data -> dim * k + dim <= length centers ->
  distance mt (rowv dim data x) (rowv dim centers k) = dist (match mt with L1 => true | L2 => false end) dim (view dim data) (view dim centers) x k.
Proof. intros. now apply distance_dist. Qed.

(** Elkan: at every iteration each datum is at a nearest center, the centers are those
    of the clusters of the iteration before, and the energy does not increase *)
Fixpoint elkan_trace (l1 : bool) (dim K N : nat) (X C : nat -> nat -> Qc) (a : list nat) (trace : list (list Qc * list nat)) : Prop :=
  match trace with
  | [] => True
  | (c, b) :: trace =>
    length c = dim * K /\ length b = N /\
    (forall x, x < N -> nearest K (dist l1 dim X (view dim c) x) (nth x b 0)) /\
    (forall k d, k < K -> d < dim -> 0 < mass N (fun x => nth x a 0) k ->
       if l1 then is_median N (fun x => nth x a 0) k (fun x => X x d) (view dim c k d)
       else is_mean N (fun x => nth x a 0) k (fun x => X x d) (view dim c k d)) /\
    (forall k, k < K -> mass N (fun x => nth x a 0) k = 0 -> exists x, x < N /\ forall d, d < dim -> view dim c k d = X x d) /\
    (energy l1 dim N X (view dim c) (fun x => nth x b 0%nat) <= energy l1 dim N X C (fun x => nth x a 0%nat))%Qc /\
    elkan_trace l1 dim K N X (view dim c) b trace
  end.

Lemma good_elkan mt dim K data N trace : forall centers asg,
  good_trace mt dim K data N centers asg trace -> elkan_trace (is_l1 mt) dim K N (view dim data) (view dim centers) asg trace.
Proof.
  induction trace as [|[c b] trace IH]; intros centers asg G; [exact I|]. destruct G as ((Lc & Lb & Ne) & Ce & Le & G).
  cbn [elkan_trace]. split; [exact Lc|]. split; [exact Lb|]. split; [exact Ne|]. split; [|split; [|split; [exact Le|auto]]].
  - intros k d Lk Ld Mk. specialize (Ce k Lk). destruct (Nat.eqb_spec (mass N (fun x => nth x asg 0) k) 0); [lia|]. exact (Ce d Ld).
  - intros k Lk Mk. specialize (Ce k Lk). rewrite Mk in Ce. exact Ce.
Qed.

Section Refinements.
Variables (dim K : nat) (data : list Qc) (N : nat) (choose : nat -> nat) (centers : list Qc).
Hypothesis Hd : dim * N <= length data.
Hypothesis HK : 0 < K <= N.
Hypothesis Hch : forall t, choose t < N.
Hypothesis Lc : length centers = dim * K.
Notation X := (view dim data).
Notation F asg := (fun x => nth x asg 0).

Theorem C42_elkan : forall mt sqrt_ maxiter buffer cd, 0 < dim ->
  (mt = L2 -> forall q, (0 <= q)%Qc -> (0 <= sqrt_ q)%Qc /\ (q <= sqrt_ q * sqrt_ q)%Qc) ->
  length buffer = dim * K -> length cd = K * K ->
  exists e asg trace done, refine_elkan mt dim K data N choose sqrt_ maxiter centers buffer cd = Some (e, (centers, asg) :: trace, done) /\
    length asg = N /\ (forall x, x < N -> nearest K (dist (is_l1 mt) dim X (view dim centers) x) (nth x asg 0)) /\
    elkan_trace (is_l1 mt) dim K N X (view dim centers) asg trace /\ trace <> [] /\ length trace <= Nat.max 1 maxiter /\
    (let '(c, b) := last trace ([], []) in e = energy (is_l1 mt) dim N X (view dim c) (F b)).
Proof.
  intros mt sqrt_ maxiter buffer cd Hdim Hs Lb Lcd.
  destruct (refine_elkan_ok mt dim K data N choose sqrt_ Hs Hd Hdim ltac:(lia) ltac:(lia) Hch maxiter centers buffer cd Lc Lb Lcd)
    as (e & asg & trace & done & E & Nt & Lt & (_ & La & Ne) & G & Last & _).
  exists e, asg, trace, done. split; [exact E|]. split; [exact La|]. split; [exact Ne|]. split; [now apply good_elkan|]. split; [exact Nt|]. split; [exact Lt|].
  destruct (last trace ([], [])) as [c b]. apply Last.
Qed.

(** *** C43: energies *)
Lemma nearest_step mt it c a d : length c = dim * K -> length a = N -> length d = N -> (0 < it -> forall x, x < N -> nth x a 0 < K) ->
  exists a1 d1, quantize (distance mt) dim K c data N a d = Some (a1, d1) /\ length a1 = N /\ length d1 = N /\
    (forall x, x < N -> first_nearest K (dist (is_l1 mt) dim X (view dim c) x) (nth x a1 0)) /\
    forall x, x < N -> nth x a1 0 < K /\ nth x d1 0%Qc = dist (is_l1 mt) dim X (view dim c) x (nth x a1 0) /\
      (0 < it -> (dist (is_l1 mt) dim X (view dim c) x (nth x a1 0%nat) <= dist (is_l1 mt) dim X (view dim c) x (nth x a 0%nat))%Qc).
Proof.
  intros Lc1 La1 Ld1 Hb.
  destruct (quantize_ok (distance mt) dim K c data N ltac:(lia) ltac:(lia) a d ltac:(lia) La1 Ld1) as (a1 & d1 & Eq & L1_ & L2_ & V).
  assert (V' : forall x, x < N -> first_nearest K (dist (is_l1 mt) dim X (view dim c) x) (nth x a1 0) /\ nth x d1 0%Qc = dist (is_l1 mt) dim X (view dim c) x (nth x a1 0)).
  { intros x Lx. destruct (V x Lx) as (((A & B) & C) & D). rewrite distance_dist in D by nia.
    assert (Eqd : forall k, k < K -> distance mt (rowv dim data x) (rowv dim c k) = dist (is_l1 mt) dim X (view dim c) x k) by (intros; apply distance_dist; nia).
    split; [split; [split; [exact A|]|]|exact D].
    - intros k Lk. specialize (B k Lk). now rewrite !Eqd in B by auto.
    - intros k Lk. specialize (C k Lk). rewrite !Eqd in C by lia. exact C. }
  exists a1, d1. split; [exact Eq|]. split; [exact L1_|]. split; [exact L2_|]. split; [intros x Lx; apply (V' x Lx)|].
  intros x Lx. destruct (V' x Lx) as (((A & B) & C) & D). split; [exact A|]. split; [exact D|]. intro It. apply B. now apply Hb.
Qed.

Theorem C43_lloyd : forall mt maxiter minvar asg dst, length asg = N -> length dst = N ->
  exists es centers' asg', refine_lloyd dim K data N choose mt maxiter minvar centers asg dst = Some (es, centers', asg') /\
    es <> [] /\ length es <= maxiter + 1 /\ descending es /\
    length centers' = dim * K /\ length asg' = N /\
    last es 0%Qc = energy (is_l1 mt) dim N X (view dim centers') (F asg') /\
    forall x, x < N -> first_nearest K (dist (is_l1 mt) dim X (view dim centers') x) (nth x asg' 0).
Proof.
  intros mt maxiter minvar asg dst La Ld. unfold refine_lloyd.
  destruct (permutations_ok dim K data N Hd ltac:(lia) ltac:(lia) mt) as (perms & Ep & Hp). rewrite Ep. cbn [obind].
  destruct (refine_ok dim K data N choose Hd ltac:(lia) ltac:(lia) Hch (fun _ centers => quantize (distance mt) dim K centers data N) mt
    (fun _ c a => forall x, x < N -> first_nearest K (dist (is_l1 mt) dim X (view dim c) x) (nth x a 0))) with (perms := perms) (minvar := minvar) (todo := maxiter)
    (it := 0) (centers := centers) (t := 0) (asg := asg) (dst := dst) (previous := @None Qc) (initial := @None Qc)
    as (es & c' & a' & E & Lc' & La' & Ha' & (e & es' & Ee & _) & De & Last & Len & G & _); auto; try lia.
  - intros it c a d Lc1 La1 Ld1 Hb. now apply nearest_step.
  - exists es, c', a'. split; [exact E|]. split; [rewrite Ee; discriminate|]. repeat (split; [assumption|]). exact G.
Qed.

(** [ann] is what the randomised forest of the current centers returns *)
Theorem C43_ann : forall ann mt maxiter minvar asg dst, (forall c x, ann c x < K) -> length asg = N -> length dst = N ->
  exists es centers' asg', refine_ann dim K data N choose ann mt maxiter minvar centers asg dst = Some (es, centers', asg') /\
    es <> [] /\ length es <= maxiter + 1 /\ descending es /\
    length centers' = dim * K /\ length asg' = N /\ (forall x, x < N -> nth x asg' 0 < K) /\
    last es 0%Qc = energy (is_l1 mt) dim N X (view dim centers') (F asg').
Proof.
  intros ann mt maxiter minvar asg dst Han La Ld. unfold refine_ann.
  destruct (permutations_ok dim K data N Hd ltac:(lia) ltac:(lia) mt) as (perms & Ep & Hp). rewrite Ep. cbn [obind].
  destruct (refine_ok dim K data N choose Hd ltac:(lia) ltac:(lia) Hch (fun it centers => quantize_ann (distance mt) dim ann (0 <? it) centers data N) mt
    (fun _ c a => True)) with (perms := perms) (minvar := minvar) (todo := maxiter)
    (it := 0) (centers := centers) (t := 0) (asg := asg) (dst := dst) (previous := @None Qc) (initial := @None Qc)
    as (es & c' & a' & E & Lc' & La' & Ha' & (e & es' & Ee & _) & De & Last & Len & G & _); auto; try lia.
  - intros it c a d Lc1 La1 Ld1 Hb.
    destruct (quantize_ann_ok (distance mt) dim K c data N ltac:(lia) ltac:(lia) ann (0 <? it) a d) as (a1 & d1 & Eq & L1_ & L2_ & V); auto.
    { intro B. apply Nat.ltb_lt in B. exact (Hb B). }
    assert (Eqd : forall x k, x < N -> k < K -> distance mt (rowv dim data x) (rowv dim c k) = dist (is_l1 mt) dim X (view dim c) x k) by (intros; apply distance_dist; nia).
    exists a1, d1. split; [exact Eq|]. split; [exact L1_|]. split; [exact L2_|]. split; [exact I|].
    intros x Lx. destruct (V x Lx) as (A & B & _ & D). split; [exact A|]. rewrite Eqd in B by auto. split; [exact B|]. intro It.
    specialize (D ltac:(apply Nat.ltb_lt; exact It)). rewrite !Eqd in D by auto. exact D.
  - exists es, c', a'. split; [exact E|]. split; [rewrite Ee; discriminate|]. repeat (split; [assumption|]). exact Last.
Qed.

Theorem C43_elkan : forall mt sqrt_ maxiter buffer cd, 0 < dim ->
  (mt = L2 -> forall q, (0 <= q)%Qc -> (0 <= sqrt_ q)%Qc /\ (q <= sqrt_ q * sqrt_ q)%Qc) ->
  length buffer = dim * K -> length cd = K * K ->
  exists e asg trace done, refine_elkan mt dim K data N choose sqrt_ maxiter centers buffer cd = Some (e, (centers, asg) :: trace, done) /\
    (forall x, x < N -> nearest K (dist (is_l1 mt) dim X (view dim centers) x) (nth x asg 0)) /\
    (e <= energy (is_l1 mt) dim N X (view dim centers) (fun x => nth x asg 0%nat))%Qc.
Proof.
  intros mt sqrt_ maxiter buffer cd Hdim Hs Lb Lcd.
  destruct (refine_elkan_ok mt dim K data N choose sqrt_ Hs Hd Hdim ltac:(lia) ltac:(lia) Hch maxiter centers buffer cd Lc Lb Lcd)
    as (e & asg & trace & done & E & Nt & Lt & (_ & La & Ne) & G & Last & _).
  exists e, asg, trace, done. split; [exact E|]. split; [exact Ne|]. destruct (last trace ([], [])) as [c b]. apply Last.
Qed.

(** *** C44: the update of the centers *)
Theorem C44_update : forall mt lloyd asg t, length asg = N -> (forall x, x < N -> nth x asg 0 < K) ->
  exists perms centers' t', permutations dim data N mt = Some perms /\ update dim K data N choose mt lloyd perms asg centers t = Some (centers', t') /\
    length centers' = dim * K /\
    (forall k, k < K -> mass N (F asg) k = 0 -> exists x, x < N /\ forall d, d < dim -> view dim centers' k d = X x d) /\
    (mt = L2 \/ lloyd = false \/ (forall k, k < K -> mass N (F asg) k <> 0) ->
     forall k d, k < K -> d < dim -> mass N (F asg) k <> 0 ->
       match mt with
       | L1 => is_median N (F asg) k (fun x => X x d) (view dim centers' k d)
       | L2 => is_mean N (F asg) k (fun x => X x d) (view dim centers' k d)
       end).
Proof.
  intros mt lloyd asg t La Ha. destruct (permutations_ok dim K data N Hd ltac:(lia) ltac:(lia) mt) as (perms & Ep & Hp).
  destruct (update_ok dim K data N choose Hd ltac:(lia) ltac:(lia) Hch mt lloyd perms asg centers t Hp La Ha Lc) as (c' & t' & E & Lc' & U & V).
  exists perms, c', t'. split; [exact Ep|]. split; [exact E|]. split; [exact Lc'|]. split.
  - intros k Lk Mk. specialize (U k Lk). rewrite Mk in U. exact U.
  - intros H k d Lk Ld Mk. specialize (U k Lk). destruct (Nat.eqb_spec (mass N (F asg) k) 0); [lia|].
    assert (Ce : centre (is_l1 mt) N (F asg) k (fun x => X x d) (view dim c' k d)).
    { destruct (U d Ld) as [Ce|(M1 & _ & _ & k' & Lk' & M0)]; [exact Ce|]. destruct H as [H|[H|H]]; [congruence|now apply V|now apply H in M0]. }
    destruct mt; exact Ce.
Qed.

(** the centers a refinement returns come from such an update *)
Theorem C44_lloyd_result : forall mt maxiter minvar asg dst es centers' asg', length asg = N -> length dst = N ->
  refine_lloyd dim K data N choose mt maxiter minvar centers asg dst = Some (es, centers', asg') -> 1 < length es ->
  exists cB aB, (forall x, x < N -> first_nearest K (dist (is_l1 mt) dim X (view dim cB) x) (nth x aB 0)) /\
    (forall k, k < K -> mass N (F aB) k = 0 -> exists x, x < N /\ forall d, d < dim -> view dim centers' k d = X x d) /\
    (mt = L2 \/ (forall k, k < K -> mass N (F aB) k <> 0) ->
     forall k d, k < K -> d < dim -> mass N (F aB) k <> 0 ->
       match mt with
       | L1 => is_median N (F aB) k (fun x => X x d) (view dim centers' k d)
       | L2 => is_mean N (F aB) k (fun x => X x d) (view dim centers' k d)
       end).
Proof.
  intros mt maxiter minvar asg dst es0 c0 a0 La Ld E0 Len0. unfold refine_lloyd in E0.
  destruct (permutations_ok dim K data N Hd ltac:(lia) ltac:(lia) mt) as (perms & Ep & Hp). rewrite Ep in E0. cbn [obind] in E0.
  destruct (refine_ok dim K data N choose Hd ltac:(lia) ltac:(lia) Hch (fun _ centers => quantize (distance mt) dim K centers data N) mt
    (fun _ c a => forall x, x < N -> first_nearest K (dist (is_l1 mt) dim X (view dim c) x) (nth x a 0))) with (perms := perms) (minvar := minvar) (todo := maxiter)
    (it := 0) (centers := centers) (t := 0) (asg := asg) (dst := dst) (previous := @None Qc) (initial := @None Qc)
    as (es & c' & a' & E & Lc' & La' & Ha' & (e & es' & Ee & _) & De & Last & Len & G & Up); auto; try lia.
  - intros it c a d Lc1 La1 Ld1 Hb. now apply nearest_step.
  - rewrite E in E0. injection E0 as <- <- <-. destruct (Up Len0) as (_ & cB & aB & G' & Ha & U). exists cB, aB. split; [exact G'|]. split.
    + intros k Lk Mk. specialize (U k Lk). rewrite Mk in U. exact U.
    + intros H k d Lk Ld' Mk. specialize (U k Lk). destruct (Nat.eqb_spec (mass N (F aB) k) 0); [lia|].
      assert (Ce : centre (is_l1 mt) N (F aB) k (fun x => X x d) (view dim c' k d)).
      { destruct (U d Ld') as [Ce|(M1 & _ & _ & k' & Lk' & M0)]; [exact Ce|]. destruct H as [H|H]; [congruence|now apply H in M0]. }
      destruct mt; exact Ce.
Qed.

(** *** C78: a cluster gone empty *)
Theorem C78_other_coordinates_unchanged_refuted : forall asg t, length asg = N -> (forall x, x < N -> nth x asg 0 < K) ->
  (exists k, k < K /\ mass N (F asg) k = 0) ->
  exists perms centers' t', permutations dim data N L1 = Some perms /\ update dim K data N choose L1 true perms asg centers t = Some (centers', t') /\
    forall k d, k < K -> mass N (F asg) k <> 0 -> 0 < d < dim -> view dim centers' k d = view dim centers k d.
Proof.
  intros asg t La Ha (k0 & Lk0 & M0). destruct (permutations_ok dim K data N Hd ltac:(lia) ltac:(lia) L1) as (perms & Ep & Hp).
  destruct (Hp eq_refl) as [Lp Sp]. destruct (masses_ok dim K data N Hd ltac:(lia) asg La Ha) as (m & Em & Lm & Vm).
  destruct (update_l1_lloyd_ok dim K data N choose Hd ltac:(lia) asg La Ha Hch m perms centers t Lm Vm Lp Sp Lc) as (c' & t' & E & L & V).
  exists perms, c', t'. split; [exact Ep|]. split; [unfold update; rewrite Em; exact E|]. intros k d Lk Mk Ld.
  specialize (V k Lk). destruct (Nat.eqb_spec (mass N (F asg) k) 0); [lia|]. specialize (V d ltac:(lia)). unfold no_empty in V.
  replace (existsb _ _) with true in V. 2:{ symmetry. apply existsb_exists. exists k0. split; [apply in_seq; lia|]. now apply Nat.eqb_eq. }
  cbn [negb orb] in V. destruct (Nat.eqb_spec d 0); [lia|]. exact V.
Qed.

(** *** C83: convergence of Elkan *)
Theorem C83_elkan_fixed_point : forall mt sqrt_ maxiter buffer cd, 0 < dim ->
  (mt = L2 -> forall q, (0 <= q)%Qc -> (0 <= sqrt_ q)%Qc /\ (q <= sqrt_ q * sqrt_ q)%Qc) ->
  length buffer = dim * K -> length cd = K * K ->
  exists e trace done, refine_elkan mt dim K data N choose sqrt_ maxiter centers buffer cd = Some (e, trace, done) /\
    (done = false -> length trace = 1 + Nat.max 1 maxiter) /\
    (done = true -> exists c b, last trace ([], []) = (c, b) /\
      (forall x, x < N -> nearest K (dist (is_l1 mt) dim X (view dim c) x) (nth x b 0)) /\
      forall k d, k < K -> d < dim -> mass N (F b) k <> 0 ->
        match mt with
        | L1 => is_median N (F b) k (fun x => X x d) (view dim c k d)
        | L2 => is_mean N (F b) k (fun x => X x d) (view dim c k d)
        end).
Proof.
  intros mt sqrt_ maxiter buffer cd Hdim Hs Lb Lcd.
  destruct (refine_elkan_ok mt dim K data N choose sqrt_ Hs Hd Hdim ltac:(lia) ltac:(lia) Hch maxiter centers buffer cd Lc Lb Lcd)
    as (e & asg & trace & done & E & Nt & Lt & (_ & La & Ne) & G & Last & Dn).
  exists e, ((centers, asg) :: trace), done. split; [exact E|]. split; [intro D; cbn [length]; now rewrite (Dn D)|].
  intros ->. destruct (last trace ([], [])) as [c b] eqn:El. exists c, b. split; [destruct trace; [congruence|exact El]|].
  destruct Last as (_ & (_ & _ & Nb) & _ & Ce). specialize (Ce eq_refl). split; [exact Nb|]. intros k d Lk Ld Mk. specialize (Ce k Lk).
  destruct (Nat.eqb_spec (mass N (F b) k) 0); [lia|]. specialize (Ce d Ld). destruct mt; exact Ce.
Qed.
End Refinements.

(** *** C45: repetitions *)
Lemma cluster_ok {C} runs : forall r (b : option Qc) (c : C), 0 < r ->
  exists e c', cluster r (Some (b, c)) runs = Some (e, c') /\ In (e, c') ((b, c) :: runs) /\
    match b with
    | None => (e, c') = (b, c)
    | Some v => exists w, e = Some w /\ (w <= v)%Qc /\ forall u d, In (Some u, d) runs -> (w <= u)%Qc
    end.
Proof.
  induction runs as [|[e c1] runs IH]; intros r b c Lr; cbn [cluster].
  - exists b, c. split; [reflexivity|]. split; [now left|]. destruct b as [v|]; [|reflexivity]. exists v. split; [reflexivity|]. split; [apply Qcle_refl|]. intros u d [].
  - destruct (Nat.eqb_spec r 0); [lia|]. rewrite orb_false_r. cbv zeta. destruct b as [v|]; destruct e as [u|]; cbn [better].
    2: destruct (IH (r + 1) (Some v) c ltac:(lia)) as (e' & c' & E' & I' & M).
    3-4: destruct (IH (r + 1) None c ltac:(lia)) as (e' & c' & E' & I' & M).
    2-4: exists e', c'; split; [exact E'|]; split; [destruct I' as [I'|I']; [left|right; right]; exact I'|]; try exact M.
    + destruct (qlt u v) eqn:Eq; [pose proof (proj1 (qlt_true _ _) Eq) as L|pose proof (proj1 (qlt_false _ _) Eq) as L].
      * destruct (IH (r + 1) (Some u) c1 ltac:(lia)) as (e' & c' & E' & I' & (w & -> & Lw & M)). exists (Some w), c'. split; [exact E'|]. split; [right; exact I'|].
        exists w. split; [reflexivity|]. split; [apply Qcle_trans with u; [exact Lw|now apply Qclt_le_weak]|].
        intros u' d [Eu|Iu]; [injection Eu as <- _; exact Lw|eapply M; exact Iu].
      * destruct (IH (r + 1) (Some v) c ltac:(lia)) as (e' & c' & E' & I' & (w & -> & Lw & M)). exists (Some w), c'. split; [exact E'|].
        split; [destruct I' as [I'|I']; [left|right; right]; exact I'|]. exists w. split; [reflexivity|]. split; [exact Lw|].
        intros u' d [Eu|Iu]; [injection Eu as <- _; now apply Qcle_trans with v|eapply M; exact Iu].
    + destruct M as (w & -> & Lw & M). exists w. split; [reflexivity|]. split; [exact Lw|]. intros u' d [Eu|Iu]; [discriminate|eapply M; exact Iu].
Qed.

(** [None] is an energy that is not a number *)
Theorem C45_best_run : forall C (run : option Qc * C) runs,
  exists e c, cluster 0 None (run :: runs) = Some (e, c) /\ In (e, c) (run :: runs) /\
    match fst run with
    | Some _ => exists w, e = Some w /\ forall u d, In (Some u, d) (run :: runs) -> (w <= u)%Qc
    | None => (e, c) = run
    end.
Proof.
  intros C [b c0] runs. cbn [cluster]. destruct (cluster_ok runs 1 b c0 ltac:(lia)) as (e & c & E & I & M). exists e, c. split; [exact E|]. split; [exact I|].
  cbn [fst]. destruct b as [v|]; [|exact M]. destruct M as (w & -> & Lw & M). exists w. split; [reflexivity|].
  intros u d [Eu|Iu]; [injection Eu as <- _; exact Lw|eapply M; exact Iu].
Qed.

Lemma iter_from_fails {S} (I : S -> Prop) (body : nat -> S -> option S) j n : forall i s, i <= j < i + n -> I s ->
  (forall i s s', I s -> body i s = Some s' -> I s') -> (forall s, I s -> body j s = None) -> iter_from n i body s = None.
Proof.
  induction n as [|n IH]; intros i s Lj Is Hs Hf; [lia|]. cbn [iter_from]. destruct (body i s) as [s'|] eqn:E; [|reflexivity]. cbn [obind].
  destruct (Nat.eq_dec i j) as [->|]; [rewrite Hf in E by exact Is; discriminate|]. apply IH; auto; [lia|]. eapply Hs; eassumption.
Qed.

(** *** C79: more centers than data *)
Theorem C79_masses_out_of_bounds_refuted : forall dim K data N choose mt lloyd perms asg centers t x,
  x < N -> length asg = N -> N <= nth x asg 0 -> update dim K data N choose mt lloyd perms asg centers t = None.
Proof.
  intros dim K data N choose mt lloyd perms asg centers t x Lx La Ha. unfold update.
  enough (E : masses N asg = None) by (now rewrite E). unfold masses, iter.
  apply (iter_from_fails (fun m => length m = N)) with (j := x); [lia|apply repeat_length| |].
  - intros i m m' L E. destruct (aget asg i); [|discriminate]. cbn [obind] in E. destruct (aget m n); [|discriminate]. cbn [obind] in E. now rewrite (aset_len _ _ _ _ E).
  - intros m L. rewrite (aget_nth asg x 0) by lia. cbn [obind]. unfold aget. replace (nth_error m (nth x asg 0)) with (@None nat); [reflexivity|]. symmetry. apply nth_error_None. lia.
Qed.

(** *** Seeding *)
(** the [K] vectors [cs] are those of [K] data *)
Definition from_data (dim : nat) (data : list Qc) (N K : nat) (idx : list nat) (cs : list (list Qc)) : Prop :=
  length idx = K /\ (forall i, In i idx -> i < N) /\ cs = map (rowv dim data) idx.
(** there are [K] different points among the data *)
Definition enough (dim : nat) (data : list Qc) (N K : nat) : Prop :=
  exists idx, length idx = K /\ (forall i, In i idx -> i < N) /\ distinct_points dim (view dim data) idx.

Section Seeding.
Variables (dim K : nat) (data : list Qc) (N : nat) (mt : metric).
Hypothesis Hd : dim * N <= length data.

Lemma rowv_same i j : i < N -> j < N -> (rowv dim data i = rowv dim data j <-> same_point dim (view dim data i) (view dim data j)).
Proof.
  intros Li Lj. split.
  - intros E d Ld. unfold view. rewrite <- !(rowv_nth dim data _ d 0%Qc) by auto. now rewrite E.
  - intro S. apply (nth_ext _ _ 0%Qc 0%Qc); rewrite rowv_length by nia; [now rewrite rowv_length by nia|].
    intros d Ld. rewrite !rowv_nth by auto. now apply S.
Qed.
Lemma distinct_nodup idx : (forall i, In i idx -> i < N) -> (NoDup (map (rowv dim data) idx) <-> distinct_points dim (view dim data) idx).
Proof.
  intro Hi. assert (Lt : forall i, i < length idx -> nth i idx 0 < N) by (intros; apply Hi, nth_In; auto).
  assert (Nm : forall i, i < length idx -> nth i (map (rowv dim data) idx) [] = rowv dim data (nth i idx 0)).
  { intros i L. rewrite (nth_indep _ [] (rowv dim data 0)) by (rewrite map_length; auto). now rewrite (map_nth (rowv dim data) idx 0 i). }
  split.
  - intros Nd i j Lij Lj Sp. apply (proj2 (rowv_same _ _ (Lt i ltac:(lia)) (Lt j Lj))) in Sp.
    pose proof (proj1 (NoDup_nth _ []) Nd i j) as Nd'. clear Nd. rename Nd' into Nd. rewrite map_length in Nd. rewrite !Nm in Nd by lia.
    specialize (Nd ltac:(lia) ltac:(lia) Sp). lia.
  - intro D. apply (NoDup_nth _ []). rewrite map_length. intros i j Li Lj E. rewrite !Nm in E by lia.
    apply (proj1 (rowv_same _ _ (Lt i Li) (Lt j Lj))) in E.
    destruct (Nat.lt_trichotomy i j) as [L|[->|L]]; [|reflexivity|].
    + destruct (D i j L Lj E).
    + destruct (D j i L Li). intros d Ld. symmetry. now apply E.
Qed.
Lemma enough_rich : enough dim data N K -> rich dim K data N.
Proof.
  intros (idx & Ll & Hi & D). exists (map (rowv dim data) idx). split; [now apply distinct_nodup|]. split; [rewrite map_length; lia|].
  intros v Iv. apply in_map_iff in Iv as (j & <- & Ij). exists j. auto.
Qed.

(** *** C80: seeding with random data; [perm] is the result of shuffling 0 .. N-1 *)
Theorem C80_rand_data : forall perm, K <= N -> Permutation perm (seq 0 N) ->
  exists idx cs, init_rand_data (distance mt) dim K data N perm = Some cs /\ from_data dim data N K idx cs /\ NoDup idx /\
    (enough dim data N K -> distinct_points dim (view dim data) idx).
Proof.
  intros perm HK Hp. destruct (init_rand_data_ok (distance mt) dim K data N Hd perm Hp HK) as (js & cs & E & [Ej Fj] & Nd & Lj & D).
  rewrite Forall_forall in Fj. exists js, cs. split; [exact E|]. split; [split; [exact Lj|split; [exact Fj|exact Ej]]|]. split; [exact Nd|].
  intro En. apply distinct_nodup; [exact Fj|]. rewrite <- Ej. apply D; [apply distance_separating|now apply enough_rich].
Qed.

(** *** C81: k-means++; [real] are the draws, [first] the index of the first center *)
Theorem C81_plus_plus : forall real first, first < N -> 0 < K ->
  exists idx cs, init_plus_plus (distance mt) dim K data N real first = Some cs /\ from_data dim data N K idx cs /\
    (enough dim data N K -> (forall t, (0 < real t)%Qc /\ (real t <= 1)%Qc) -> distinct_points dim (view dim data) idx).
Proof.
  intros real first Lf HK. destruct (init_plus_plus_ok (distance mt) dim K data N Hd real ltac:(lia) first Lf HK) as (js & cs & E & [Ej Fj] & Lj & D).
  rewrite Forall_forall in Fj. exists js, cs. split; [exact E|]. split; [split; [exact Lj|split; [exact Fj|exact Ej]]|].
  intros En Hr. apply distinct_nodup; [exact Fj|]. rewrite <- Ej. apply D; [apply distance_separating|now apply enough_rich|exact Hr].
Qed.
End Seeding.

(** *** C82: a draw of zero, which vl_rand_real1 can return *)
Theorem C82_zero_draw_refuted : forall dim data N mt first, first < N -> dim * N <= length data ->
  init_plus_plus (distance mt) dim 2 data N (fun _ => 0%Qc) first = Some (map (rowv dim data) [first; 0]).
Proof.
  intros dim data N mt first HN Hd. unfold init_plus_plus. cbn [plus_plus Nat.sub]. rewrite row_ok by nia. cbn [obind]. cbv zeta.
  set (v := rowv dim data first).
  destruct (iter_inv (fun j ms => length ms = j /\ forall i, i < j -> (0 <= nth i ms 0)%Qc) (fun j ms =>
      do r <- row dim data j;
      do m <- aget (repeat None N) j;
      Some (ms ++ [match m with None => distance mt v r | Some w => if qlt w (distance mt v r) then w else distance mt v r end])) N []) as (ms & E & Lm & Vm).
  - split; [reflexivity|]. intros; lia.
  - intros j ms Lj [L V]. rewrite row_ok by nia. cbn [obind]. rewrite (aget_nth _ j None) by (now rewrite repeat_length). cbn [obind]. rewrite nth_repeat.
    eexists; split; [reflexivity|]. rewrite app_length. split; [cbn; lia|]. intros i Li. destruct (Nat.eq_dec i j) as [->|].
    + rewrite app_nth2, L, Nat.sub_diag by lia. cbn [nth]. apply (distance_separating mt dim); apply rowv_length; nia.
    + rewrite app_nth1 by lia. apply V. lia.
  - rewrite E. cbn [obind]. replace (pick ms _ _ _ _) with 0; [rewrite row_ok by nia; reflexivity|].
    destruct ms as [|m ms]; [cbn in Lm; lia|]. cbn [pick]. destruct (Nat.eqb_spec 0 (N - 1)) as [Z|Z]; [exact Z|].
    pose proof (Vm 0 ltac:(lia)) as P. cbn [nth] in P.
    replace (qle _ _) with true; [reflexivity|]. symmetry. apply qle_true. rewrite Qcplus_0_l, Qcmult_0_l. exact P.
Qed.

(** *** Examples *)
Definition qs (l : list Z) : list Qc := map zq l.
(** five points of the plane, two centers *)
Definition ex_data : list Qc := qs [0;0; 2;1; 1;5; 10;10; 12;9]%Z.
Definition ex_centers : list Qc := qs [1;1; 3;3]%Z.
Example C42_ex_quantize : quantize (distance L2) 2 2 ex_centers ex_data 5 (repeat 7 5) (repeat 0%Qc 5) = Some ([0; 0; 1; 1; 1], qs [2;1;8;98;117]%Z).
Proof. vm_compute. repeat f_equal; apply Qc_is_canon; reflexivity. Qed.
(** a square root that is never too small *)
Definition ex_sqrt (q : Qc) : Qc := if qlt q 1 then 1%Qc else q.
Example C42_ex_sqrt : forall q, (0 <= q)%Qc -> (0 <= ex_sqrt q)%Qc /\ (q <= ex_sqrt q * ex_sqrt q)%Qc.
Proof.
  intros q Hq. unfold ex_sqrt. destruct (qlt q 1) eqn:E.
  - apply qlt_true in E. split; [discriminate|]. rewrite Qcmult_1_l. now apply Qclt_le_weak.
  - apply qlt_false in E. split; [exact Hq|]. apply Qcle_trans with (1 * q)%Qc; [rewrite Qcmult_1_l; apply Qcle_refl|now apply Qcmult_le_compat_r].
Qed.
Example C42_ex_elkan : option_map (fun '(e, trace, done) => (this e, map snd trace, done))
  (refine_elkan L2 2 2 ex_data 5 (fun _ => 0) ex_sqrt 10 ex_centers (repeat 0%Qc 4) (repeat 0%Qc 4))
  = Some ((37 # 2)%Q, [[0; 0; 1; 1; 1]; [0; 0; 0; 1; 1]; [0; 0; 0; 1; 1]], true).
Proof. vm_compute. reflexivity. Qed.
Example C43_ex_lloyd : option_map (fun '(es, c, a) => (map this es, map this c, a))
  (refine_lloyd 2 2 ex_data 5 (fun _ => 0) L2 10 0%Qc ex_centers (repeat 0 5) (repeat 0%Qc 5))
  = Some ([226; 1871 # 36; 37 # 2; 37 # 2]%Q, [1; 2; 11; 19 # 2]%Q, [0; 0; 0; 1; 1]).
Proof. vm_compute. reflexivity. Qed.
(** medians of the clusters *)
Example C44_ex_l1 : option_map (fun '(es, c, a) => (map this es, map this c, a))
  (refine_lloyd 2 2 ex_data 5 (fun _ => 0) L1 10 0%Qc ex_centers (repeat 0 5) (repeat 0%Qc 5))
  = Some ([36; 10; 10]%Q, [1; 1; 10; 9]%Q, [0; 0; 0; 1; 1]).
Proof. vm_compute. reflexivity. Qed.
(** the forest may return anything *)
Example C43_ex_ann : option_map (fun '(es, c, a) => (map this es, map this c, a))
  (refine_ann 2 2 ex_data 5 (fun _ => 0) (fun _ _ => 1) L2 3 0%Qc ex_centers (repeat 0 5) (repeat 0%Qc 5))
  = Some ([246; 206; 206]%Q, [0; 0; 5; 5]%Q, [1; 1; 1; 1; 1]).
Proof. vm_compute. reflexivity. Qed.
(** three data, second center unused: the second coordinate of the first center
    stays 7 although the median is 10 *)
Definition ex_three : list Qc := qs [0;0; 2;10; 4;20]%Z.
Example C78_ex_not_median : option_map (fun '(es, c, a) => (map this es, map this c, a))
  (refine_lloyd 2 2 ex_three 3 (fun _ => 0) L1 1 0%Qc (qs [1;7;100;100]%Z) (repeat 0 3) (repeat 0%Qc 3))
  = Some ([28; 18]%Q, [2; 7; 0; 0]%Q, [1; 0; 0]).
Proof. vm_compute. reflexivity. Qed.
Example C78_ex_median : mass 3 (fun x => nth x [0; 0; 0] 0) 1 = 0 /\
  is_median 3 (fun x => nth x [0; 0; 0] 0) 0 (fun x => view 2 ex_three x 1) (zq 10) /\
  ~ is_median 3 (fun x => nth x [0; 0; 0] 0) 0 (fun x => view 2 ex_three x 1) (zq 7).
Proof.
  split; [reflexivity|]. split.
  - split; [exists 1; repeat split; lia|]. split; vm_compute; lia.
  - intros ((x & Lx & _ & E) & _). apply (f_equal this) in E. destruct x as [|[|[|x]]]; [vm_compute in E; discriminate ..|lia].
Qed.
Example C79_ex : refine_lloyd 1 2 (qs (5%Z :: nil)) 1 (fun _ => 0) L2 10 0%Qc (qs [0;5]%Z) (0 :: nil) (0%Qc :: nil) = None.
Proof. vm_compute. reflexivity. Qed.
(** two equal data and a third one: the shuffled order is 0, 1, 2 *)
Definition ex_dup : list Qc := qs [4; 4; 6]%Z.
Example C80_ex : option_map (map (map this)) (init_rand_data (distance L2) 1 2 ex_dup 3 [0; 1; 2]) = Some [4%Q :: nil; 6%Q :: nil].
Proof. vm_compute. reflexivity. Qed.
Example C80_ex_enough : enough 1 ex_dup 3 2.
Proof.
  exists [1; 2]. split; [reflexivity|]. split; [intros i [<-|[<-|[]]]; lia|].
  intros i j Lij Lj S. cbn [length] in Lj. assert (i = 0 /\ j = 1) as [-> ->] by lia. specialize (S 0 ltac:(lia)). apply (f_equal this) in S. vm_compute in S. discriminate.
Qed.
Example C81_ex : option_map (map (map this)) (init_plus_plus (distance L2) 1 2 ex_dup 3 (fun _ => Q2Qc (1 # 2)) 0) = Some [4%Q :: nil; 6%Q :: nil].
Proof. vm_compute. reflexivity. Qed.
(** the same point twice although there are two different ones *)
Example C82_ex : option_map (map (map this)) (init_plus_plus (distance L2) 1 2 ex_dup 3 (fun _ => 0%Qc) 0) = Some [4%Q :: nil; 4%Q :: nil].
Proof. vm_compute. reflexivity. Qed.
Example C45_ex : option_map (fun '(e, c) => (option_map this e, c)) (cluster 0 None [(Some (zq 3), 0); (None, 1); (Some (zq 1), 2); (Some (zq 2), 3)]) = Some (Some 1%Q, 2).
Proof. vm_compute. reflexivity. Qed.
(** the first energy not being a number, its run is returned *)
Example C45_ex_nan : cluster 0 None [(None, 0); (Some (zq 1), 1)] = Some (None, 0).
Proof. vm_compute. reflexivity. Qed.
(** stopped before convergence, then at it *)
Example C83_ex : option_map (fun '(e, trace, done) => (map (fun t => map this (fst t)) trace, done))
  (refine_elkan L2 2 2 ex_data 5 (fun _ => 0) ex_sqrt 1 ex_centers (repeat 0%Qc 4) (repeat 0%Qc 4))
  = Some ([[1; 1; 3; 3]; [1; 1 # 2; 23 # 3; 8]]%Q, false) /\
  option_map (fun '(e, trace, done) => (map (fun t => map this (fst t)) trace, done))
  (refine_elkan L2 2 2 ex_data 5 (fun _ => 0) ex_sqrt 10 ex_centers (repeat 0%Qc 4) (repeat 0%Qc 4))
  = Some ([[1; 1; 3; 3]; [1; 1 # 2; 23 # 3; 8]; [1; 2; 11; 19 # 2]]%Q, true).
Proof. split; vm_compute; reflexivity. Qed.

Print Assumptions C42_quantize.
Print Assumptions C42_distances.
Print Assumptions C42_elkan.
Print Assumptions C43_lloyd.
Print Assumptions C43_ann.
Print Assumptions C43_elkan.
Print Assumptions C44_update.
Print Assumptions C44_lloyd_result.
Print Assumptions C45_best_run.
Print Assumptions C78_other_coordinates_unchanged_refuted.
Print Assumptions C79_masses_out_of_bounds_refuted.
Print Assumptions C80_rand_data.
Print Assumptions C81_plus_plus.
Print Assumptions C82_zero_draw_refuted.
Print Assumptions C83_elkan_fixed_point.
