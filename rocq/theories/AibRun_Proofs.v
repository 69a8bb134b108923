From Coq Require Import List Arith ZArith Lia Bool QArith Qcanon Lqa Permutation.
From Verif Require Import Base Loop MserSort_Proofs ImOp_Spec ImOp_Proofs Rat Gauss_Model Gauss_Proofs Vlad_Proofs Kmeans_Spec Kmeans_Model Kmeans_Proofs Aib_Model Aib_Spec Aib_Proofs AibMerge_Proofs.
Import ListNotations.
Local Open Scope nat_scope.

Section Run.
Variable log_ : Qc -> Qc.
Variables (N nl : nat).
Notation csum f := (sum 0%Qc Qcplus nl f).
Notation Row s e := (rowv nl (pcx s) e).
Notation loss := (loss log_ nl).
Notation prob := (prob nl).
Notation info := (info log_).
Notation mutual := (mutual log_ nl).
Notation greedy := (greedy log_ nl).
Notation wf := (wf N nl).
Notation alive := (alive nl).
Notation valid := (valid log_ nl).
Notation pending := (pending log_ nl).

Definition idx (s : aib) : list nat := filter (fun e => nonnull (prob (Row s e))) (seq 0 (nentries s)).
Definition ent (s : aib) (e : nat) : cluster := (nth e (nodes s) 0, Row s e).
Definition active (s : aib) : list cluster := map (ent s) (idx s).
Definition nonneg (s : aib) : Prop := forall e c, e < nentries s -> c < nl -> (0 <= at_ (Row s e) c)%Qc.
Definition nodes_ok (s : aib) (n : nat) : Prop :=
  (forall e f, e < nentries s -> f < nentries s -> nth e (nodes s) 0 = nth f (nodes s) 0 -> e = f) /\
  forall e, e < nentries s -> nth e (nodes s) 0 < n.

Lemma idx_alive s e : In e (idx s) <-> alive s e.
Proof. unfold idx, Aib_Proofs.alive. rewrite filter_In, in_seq, nonnull_true. split; intros []; split; auto; lia. Qed.
Lemma idx_nodup s : NoDup (idx s).
Proof. apply NoDup_filter, seq_NoDup. Qed.

Lemma sum_nonneg0 f n : (forall c, c < n -> (0 <= f c)%Qc) -> (0 <= sum 0%Qc Qcplus n f)%Qc.
Proof.
  induction n as [|n IH]; intro H; [apply Qcle_refl|]. cbn [sum]. replace 0%Qc with (0 + 0)%Qc by ring. apply Qcplus_le_compat; auto.
Qed.
Lemma prob_nonneg s e : nonneg s -> e < nentries s -> (0 <= prob (Row s e))%Qc.
Proof. intros H Le. apply sum_nonneg0. intros c Lc. now apply H. Qed.

(** *** A merge and the list of clusters *)
Lemma merge_active s s' i j new : wf s -> nonneg s -> i < j -> alive s i -> alive s j -> nentries s' = nentries s - 1 ->
  Row s' i = join (Row s i) (Row s j) -> nth i (nodes s') 0 = new ->
  (forall e, e < nentries s' -> e <> i -> Row s' e = Row s (old j (nentries s - 1) e) /\ nth e (nodes s') 0 = nth (old j (nentries s - 1) e) (nodes s) 0) ->
  exists rest, Permutation (active s) (ent s i :: ent s j :: rest) /\ Permutation (active s') ((new, join (Row s i) (Row s j)) :: rest).
Proof.
  intros W Nn Lij Ai Aj En Ri Ni Hr. destruct Ai as [Li Pi], Aj as [Lj Pj]. set (last := nentries s - 1) in *.
  set (R := filter (fun e => negb (e =? i) && negb (e =? j)) (idx s)).
  assert (IR : forall e, In e R <-> alive s e /\ e <> i /\ e <> j).
  { intro e. unfold R. rewrite filter_In, idx_alive, andb_true_iff, !negb_true_iff, !Nat.eqb_neq. tauto. }
  assert (NR : NoDup R) by apply NoDup_filter, idx_nodup.
  exists (map (ent s) R). split.
  - change (ent s i :: ent s j :: map (ent s) R) with (map (ent s) (i :: j :: R)). apply Permutation_map. apply NoDup_Permutation; [apply idx_nodup| |].
    + constructor; [cbn [In]; rewrite IR; lia|]. constructor; [rewrite IR; lia|exact NR].
    + intro e. rewrite idx_alive. cbn [In]. rewrite IR. split.
      * intro A. destruct (Nat.eq_dec e i), (Nat.eq_dec e j); auto.
      * intros [<-|[<-|A]]; [split; auto|split; auto|tauto].
  - assert (Pj' : prob (join (Row s i) (Row s j)) <> 0%Qc).
    { rewrite (prob_join nl) by (apply rowv_length; rewrite (wf_pcx _ _ s W); pose proof (wf_n _ _ s W); nia).
      pose proof (prob_nonneg s i Nn Li). pose proof (prob_nonneg s j Nn Lj). intro Z. apply Pi. apply Qcle_antisym; [|assumption].
      generalize dependent (prob (Row s i)). generalize dependent (prob (Row s j)). intros. qc_lra. }
    set (R' := filter (fun e => negb (e =? i)) (idx s')).
    assert (IR' : forall e, In e R' <-> alive s' e /\ e <> i).
    { intro e. unfold R'. rewrite filter_In, idx_alive, negb_true_iff, Nat.eqb_neq. tauto. }
    apply Permutation_trans with (ent s' i :: map (ent s') R').
    + change (ent s' i :: map (ent s') R') with (map (ent s') (i :: R')). apply Permutation_map. apply NoDup_Permutation; [apply idx_nodup| |].
      * constructor; [rewrite IR'; lia|apply NoDup_filter, idx_nodup].
      * intro e. rewrite idx_alive. cbn [In]. rewrite IR'. split; [intro A; destruct (Nat.eq_dec e i); auto|].
        intros [<-|A]; [|tauto]. split; [lia|]. now rewrite Ri.
    + unfold ent at 1. rewrite Ri, Ni. constructor.
      rewrite (map_ext_in (ent s') (fun e => ent s (old j last e))).
      2:{ intros e I. apply IR' in I as [[Le _] Ne]. unfold ent. destruct (Hr e Le Ne) as [-> ->]. reflexivity. }
      rewrite <- (map_map (old j last) (ent s)). apply Permutation_map.
      assert (Oj : forall e f, In e R' -> In f R' -> old j last e = old j last f -> e = f).
      { intros e f I1 I2. apply IR' in I1 as [[L1 _] _]. apply IR' in I2 as [[L2 _] _]. unfold old. destruct (Nat.eqb_spec e j), (Nat.eqb_spec f j); lia. }
      apply NoDup_Permutation.
      * assert (ND : NoDup R') by apply NoDup_filter, idx_nodup. clear - Oj ND. induction R' as [|x l IH]; [constructor|]. cbn [map]. inversion ND; subst. constructor.
        -- intro I. apply in_map_iff in I as (y & Ey & Iy). assert (y = x) by (apply Oj; [now right|now left|exact Ey]). congruence.
        -- apply IH; [|assumption]. intros. apply Oj; auto; now right.
      * exact NR.
      * intro e. rewrite in_map_iff, IR. split.
        -- intros (f & <- & I). apply IR' in I as [[Lf Pf] Nf]. unfold Aib_Proofs.alive. destruct (Hr f Lf Nf) as [E _]. rewrite E in Pf.
           repeat split; auto; unfold old; destruct (Nat.eqb_spec f j); lia.
        -- intros [[Le Pe] [N1 N2]]. exists (if e =? last then j else e). destruct (Nat.eqb_spec e last) as [El|Nl].
           ++ assert (O : old j last j = e) by (unfold old; rewrite Nat.eqb_refl; congruence). split; [exact O|]. apply IR'. split; [|lia]. split; [lia|].
              destruct (Hr j ltac:(lia) ltac:(lia)) as [E _]. rewrite E, O. exact Pe.
           ++ assert (O : old j last e = e) by (unfold old; destruct (Nat.eqb_spec e j); congruence). split; [exact O|]. apply IR'. split; [|exact N1]. split; [lia|].
              destruct (Hr e ltac:(lia) N1) as [E _]. rewrite E, O. exact Pe.
Qed.

(** *** Information *)
Lemma mutual_perm pc a b : Permutation a b -> mutual pc a = mutual pc b.
Proof.
  induction 1; cbn.
  - reflexivity.
  - destruct x. now rewrite IHPermutation.
  - destruct x, y. ring.
  - congruence.
Qed.
Lemma mutual_app pc a b : mutual pc (a ++ b) = (mutual pc a + mutual pc b)%Qc.
Proof. induction a as [|[n r] a IH]; cbn; [ring|]. rewrite IH. ring. Qed.

Lemma information_ok s pc : wf s -> length pc = nl -> information log_ nl s pc = Some (mutual pc (active s)).
Proof.
  intros W Lp. pose proof (wf_n _ _ s W). unfold information. set (body := fun r i => _).
  destruct (iter_inv (fun k t => t = mutual pc (map (ent s) (filter (fun e => nonnull (prob (Row s e))) (seq 0 k)))) body (nentries s) 0%Qc) as (t & E & ->).
  - reflexivity.
  - intros k t Lk ->. unfold body. rewrite (aget_px N nl s k W Lk). cbn [obind]. rewrite Nat.add_1_r, seq_S, filter_app, map_app, mutual_app. cbn [filter plus].
    rewrite is_null_spec. destruct (nonnull (prob (Row s k))) eqn:En; cbn [negb].
    + set (t0 := mutual pc (map (ent s) (filter _ (seq 0 k)))). set (f := fun c => info (at_ (Row s k) c) (prob (Row s k) * at_ pc c)%Qc).
      match goal with |- exists _, iter nl ?b t0 = _ /\ _ =>
        destruct (iter_inv (fun c t => t = (t0 + sum 0%Qc Qcplus c f)%Qc) b nl t0) as (t & E & ->) end.
      * cbn [sum]. ring.
      * intros c t Lc ->. rewrite (aget_pcx N nl s k c W) by lia. cbn [obind]. rewrite (aget_nth pc c 0%Qc) by lia. cbn [obind]. change (nth c pc 0%Qc) with (at_ pc c). eexists; split; [reflexivity|].
        rewrite Nat.add_1_r. cbn [sum]. generalize (sum 0%Qc Qcplus c f). intro S. unfold f, Aib_Spec.info. rewrite is_null_spec.
        destruct (nonnull (at_ (Row s k) c)); cbn [negb when]; ring.
      * rewrite E. eexists; split; [reflexivity|]. cbn [map Aib_Spec.mutual ent]. fold f. unfold f, ent. cbn [Aib_Spec.mutual]. ring.
    + eexists; split; [reflexivity|]. cbn [map Aib_Spec.mutual]. ring.
  - exact E.
Qed.

Lemma greedy_perm pc n a b ms cs : greedy pc n a ms cs -> Permutation a b -> greedy pc n b ms cs.
Proof.
  intros G Pm. inversion G; subst.
  - constructor. rewrite <- (Permutation_length Pm). assumption.
  - econstructor; eauto.
    + eapply Permutation_trans; [apply Permutation_sym; exact Pm|eassumption].
    + intros u ru v rv I1 I2. apply H0; apply (Permutation_in _ (Permutation_sym Pm)); assumption.
Qed.

(** *** The merges *)
Fixpoint replay (n : nat) (ms : list (nat * nat)) (p : list nat) : list nat :=
  match ms with
  | [] => p
  | (a, b) :: ms => replay (n + 1) ms (upd (upd (upd p a n) b n) n 0)
  end.

Lemma short_nodup (l : list nat) : NoDup l -> (forall a b, In a l -> In b l -> a = b) -> length l <= 1.
Proof.
  destruct l as [|x [|y l]]; intros Nd H; cbn; try lia. inversion Nd; subst. destruct (H2). left. apply H; cbn; auto.
Qed.

Lemma merges_ok pc : length pc = nl -> forall todo i s parents costs,
  wf s -> valid s -> pending s (which s) -> (forall e, In e (which s) -> e < nentries s) -> nonneg s -> nodes_ok s (N + i) ->
  nentries s = todo + 1 -> i + todo + 1 = N -> length parents = 2 * N - 1 ->
  exists ms cs, merges log_ N nl pc todo i s parents costs =
      Some (ms, replay (N + i) ms parents, costs ++ map Some cs ++ repeat None (todo - length cs)) /\
    length cs = length ms /\ greedy pc (N + i) (active s) ms cs.
Proof.
  intro Lpc. induction todo as [|todo IH]; intros i s parents costs W V P Hw Nn [Nd Nb] En Ei Lp; cbn [merges].
  - exists [], []. split; [cbn; now rewrite app_nil_r|]. split; [reflexivity|]. constructor. unfold active. rewrite map_length.
    apply short_nodup; [apply idx_nodup|]. intros a b A B. apply idx_alive in A as [A _], B as [B _]. lia.
  - destruct (update_beta_ok log_ N nl s W V Hw P) as (s1 & E1 & B1 & P1). rewrite E1. cbn [obind].
    destruct B1 as ((be & bi & ->) & W1 & V1 & _). set (s1 := with_ s be bi) in *.
    destruct (min_beta_ok log_ N nl s1 W1 V1 P1 ltac:(cbn; lia)) as (a & b & m & E2 & Hm). rewrite E2. cbn [obind].
    destruct m as [v|].
    + destruct Hm as (Lab & Aa & Ab & Eb & _ & Ev & Mn). pose proof (wf_n _ _ s1 W1) as Ln. pose proof (proj1 Aa) as La. pose proof (proj1 Ab) as Lb.
      rewrite (aget_nth (nodes s1) a 0), (aget_nth (nodes s1) b 0) by (rewrite (wf_nodes _ _ s1 W1); lia). cbn [obind].
      assert (Na : nth a (nodes s1) 0 < N + i) by now apply Nb. assert (Nb' : nth b (nodes s1) 0 < N + i) by now apply Nb.
      rewrite !aset_lt by (rewrite ?upd_length; lia). cbn [obind]. rewrite !aset_lt by (rewrite ?upd_length; lia). cbn [obind]. rewrite !aset_lt by (rewrite ?upd_length; lia). cbn [obind].
      destruct (merge_ok log_ N nl s1 a b (N + i) W1 V1 P1 Lab Aa Ab Eb) as (s2 & E3 & W2 & V2 & P2 & Hw2 & En2 & Ri & Ni & Hr). rewrite E3. cbn [obind].
      destruct (merge_active s1 s2 a b (N + i) W1 Nn Lab Aa Ab En2 Ri Ni Hr) as (rest & Pm1 & Pm2).
      rewrite (information_ok s2 pc W2 Lpc). cbn [obind].
      assert (Old : forall e, e < nentries s2 -> e <> a -> old b (nentries s1 - 1) e < nentries s1).
      { intros e Le Ne. unfold old. destruct (Nat.eqb_spec e b); lia. }
      assert (Nn2 : nonneg s2).
      { intros e c Le Lc. destruct (Nat.eq_dec e a) as [->|Ne].
        - rewrite Ri. unfold at_. rewrite (join_nth nl) by (first [exact Lc|apply rowv_length; rewrite (wf_pcx _ _ s1 W1); nia]).
          replace 0%Qc with (0 + 0)%Qc by ring. apply Qcplus_le_compat; [exact (Nn a c La Lc)|exact (Nn b c Lb Lc)].
        - destruct (Hr e Le Ne) as [-> _]. apply (Nn (old b (nentries s1 - 1) e) c (Old e Le Ne) Lc). }
      assert (No2 : nodes_ok s2 (N + (i + 1))).
      { split.
        - intros e f Le Lf. destruct (Nat.eq_dec e a) as [->|Ne], (Nat.eq_dec f a) as [->|Nf]; auto.
          + rewrite Ni. destruct (Hr f Lf Nf) as [_ ->]. specialize (Nb _ (Old f Lf Nf)). cbn [s1 with_ nodes] in *. lia.
          + rewrite Ni. destruct (Hr e Le Ne) as [_ ->]. specialize (Nb _ (Old e Le Ne)). cbn [s1 with_ nodes] in *. lia.
          + destruct (Hr e Le Ne) as [_ ->], (Hr f Lf Nf) as [_ ->]. intro E. apply Nd in E; [|now apply Old|now apply Old].
            unfold old in E. destruct (Nat.eqb_spec e b), (Nat.eqb_spec f b); lia.
        - intros e Le. destruct (Nat.eq_dec e a) as [->|Ne]; [lia|]. destruct (Hr e Le Ne) as [_ ->]. specialize (Nb _ (Old e Le Ne)). cbn [s1 with_ nodes] in *. lia. }
      set (pa := upd _ (N + i) 0).
      destruct (IH (i + 1) s2 pa (costs ++ [Some (mutual pc (active s2))]) W2 V2 P2 Hw2 Nn2 No2) as (ms & cs & E4 & Lms & G).
      { cbn [s1 with_ nentries] in En2. lia. } { lia. } { unfold pa. now rewrite !upd_length. }
      rewrite E4. cbn [obind]. exists ((nth a (nodes s1) 0, nth b (nodes s1) 0) :: ms), (mutual pc (active s2) :: cs). split; [|split; [cbn; lia|]].
      * cbn [replay]. replace (N + i + 1) with (N + (i + 1)) by lia. fold pa. cbn [map length]. rewrite <- !app_assoc. reflexivity.
      * change (active s) with (active s1). rewrite (mutual_perm pc _ _ Pm2). econstructor.
        -- exact Pm1.
        -- intros u ru w rw I1 I2 Nuw. apply in_map_iff in I1 as (e & Ee & Ie), I2 as (f & Ef & If). apply idx_alive in Ie, If.
           unfold ent in Ee, Ef. injection Ee as Eu <-. injection Ef as Ew <-. rewrite <- Ev. apply Mn; auto. congruence.
        -- replace (N + i + 1) with (N + (i + 1)) by lia. apply greedy_perm with (active s2); [exact G|exact Pm2].
    + exists [], []. split; [reflexivity|]. split; [reflexivity|]. constructor. unfold active. rewrite map_length. apply short_nodup; [apply idx_nodup|].
      intros x y A B. apply idx_alive in A, B. now apply Hm.
Qed.
End Run.

(** *** The tree *)
Lemma count_two M f a b : a < M -> b < M -> a <> b -> (forall x, x < M -> (f x = true <-> x = a \/ x = b)) -> count M f = 2.
Proof.
  intros La Lb Nab H. unfold count. change 2 with (length [a; b]). apply Permutation_length. apply NoDup_Permutation.
  - apply NoDup_filter, seq_NoDup.
  - constructor; [intros [E|[]]; congruence|]. constructor; [intros []|constructor].
  - intro x. rewrite filter_In, in_seq. cbn [In]. split.
    + intros [Lx F]. apply H in F; [|lia]. destruct F; auto.
    + intros [<-|[<-|[]]]; (split; [lia|]); apply H; auto.
Qed.

Section Tree.
Variable log_ : Qc -> Qc.
Variables (nl M : nat) (pc : list Qc).
Notation ids act := (map (@fst nat (list Qc)) act).

Lemma tree_ok n act ms cs : greedy log_ nl pc n act ms cs -> forall p, 0 < n -> NoDup (ids act) -> (forall x, In x (ids act) -> x < n) ->
  length p = M -> n + length ms <= M -> (forall x, x < M -> nth x p 0 < n \/ M <= nth x p 0) ->
  length ms = length act - 1 /\ length (replay n ms p) = M /\
  let q := replay n ms p in let r := n + length ms - 1 in
  (ms = [] -> q = p) /\
  (ms <> [] -> nth r q 0 = 0 /\
    (forall x, In x (ids act) \/ n <= x < r -> n <= nth x q 0 <= r /\ x < nth x q 0) /\
    (forall y, n <= y <= r -> count M (fun x => nth x q 0 =? y) = 2) /\
    (forall x, ~ In x (ids act) -> ~ n <= x <= r -> nth x q 0 = nth x p 0)).
Proof.
  induction 1 as [n act Hl|n act a b ra rb rest ms cs Pm Mn G IH]; intros p Hn Nd Hx Lp Lm Hp; cbv zeta.
  - cbn. repeat split; auto; try congruence. lia.
  - cbn [replay length].
    assert (Pi : Permutation (ids act) (a :: b :: ids rest)) by (apply (Permutation_map fst) in Pm; exact Pm).
    assert (Nd' := Permutation_NoDup Pi Nd). apply NoDup_cons_iff in Nd' as [Ia Nd1]. apply NoDup_cons_iff in Nd1 as [Ib Nd2].
    assert (Nab : a <> b) by (intros ->; apply Ia; now left).
    assert (La : a < n) by (apply Hx; apply (Permutation_in _ (Permutation_sym Pi)); now left).
    assert (Lb : b < n) by (apply Hx; apply (Permutation_in _ (Permutation_sym Pi)); right; now left).
    assert (Lr : forall x, In x (ids rest) -> x < n) by (intros x I; apply Hx; apply (Permutation_in _ (Permutation_sym Pi)); right; now right).
    cbn [length] in Lm. set (p1 := upd (upd (upd p a n) b n) n 0).
    assert (V1 : forall x, nth x p1 0 = if x =? n then 0 else if (x =? a) || (x =? b) then n else nth x p 0).
    { intro x. unfold p1. rewrite !nth_upd by (rewrite ?upd_length; lia). destruct (Nat.eqb_spec x n); [reflexivity|]. destruct (Nat.eqb_spec x b), (Nat.eqb_spec x a); reflexivity. }
    assert (H1 : NoDup (ids ((n, join ra rb) :: rest))) by (cbn [map]; constructor; [intro I; apply Lr in I; cbn in I; lia|exact Nd2]).
    assert (H2 : forall x, In x (ids ((n, join ra rb) :: rest)) -> x < n + 1) by (intros x [<-|I]; [cbn; lia|]; apply Lr in I; lia).
    assert (H3 : length p1 = M) by (unfold p1; now rewrite !upd_length).
    assert (H4 : forall x, x < M -> nth x p1 0 < n + 1 \/ M <= nth x p1 0).
    { intros x Lx. rewrite V1. destruct (Nat.eqb_spec x n); [lia|]. destruct ((x =? a) || (x =? b)); [lia|]. destruct (Hp x Lx); lia. }
    destruct (IH p1 ltac:(lia) H1 H2 H3 ltac:(lia) H4) as (Lms & Lq & Q0 & Q1). clear H1 H2 H3 H4.
    { unfold cluster in *. cbn [length] in Lms. assert (La' : length act = 2 + length rest) by (rewrite (Permutation_length Pm); reflexivity).
      split; [lia|]. split; [exact Lq|]. split; [discriminate|]. intros _.
      assert (Ids : forall x, In x (ids act) <-> x = a \/ x = b \/ In x (ids rest)).
      { intro x. split; intro I; [apply (Permutation_in _ Pi) in I; destruct I as [<-|[<-|I]]; auto|].
        apply (Permutation_in _ (Permutation_sym Pi)). destruct I as [->|[->|I]]; [now left|right; now left|right; now right]. }
      destruct ms as [|m0 ms'].
      * cbn [length] in *. assert (rest = []) by (destruct rest; [reflexivity|cbn in Lms; lia]). subst rest. cbn [map] in *.
        rewrite (Q0 eq_refl). replace (n + 1 - 1) with n by lia. split; [rewrite V1, Nat.eqb_refl; reflexivity|]. split; [|split].
        -- intros x [I|I]; [|lia]. apply Ids in I as [->|[->|[]]]; rewrite V1; destruct (Nat.eqb_spec a n), (Nat.eqb_spec b n); try lia; rewrite ?Nat.eqb_refl, ?orb_true_r; cbn [orb]; lia.
        -- intros y Hy. assert (y = n) by lia. subst y. apply (count_two M _ a b); [lia|lia|exact Nab|]. intros x Lx. rewrite Nat.eqb_eq, V1.
           destruct (Nat.eqb_spec x n); [lia|]. destruct (Nat.eqb_spec x a), (Nat.eqb_spec x b); cbn [orb]; try tauto. destruct (Hp x Lx); lia.
        -- intros x I1 I2. rewrite V1. destruct (Nat.eqb_spec x n); [lia|]. destruct (Nat.eqb_spec x a); [destruct I1; apply Ids; auto|].
           destruct (Nat.eqb_spec x b); [destruct I1; apply Ids; auto|]. reflexivity.
      * destruct (Q1 ltac:(discriminate)) as (R0 & R1 & R2 & R3). clear Q0 Q1. set (ms := m0 :: ms') in *. set (q := replay (n + 1) ms p1) in *.
        replace (n + 1 + length ms - 1) with (n + S (length ms) - 1) in * by lia. set (r := n + S (length ms) - 1) in *. assert (Hr : n < r) by (unfold r, ms; cbn; lia).
        assert (Ea : forall x, x = a \/ x = b -> nth x q 0 = n).
        { intros x Hab. rewrite R3.
          - rewrite V1. destruct (Nat.eqb_spec x n); [lia|]. destruct Hab as [->| ->]; rewrite Nat.eqb_refl, ?orb_true_r; reflexivity.
          - cbn [map fst]. intros [E|I]; [lia|]. destruct Hab as [->| ->]; [apply Ia; now right|now apply Ib].
          - lia. }
        assert (Ot : forall x, In x (ids rest) \/ n <= x < r -> n + 1 <= nth x q 0 <= r /\ x < nth x q 0).
        { intros x I. apply R1. cbn [map fst In]. destruct I as [I|I]; [auto|]. destruct (Nat.eq_dec x n); [left; left; congruence|right; lia]. }
        split; [exact R0|]. split; [|split].
        -- intros x I. assert (C : (x = a \/ x = b) \/ (In x (ids rest) \/ n <= x < r)) by (destruct I as [I|I]; [apply Ids in I; tauto|auto]).
           destruct C as [C|C]; [rewrite (Ea x C); lia|]. specialize (Ot x C). lia.
        -- intros y Hy. destruct (Nat.eq_dec y n) as [->|]; [|apply R2; lia].
           apply (count_two M _ a b); [lia|lia|exact Nab|]. intros x Lx. rewrite Nat.eqb_eq. split; [|apply Ea].
           intro E. destruct (Nat.eq_dec x a); [auto|]. destruct (Nat.eq_dec x b); [auto|]. exfalso.
           destruct (in_dec Nat.eq_dec x (ids rest)) as [I|I]; [specialize (Ot x (or_introl I)); lia|].
           destruct (Nat.eq_dec x r) as [->|]; [rewrite R0 in E; lia|].
           destruct (le_lt_dec n x) as [L1|L1]; [destruct (le_lt_dec r x) as [L2|L2]|].
           ++ rewrite R3 in E; [|cbn [map fst In]; intros [F|F]; [lia|tauto]|lia]. rewrite V1 in E. destruct (Nat.eqb_spec x n); [lia|]. destruct (Nat.eqb_spec x a); [congruence|]. destruct (Nat.eqb_spec x b); [congruence|]. cbn [orb] in E. destruct (Hp x Lx); lia.
           ++ specialize (Ot x (or_intror (conj L1 L2))). lia.
           ++ rewrite R3 in E; [|cbn [map fst In]; intros [F|F]; [lia|tauto]|lia]. rewrite V1 in E. destruct (Nat.eqb_spec x n); [lia|]. destruct (Nat.eqb_spec x a); [congruence|]. destruct (Nat.eqb_spec x b); [congruence|]. cbn [orb] in E. destruct (Hp x Lx); lia.
        -- intros x I1 I2. rewrite Ids in I1. rewrite R3; [|cbn [map fst In]; intros [F|F]; [lia|tauto]|lia]. rewrite V1. destruct (Nat.eqb_spec x n); [lia|].
           destruct (Nat.eqb_spec x a); [tauto|]. destruct (Nat.eqb_spec x b); [tauto|]. reflexivity.
    }
Qed.
End Tree.
