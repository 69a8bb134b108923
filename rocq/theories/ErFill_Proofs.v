(** Lemmas on the filling of regions. *)
From Coq Require Import List Arith Bool ZArith Lia.
Import ListNotations.
From Verif Require Import Base Mser_Model Mser_Spec MserNbr_Proofs ErFill_Model ErFill_Spec.
Local Open Scope nat_scope.

Lemma neighbours_fold cap dims im inv value index subs : forall fuel d s, Forall digit d -> 0 < fuel -> dval d + fuel = 3 ^ length d ->
  neighbours fuel cap dims im inv value index subs d s = ofold (visit cap im inv value index) (keep (fun d => nbr_index subs d dims (strides_of dims) 0) (odo fuel d)) s.
Proof.
  induction fuel as [|f IH]; intros d u Hd Hf HV; [lia|]. cbn [neighbours odo keep]. pose proof (next_dsubs_spec d Hd) as X.
  destruct (nbr_index subs d dims (strides_of dims) 0) as [q|]; cbn [ofold obind].
  - destruct (visit cap im inv value index q u) as [u1|]; cbn [obind]; [|reflexivity]. destruct (next_dsubs d) as [e|]; [|reflexivity]. destruct X as (F & L & V). pose proof (dval_lt e F). apply IH; auto; rewrite ?L in *; lia.
  - destruct (next_dsubs d) as [e|]; [|reflexivity]. destruct X as (F & L & V). pose proof (dval_lt e F). apply IH; auto; rewrite ?L in *; lia.
Qed.
Lemma neighbours_nbs cap dims im inv value index s : pos_dims dims -> index < nel_of dims ->
  neighbours (3 ^ length dims) cap dims im inv value index (subs_of dims index) (repeat (-1)%Z (length dims)) s = ofold (visit cap im inv value index) (nbs dims index) s.
Proof. intros HP Hi. destruct (first_digit (length dims)) as [F V]. rewrite subs_of_coords, neighbours_fold; auto; [apply pow3_pos|]. rewrite repeat_length, V. reflexivity. Qed.
Lemma nodup_bound (l : list nat) n : NoDup l -> (forall x, In x l -> x < n) -> length l <= n.
Proof. intros N H. rewrite <- (seq_length n 0). apply NoDup_incl_length; [exact N|]. intros x X. apply in_seq. specialize (H x X). lia. Qed.
Lemma nodup_bound_but (l : list nat) n w : NoDup l -> (forall x, In x l -> x < n) -> w < n -> ~ In w l -> length l < n.
Proof. intros N H W NI. apply (nodup_bound (w :: l) n); [now constructor|]. intros x [<-|X]; auto. Qed.

Section fill.
  Variables (cap : nat) (dims im : list nat) (inv : bool) (seed : nat).
  Hypothesis HP : pos_dims dims.
  Hypothesis HL : length im = nel_of dims.
  Hypothesis HS : seed < length im.
  Let value := nth seed im 0.
  Definition good (q : nat) : Prop := if inv then value <= nth q im 0 else nth q im 0 <= value.
  Let reg := region dims im inv seed.
  Lemma passes_iff q : passes inv value (nth q im 0) = true <-> good q.
  Proof. unfold passes, good. destruct inv; apply Nat.leb_le. Qed.
  Lemma reg_lt q : reg q -> q < length im.
  Proof. destruct 1; auto. Qed.
  Definition inv_of (done : list nat) (s : state) : Prop :=
    let '(V, M) := s in exists T, M = seed :: T /\ length V = length im /\ (forall q, q < length im -> (nth_error V q = Some true <-> In q T)) /\ NoDup T /\ length M <= cap /\
      (forall q, In q T -> reg q) /\ (In seed T -> exists q, q <> seed /\ reg q) /\ (forall e q, In e done -> adjacent dims e q -> q < length im -> q <> e -> good q -> In q T).
  Lemma visit_ok done e q s : inv_of done s -> reg e -> adjacent dims e q -> q < length im ->
    ((exists w, w < length im /\ ~ reg w) \/ length im = 1) /\ cap = length im \/ length im < cap ->
    exists s', visit cap im inv value e q s = Some s' /\ inv_of done s' /\ (exists R, snd s' = snd s ++ R) /\ (q <> e -> good q -> In q (tl (snd s'))).
  Proof.
    intros I RE A Q C. destruct s as [V M]. pose proof I as (T & -> & LV & VT & ND & LM & TR & TS & TD). unfold visit. destruct (Nat.eqb_spec q e) as [->|NE].
    { eexists. split; [reflexivity|]. split; [exact I|]. split; [exists []; now rewrite app_nil_r|congruence]. }
    unfold aget. rewrite (nth_error_nth' im 0 Q). cbn [obind]. destruct (passes inv value (nth q im 0)) eqn:P; cbn [negb].
    2:{ eexists. split; [reflexivity|]. split; [exact I|]. split; [exists []; now rewrite app_nil_r|]. intros _ G. apply passes_iff in G. congruence. }
    apply passes_iff in P. destruct (nth_error V q) as [f|] eqn:VQ; [|apply nth_error_None in VQ; lia]. cbn [obind]. destruct f.
    { eexists. split; [reflexivity|]. split; [exact I|]. split; [exists []; now rewrite app_nil_r|]. intros _ _. cbn. now apply VT. }
    assert (NT : ~ In q T) by (intros X; apply VT in X; [congruence|exact Q]). assert (RQ : reg q) by (eapply region_step; eauto).
    assert (LT : length (seed :: T) < cap).
    { cbn [length]. destruct C as [[[(w & W & NW)|ONE] ->]|C]; [|exfalso; pose proof (reg_lt e RE); lia|].
      - assert (length (q :: T) < length im); [|cbn [length] in *; lia]. apply (nodup_bound_but (q :: T) (length im) w); auto; [now constructor| |].
        + intros x [<-|X]; [exact Q|]. apply reg_lt. auto.
        + intros [<-|X]; [contradiction|]. apply NW. auto.
      - assert (length T < length im); [|lia]. apply (nodup_bound_but T (length im) q); auto. intros x X. apply reg_lt. auto. }
    unfold aset. replace (q <? length V) with true by (symmetry; apply Nat.ltb_lt; lia). cbn [obind]. replace (length (seed :: T) <? cap) with true by (symmetry; now apply Nat.ltb_lt).
    eexists. split; [reflexivity|]. cbn [snd]. split; [|split; [exists [q]; reflexivity|intros _ _; cbn; apply in_or_app; right; now left]].
    exists (T ++ [q]). split; [reflexivity|]. split; [now rewrite upd_length|]. split; [|split; [|split; [|split; [|split]]]].
    - intros x X. rewrite in_app_iff. destruct (Nat.eq_dec q x) as [->|N]; [rewrite nth_error_upd_eq by lia; cbn; tauto|]. rewrite nth_error_upd_neq by auto. rewrite VT by exact X. cbn. split; [tauto|]. intros [?|[?|[]]]; [assumption|congruence].
    - apply NoDup_rev in ND. rewrite <- (rev_involutive (T ++ [q])). apply NoDup_rev. rewrite rev_app_distr. cbn. constructor; [now rewrite <- in_rev|exact ND].
    - rewrite app_length in *. cbn [length] in *. lia.
    - intros x X. apply in_app_or in X. destruct X as [X|[<-|[]]]; auto.
    - intros X. apply in_app_or in X. destruct X as [X|[->|[]]]; [auto|]. exists e. split; [congruence|exact RE].
    - intros e' x E' A' X N G. apply in_or_app. left. eauto.
  Qed.
  Lemma visits_ok done e l : reg e -> (forall q, In q l -> adjacent dims e q /\ q < length im) -> ((exists w, w < length im /\ ~ reg w) \/ length im = 1) /\ cap = length im \/ length im < cap ->
    forall s, inv_of done s -> exists s', ofold (visit cap im inv value e) l s = Some s' /\ inv_of done s' /\ (exists R, snd s' = snd s ++ R) /\ (forall q, In q l -> q <> e -> good q -> In q (tl (snd s'))).
  Proof.
    intros RE. induction l as [|q l IH]; intros HQ C s I; cbn [ofold].
    - exists s. split; [reflexivity|]. split; [exact I|]. split; [exists []; now rewrite app_nil_r|intros q []].
    - destruct (HQ q (or_introl eq_refl)) as [A Q]. destruct (visit_ok done e q s I RE A Q C) as (s1 & -> & I1 & (R1 & E1) & G1). cbn [obind].
      destruct (IH (fun x X => HQ x (or_intror X)) C s1 I1) as (s2 & -> & I2 & (R2 & E2) & G2). exists s2. split; [reflexivity|]. split; [exact I2|]. split; [exists (R1 ++ R2); rewrite E2, E1; now rewrite app_assoc|].
      intros x [<-|X] N G; [|auto]. specialize (G1 N G). rewrite E2. destruct s1 as [V1 M1]. destruct I1 as (T1 & -> & _). cbn in *. apply in_or_app. now left.
  Qed.
  Lemma fill_ok : ((exists w, w < length im /\ ~ reg w) \/ length im = 1) /\ cap = length im \/ length im < cap -> forall fuel k s, inv_of (firstn k (snd s)) s -> k <= length (snd s) -> S (length im) - k < fuel ->
    exists l, fill fuel cap dims im inv value k s = Some l /\ exists s', inv_of l s' /\ snd s' = l.
  Proof.
    intros C. induction fuel as [|fuel IH]; intros k s I K F; [lia|]. cbn [fill]. destruct (Nat.ltb_spec k (length (snd s))) as [L|L].
    - destruct (nth_error (snd s) k) as [e|] eqn:E; [|apply nth_error_None in E; lia]. unfold aget. rewrite E. cbn [obind].
      assert (RE : reg e). { destruct s as [V M]. destruct I as (T & -> & _ & _ & _ & _ & TR & _). cbn in E. apply nth_error_In in E. destruct E as [<-|E]; [now constructor|auto]. }
      pose proof (reg_lt e RE) as LE. rewrite neighbours_nbs; [|exact HP|rewrite <- HL; exact LE].
      destruct (visits_ok (firstn k (snd s)) e (nbs dims e) RE) with (s := s) as (s1 & -> & I1 & (R1 & E1) & G1); [|exact C|exact I|].
      { intros q Q. apply nbs_spec in Q; [|exact HP|rewrite <- HL; exact LE]. rewrite HL. tauto. }
      cbn [obind]. assert (FN : firstn (S k) (snd s1) = firstn k (snd s) ++ [e]).
      { rewrite E1, firstn_app. replace (S k - length (snd s)) with 0 by lia. cbn [firstn]. rewrite app_nil_r. clear -E. revert k E. induction (snd s) as [|y l IHl]; intros k E; [destruct k; discriminate|]. destruct k as [|k]; cbn in *; [now injection E as ->|]. now rewrite IHl. }
      apply IH; [|rewrite E1, app_length; lia|].
      + destruct s1 as [V1 M1]. destruct I1 as (T & -> & LV & VT & ND & LM & TR & TS & TD). exists T. repeat (split; [assumption || reflexivity|]). intros e' q E' A Q N G. rewrite FN in E'. apply in_app_or in E'. destruct E' as [E'|[<-|[]]]; [eauto|].
        apply (G1 q); auto. apply nbs_spec; [exact HP|rewrite <- HL; exact LE|]. rewrite <- HL. auto.
      + assert (length (snd s) <= S (length im)); [|lia]. destruct s as [V M]. destruct I as (T & -> & _ & _ & ND & _ & TR & _). cbn. apply le_n_S. apply nodup_bound; auto. intros x X. apply reg_lt. auto.
    - exists (snd s). split; [reflexivity|]. exists s. split; [|reflexivity]. now rewrite firstn_all2 in I by lia.
  Qed.
  Lemma closed_region l s : inv_of l s -> snd s = l -> (forall q, In q l <-> reg q) /\ exists T, l = seed :: T /\ NoDup T /\ (In seed T <-> exists q, q <> seed /\ reg q) /\ length l <= cap.
  Proof.
    destruct s as [V M]. cbn. intros (T & E & LV & VT & ND & LM & TR & TS & TD) <-. subst M.
    assert (R : forall q, In q (seed :: T) <-> reg q).
    { intros q. split; [intros [<-|X]; [now constructor|auto]|]. intros X. induction X as [|q s X IH A Ls G]; [now left|]. destruct (Nat.eq_dec s q) as [->|N]; [exact IH|]. right. apply (TD q s IH A Ls N). exact G. }
    split; [exact R|]. exists T. split; [reflexivity|]. split; [exact ND|]. split; [|exact LM]. split; [exact TS|]. intros (q & NQ & RQ).
    assert (N1 : exists s, s <> seed /\ adjacent dims seed s /\ s < length im /\ good s).
    { clear -RQ NQ. revert NQ. induction RQ as [|q s X IH A Ls G]; intros NQ; [congruence|]. destruct (Nat.eq_dec q seed) as [->|N]; [exists s; auto|auto]. }
    destruct N1 as (s & Ns & As & Ls & Gs). assert (IS : In s T) by (apply (TD seed s); auto; now left).
    apply (TD s seed); [now right|now apply adjacent_sym|exact HS|congruence|]. unfold good. destruct inv; unfold value; lia.
  Qed.
End fill.
(** whatever the room, a result is the state at the end of the loop *)
Lemma fill_cap cap dims im inv value : forall fuel k s l, fill fuel cap dims im inv value k s = Some l -> length (snd s) <= cap -> length l <= cap.
Proof.
  assert (N : forall fuel index subs d s s', neighbours fuel cap dims im inv value index subs d s = Some s' -> length (snd s) <= cap -> length (snd s') <= cap).
  { assert (VO : forall e q s s', visit cap im inv value e q s = Some s' -> length (snd s) <= cap -> length (snd s') <= cap).
    { intros e q [V M] s'. unfold visit. destruct (q =? e); [intros [= <-]; auto|]. destruct (aget im q); cbn [obind]; [|discriminate]. destruct (negb _); [intros [= <-]; auto|]. destruct (aget V q) as [[|]|]; cbn [obind]; try discriminate; [intros [= <-]; auto|].
      destruct (aset V q true); cbn [obind]; [|discriminate]. destruct (Nat.ltb_spec (length M) cap); [|discriminate]. intros [= <-] _. cbn. rewrite app_length. cbn. lia. }
    induction fuel as [|fuel IH]; intros index subs d s s' E L; [discriminate|]. cbn [neighbours] in E. destruct (nbr_index subs d dims (strides_of dims) 0) as [q|].
    - destruct (visit cap im inv value index q s) as [s1|] eqn:V; cbn [obind] in E; [|discriminate]. pose proof (VO _ _ _ _ V L). destruct (next_dsubs d); [eauto|injection E as <-; auto].
    - cbn [obind] in E. destruct (next_dsubs d); [eauto|injection E as <-; auto]. }
  induction fuel as [|fuel IH]; intros k s l E L; [discriminate|]. cbn [fill] in E. destruct (k <? length (snd s)); [|injection E as <-; auto]. destruct (aget (snd s) k); cbn [obind] in E; [|discriminate].
  destruct (neighbours _ _ _ _ _ _ _ _ _ s) as [s1|] eqn:Q; cbn [obind] in E; [|discriminate]. eauto.
Qed.
(** with less room the loop gives the same list or fails *)
Lemma ofold_mono cap cap' im inv value e : cap <= cap' -> forall l s s', ofold (visit cap im inv value e) l s = Some s' -> ofold (visit cap' im inv value e) l s = Some s'.
Proof.
  intros C. induction l as [|q l IH]; intros s s' E; cbn [ofold] in *; [exact E|]. destruct (visit cap im inv value e q s) as [s1|] eqn:V; cbn [obind] in E; [|discriminate].
  assert (visit cap' im inv value e q s = Some s1) as ->; [|cbn [obind]; auto]. destruct s as [Vs M]. unfold visit in *. destruct (q =? e); [exact V|]. destruct (aget im q); cbn [obind] in *; [|discriminate]. destruct (negb _); [exact V|]. destruct (aget Vs q) as [[|]|]; cbn [obind] in *; try discriminate; [exact V|].
  destruct (aset Vs q true); cbn [obind] in *; [|discriminate]. destruct (Nat.ltb_spec (length M) cap); [|discriminate]. replace (length M <? cap') with true by (symmetry; apply Nat.ltb_lt; lia). exact V.
Qed.
Lemma neighbours_mono cap cap' dims im inv value : cap <= cap' -> forall fuel index subs d s s', neighbours fuel cap dims im inv value index subs d s = Some s' -> neighbours fuel cap' dims im inv value index subs d s = Some s'.
Proof.
  intros C. induction fuel as [|fuel IH]; intros index subs d s s' E; [discriminate|]. cbn [neighbours] in *. destruct (nbr_index subs d dims (strides_of dims) 0) as [q|].
  - destruct (visit cap im inv value index q s) as [s1|] eqn:V; cbn [obind] in E; [|discriminate]. pose proof (ofold_mono cap cap' im inv value index C [q] s s1) as M. cbn [ofold] in M. rewrite V in M. cbn [obind] in M. specialize (M eq_refl).
    destruct (visit cap' im inv value index q s) as [s2|]; cbn [obind] in *; [|discriminate]. injection M as ->. destruct (next_dsubs d); auto.
  - cbn [obind] in *. destruct (next_dsubs d); auto.
Qed.
Lemma fill_mono cap cap' dims im inv value : cap <= cap' -> forall fuel k s l, fill fuel cap dims im inv value k s = Some l -> fill fuel cap' dims im inv value k s = Some l.
Proof.
  intros C. induction fuel as [|fuel IH]; intros k s l E; [discriminate|]. cbn [fill] in *. destruct (k <? length (snd s)); [|exact E]. destruct (aget (snd s) k); cbn [obind] in *; [|discriminate].
  destruct (neighbours (3 ^ length dims) cap _ _ _ _ _ _ _ s) as [s1|] eqn:Q; cbn [obind] in E; [|discriminate]. rewrite (neighbours_mono cap cap' dims im inv value C _ _ _ _ _ _ Q). cbn [obind]. auto.
Qed.
Lemma start_ok cap dims im inv seed : seed < length im -> 1 <= cap -> inv_of cap dims im inv seed [] (repeat false (length im), [seed]).
Proof.
  intros S0 C. exists []. split; [reflexivity|]. split; [apply repeat_length|]. split; [intros q Q; rewrite nth_error_repeat by exact Q; split; [discriminate|intros []]|]. split; [constructor|]. split; [cbn; lia|]. split; [intros q []|]. split; [intros []|]. intros e q [].
Qed.
