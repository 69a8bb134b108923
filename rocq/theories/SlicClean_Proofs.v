(** Removing small regions: segments are components, small ones join a neighbour. *)
From Coq Require Import List Arith ZArith Bool Lia.
Import ListNotations.
From Verif Require Import Base Loop MserSort_Proofs MserUnion_Proofs Slic_Model Slic_Spec.
Local Open Scope nat_scope.

Lemma firstn_upd_out (l : list nat) k v : k < length l -> firstn (k + 1) (upd l k v) = firstn k l ++ [v].
Proof.
  revert k. induction l as [|a l IH]; intros k H; cbn [length] in H; [lia|]. destruct k; [reflexivity|].
  cbn [upd firstn Nat.add app]. f_equal. apply IH. lia.
Qed.
Lemma firstn_upd_in (l : list nat) k v m : m <= k -> firstn m (upd l k v) = firstn m l.
Proof.
  revert k m. induction l as [|a l IH]; intros k m H; [reflexivity|]. destruct k, m; try reflexivity; [lia|].
  cbn [upd firstn]. f_equal. apply IH. lia.
Qed.
Lemma firstn_in_mono (segment segment' : list nat) size size' q : size <= size' -> firstn size segment' = firstn size segment ->
  In q (firstn size segment) -> In q (firstn size' segment').
Proof.
  intros H F X. rewrite <- F in X. replace size with (Nat.min size size') in X by lia. rewrite <- firstn_firstn in X.
  rewrite <- (firstn_skipn size (firstn size' segment')). apply in_or_app. left. exact X.
Qed.
Lemma nth_firstn_any (l : list nat) k i d : i < k -> nth i (firstn k l) d = nth i l d.
Proof.
  revert l i. induction k as [|k IH]; intros l i H; [lia|]. destruct l as [|a l]; [destruct i; reflexivity|]. destruct i; [reflexivity|]. cbn. apply IH. lia.
Qed.

Section Clean.
Variables (w h minsize : nat).
Hypothesis W : 0 < w.
Local Notation n := (w * h).

(** *** Neighbours *)
Lemma pixel_coords x y : x < w -> (x + y * w) mod w = x /\ (x + y * w) / w = y.
Proof.
  intros H. rewrite Nat.mod_add, Nat.div_add, Nat.mod_small, Nat.div_small by lia. lia.
Qed.
Lemma pixel_eq p : p = p mod w + p / w * w.
Proof. pose proof (Nat.div_mod p w). lia. Qed.
Lemma row_lt p : p < n <-> p / w < h.
Proof.
  split; intros H.
  - apply Nat.div_lt_upper_bound; lia.
  - rewrite (pixel_eq p). pose proof (Nat.mod_upper_bound p w). nia.
Qed.
Lemma neighbor_adj p dir q : p < n -> dir < 4 -> neighbor w h p dir = Some q -> adjacent w h p q.
Proof.
  intros Hp Hd. unfold neighbor. pose proof (Nat.mod_upper_bound p w ltac:(lia)) as M. apply row_lt in Hp as R.
  destruct (((0 <=? _) && _ && _ && _)%Z) eqn:E; [|discriminate]. intros Q. injection Q as <-.
  rewrite !andb_true_iff, !Z.leb_le, !Z.ltb_lt in E. destruct E as (((E1 & E2) & E3) & E4).
  set (xp := (Z.of_nat (p mod w) + shift_x dir)%Z) in *. set (yp := (Z.of_nat (p / w) + shift_y dir)%Z) in *.
  replace (Z.to_nat (xp + yp * Z.of_nat w)) with (Z.to_nat xp + Z.to_nat yp * w) by nia.
  destruct (pixel_coords (Z.to_nat xp) (Z.to_nat yp)) as [C1 C2]; [lia|].
  split; [exact Hp|]. split; [apply row_lt; rewrite C2; lia|]. rewrite C1, C2.
  unfold xp, yp in *. destruct dir as [|[|[|[|]]]]; cbn [shift_x shift_y] in *; try lia.
Qed.
Lemma adj_neighbor p q : adjacent w h p q -> exists dir, dir < 4 /\ neighbor w h p dir = Some q.
Proof.
  intros (Hp & Hq & A). pose proof (Nat.mod_upper_bound p w ltac:(lia)) as Mp. pose proof (Nat.mod_upper_bound q w ltac:(lia)) as Mq.
  apply row_lt in Hp as Rp. apply row_lt in Hq as Rq. pose proof (pixel_eq q) as Q.
  assert (K : forall dir, dir < 4 -> (Z.of_nat (q mod w) = Z.of_nat (p mod w) + shift_x dir)%Z -> (Z.of_nat (q / w) = Z.of_nat (p / w) + shift_y dir)%Z ->
     exists dir, dir < 4 /\ neighbor w h p dir = Some q).
  { intros dir Hd X Y. exists dir. split; [exact Hd|]. unfold neighbor. rewrite <- X, <- Y.
    destruct (((0 <=? _) && _ && _ && _)%Z) eqn:E.
    - f_equal. rewrite Q at 3. nia.
    - exfalso. rewrite !andb_false_iff, !Z.leb_gt, !Z.ltb_ge in E. lia. }
  destruct A as [[R [C|C]]|[C [R|R]]].
  - apply (K 1); cbn [shift_x shift_y]; lia.
  - apply (K 0); cbn [shift_x shift_y]; lia.
  - apply (K 3); cbn [shift_x shift_y]; lia.
  - apply (K 2); cbn [shift_x shift_y]; lia.
Qed.
Lemma adj_sym p q : adjacent w h p q -> adjacent w h q p.
Proof. unfold adjacent. lia. Qed.
(** every pixel but the first has an earlier neighbour *)
Lemma earlier p : 0 < p -> p < n -> exists q, q < p /\ adjacent w h p q.
Proof.
  intros P Hp. pose proof (Nat.mod_upper_bound p w ltac:(lia)) as M. pose proof (pixel_eq p) as E. apply row_lt in Hp as R.
  destruct (Nat.eq_dec (p mod w) 0) as [Z|Z].
  - assert (0 < p / w) by (destruct (p / w); lia).
    destruct (pixel_coords (p mod w) (p / w - 1) M) as [C1 C2].
    exists (p mod w + (p / w - 1) * w). split; [nia|]. split; [exact Hp|]. split; [apply row_lt; rewrite C2; lia|]. rewrite C1, C2. lia.
  - destruct (pixel_coords (p mod w - 1) (p / w)) as [C1 C2]; [lia|].
    exists (p mod w - 1 + p / w * w). split; [lia|]. split; [exact Hp|]. split; [apply row_lt; rewrite C2; lia|]. rewrite C1, C2. lia.
Qed.

(** *** Regions *)
Lemma joined_lt lab p q : joined w h lab p q -> p < n /\ q < n.
Proof. induction 1; [tauto|]. destruct H0 as (_ & ? & _). tauto. Qed.
Lemma joined_lab lab p q : joined w h lab p q -> lab p = lab q.
Proof. induction 1; congruence. Qed.
Lemma joined_trans lab p q r : joined w h lab p q -> joined w h lab q r -> joined w h lab p r.
Proof. intros A B. induction B; [exact A|]. eapply joined_step; eassumption. Qed.
Lemma joined_sym lab p q : joined w h lab p q -> joined w h lab q p.
Proof.
  induction 1 as [Hp|q r A IH B E]; [apply joined_self; exact Hp|].
  eapply joined_trans; [|exact IH]. eapply joined_step; [apply joined_self; apply B|apply adj_sym; exact B|congruence].
Qed.
(** a region stays in one piece when labels of its pixels are kept *)
Lemma joined_mono lab lab' p q : (forall r, joined w h lab p r -> lab' r = lab' p) -> joined w h lab p q -> joined w h lab' p q.
Proof.
  intros M H. induction H as [Hp|q r A IH B E]; [apply joined_self; exact Hp|].
  eapply joined_step; [exact IH|exact B|]. rewrite (M q A), (M r); [reflexivity|]. eapply joined_step; eassumption.
Qed.

(** *** The segment of a pixel *)
Definition lab (l : list Z) (p : nat) : Z := nth p l 0%Z.
Variable seg : list Z.
Hypothesis SL : length seg = n.
Hypothesis SP : forall p, p < n -> (0 <= lab seg p)%Z.
Local Notation J := (joined w h (lab seg)).

Definition overlay (c0 c : list Z) (S : list nat) (v : Z) : Prop :=
  length c = n /\ forall q, q < n -> lab c q = if in_dec Nat.eq_dec q S then v else lab c0 q.

Section Segment.
Variables (c0 : list Z) (p : nat).
Hypothesis C0 : length c0 = n.
Hypothesis P : p < n.
Hypothesis U : forall q, J p q -> lab c0 q = 0%Z.
Local Notation label := (lab seg p).

Definition growing (c : list Z) (segment : list nat) (size : nat) : Prop :=
  overlay c0 c (firstn size segment) (label + 1)%Z /\ length segment = n /\ size <= n /\ NoDup (firstn size segment) /\
  (forall q, In q (firstn size segment) -> J p q).
Definition opened (S : list nat) (q : nat) : Prop := forall r, adjacent w h q r -> lab seg r = label -> In r S.

Lemma open_pixel_ok c segment size open : growing c segment size -> In open (firstn size segment) ->
  exists c' segment' size', open_pixel w h seg label open (c, segment, size) = Some (c', segment', size') /\
    growing c' segment' size' /\ size <= size' /\ firstn size segment' = firstn size segment /\ opened (firstn size' segment') open.
Proof.
  intros G O. assert (Jo : J p open) by (apply G; exact O). destruct (joined_lt _ _ _ Jo) as [_ Ho].
  unfold open_pixel.
  match goal with |- context [iter 4 ?b ?s] => destruct (iter_inv (fun k (st : list Z * list nat * nat) =>
    let '(c', segment', size') := st in growing c' segment' size' /\ size <= size' /\ firstn size segment' = firstn size segment /\
    forall dir r, dir < k -> neighbor w h open dir = Some r -> lab seg r = label -> In r (firstn size' segment')) b 4 s) as (st & E & I) end.
  - split; [exact G|]. split; [lia|]. split; [reflexivity|]. intros; lia.
  - intros k [[c' segment'] size'] Hk (G' & Hs & F & I). destruct (neighbor w h open k) as [q|] eqn:N.
    + pose proof (neighbor_adj open k q Ho Hk N) as A. assert (Hq : q < n) by apply A.
      destruct G' as ((L' & OV) & LS & SZ & ND & JJ).
      rewrite (aget_nth c' q 0%Z) by lia. cbn [obind]. rewrite (aget_nth seg q 0%Z) by lia. cbn [obind].
      change (nth q c' 0%Z) with (lab c' q). change (nth q seg 0%Z) with (lab seg q).
      destruct ((lab c' q =? 0)%Z && (lab seg q =? label)%Z) eqn:T.
      * apply andb_true_iff in T. destruct T as [T1 T2]. apply Z.eqb_eq in T1, T2.
        assert (Jq : J p q) by (eapply joined_step; [exact Jo|exact A|rewrite <- (joined_lab _ _ _ Jo); congruence]).
        assert (NI : ~ In q (firstn size' segment')).
        { intros X. rewrite OV in T1 by exact Hq. destruct (in_dec Nat.eq_dec q (firstn size' segment')); [|contradiction]. pose proof (SP p P). lia. }
        assert (ND' : NoDup (firstn size' segment' ++ [q])).
        { apply nodup_app; [exact ND|repeat constructor; intros []|]. intros y Y [<-|[]]. exact (NI Y). }
        assert (SZ' : size' < n).
        { assert (length (firstn size' segment' ++ [q]) <= length (seq 0 n)).
          { apply NoDup_incl_length; [exact ND'|]. intros y Y. apply in_seq. apply in_app_or in Y. destruct Y as [Y|[<-|[]]]; [|lia].
            destruct (joined_lt _ _ _ (JJ y Y)). lia. }
          rewrite app_length, firstn_length, seq_length in H. cbn [length] in H. lia. }
        rewrite !aset_lt by lia. cbn [obind]. eexists. split; [reflexivity|].
        assert (FE : firstn (size' + 1) (upd segment' size' q) = firstn size' segment' ++ [q]) by (apply firstn_upd_out; lia).
        split; [split; [|split; [|split; [|split]]]|split; [|split]].
        -- split; [rewrite upd_length; exact L'|]. intros r Hr. rewrite FE. unfold lab. rewrite nth_upd by lia. fold (lab c' r). rewrite OV by exact Hr.
           destruct (Nat.eqb_spec r q) as [->|NE].
           ++ destruct (in_dec Nat.eq_dec q (firstn size' segment' ++ [q])) as [|X]; [reflexivity|]. exfalso. apply X. apply in_or_app. right. left. reflexivity.
           ++ destruct (in_dec Nat.eq_dec r (firstn size' segment')) as [X|X], (in_dec Nat.eq_dec r (firstn size' segment' ++ [q])) as [Y|Y]; try reflexivity.
              ** exfalso. apply Y. apply in_or_app. left. exact X.
              ** exfalso. apply in_app_or in Y. destruct Y as [Y|[Y|[]]]; [exact (X Y)|congruence].
        -- rewrite upd_length. exact LS.
        -- lia.
        -- rewrite FE. exact ND'.
        -- rewrite FE. intros r Hr. apply in_app_or in Hr. destruct Hr as [Hr|[<-|[]]]; [apply JJ; exact Hr|exact Jq].
        -- lia.
        -- rewrite <- F. apply firstn_upd_in. exact Hs.
        -- rewrite FE. intros dir r Hd N' L2. apply in_or_app. destruct (Nat.eq_dec dir k) as [->|NE].
           ++ right. left. congruence.
           ++ left. apply (I dir); [lia|exact N'|exact L2].
      * eexists. split; [reflexivity|]. split; [exact (conj (conj L' OV) (conj LS (conj SZ (conj ND JJ))))|]. split; [exact Hs|]. split; [exact F|].
        intros dir r Hd N' L2. destruct (Nat.eq_dec dir k) as [->|NE]; [|apply (I dir); [lia|exact N'|exact L2]].
        rewrite N in N'. injection N' as <-.
        assert (Jq : J p q) by (eapply joined_step; [exact Jo|exact A|rewrite <- (joined_lab _ _ _ Jo); congruence]).
        apply andb_false_iff in T. destruct T as [T|T]; [|apply Z.eqb_neq in T; contradiction].
        apply Z.eqb_neq in T. rewrite OV in T by exact Hq. destruct (in_dec Nat.eq_dec q (firstn size' segment')); [assumption|].
        exfalso. apply T. apply U. exact Jq.
    + eexists. split; [reflexivity|]. split; [exact G'|]. split; [exact Hs|]. split; [exact F|].
      intros dir r Hd N' L2. destruct (Nat.eq_dec dir k) as [->|NE]; [congruence|]. apply (I dir); [lia|exact N'|exact L2].
  - destruct st as [[c' segment'] size']. destruct I as (G' & Hs & F & I). exists c', segment', size'. split; [exact E|].
    split; [exact G'|]. split; [exact Hs|]. split; [exact F|]. intros r A L. destruct (adj_neighbor _ _ A) as (dir & Hd & N).
    apply (I dir); assumption.
Qed.
Lemma expand_ok fuel : forall ex c segment size, growing c segment size -> ex <= size -> n < fuel + ex ->
  (forall k, k < ex -> opened (firstn size segment) (nth k segment 0)) ->
  exists c' segment' size', expand w h fuel seg label ex (c, segment, size) = Some (c', segment', size') /\
    growing c' segment' size' /\ size <= size' /\ firstn size segment' = firstn size segment /\
    forall q, In q (firstn size' segment') -> opened (firstn size' segment') q.
Proof.
  induction fuel as [|fuel IH]; intros ex c segment size G EX F OP.
  { destruct G as (_ & _ & SZ & _). lia. }
  cbn [expand]. pose proof G as (_ & LS & SZ & _). destruct (Nat.ltb_spec ex size) as [L|L].
  - rewrite (aget_nth segment ex 0) by lia. cbn [obind].
    assert (IN : In (nth ex segment 0) (firstn size segment)).
    { rewrite <- (nth_firstn_any segment size ex 0 L). apply nth_In. rewrite firstn_length. lia. }
    destruct (open_pixel_ok c segment size _ G IN) as (c1 & s1 & z1 & E1 & G1 & Hz & F1 & O1). rewrite E1. cbn [obind].
    destruct (IH (ex + 1) c1 s1 z1 G1) as (c2 & s2 & z2 & E2 & G2 & Hz2 & F2 & O2); [lia|lia| |].
    + assert (NE : forall k, k < size -> nth k s1 0 = nth k segment 0).
      { intros k Hk. rewrite <- (nth_firstn_any s1 size k 0 Hk), F1. apply nth_firstn_any. exact Hk. }
      intros k Hk. rewrite NE by lia. destruct (Nat.eq_dec k ex) as [->|NK]; [exact O1|].
      intros r A X. eapply firstn_in_mono; [exact Hz|exact F1|]. apply (OP k ltac:(lia) r A X).
    + exists c2, s2, z2. split; [exact E2|]. split; [exact G2|]. split; [lia|]. split; [|exact O2].
      rewrite <- F1. replace (firstn size s2) with (firstn size (firstn z1 s2)) by (rewrite firstn_firstn; f_equal; lia).
      rewrite F2, firstn_firstn. f_equal. lia.
  - assert (ex = size) by lia. subst ex. exists c, segment, size. split; [reflexivity|]. split; [exact G|]. split; [lia|]. split; [reflexivity|].
    intros q Hq. apply (In_nth _ _ 0) in Hq. destruct Hq as (k & Hk & <-). rewrite firstn_length in Hk. rewrite nth_firstn_any by lia. apply OP. lia.
Qed.
(** the segment is the region of p *)
Lemma component c segment size : growing c segment size -> In p (firstn size segment) ->
  (forall q, In q (firstn size segment) -> opened (firstn size segment) q) -> forall q, In q (firstn size segment) <-> J p q.
Proof.
  intros G IP O q. split; [apply G|]. induction 1 as [_|q r A IH B E]; [exact IP|].
  apply (O q IH r B). rewrite <- E. symmetry. apply (joined_lab _ _ _ A).
Qed.
End Segment.

Lemma relabel_ok segment size cl c : length segment = n -> size <= n -> (forall q, In q (firstn size segment) -> q < n) -> length c = n ->
  exists c', relabel segment size cl c = Some c' /\ overlay c c' (firstn size segment) cl.
Proof.
  intros LS SZ B LC. unfold relabel.
  match goal with |- context [iter size ?b ?s] => destruct (iter_inv (fun k c' => length c' = n /\ forall q, q < n -> lab c' q = if in_dec Nat.eq_dec q (skipn (size - k) (firstn size segment)) then cl else lab c q) b size s) as (c' & E & L' & H) end.
  - split; [exact LC|]. intros q Hq. rewrite Nat.sub_0_r, skipn_all2 by (rewrite firstn_length; lia).
    destruct (in_dec Nat.eq_dec q []) as [[]|]. reflexivity.
  - intros k c' Hk [L' H]. cbv beta. rewrite (aget_nth segment (size - 1 - k) 0) by lia. cbn [obind].
    set (q0 := nth (size - 1 - k) segment 0).
    assert (SK : skipn (size - (k + 1)) (firstn size segment) = q0 :: skipn (size - k) (firstn size segment)).
    { replace (size - (k + 1)) with (size - 1 - k) by lia. replace (size - k) with (S (size - 1 - k)) by lia.
      set (m := size - 1 - k). assert (HM : m < length (firstn size segment)) by (rewrite firstn_length; unfold m; lia).
      replace q0 with (nth m (firstn size segment) 0) by (apply (nth_firstn_any segment size m 0); unfold m; lia).
      clearbody m. clear - HM. revert m HM. induction (firstn size segment) as [|a l IH]; intros m HM; cbn in HM; [lia|]. destruct m; [reflexivity|]. cbn. apply IH. lia. }
    assert (Hq0 : q0 < n).
    { apply B. unfold q0. rewrite <- (nth_firstn_any segment size (size - 1 - k) 0) by lia. apply nth_In. rewrite firstn_length. lia. }
    rewrite aset_lt by lia. eexists. split; [reflexivity|]. split; [rewrite upd_length; exact L'|].
    intros q Hq. unfold lab. rewrite nth_upd by lia. fold (lab c' q). rewrite H by exact Hq. rewrite SK.
    destruct (Nat.eqb_spec q q0) as [->|NE].
    + destruct (in_dec Nat.eq_dec q0 (q0 :: _)) as [|X]; [reflexivity|]. exfalso. apply X. left. reflexivity.
    + destruct (in_dec Nat.eq_dec q (skipn (size - k) _)) as [X|X], (in_dec Nat.eq_dec q (q0 :: _)) as [Y|Y]; try reflexivity.
      * exfalso. apply Y. right. exact X.
      * exfalso. destruct Y as [Y|Y]; [congruence|contradiction].
  - exists c'. split; [exact E|]. split; [exact L'|]. intros q Hq. rewrite H by exact Hq. rewrite Nat.sub_diag. reflexivity.
Qed.
Lemma clean_label_ok c p v : length c = n -> p < n ->
  exists cl, clean_label w h c p v = Some cl /\
    ((cl = (v + 1)%Z /\ forall q, adjacent w h p q -> lab c q = 0%Z) \/ exists q, adjacent w h p q /\ lab c q <> 0%Z /\ cl = lab c q).
Proof.
  intros LC P. unfold clean_label.
  match goal with |- context [iter 4 ?b ?s] => destruct (iter_inv (fun k cl =>
    (cl = (v + 1)%Z /\ forall dir q, dir < k -> neighbor w h p dir = Some q -> lab c q = 0%Z) \/ exists q, adjacent w h p q /\ lab c q <> 0%Z /\ cl = lab c q) b 4 s) as (cl & E & I) end.
  - left. split; [reflexivity|]. intros; lia.
  - intros k cl Hk I. destruct (neighbor w h p k) as [q|] eqn:N.
    + pose proof (neighbor_adj p k q P Hk N) as A. assert (Hq : q < n) by apply A. rewrite (aget_nth c q 0%Z) by lia. cbn [obind]. eexists. split; [reflexivity|].
      change (nth q c 0%Z) with (lab c q). destruct (Z.eqb_spec (lab c q) 0) as [Z|Z].
      * destruct I as [[-> I]|I]; [left|right; exact I]. split; [reflexivity|]. intros dir r Hd N'. destruct (Nat.eq_dec dir k) as [->|]; [congruence|]. apply (I dir); [lia|exact N'].
      * right. exists q. auto.
    + eexists. split; [reflexivity|]. destruct I as [[-> I]|I]; [left|right; exact I]. split; [reflexivity|]. intros dir r Hd N'.
      destruct (Nat.eq_dec dir k) as [->|]; [congruence|]. apply (I dir); [lia|exact N'].
  - exists cl. split; [exact E|]. destruct I as [[-> I]|I]; [left|right; exact I]. split; [reflexivity|].
    intros q A. destruct (adj_neighbor _ _ A) as (dir & Hd & N). apply (I dir); assumption.
Qed.

(** *** The scan *)
Definition scanned (i : nat) (c : list Z) : Prop :=
  length c = n /\
  (forall p, p < i -> lab c p <> 0%Z) /\
  (forall p q, J p q -> lab c p = lab c q) /\
  (forall p, p < n -> lab c p <> 0%Z -> exists q, joined w h (lab c) p q /\ lab c p = (lab seg q + 1)%Z) /\
  (forall p, p < n -> lab c p <> 0%Z -> at_least w h minsize (lab c) p \/ joined w h (lab c) p 0) /\
  (forall p, p < n -> lab c p <> 0%Z -> at_least w h minsize (lab seg) p -> lab c p = (lab seg p + 1)%Z).

Lemma grow_joined c c' p q : (forall r, r < n -> lab c r <> 0%Z -> lab c' r = lab c r) -> p < n -> lab c p <> 0%Z ->
  joined w h (lab c) p q -> joined w h (lab c') p q.
Proof.
  intros E Hp Np. apply joined_mono. intros r Jr. pose proof (joined_lab _ _ _ Jr) as L. destruct (joined_lt _ _ _ Jr) as [_ Hr].
  rewrite (E p Hp Np), (E r Hr) by congruence. congruence.
Qed.
Lemma scan_step i c segment : i < n -> scanned i c -> length segment = n ->
  exists c' segment', clean_pixel w h minsize seg i (c, segment) = Some (c', segment') /\ scanned (i + 1) c' /\ length segment' = n.
Proof.
  intros Hi (LC & A1 & A2 & A3 & A4 & A5) LS. unfold clean_pixel. rewrite (aget_nth c i 0%Z) by lia. cbn [obind]. change (nth i c 0%Z) with (lab c i).
  destruct (Z.eqb_spec (lab c i) 0) as [Z|Z]; cbn [negb].
  2:{ exists c, segment. split; [reflexivity|]. split; [|exact LS]. split; [exact LC|]. split; [|auto].
      intros p Hp. destruct (Nat.eq_dec p i) as [->|]; [exact Z|]. apply A1. lia. }
  rewrite (aget_nth seg i 0%Z) by lia. cbn [obind]. change (nth i seg 0%Z) with (lab seg i).
  rewrite (aset_lt segment) by lia. cbn [obind]. rewrite aset_lt by lia. cbn [obind].
  destruct (clean_label_ok (upd c i (lab seg i + 1)%Z) i (lab seg i)) as (cl & -> & CL); [rewrite upd_length; exact LC|exact Hi|]. cbn [obind].
  assert (CL' : (cl = (lab seg i + 1)%Z /\ i = 0) \/ exists q, adjacent w h i q /\ lab c q <> 0%Z /\ cl = lab c q).
  { assert (NI : forall q, adjacent w h i q -> lab (upd c i (lab seg i + 1)%Z) q = lab c q).
    { intros q A. unfold lab. rewrite nth_upd by lia. destruct (Nat.eqb_spec q i) as [->|]; [|reflexivity]. exfalso. destruct A as (_ & _ & A). lia. }
    destruct CL as [[-> N]|(q & A & B & ->)].
    - left. split; [reflexivity|]. destruct (Nat.eq_dec i 0) as [|NZ]; [assumption|]. exfalso. destruct (earlier i) as (q & Hq & A); [lia|exact Hi|].
      apply (A1 q Hq). rewrite <- (NI q A). apply N. exact A.
    - right. exists q. split; [exact A|]. rewrite NI in * by exact A. auto. }
  clear CL.
  assert (U : forall q, J i q -> lab c q = 0%Z) by (intros q Jq; rewrite <- (A2 i q Jq); exact Z).
  assert (G : growing c i (upd c i (lab seg i + 1)%Z) (upd segment 0 i) 1).
  { assert (F0 : firstn 1 (upd segment 0 i) = [i]) by exact (firstn_upd_out segment 0 i ltac:(lia)). unfold growing. rewrite F0.
    split; [split; [rewrite upd_length; exact LC|]|split; [rewrite upd_length; exact LS|split; [lia|split; [repeat constructor; intros []|]]]].
    - intros q Hq. unfold lab at 1. rewrite nth_upd by lia. destruct (Nat.eqb_spec q i) as [->|NE].
      + destruct (in_dec Nat.eq_dec i [i]) as [|X]; [reflexivity|]. exfalso. apply X. left. reflexivity.
      + destruct (in_dec Nat.eq_dec q [i]) as [[X|[]]|X]; [congruence|reflexivity].
    - intros q [<-|[]]. apply joined_self. exact Hi. }
  destruct (expand_ok c i LC Hi U (n + 1) 0 _ _ _ G) as (c1 & s1 & z1 & E & G1 & Hz & F1 & O1); [lia|lia|intros; lia|].
  rewrite E. cbn [obind].
  assert (IP : In i (firstn z1 s1)).
  { eapply firstn_in_mono; [exact Hz|exact F1|]. change 1 with (0 + 1). rewrite firstn_upd_out by lia. left. reflexivity. }
  pose proof (component c i c1 s1 z1 G1 IP O1) as COMP. destruct G1 as ((L1 & OV1) & LS1 & SZ1 & ND1 & _).
  set (S := firstn z1 s1) in *.
  (* the conclusion for any label given to the segment *)
  assert (FIN : forall c2 L, overlay c c2 S L -> (0 < L)%Z ->
     (L = (lab seg i + 1)%Z /\ (minsize <= z1 \/ i = 0)) \/ (z1 < minsize /\ exists q, adjacent w h i q /\ lab c q <> 0%Z /\ L = lab c q) -> scanned (i + 1) c2).
  { intros c2 L (L2 & OV2) LP CASE.
    assert (INS : forall q, J i q -> lab c2 q = L).
    { intros q Jq. rewrite OV2 by (apply (joined_lt _ _ _ Jq)). destruct (in_dec Nat.eq_dec q S) as [|X]; [reflexivity|]. exfalso. apply X. apply COMP. exact Jq. }
    assert (OUT : forall q, q < n -> ~ J i q -> lab c2 q = lab c q).
    { intros q Hq Jq. rewrite OV2 by exact Hq. destruct (in_dec Nat.eq_dec q S) as [X|]; [|reflexivity]. exfalso. apply Jq. apply COMP. exact X. }
    assert (DEC : forall q, J i q \/ ~ J i q).
    { intros q. destruct (in_dec Nat.eq_dec q S) as [X|X]; [left|right]; rewrite <- COMP; assumption. }
    assert (KEEP : forall q, q < n -> lab c q <> 0%Z -> lab c2 q = lab c q).
    { intros q Hq NZ. apply OUT; [exact Hq|]. intros Jq. apply NZ. apply U. exact Jq. }
    assert (SELF : forall q, J i q -> joined w h (lab c2) q i).
    { intros q Jq. apply joined_mono with (lab := lab seg); [|apply joined_sym; exact Jq]. intros r Jr. rewrite !INS; [reflexivity|exact Jq|].
      eapply joined_trans; [exact Jq|exact Jr]. }
    assert (Ji : J i i) by (apply joined_self; exact Hi).
    split; [exact L2|]. split; [|split; [|split; [|split]]].
    - intros p Hp. destruct (DEC p) as [Jp|Jp]; [rewrite INS by exact Jp; lia|].
      assert (p <> i) by (intros ->; contradiction). rewrite OUT by (try exact Jp; lia). apply A1. lia.
    - intros p q Jpq. destruct (DEC p) as [Jp|Jp].
      + rewrite !INS; [reflexivity|eapply joined_trans; eassumption|exact Jp].
      + destruct (joined_lt _ _ _ Jpq). rewrite !OUT; [apply A2; exact Jpq|assumption| |assumption|exact Jp].
        intros Jq. apply Jp. eapply joined_trans; [exact Jq|apply joined_sym; exact Jpq].
    - intros p Hp NZ. destruct (DEC p) as [Jp|Jp].
      + rewrite INS by exact Jp. destruct CASE as [[-> _]|(_ & q & A & NQ & ->)].
        * exists i. split; [apply SELF; exact Jp|reflexivity].
        * assert (Hq : q < n) by apply A. destruct (A3 q Hq NQ) as (r & Jr & E'). exists r. split; [|exact E'].
          eapply joined_trans; [|eapply grow_joined; [exact KEEP|exact Hq|exact NQ|exact Jr]].
          eapply joined_step; [apply SELF; exact Jp|exact A|]. rewrite INS by exact Ji. symmetry. apply KEEP; assumption.
      + rewrite OUT in * by assumption. destruct (A3 p Hp NZ) as (r & Jr & E'). exists r. split; [|exact E'].
        eapply grow_joined; [exact KEEP|exact Hp|exact NZ|exact Jr].
    - assert (BIG : forall q, q < n -> lab c q <> 0%Z -> at_least w h minsize (lab c2) q \/ joined w h (lab c2) q 0).
      { intros q Hq NQ. destruct (A4 q Hq NQ) as [(l & ND & LE & B)|B].
        - left. exists l. split; [exact ND|]. split; [exact LE|]. intros r Hr. eapply grow_joined; [exact KEEP|exact Hq|exact NQ|apply B; exact Hr].
        - right. eapply grow_joined; [exact KEEP|exact Hq|exact NQ|exact B]. }
      intros p Hp NZ. destruct (DEC p) as [Jp|Jp].
      + destruct CASE as [[-> [C| ->]]|(_ & q & A & NQ & EL)].
        * left. exists S. split; [exact ND1|]. split; [unfold S; rewrite firstn_length; lia|]. intros q Hq. apply COMP in Hq.
          eapply joined_trans; [apply SELF; exact Jp|apply joined_sym; apply SELF; exact Hq].
        * right. apply SELF. exact Jp.
        * assert (Hq : q < n) by apply A.
          assert (PQ : joined w h (lab c2) p q).
          { eapply joined_step; [apply SELF; exact Jp|exact A|]. rewrite INS by exact Ji. rewrite EL. symmetry. apply KEEP; assumption. }
          destruct (BIG q Hq NQ) as [(l & ND & LE & B)|B].
          -- left. exists l. split; [exact ND|]. split; [exact LE|]. intros r Hr. eapply joined_trans; [exact PQ|apply B; exact Hr].
          -- right. eapply joined_trans; [exact PQ|exact B].
      + rewrite OUT in NZ by assumption. apply BIG; assumption.
    - intros p Hp NZ LARGE. destruct (DEC p) as [Jp|Jp].
      + rewrite INS by exact Jp. destruct CASE as [[-> _]|(SMALL & _)]; [f_equal; apply (joined_lab _ _ _ Jp)|].
        exfalso. destruct LARGE as (l & ND & LE & B).
        assert (length l <= length S).
        { apply NoDup_incl_length; [exact ND|]. intros q Hq. apply COMP. eapply joined_trans; [exact Jp|apply B; exact Hq]. }
        unfold S in H. rewrite firstn_length in H. lia.
      + rewrite OUT in * by assumption. apply A5; assumption. }
  destruct (Nat.ltb_spec z1 minsize) as [SM|SM].
  - destruct (relabel_ok s1 z1 cl c1) as (c2 & E2 & L2 & OV2); [exact LS1|exact SZ1| |exact L1|].
    { intros q Hq. apply COMP in Hq. apply (joined_lt _ _ _ Hq). }
    rewrite E2. cbn [obind]. exists c2, s1. split; [reflexivity|]. split; [|exact LS1].
    apply (FIN c2 cl).
    + split; [exact L2|]. intros q Hq. rewrite OV2 by exact Hq. fold S. destruct (in_dec Nat.eq_dec q S); [reflexivity|]. rewrite OV1 by exact Hq. fold S.
      destruct (in_dec Nat.eq_dec q S); [contradiction|reflexivity].
    + destruct CL' as [[-> _]|(q & A & B & ->)]; [pose proof (SP i Hi); lia|]. assert (Hq : q < n) by apply A.
      destruct (A3 q Hq B) as (r & Jr & ->). destruct (joined_lt _ _ _ Jr) as [_ Hr]. pose proof (SP r Hr). lia.
    + destruct CL' as [[-> C]|C]; [left; auto|right; auto].
  - exists c1, s1. split; [reflexivity|]. split; [|exact LS1]. apply (FIN c1 (lab seg i + 1)%Z); [split; assumption|pose proof (SP i Hi); lia|left; auto].
Qed.

Lemma clean_ok junk : length junk = n -> exists out, clean w h minsize seg junk = Some out /\ length out = n /\
  (forall p q, J p q -> lab out p = lab out q) /\
  (forall p, p < n -> exists q, joined w h (lab out) p q /\ lab out p = lab seg q) /\
  (forall p, p < n -> at_least w h minsize (lab out) p \/ joined w h (lab out) p 0) /\
  (forall p, p < n -> at_least w h minsize (lab seg) p -> lab out p = lab seg p).
Proof.
  intros LJ. unfold clean.
  match goal with |- context [iter n (clean_pixel w h minsize seg) ?s] => destruct (iter_inv (fun i (st : list Z * list nat) => let (c, sg) := st in scanned i c /\ length sg = n) (clean_pixel w h minsize seg) n s) as ([c s'] & E & (SC & LS)) end.
  - split; [|exact LJ]. assert (R : forall p, lab (repeat 0%Z n) p = 0%Z) by (intros p; unfold lab; apply nth_repeat).
    split; [apply repeat_length|]. split; [intros; lia|]. split; [intros; rewrite !R; reflexivity|]. split; [|split]; intros p _ NZ; rewrite R in NZ; congruence.
  - intros i [c s] Hi (S & LS). destruct (scan_step i c s Hi S LS) as (c' & s' & E & S' & LS'). exists (c', s'). auto.
  - rewrite E. cbn [obind]. destruct SC as (LC & A1 & A2 & A3 & A4 & A5).
    match goal with |- context [iter n ?b ?s] => destruct (iter_inv (fun k c' => length c' = n /\ forall p, lab c' p = (if p <? k then (lab c p - 1)%Z else lab c p)) b n s) as (out & E' & LO & H) end.
    + split; [exact LC|]. intros p. destruct (Nat.ltb_spec p 0); [lia|reflexivity].
    + intros k c' Hk [L' H]. rewrite (aget_nth c' k 0%Z) by lia. cbn [obind]. rewrite aset_lt by lia. eexists. split; [reflexivity|]. split; [rewrite upd_length; exact L'|].
      intros p. unfold lab at 1. rewrite nth_upd by lia. fold (lab c' k). fold (lab c' p). destruct (Nat.eqb_spec p k) as [->|NE].
      * rewrite H. destruct (Nat.ltb_spec k k); [lia|]. destruct (Nat.ltb_spec k (k + 1)); [reflexivity|lia].
      * rewrite H. destruct (Nat.ltb_spec p k), (Nat.ltb_spec p (k + 1)); try reflexivity; lia.
    + exists out. split; [exact E'|]. split; [exact LO|].
      assert (HO : forall p, p < n -> lab out p = (lab c p - 1)%Z) by (intros p Hp; rewrite H; destruct (Nat.ltb_spec p n); [reflexivity|lia]).
      assert (JO : forall p q, joined w h (lab c) p q -> joined w h (lab out) p q).
      { intros p q. apply joined_mono. intros r Jr. destruct (joined_lt _ _ _ Jr). rewrite !HO by assumption. pose proof (joined_lab _ _ _ Jr). lia. }
      split; [|split; [|split]].
      * intros p q Jpq. destruct (joined_lt _ _ _ Jpq). rewrite !HO by assumption. rewrite (A2 p q Jpq). reflexivity.
      * intros p Hp. destruct (A3 p Hp (A1 p Hp)) as (q & Jq & EQ). exists q. split; [apply JO; exact Jq|]. rewrite HO by exact Hp. lia.
      * intros p Hp. destruct (A4 p Hp (A1 p Hp)) as [(l & ND & LE & B)|B]; [left|right; apply JO; exact B].
        exists l. split; [exact ND|]. split; [exact LE|]. intros q Hq. apply JO. apply B. exact Hq.
      * intros p Hp LARGE. rewrite HO by exact Hp. rewrite (A5 p Hp (A1 p Hp) LARGE). lia.
Qed.
End Clean.

(** *** The contents of fresh memory do not matter *)
Definition orel {A} (R : A -> A -> Prop) (a b : option A) : Prop :=
  match a, b with Some x, Some y => R x y | None, None => True | _, _ => False end.
Lemma iter_rel {A} (R : A -> A -> Prop) (f : nat -> A -> option A) n : (forall i a b, R a b -> orel R (f i a) (f i b)) ->
  forall i a b, R a b -> orel R (iter_from n i f a) (iter_from n i f b).
Proof.
  intros F. induction n as [|n IH]; intros i a b Rab; cbn [iter_from]; [exact Rab|].
  pose proof (F i a b Rab) as O. destruct (f i a), (f i b); cbn [obind orel] in *; try contradiction; auto.
Qed.
Definition same_segment (a b : list Z * list nat * nat) : Prop :=
  let '(c, s, z) := a in let '(c', s', z') := b in c = c' /\ z = z' /\ length s = length s' /\ firstn z s = firstn z s'.
Lemma aget_firstn (s s' : list nat) z k : firstn z s = firstn z s' -> k < z -> aget s k = aget s' k.
Proof.
  unfold aget. revert s' z k. induction s as [|a s IH]; intros s' z k F L; destruct z; try lia; destruct s' as [|a' s']; try discriminate; [reflexivity|].
  cbn [firstn] in F. injection F as -> F. destruct k; [reflexivity|]. cbn. apply (IH s' z k F). lia.
Qed.
Lemma aset_none_len {A B} (l : list A) (l' : list B) k v v' : length l = length l' ->
  (exists r r', aset l k v = Some r /\ aset l' k v' = Some r') \/ (aset l k v = None /\ aset l' k v' = None).
Proof.
  intros L. unfold aset. rewrite <- L. destruct (k <? length l); [left; eauto|right; auto].
Qed.
Lemma open_pixel_rel w h seg label p a b : same_segment a b -> orel same_segment (open_pixel w h seg label p a) (open_pixel w h seg label p b).
Proof.
  unfold open_pixel. intros S. apply iter_rel; [|exact S]. clear a b S. intros dir [[c s] z] [[c' s'] z'] (<- & <- & L & F).
  destruct (neighbor w h p dir) as [q|]; [|cbn; auto]. destruct (aget c q) as [v|]; cbn [obind]; [|exact I]. destruct (aget seg q) as [u|]; cbn [obind]; [|exact I].
  destruct ((v =? 0)%Z && (u =? label)%Z); [|cbn; auto].
  destruct (Nat.lt_ge_cases z (length s)) as [B|B].
  - destruct (aset c q (label + 1)%Z) as [c2|]; cbn [obind]; [|exact I]. rewrite !aset_lt by lia. cbn [obind orel same_segment].
    split; [reflexivity|]. split; [reflexivity|]. split; [rewrite !upd_length; exact L|]. rewrite !firstn_upd_out by lia. rewrite F. reflexivity.
  - assert (N : aset s z q = None /\ aset s' z q = None).
    { unfold aset. destruct (Nat.ltb_spec z (length s)), (Nat.ltb_spec z (length s')); try lia; auto. }
    destruct N as [-> ->]. destruct (aset c q (label + 1)%Z); cbn [obind orel]; exact I.
Qed.
Lemma expand_rel w h seg label fuel : forall ex a b, same_segment a b -> orel same_segment (expand w h fuel seg label ex a) (expand w h fuel seg label ex b).
Proof.
  induction fuel as [|fuel IH]; intros ex [[c s] z] [[c' s'] z'] S; cbn [expand]; [exact I|]. pose proof S as (<- & <- & L & F).
  destruct (Nat.ltb_spec ex z) as [B|B]; [|exact S]. rewrite (aget_firstn s s' z ex F B). destruct (aget s' ex) as [o|]; cbn [obind]; [|exact I].
  pose proof (open_pixel_rel w h seg label o _ _ S) as O.
  destruct (open_pixel w h seg label o (c, s, z)), (open_pixel w h seg label o (c, s', z)); cbn [obind orel] in *; try contradiction; auto.
Qed.
Lemma relabel_rel s s' z cl c : firstn z s = firstn z s' -> relabel s z cl c = relabel s' z cl c.
Proof.
  intros F. unfold relabel, iter. assert (G : forall n i c, i + n <= z -> iter_from n i (fun k c => do q <- aget s (z - 1 - k); aset c q cl) c = iter_from n i (fun k c => do q <- aget s' (z - 1 - k); aset c q cl) c).
  { induction n as [|n IH]; intros i c0 L; cbn [iter_from]; [reflexivity|]. rewrite (aget_firstn s s' z (z - 1 - i) F) by lia.
    destruct (aget s' (z - 1 - i)) as [q|]; cbn [obind]; [|reflexivity]. destruct (aset c0 q cl); cbn [obind]; [|reflexivity]. apply IH. lia. }
  apply G. lia.
Qed.
Lemma clean_memory w h minsize seg junk junk' : length junk = length junk' -> clean w h minsize seg junk = clean w h minsize seg junk'.
Proof.
  intros L. unfold clean.
  set (R := fun (a b : list Z * list nat) => fst a = fst b /\ length (snd a) = length (snd b)).
  pose proof (iter_rel R (clean_pixel w h minsize seg) (w * h)) as O. specialize (O) .
  assert (F : forall i a b, R a b -> orel R (clean_pixel w h minsize seg i a) (clean_pixel w h minsize seg i b)).
  { clear. intros i [c s] [c' s'] (E & L). cbn [fst snd] in E, L. subst c'. unfold clean_pixel.
    destruct (aget c i) as [v|]; cbn [obind]; [|exact I]. destruct (negb (v =? 0)%Z); [cbn [orel]; split; auto|].
    destruct (aget seg i) as [label|]; cbn [obind]; [|exact I].
    destruct (Nat.lt_ge_cases 0 (length s)) as [B|B].
    2:{ assert (N : aset s 0 i = None /\ aset s' 0 i = None).
        { unfold aset. destruct (Nat.ltb_spec 0 (length s)), (Nat.ltb_spec 0 (length s')); try lia; auto. }
        destruct N as [-> ->]. exact I. }
    rewrite !aset_lt with (l := s) by exact B. rewrite !aset_lt with (l := s') by lia. cbn [obind].
    destruct (aset c i (label + 1)%Z) as [c1|]; cbn [obind]; [|exact I]. destruct (clean_label w h c1 i label) as [cl|]; cbn [obind]; [|exact I].
    assert (S : same_segment (c1, upd s 0 i, 1) (c1, upd s' 0 i, 1)).
    { split; [reflexivity|]. split; [reflexivity|]. split; [rewrite !upd_length; exact L|]. destruct s, s'; cbn in *; try lia. reflexivity. }
    pose proof (expand_rel w h seg label (w * h + 1) 0 _ _ S) as O.
    destruct (expand w h (w * h + 1) seg label 0 (c1, upd s 0 i, 1)) as [[[c2 s2] z2]|], (expand w h (w * h + 1) seg label 0 (c1, upd s' 0 i, 1)) as [[[c3 s3] z3]|];
      cbn [obind orel] in *; try contradiction; [|exact I]. destruct O as (<- & <- & L2 & F2).
    destruct (z2 <? minsize); [|cbn [orel]; split; auto]. rewrite (relabel_rel s2 s3 z2 cl c2 F2).
    destruct (relabel s3 z2 cl c2); cbn [obind orel]; [split; auto|exact I]. }
  specialize (O F 0 (repeat 0%Z (w * h), junk) (repeat 0%Z (w * h), junk') (conj eq_refl L)). unfold iter.
  destruct (iter_from (w * h) 0 (clean_pixel w h minsize seg) (repeat 0%Z (w * h), junk)) as [[c s]|], (iter_from (w * h) 0 (clean_pixel w h minsize seg) (repeat 0%Z (w * h), junk')) as [[c' s']|];
    cbn [orel obind] in *; try contradiction; [|reflexivity]. destruct O as [E _]. cbn [fst] in E. subst c'. reflexivity.
Qed.
