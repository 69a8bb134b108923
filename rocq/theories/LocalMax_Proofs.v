(** Lemmas on local maxima. *)
From Coq Require Import List Arith Bool ZArith QArith Qcanon Lia.
Import ListNotations.
From Verif Require Import Base Rat Gauss_Model Gauss_Proofs Bins_Proofs Mser_Model MserNbr_Proofs LocalMax_Model LocalMax_Spec.
Local Open Scope nat_scope.

Definition prod (l : list nat) : nat := fold_right Nat.mul 1 l.
(** ** offsets of neighbours *)
Fixpoint dot (offs : list nat) (e : list Z) : Z := match offs, e with w :: offs, x :: e => (Z.of_nat w * x + dot offs e)%Z | _, _ => 0%Z end.
Lemma offsets_length D : forall s, length (offsets_from s D) = length D.
Proof. induction D as [|d D IH]; intros s; cbn; auto. Qed.
Lemma dot_scale D : forall s w e, dot (offsets_from (s * w) D) e = (Z.of_nat s * dot (offsets_from w D) e)%Z.
Proof. induction D as [|d D IH]; intros s w [|x e]; cbn [offsets_from dot]; try lia. rewrite <- Nat.mul_assoc, IH. lia. Qed.
(** the digits are -1, 0 or 1 *)
Lemma nb_next_spec : forall midx offs o, Forall digit midx -> length offs = length midx ->
  nb_next offs midx o = match next_dsubs midx with None => None | Some e => Some ((o + dot offs e - dot offs midx)%Z, e) end.
Proof.
  unfold digit. induction midx as [|m midx IH]; intros [|w offs] o FD L; cbn in L; try lia; [reflexivity|]. apply Forall_inv in FD as Hm. apply Forall_inv_tail in FD. cbn [nb_next next_dsubs]. destruct (Z.ltb_spec 1 (m + 1)) as [M|M].
  - rewrite IH by (auto; lia). destruct (next_dsubs midx) as [e|]; [|reflexivity]. cbn [dot]. replace m with 1%Z by lia. do 2 f_equal. lia.
  - cbn [dot]. do 2 f_equal. lia.
Qed.
Lemma nb_loop_spec offs : forall fuel midx, Forall digit midx -> length offs = length midx -> 0 < fuel -> dval midx + fuel = 3 ^ length midx ->
  nb_loop fuel offs midx (dot offs midx) = Some (filter (fun o => negb (o =? 0)%Z) (map (dot offs) (odo fuel midx))).
Proof.
  induction fuel as [|f IH]; intros midx FD L F V; [lia|]. cbn [nb_loop odo]. rewrite nb_next_spec by auto. pose proof (next_dsubs_spec midx FD) as X. destruct (next_dsubs midx) as [e|].
  - destruct X as (Fe & Le & Ve). replace (dot offs midx + dot offs e - dot offs midx)%Z with (dot offs e) by lia. pose proof (dval_lt e Fe). rewrite IH; auto; rewrite ?Le in *; try lia. cbn [obind map filter]. destruct (dot offs midx =? 0)%Z; reflexivity.
  - cbn [obind map filter]. destruct (dot offs midx =? 0)%Z; reflexivity.
Qed.
Lemma dot_start offs : forall z, fold_left (fun o w => (o - Z.of_nat w)%Z) offs z = (z + dot offs (repeat (-1)%Z (length offs)))%Z.
Proof. induction offs as [|w offs IH]; intros z; cbn [fold_left length repeat dot]; [lia|]. rewrite IH. lia. Qed.
Lemma neighbors_ok offs : exists nbs, neighbors offs = Some nbs /\ forall o, In o nbs <-> o <> 0%Z /\ exists e, length e = length offs /\ Forall digit e /\ o = dot offs e.
Proof.
  destruct (first_digit (length offs)) as [F V]. unfold neighbors. rewrite dot_start, Z.add_0_l. rewrite nb_loop_spec; auto; try (rewrite repeat_length); auto; [|apply pow3_pos|rewrite V; reflexivity].
  eexists. split; [reflexivity|]. intros o. rewrite filter_In, in_map_iff, negb_true_iff, Z.eqb_neq. split.
  - intros [(e & <- & E) N]. apply odo_sound in E; [|exact F]. rewrite repeat_length in E. split; [exact N|]. exists e. tauto.
  - intros [N (e & L & D & ->)]. split; [|exact N]. exists e. split; [reflexivity|]. apply odo_complete; auto; rewrite ?repeat_length, ?V; auto; lia.
Qed.
Lemma mod_unique d m q : m < d -> (m + d * q) mod d = m /\ (m + d * q) / d = q.
Proof. intros L. rewrite (Nat.mul_comm d), Nat.mod_add, Nat.div_add by lia. rewrite Nat.mod_small, Nat.div_small by exact L. lia. Qed.
Lemma shift_near : forall D i e, interior D i -> length e = length D -> Forall digit e -> exists j, Z.of_nat j = (Z.of_nat i + dot (offsets_from 1 D) e)%Z /\ near D i j.
Proof.
  unfold digit. induction D as [|d D IH]; intros i [|x e] HI L FD; cbn in L; try lia; [exists i; cbn; split; [lia|reflexivity]|]. destruct HI as (A & B & C). apply Forall_inv in FD as Hx. apply Forall_inv_tail in FD. destruct (IH (i / d) e C ltac:(lia) FD) as (j' & Ej & Nj).
  set (n := Z.to_nat (Z.of_nat (i mod d) + x)). exists (n + d * j'). destruct (mod_unique d n j') as [M1 M2]; [unfold n; lia|]. split.
  - cbn [offsets_from dot]. rewrite Nat.mul_1_l. replace d with (d * 1) at 2 by lia. rewrite (dot_scale D d 1). pose proof (Nat.div_mod i d ltac:(lia)) as DM. unfold n. nia.
  - cbn [near]. rewrite M1, M2. split; [unfold n; lia|]. split; [unfold n; lia|exact Nj].
Qed.
Lemma near_shift : forall D i j, Forall (fun d => d <> 0) D -> near D i j -> exists e, length e = length D /\ Forall digit e /\ Z.of_nat j = (Z.of_nat i + dot (offsets_from 1 D) e)%Z.
Proof.
  unfold digit. induction D as [|d D IH]; intros i j FD N; [cbn in N; subst; exists []; cbn; split; [reflexivity|]; split; [constructor|lia]|]. apply Forall_inv in FD as Hd. apply Forall_inv_tail in FD. destruct N as (A & B & C). destruct (IH _ _ FD C) as (e & L & F & E).
  exists ((Z.of_nat (j mod d) - Z.of_nat (i mod d))%Z :: e). split; [cbn; lia|]. split; [constructor; [lia|exact F]|]. cbn [offsets_from dot]. rewrite Nat.mul_1_l. replace d with (d * 1) at 3 by lia. rewrite (dot_scale D d 1). pose proof (Nat.div_mod i d Hd). pose proof (Nat.div_mod j d Hd). nia.
Qed.
Lemma near_lt : forall D i j e, near D i j -> i < prod D * e -> j < prod D * e.
Proof.
  induction D as [|d D IH]; intros i j e N L; cbn [near] in N; [subst; exact L|]. destruct N as (_ & _ & N). cbn [prod fold_right] in *. fold (prod D) in *. destruct (Nat.eq_dec d 0) as [->|Hd]; [lia|].
  assert (i / d < prod D * e) by (apply Nat.div_lt_upper_bound; lia). specialize (IH _ _ _ N H). pose proof (Nat.div_mod j d Hd). pose proof (Nat.mod_upper_bound j d Hd). nia.
Qed.
(** ** the enumeration of the interior *)
Fixpoint val (A : list cell) (up layer : nat) : nat := match A with [] => up + layer | (_, d, m) :: A => (m + up) + d * val A 0 layer end.
(** [up] is added to the first multi-index only, or to the layer *)
Fixpoint chain (w : nat) (A : list cell) : Prop := match A with [] => True | (o, d, m) :: A => o = w /\ 3 <= d /\ 1 <= m /\ m + 2 <= d /\ chain (w * d) A end.
(** the first multi-index may be one too large *)
Definition chain1 (w : nat) (A : list cell) (up : nat) : Prop := match A with [] => True | (o, d, m) :: A => o = w /\ 3 <= d /\ 1 <= m + up /\ m + up + 1 <= d /\ chain (w * d) A end.
Definition dims_of (A : list cell) : list nat := map (fun c => snd (fst c)) A.
Lemma chain_chain1 w A up : up <= 1 -> chain w A -> chain1 w A up.
Proof. destruct A as [|[[o d] m] A]; cbn; [tauto|]. intros U (-> & B & C & D & E). repeat split; auto; lia. Qed.
(** [low] are the interior elements of the dimensions before, whose product is w; s is the first of them *)
Lemma carry_ok : forall A up w s (low : nat -> Prop) layer pt, 1 <= w -> s < w -> (forall r, low r -> s <= r) -> chain1 w A up -> (A = [] -> up = 1) -> pt = s + w * val A up layer ->
  let '(pt', A', b) := carry up A pt in
  let layer' := if b then S layer else layer in
  chain w A' /\ dims_of A' = dims_of A /\ pt <= pt' /\ pt' = s + w * val A' 0 layer' /\ (b = true -> forall i, i < w * prod (dims_of A) * S layer -> low (i mod w) -> interior (dims_of A) (i / w) -> i < pt) /\
  (forall i, pt <= i < pt' -> low (i mod w) -> interior (dims_of A) (i / w) -> False).
Proof.
  induction A as [|[[o d] m] A IH]; intros up w s low layer pt W Sw LOW C U P.
  - cbn [carry]. rewrite (U eq_refl) in P. cbn [val] in *. cbn [chain dims_of map prod fold_right]. split; [exact Logic.I|]. split; [reflexivity|]. split; [lia|]. split; [lia|]. split; [intros _ i Hi _ _; nia|intros i Hi; lia].
  - destruct C as (-> & D3 & M1 & M2 & CA). cbn [carry]. destruct (Nat.leb_spec d (m + up + 1)) as [T|T].
    + assert (EM : m + up = d - 1) by lia. cbn [val] in P. rewrite EM in P.
      specialize (IH 1 (w * d) (s + w) (fun r => low (r mod w) /\ 1 <= r / w /\ r / w + 2 <= d) layer (pt + 2 * w)). assert (P2 : pt + 2 * w = s + w + w * d * val A 1 layer).
      { rewrite P. assert (V1 : val A 1 layer = S (val A 0 layer)). { destruct A as [|[[o' d'] m'] A']; cbn [val]; lia. } rewrite V1. nia. }
      specialize (IH ltac:(nia) ltac:(nia)). assert (LOW' : forall r, low (r mod w) /\ 1 <= r / w /\ r / w + 2 <= d -> s + w <= r). { intros r (L1 & L2 & _). apply LOW in L1. pose proof (Nat.div_mod r w ltac:(lia)). nia. }
      specialize (IH LOW' (chain_chain1 _ _ 1 (le_n _) CA) (fun _ => eq_refl) P2). destruct (carry 1 A (pt + 2 * w)) as [[pt' A'] b]. destruct IH as (C' & DM & LE & P' & FIN & GAP).
      assert (TR : forall i, low (i mod w) -> interior (d :: dims_of A) (i / w) -> (low ((i mod (w * d)) mod w) /\ 1 <= i mod (w * d) / w /\ i mod (w * d) / w + 2 <= d) /\ interior (dims_of A) (i / (w * d))).
      { intros i L1 (I1 & I2 & I3). rewrite Nat.div_div in I3 by lia. split; [|exact I3]. rewrite Nat.mod_mul_r by lia. rewrite (Nat.mul_comm w ((i / w) mod d)), Nat.mod_add, Nat.div_add by lia. rewrite Nat.mod_mod, (Nat.div_small (i mod w)) by (try apply Nat.mod_upper_bound; lia). auto. }
      cbn [dims_of map fst snd]. fold (dims_of A) (dims_of A'). split; [cbn; auto with arith; repeat split; auto; lia|]. split; [now rewrite DM|]. split; [lia|]. split; [cbn [val]; rewrite P'; nia|].
      assert (GAP0 : forall i, pt <= i < pt + 2 * w -> low (i mod w) -> interior (d :: dims_of A) (i / w) -> False).
      { intros i [L1 L2] LO (I1 & I2 & _). apply LOW in LO. pose proof (Nat.div_mod i w ltac:(lia)) as DV. pose proof (Nat.mod_upper_bound i w ltac:(lia)) as MB. set (qq := i / w) in *. set (V := val A 0 layer) in *.
        assert (Q1 : d - 1 + d * V <= qq) by nia. assert (Q2 : qq <= d + d * V) by nia. destruct (Nat.eq_dec qq (d - 1 + d * V)) as [E|E].
        - rewrite E in I2. destruct (mod_unique d (d - 1) V) as [X _]; [lia|]. rewrite X in I2. lia.
        - assert (E2 : qq = 0 + d * (V + 1)) by nia. rewrite E2 in I1. destruct (mod_unique d 0 (V + 1)) as [X _]; [lia|]. rewrite X in I1. lia. }
      split.
      * intros Bt i Hi LO HI. assert (X : i < pt + 2 * w). { apply (FIN Bt); [cbn [prod fold_right] in Hi; fold (prod (dims_of A)) in Hi; rewrite Nat.mul_assoc in Hi; exact Hi| |]; apply TR; assumption. } destruct (le_lt_dec pt i) as [Y|Y]; [exfalso; apply (GAP0 i); auto|exact Y].
      * intros i Hi LO HI. destruct (le_lt_dec (pt + 2 * w) i) as [Y|Y]; [apply (GAP i); [lia| |]; apply TR; assumption|apply (GAP0 i); auto; lia].
    + cbn [chain dims_of map fst snd val]. split; [repeat split; auto; lia|]. split; [reflexivity|]. split; [lia|]. split; [rewrite P; cbn [val]; f_equal; f_equal; lia|]. split; [discriminate|intros i Hi; lia].
Qed.
Lemma chain_interior : forall A layer w, chain w A -> interior (dims_of A) (val A 0 layer) /\ val A 0 layer < prod (dims_of A) * S layer.
Proof.
  induction A as [|[[o d] m] A IH]; intros layer w C; [cbn; lia|]. destruct C as (_ & D3 & M1 & M2 & CA). destruct (IH layer _ CA) as [I1 I2]. cbn [dims_of map fst snd interior val prod fold_right]. fold (dims_of A) (prod (dims_of A)). rewrite Nat.add_0_r. destruct (mod_unique d m (val A 0 layer)) as [X Y]; [lia|]. rewrite X, Y. split; [repeat split; auto; lia|nia].
Qed.
(** the odometer of layers *)
Fixpoint layer_of (B : list (nat * nat)) : nat := match B with [] => 0 | (d, m) :: B => m + d * layer_of B end.
Definition digits (B : list (nat * nat)) : Prop := Forall (fun dm => snd dm < fst dm) B.
Lemma next_layer_ok : forall B, digits B -> match next_layer B with
  | Some B' => digits B' /\ map fst B' = map fst B /\ layer_of B' = S (layer_of B)
  | None => S (layer_of B) = prod (map fst B) end.
Proof.
  unfold digits. induction B as [|[d m] B IH]; intros H; [reflexivity|]. apply Forall_inv in H as Hm. apply Forall_inv_tail in H. cbn in Hm. specialize (IH H). cbn [next_layer]. destruct (Nat.leb_spec d (m + 1)) as [T|T].
  - destruct (next_layer B) as [B'|].
    + destruct IH as (D & M & L). split; [constructor; [cbn; lia|exact D]|]. cbn [map fst layer_of]. split; [now rewrite M|]. rewrite L. replace m with (d - 1) by lia. nia.
    + cbn [layer_of map fst prod fold_right]. fold (prod (map fst B)). rewrite <- IH. replace m with (d - 1) by lia. nia.
  - split; [constructor; [cbn; lia|exact H]|]. cbn [map fst layer_of]. split; [reflexivity|lia].
Qed.
Lemma layer_lt B : digits B -> layer_of B < prod (map fst B).
Proof. unfold digits. induction 1 as [|[d m] B H _ IH]; [cbn; lia|]. cbn [layer_of map fst prod fold_right]. fold (prod (map fst B)). cbn in H. nia. Qed.
(** ** the tests *)
Section scan.
  Variables (F : list Qc) (threshold : option Qc) (nbs : list Z) (D E : list nat).
  Hypothesis HF : length F = prod D * prod E.
  Hypothesis HD : Forall (fun d => 3 <= d) D.
  Hypothesis HN : forall o, In o nbs <-> o <> 0%Z /\ exists e, length e = length D /\ Forall digit e /\ o = dot (offsets_from 1 D) e.
  Definition good (i : nat) (v : Qc) : option bool := if above threshold v then greater F i v nbs else Some false.
  Lemma greater_ok i v l : (forall o, In o l -> exists j, Z.of_nat j = (Z.of_nat i + o)%Z /\ j < length F) ->
    exists g, greater F i v l = Some g /\ (g = true <-> forall o j, In o l -> Z.of_nat j = (Z.of_nat i + o)%Z -> (nth j F 0 < v)%Qc).
  Proof.
    induction l as [|o l IH]; intros H; cbn [greater]; [exists true; split; [reflexivity|]; split; [intros _ o j []|reflexivity]|]. destruct (H o (or_introl eq_refl)) as (j & EJ & LJ). unfold zget. rewrite <- EJ. replace (Z.of_nat j <? 0)%Z with false by (symmetry; apply Z.ltb_ge; lia). rewrite Nat2Z.id. unfold aget. rewrite (nth_error_nth' F 0%Qc LJ). cbn [obind].
    destruct (qlt (nth j F 0%Qc) v) eqn:Q.
    - apply qlt_true in Q. destruct (IH (fun o' X => H o' (or_intror X))) as (g & -> & G). exists g. split; [reflexivity|]. rewrite G. split.
      + intros A o' j' [<-|X] EJ'; [replace j' with j by lia; exact Q|eauto].
      + intros A o' j' X. apply A. now right.
    - exists false. split; [reflexivity|]. split; [discriminate|]. intros A. apply qlt_false in Q. specialize (A o j (or_introl eq_refl) EJ). exfalso. apply (Qclt_not_le _ _ A). exact Q.
  Qed.
  Lemma good_ok i : i < length F -> interior D i -> exists g, good i (nth i F 0%Qc) = Some g /\ (g = true <-> local_max F D threshold i).
  Proof.
    intros LI HI. assert (NZ : Forall (fun d => d <> 0) D) by (eapply Forall_impl; [|exact HD]; cbn; intros; lia).
    unfold good, local_max. destruct (above threshold (nth i F 0%Qc)) eqn:AB.
    - destruct (greater_ok i (nth i F 0%Qc) nbs) as (g & EG & G).
      { intros o O. apply HN in O. destruct O as (_ & e & L & FD & ->). destruct (shift_near D i e HI L FD) as (j & EJ & NJ). exists j. split; [exact EJ|]. rewrite HF in *. apply (near_lt D i j (prod E) NJ LI). }
      exists g. split; [exact EG|]. rewrite G. split.
      + intros A. split; [exact LI|]. split; [exact HI|]. split; [unfold above in AB; destruct threshold; [|exact Logic.I]; apply negb_true_iff in AB; now apply qlt_false in AB|]. intros j NJ NE. destruct (near_shift D i j NZ NJ) as (e & L & FD & EJ). apply (A (dot (offsets_from 1 D) e) j); [|exact EJ]. apply HN. split; [lia|]. exists e. auto.
      + intros (_ & _ & _ & A) o j O EJ. apply HN in O. destruct O as (NO & e & L & FD & ->). destruct (shift_near D i e HI L FD) as (j' & EJ' & NJ). assert (j = j') by lia. subst j'. apply A; [exact NJ|]. lia.
    - exists false. split; [reflexivity|]. split; [discriminate|]. intros (_ & _ & T & _). unfold above in AB. destruct threshold as [t|]; [|discriminate]. apply negb_false_iff, qlt_true in AB. exfalso. now apply (Qclt_not_le _ _ AB).
  Qed.
  Definition listed (acc : list nat) (pt : nat) : Prop := exists sel, acc = map S sel /\ Sorted.StronglySorted lt sel /\ forall i, In i sel <-> i < pt /\ local_max F D threshold i.
  Lemma listed_gap acc pt pt' : pt <= pt' -> (forall i, pt <= i < pt' -> interior D i -> False) -> listed acc pt -> listed acc pt'.
  Proof. intros LE G (sel & EA & SS & A). exists sel. split; [exact EA|]. split; [exact SS|]. intros i. rewrite A. split; [intros [X Y]; split; [lia|exact Y]|]. intros [X Y]. split; [|exact Y]. destruct (le_lt_dec pt i) as [Z|Z]; [|exact Z]. exfalso. apply (G i); [lia|apply Y]. Qed.
  Lemma sorted_snoc (l : list nat) x : Sorted.StronglySorted lt l -> (forall y, In y l -> y < x) -> Sorted.StronglySorted lt (l ++ [x]).
  Proof.
    induction 1 as [|y l SS IH FA]; intros B; cbn; [constructor; constructor|]. constructor; [apply IH; intros z Z; apply B; now right|]. apply Forall_app. split; [exact FA|]. constructor; [apply B; now left|constructor].
  Qed.
  Lemma scan_ok : forall fuel pt A B acc, chain1 1 A 0 -> A <> [] -> dims_of A = D -> digits B -> map fst B = E -> pt = val A 0 (layer_of B) -> listed acc pt -> (length F - pt) + (prod E - layer_of B) < fuel ->
    exists l, scan fuel F threshold nbs pt A B acc = Some l /\ listed l (length F).
  Proof.
    induction fuel as [|fuel IH]; intros pt A B acc CA NA DA DB EB EP LA FU; [lia|]. cbn [scan].
    pose proof (carry_ok A 0 1 0 (fun _ => True) (layer_of B) pt (le_n _) (Nat.lt_0_1) (fun r _ => Nat.le_0_l r) CA (fun X => match NA X with end) ltac:(lia)) as CO. destruct (carry 0 A pt) as [[pt' A'] b]. destruct CO as (CA' & DA' & LE & EP' & FIN & GAP).
    rewrite DA in *. assert (LA' : listed acc pt'). { apply (listed_gap acc pt pt' LE); [|exact LA]. intros i Hi HI. apply (GAP i Hi Logic.I). now rewrite Nat.div_1_r. }
    pose proof (layer_lt B DB) as LB. rewrite EB in LB. assert (NA' : A' <> []). { intros X. subst A'. cbn in DA'. apply NA. destruct A; [reflexivity|]. rewrite <- DA in DA'. discriminate. }
    destruct b.
    - pose proof (next_layer_ok B DB) as NL. destruct (next_layer B) as [B'|].
      + destruct NL as (DB' & MB & LL). pose proof (layer_lt B' DB') as LB'. rewrite MB, EB in LB'. apply IH; auto.
        * apply chain_chain1; [lia|exact CA'].
        * now rewrite MB.
        * rewrite LL. lia.
        * rewrite LL. lia.
      + rewrite EB in NL. exists acc. split; [reflexivity|]. destruct LA as (sel & EA & SS & AA). exists sel. split; [exact EA|]. split; [exact SS|]. intros i. rewrite AA. split; [intros [_ Y]; split; [apply Y|exact Y]|]. intros [X Y]. split; [|exact Y]. apply FIN; [reflexivity| |exact Logic.I|rewrite Nat.div_1_r; apply Y]. rewrite HF in X. rewrite NL. lia.
    - destruct (chain_interior A' (layer_of B) 1 CA') as [HI HV]. rewrite DA' in *. replace (0 + 1 * val A' 0 (layer_of B)) with (val A' 0 (layer_of B)) in EP' by lia. rewrite <- EP' in HI, HV. assert (LP : pt' < length F) by (rewrite HF; nia).
      unfold aget. rewrite (nth_error_nth' F 0%Qc LP). cbn [obind]. destruct (good_ok pt' LP HI) as (g & EG & G). unfold good in EG. rewrite EG. cbn [obind]. apply IH; auto.
      + destruct A' as [|[[o d] m] A']; cbn in *; [exact Logic.I|]. destruct CA' as (-> & X1 & X2 & X3 & X4). repeat split; auto; lia.
      + destruct A' as [|[[o d] m] A']; cbn; [exact NA'|discriminate].
      + destruct A' as [|[[o d] m] A']; cbn in *; auto.
      + rewrite EP'. destruct A' as [|[[o d] m] A']; [contradiction|]. cbn [step val]. lia.
      + destruct LA' as (sel & EA & SS & AA). destruct g.
        * exists (sel ++ [pt']). split; [rewrite map_app, EA; cbn; now rewrite Nat.add_1_r|]. split; [apply sorted_snoc; [exact SS|]; intros y Y; apply AA in Y; tauto|]. intros i. rewrite in_app_iff, AA. cbn. split; [intros [[X Y]|[<-|[]]]; [split; [lia|exact Y]|split; [lia|now apply G]]|]. intros [X Y]. destruct (Nat.eq_dec pt' i) as [->|N]; [right; now left|left; split; [lia|exact Y]].
        * exists sel. split; [exact EA|]. split; [exact SS|]. intros i. rewrite AA. split; [intros [X Y]; split; [lia|exact Y]|]. intros [X Y]. split; [|exact Y]. destruct (Nat.eq_dec pt' i) as [->|N]; [|lia]. apply G in Y. discriminate.
      + lia.
  Qed.
End scan.
