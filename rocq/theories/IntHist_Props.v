(** C212-C216: integral histograms and their samples. *)
From Coq Require Import List Arith Bool ZArith Lia.
Import ListNotations.
From Verif Require Import Base Loop IntHist_Model IntHist_Spec IntHist_Proofs.
Local Open Scope nat_scope.

(** the number of bins: the one given, or the greatest label of the first map *)
Definition bins (labels : list nat) (K given L : nat) : Prop :=
  given <> 0 /\ L = given \/ given = 0 /\ (forall l, In l (firstn K labels) -> l <= L) /\ (L = 0 \/ In L (firstn K labels)).
Lemma fold_max l : forall a, a <= fold_left Nat.max l a /\ (forall x, In x l -> x <= fold_left Nat.max l a) /\ (fold_left Nat.max l a = a \/ In (fold_left Nat.max l a) l).
Proof.
  induction l as [|b l IH]; intros a; cbn [fold_left]; [split; [lia|split; [intros x []|now left]]|]. destruct (IH (Nat.max a b)) as (A & B & C). split; [lia|]. split; [intros x [<-|X]; [lia|auto]|]. destruct C as [C|C]; [|right; now right]. rewrite C. destruct (Nat.max_spec a b) as [[_ ->]|[_ ->]]; [right; now left|now left].
Qed.
Lemma num_labels_ok labels K given L : bins labels K given L -> (forall l, In l (firstn K labels) -> l <= L) -> num_labels labels K given = Some L.
Proof.
  intros [[G ->]|(-> & A & B)] HL; unfold num_labels.
  - destruct (Nat.eqb_spec given 0); [contradiction|]. destruct (existsb _ _) eqn:E; [|reflexivity]. apply existsb_exists in E. destruct E as (x & X & Y). apply Nat.ltb_lt in Y. specialize (HL x X). lia.
  - cbn [Nat.eqb]. f_equal. destruct (fold_max (firstn K labels) 0) as (_ & C & D). destruct B as [->|B], D as [D|D]; try (rewrite D); try reflexivity; [specialize (A _ D); lia|specialize (C _ B); lia|]. apply Nat.le_antisymm; auto.
Qed.
Lemma in_firstn {A} (x : A) n l : In x (firstn n l) -> In x l.
Proof. intros H. rewrite <- (firstn_skipn n l). apply in_or_app. now left. Qed.
Lemma inthist_ok labels W H maps mass given L : 1 <= W -> 1 <= H -> length labels = maps * (W * H) -> (match mass with None => True | Some m => W * H <= length m end) -> bins labels (W * H) given L -> (forall l, In l labels -> l <= L) ->
  exists d, inthist labels W H maps mass given = Some (Some d) /\ holds d (W * H * L) (dst W H (fun l => label_mass labels (mass_at mass) W H maps (S l))).
Proof.
  intros HW HH HN HM HB HL. unfold inthist. cbv zeta. rewrite (num_labels_ok _ _ _ _ HB) by (intros l X; apply HL; now apply in_firstn in X).
  assert (HK : 1 <= W * H) by nia. destruct (distribute_ok labels mass (W * H) maps L HK HN HL HM) as (d & -> & Hd). cbn [obind].
  destruct (integrals_ok W H L (fun l => label_mass labels (mass_at mass) W H maps (S l)) HW HH d) as (d' & -> & Hd').
  - apply (holds_ext _ _ _ _ Hd). intros i I. f_equal. unfold src, label_mass. apply sum_ext. intros q _. unfold hit. pose proof (Nat.div_mod (i mod (W * H)) W ltac:(lia)) as E. replace (W * (i mod (W * H) / W) + i mod (W * H) mod W) with (i mod (W * H)) by lia. replace (q * (W * H) + W * (i mod (W * H) / W) + i mod (W * H) mod W) with (q * (W * H) + i mod (W * H)) by lia. reflexivity.
  - cbn [obind]. exists d'. auto.
Qed.
(** the mass of the pixels, one each if none is given *)
Definition mass_of (mass : option (list Z)) (k : nat) : Z := match mass with None => 1%Z | Some m => nth k m 0%Z end.
(** C212: the entry (x, y, l) is the mass of the label l + 1 in the pixels above and left, modulo 2^32 *)
Theorem C212_inthist labels W H maps mass given L : 1 <= W -> 1 <= H -> length labels = maps * (W * H) -> (match mass with None => True | Some m => W * H <= length m end) -> bins labels (W * H) given L -> (forall l, In l labels -> l <= L) ->
  exists d, inthist labels W H maps mass given = Some (Some d) /\ length d = W * H * L /\
    forall x y l, x < W -> y < H -> l < L -> nth_error d (l * (W * H) + W * y + x) = Some (box (label_mass labels (mass_of mass) W H maps (S l)) 0 0 (S x) (S y) mod 2 ^ 32)%Z.
Proof.
  intros HW HH HN HM HB HL. destruct (inthist_ok labels W H maps mass given L HW HH HN HM HB HL) as (d & E & [LD D]). exists d. split; [exact E|]. split; [exact LD|]. intros x y l X Y A. rewrite D by (apply inside; assumption). rewrite dst_at by assumption. reflexivity.
Qed.
(** C212: with NUMLABELS given, a greater label in the first map is an error *)
Theorem C212_error labels W H maps mass given l : given <> 0 -> In l (firstn (W * H) labels) -> given < l -> inthist labels W H maps mass given = Some None.
Proof.
  intros G X Y. unfold inthist, num_labels. destruct (Nat.eqb_spec given 0); [contradiction|]. replace (existsb _ _) with true; [reflexivity|]. symmetry. apply existsb_exists. exists l. split; [exact X|]. now apply Nat.ltb_lt.
Qed.
Definition empty_box (b : nat * nat * nat * nat) : Prop := let '(x1, y1, x2, y2) := b in x2 < x1 \/ y2 < y1.
Definition within (W H : nat) (b : nat * nat * nat * nat) : Prop := let '(x1, y1, x2, y2) := b in 1 <= x1 /\ 1 <= y1 /\ x2 <= W /\ y2 <= H.
(** the mass of the label l + 1 in the box, whose corners belong to it and are counted from one *)
Definition mass_in (f : nat -> nat -> nat -> Z) (b : nat * nat * nat * nat) (l : nat) : Z := let '(x1, y1, x2, y2) := b in box (f l) (x1 - 1) (y1 - 1) x2 y2.
Lemma box_ok W H L f d b : holds d (W * H * L) (dst W H f) -> let '(x1, y1, x2, y2) := b in
  (empty_box b -> sample_box d W H L x1 y1 x2 y2 = Some (Some (repeat 0%Z L))) /\
  (~ empty_box b -> within W H b -> exists h, sample_box d W H L x1 y1 x2 y2 = Some (Some h) /\ length h = L /\ forall l, l < L -> nth_error h l = Some (u32 (mass_in f b l))) /\
  (~ empty_box b -> ~ within W H b -> sample_box d W H L x1 y1 x2 y2 = Some None).
Proof.
  intros Hd. destruct b as [[[x1 y1] x2] y2]. unfold empty_box, within, mass_in. split; [|split].
  - intros E. unfold sample_box. replace ((x2 <? x1) || (y2 <? y1)) with true; [reflexivity|]. symmetry. apply orb_true_iff. rewrite !Nat.ltb_lt. exact E.
  - intros NE (A & B & C & D). destruct (sample_box_ok W H L f d x1 y1 x2 y2) as (h & E & [LH HH]); [lia|lia|lia|lia|exact Hd|]. exists h. auto.
  - intros NE NW. unfold sample_box. replace (x2 <? x1) with false by (symmetry; apply Nat.ltb_ge; lia). replace (y2 <? y1) with false by (symmetry; apply Nat.ltb_ge; lia). cbn [orb]. destruct (Nat.ltb_spec x1 1); [reflexivity|]. destruct (Nat.ltb_spec y1 1); [reflexivity|]. cbn [orb]. destruct (Nat.ltb_spec W x2); [reflexivity|]. destruct (Nat.ltb_spec H y2); [reflexivity|]. lia.
Qed.
Lemma empty_dec b : {empty_box b} + {~ empty_box b}.
Proof. destruct b as [[[x1 y1] x2] y2]. cbn. destruct (lt_dec x2 x1); [left; tauto|]. destruct (lt_dec y2 y1); [left; tauto|right; tauto]. Qed.
Lemma within_dec W H b : {within W H b} + {~ within W H b}.
Proof. destruct b as [[[x1 y1] x2] y2]. unfold within. destruct (le_dec 1 x1), (le_dec 1 y1), (le_dec x2 W), (le_dec y2 H); try (left; tauto); right; tauto. Qed.
(** C213: the sample of an integral histogram at a box is the mass of each label in the box, zero for an empty box *)
Theorem C213_sample labels W H maps mass given L boxes : 1 <= W -> 1 <= H -> length labels = maps * (W * H) -> (match mass with None => True | Some m => W * H <= length m end) -> bins labels (W * H) given L -> (forall l, In l labels -> l <= L) ->
  (forall b, In b boxes -> empty_box b \/ within W H b) ->
  exists d hs, inthist labels W H maps mass given = Some (Some d) /\ sample d W H L boxes = Some (Some hs) /\
    Forall2 (fun b h => length h = L /\ (empty_box b -> h = repeat 0%Z L) /\ (~ empty_box b -> forall l, l < L -> nth_error h l = Some (mass_in (fun l => label_mass labels (mass_of mass) W H maps (S l)) b l mod 2 ^ 32)%Z)) boxes hs.
Proof.
  intros HW HH HN HM HB HL HX. destruct (inthist_ok labels W H maps mass given L HW HH HN HM HB HL) as (d & E & Hd). exists d. revert HX. induction boxes as [|b boxes IH]; intros HX.
  - exists []. split; [exact E|]. split; [reflexivity|constructor].
  - destruct IH as (hs & _ & ES & F); [intros b' X; apply HX; now right|]. pose proof (HX b (or_introl eq_refl)) as Hb. pose proof (box_ok W H L _ d b Hd) as BO. destruct b as [[[x1 y1] x2] y2]. destruct BO as (B1 & B2 & _). cbn [sample]. destruct (empty_dec (x1, y1, x2, y2)) as [EB|NE].
    + rewrite (B1 EB). cbn [obind]. rewrite ES. cbn [obind]. eexists. split; [exact E|]. split; [reflexivity|]. constructor; [|exact F]. split; [apply repeat_length|]. split; [auto|contradiction].
    + destruct Hb as [Hb|Hb]; [contradiction|]. destruct (B2 NE Hb) as (h & EH & LH & HH'). rewrite EH. cbn [obind]. rewrite ES. cbn [obind]. eexists. split; [exact E|]. split; [reflexivity|]. constructor; [|exact F]. split; [exact LH|]. split; [contradiction|]. intros _. exact HH'.
Qed.
(** C213: a box that is not empty and not in the image is an error *)
Theorem C213_error labels W H maps mass given L boxes b d : 1 <= W -> 1 <= H -> length labels = maps * (W * H) -> (match mass with None => True | Some m => W * H <= length m end) -> bins labels (W * H) given L -> (forall l, In l labels -> l <= L) ->
  inthist labels W H maps mass given = Some (Some d) -> In b boxes -> ~ empty_box b -> ~ within W H b -> sample d W H L boxes = Some None.
Proof.
  intros HW HH HN HM HB HL HD IB NE NW. destruct (inthist_ok labels W H maps mass given L HW HH HN HM HB HL) as (d' & E & Hd). rewrite E in HD. injection HD as ->. induction boxes as [|c boxes IH]; [destruct IB|]. pose proof (box_ok W H L _ d c Hd) as BO. destruct c as [[[x1 y1] x2] y2]. destruct BO as (B1 & B2 & B3). cbn [sample].
  destruct (empty_dec (x1, y1, x2, y2)) as [EB|NE'].
  - rewrite (B1 EB). cbn [obind]. destruct IB as [<-|IB]; [contradiction|]. rewrite (IH IB). reflexivity.
  - destruct (within_dec W H (x1, y1, x2, y2)) as [Hw|Hw]; [|rewrite (B3 NE' Hw); reflexivity]. destruct (B2 NE' Hw) as (h & -> & _). cbn [obind]. destruct IB as [<-|IB]; [contradiction|]. rewrite (IH IB). reflexivity.
Qed.
Lemma iter_some {S} (P : S -> Prop) (body : nat -> S -> option S) : (forall j s s', P s -> body j s = Some s' -> P s') -> forall n i s s', iter_from n i body s = Some s' -> P s -> P s' /\ forall j, i <= j < i + n -> exists s1 s2, P s1 /\ body j s1 = Some s2.
Proof.
  intros HB. induction n as [|n IH]; intros i s s' E HP; cbn [iter_from] in E; [injection E as <-; split; [exact HP|intros j J; lia]|]. destruct (body i s) as [s1|] eqn:B; cbn [obind] in E; [|discriminate]. destruct (IH _ _ _ E (HB _ _ _ HP B)) as [P' A]. split; [exact P'|].
  intros j J. destruct (Nat.eq_dec j i) as [->|N]; [exists s, s1; auto|]. apply A. lia.
Qed.
(** C214: "any labels are counted" is false: labels of later maps are neither looked at nor checked; one greater than the number of bins is counted out of bounds *)
Theorem C214_maps_refuted labels W H maps given l : 1 <= W -> 1 <= H -> length labels = maps * (W * H) -> given <> 0 -> (forall l, In l (firstn (W * H) labels) -> l <= given) -> In l labels -> given < l -> inthist labels W H maps None given = None.
Proof.
  intros HW HH HN G HF IL GL. unfold inthist. cbv zeta. set (K := W * H) in *. rewrite (num_labels_ok labels K given given) by (try (left; auto); exact HF).
  destruct (distribute labels None K maps (repeat 0%Z (K * given))) as [d|] eqn:E; [exfalso|reflexivity]. unfold distribute, iter in E.
  assert (PL : forall q j s s', length s = K * given -> put_label labels None K q j s = Some s' -> length s' = K * given /\ forall a, nth_error labels (q * K + j) = Some a -> a <= given).
  { intros q j s s' LS P. unfold put_label in P. unfold aget at 1 in P. destruct (nth_error labels (q * K + j)) as [a|]; cbn [obind] in P; [|discriminate]. destruct (Nat.eqb_spec a 0) as [A|A]; [injection P as <-; split; [exact LS|intros b [= <-]; lia]|].
    unfold aget, aset in P. destruct (nth_error s (j + (a - 1) * K)) as [v|] eqn:V; cbn [obind] in P; [|discriminate]. assert (B : j + (a - 1) * K < length s) by (apply nth_error_Some; congruence). replace (_ <? length s) with true in P by (symmetry; now apply Nat.ltb_lt). injection P as <-. split; [now rewrite upd_length|]. intros b [= <-]. rewrite LS in B. assert (1 <= K) by (unfold K; nia). nia. }
  apply (iter_some (fun s => length s = K * given)) in E; [|intros q s s' LS B; unfold iter in B; apply (iter_some (fun s => length s = K * given)) in B; [tauto|intros j u u' LU P; apply (PL _ _ _ _ LU P)|exact LS]|apply repeat_length].
  destruct E as [_ E]. apply In_nth_error in IL. destruct IL as [i IL]. assert (BI : i < maps * K) by (rewrite <- HN; apply nth_error_Some; congruence). assert (K1 : 1 <= K) by (unfold K; nia).
  destruct (E (i / K)) as (s1 & s2 & LS & B); [split; [lia|]; apply Nat.div_lt_upper_bound; lia|]. unfold iter in B. apply (iter_some (fun s => length s = K * given)) in B; [|intros j u u' LU P; apply (PL _ _ _ _ LU P)|exact LS]. destruct B as [_ B].
  pose proof (Nat.mod_upper_bound i K ltac:(lia)) as MB. destruct (B (i mod K) ltac:(lia)) as (u1 & u2 & LU & P). destruct (PL _ _ _ _ LU P) as [_ F]. assert (l <= given); [|lia]. apply F. rewrite <- IL. f_equal. pose proof (Nat.div_mod i K ltac:(lia)). lia.
Qed.
(** C215: "the mass of an entry of LABELS is that of the same entry of MASS" is false: the masses of the layers after the first are not used *)
Theorem C215_mass_refuted : (forall labels W H maps m m' given, firstn (W * H) m = firstn (W * H) m' -> inthist labels W H maps (Some m) given = inthist labels W H maps (Some m') given) /\
  inthist [1; 1] 1 1 2 (Some [1; 5]%Z) 1 = Some (Some [2%Z]).
Proof.
  split; [|vm_compute; reflexivity]. intros labels W H maps m m' given E. unfold inthist. destruct (num_labels _ _ _) as [L|]; [|reflexivity]. set (K := W * H) in *. unfold distribute.
  assert (EQ : forall q j d, j < K -> put_label labels (Some m) K q j d = put_label labels (Some m') K q j d).
  { intros q j d J. unfold put_label. assert (X : aget m j = aget m' j). { unfold aget. rewrite <- (firstn_skipn K m), <- (firstn_skipn K m'), E. destruct (lt_dec j (length (firstn K m'))) as [A|A]; [now rewrite !nth_error_app1 by exact A|]. pose proof (f_equal (@length Z) E) as LE. rewrite firstn_length in A. rewrite !firstn_length in LE.
      rewrite !(proj2 (nth_error_None _ _)); [reflexivity| |]; rewrite app_length, firstn_length, skipn_length; lia. }
    now rewrite X. }
  assert (IE : forall q n i d, i + n <= K -> iter_from n i (put_label labels (Some m) K q) d = iter_from n i (put_label labels (Some m') K q) d).
  { intros q. induction n as [|n IH]; intros i d B; cbn [iter_from]; [reflexivity|]. rewrite EQ by lia. destruct (put_label _ _ _ _ _ _); cbn [obind]; [apply IH; lia|reflexivity]. }
  assert (OE : forall n i d, iter_from n i (fun q => iter K (put_label labels (Some m) K q)) d = iter_from n i (fun q => iter K (put_label labels (Some m') K q)) d).
  { induction n as [|n IH]; intros i d; cbn [iter_from]; [reflexivity|]. unfold iter at 1 3. rewrite IE by lia. destruct (iter_from K 0 _ d); cbn [obind]; auto. }
  unfold iter at 1 3. rewrite OE. reflexivity.
Qed.
(** C216: "an empty map gives an empty histogram" is false: with NUMLABELS given, the first entry is written out of bounds *)
Theorem C216_empty_refuted W H maps mass given : W * H = 0 -> given <> 0 -> inthist [] W H maps mass given = None.
Proof.
  intros K0 G. unfold inthist. cbv zeta. rewrite K0. unfold num_labels. destruct (Nat.eqb_spec given 0); [contradiction|]. cbn [firstn existsb]. unfold distribute. assert (ID : forall n i, iter_from n i (fun q => iter 0 (put_label [] mass 0 q)) (repeat 0%Z (0 * given)) = Some (repeat 0%Z (0 * given))).
  { induction n0 as [|n0 IH]; intros i; cbn [iter_from]; [reflexivity|]. cbn [iter iter_from obind]. apply IH. }
  unfold iter at 1. rewrite ID. cbn [obind]. destruct given as [|g]; [contradiction|]. reflexivity.
Qed.

Print Assumptions C212_inthist.
Print Assumptions C212_error.
Print Assumptions C213_sample.
Print Assumptions C213_error.
Print Assumptions C214_maps_refuted.
Print Assumptions C215_mass_refuted.
Print Assumptions C216_empty_refuted.

(** a 2 by 3 map *)
Definition ex_labels : list nat := [1; 2; 2; 0; 1; 1].
Example C212_ex : inthist ex_labels 2 3 1 None 0 = Some (Some [1; 1; 1; 1; 2; 3; 0; 1; 1; 2; 1; 2]%Z). Proof. vm_compute. reflexivity. Qed.
Example C212_ex_maps : inthist (ex_labels ++ ex_labels) 2 3 2 (Some [10; 1; 1; 1; 2 ^ 31; 5]%Z) 3 = Some (Some [20; 20; 20; 20; 20; 30; 0; 2; 2; 4; 2; 4; 0; 0; 0; 0; 0; 0]%Z). Proof. vm_compute. reflexivity. Qed.
Example C212_ex_hyp : bins ex_labels 6 0 2 /\ forall l, In l ex_labels -> l <= 2.
Proof. split; [right; split; [reflexivity|]; split; [cbn; intros; lia|right; cbn; tauto]|cbn; intros; lia]. Qed.
Example C212_ex_error : inthist ex_labels 2 3 1 None 1 = Some None. Proof. vm_compute. reflexivity. Qed.
Example C213_ex : sample [1; 1; 1; 1; 2; 3; 0; 1; 1; 2; 1; 2]%Z 2 3 2 [(1, 1, 2, 3); (2, 1, 2, 2); (1, 2, 1, 3); (2, 1, 1, 1)] = Some (Some [[3; 2]; [0; 1]; [1; 1]; [0; 0]]%Z). Proof. vm_compute. reflexivity. Qed.
Example C213_ex_error : sample [1; 1; 1; 1; 2; 3; 0; 1; 1; 2; 1; 2]%Z 2 3 2 [(1, 1, 2, 3); (1, 1, 3, 1)] = Some None. Proof. vm_compute. reflexivity. Qed.
Example C214_ex : inthist [1; 2] 1 1 2 None 1 = None /\ inthist [1; 2] 1 1 2 None 0 = None. Proof. split; vm_compute; reflexivity. Qed.
Example C216_ex : inthist [] 0 4 1 None 3 = None. Proof. vm_compute. reflexivity. Qed.
