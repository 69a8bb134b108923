(** Trees of quantisers: training and paths. *)
From Coq Require Import List Arith ZArith Lia Bool.
Import ListNotations.
From Verif Require Import Base Loop MserSort_Proofs MserUnion_Proofs Ikm_Model Ikm_Spec IkmDist_Proofs IkmMean_Proofs IkmElkan_Proofs IkmInit_Proofs.
Local Open Scope nat_scope.

Lemma zsum_const n c : zsum n (fun _ => c) = (Z.of_nat n * c)%Z.
Proof. induction n as [|n IH]; cbn [zsum]; [lia|]. rewrite IH. lia. Qed.
Lemma bytes_fit M K cs (u : nat -> Z) : (Z.of_nat M * 65025 < acc_max)%Z -> bytes cs -> (forall i, i < M -> (0 <= u i < 256)%Z) -> fits M K cs u.
Proof.
  intros HM B U k Hk. apply Z.le_lt_trans with (2 := HM). rewrite <- zsum_const. apply zsum_le. intros i Hi.
  pose proof (byte_nth cs (k * M + i) B) as Q. fold (coord M cs k i) in Q. specialize (U i Hi). nia.
Qed.
Lemma coord_byte M data x i : bytes data -> (0 <= coord M data x i < 256)%Z.
Proof. intro B. now apply byte_nth. Qed.

(** ** The subset of a label *)
Lemma flat_rows_length M data l : length (flat_map (row M data) l) = length l * M.
Proof. induction l as [|x l IH]; cbn [flat_map length]; [reflexivity|]. rewrite app_length, IH. unfold row. rewrite map_length, seq_length. lia. Qed.
Lemma flat_rows_coord M data l r i : r < length l -> i < M -> coord M (flat_map (row M data) l) r i = coord M data (nth r l 0) i.
Proof.
  revert r. induction l as [|x l IH]; intros r Lr Li; cbn [length flat_map] in *; [lia|].
  assert (Lx : length (row M data x) = M) by (unfold row; now rewrite map_length, seq_length). destruct r as [|r].
  - unfold coord at 1. cbn [Nat.mul Nat.add nth]. rewrite app_nth1 by lia. unfold row.
    rewrite (nth_indep _ 0%Z (coord M data x 0)), map_nth, seq_nth by (rewrite ?map_length, ?seq_length; assumption). reflexivity.
  - unfold coord at 1. cbn [nth]. rewrite app_nth2 by (rewrite Lx; lia). rewrite Lx. replace (S r * M + i - M) with (r * M + i) by lia. apply IH; lia.
Qed.
Lemma copy_row_out M data x out : x * M + M <= length data -> iter M (fun j out => do v <- aget data (x * M + j); Some (out ++ [v])) out = Some (out ++ row M data x).
Proof.
  intro L.
  match goal with |- context [iter M ?f ?s] => destruct (iter_inv (fun j r => r = out ++ map (coord M data x) (seq 0 j)) f M s) as (r & -> & ->) end.
  - now rewrite app_nil_r.
  - intros j r Lj ->. rewrite (aget_nth data _ 0%Z) by lia. cbn [obind]. eexists. split; [reflexivity|]. rewrite Nat.add_1_r, seq_S, map_app, app_assoc. reflexivity.
  - reflexivity.
Qed.
Definition chosen (ids : list Z) (N : nat) (id : nat) : list nat := filter (of_label ids id) (seq 0 N).
Lemma copy_subset_ok data ids N M id : N * M <= length data -> N <= length ids ->
  copy_subset data ids N M (Z.of_nat id) = Some (flat_map (row M data) (chosen ids N id), length (chosen ids N id)).
Proof.
  intros LD LI. unfold copy_subset.
  match goal with |- context [iter N ?f ?s] => destruct (iter_inv (fun j st => st = (flat_map (row M data) (chosen ids j id), length (chosen ids j id))) f N s) as (r & -> & ->) end.
  - reflexivity.
  - intros j st Lj ->. cbv beta iota. rewrite (aget_nth ids _ 0%Z) by lia. cbn [obind]. fold (of_label ids id j). replace (j + 1) with (S j) by lia.
    unfold chosen. rewrite seq_S, filter_app. cbn [filter Nat.add]. fold (of_label ids id j). destruct (of_label ids id j) eqn:E.
    + rewrite copy_row_out by nia. cbn [obind]. eexists. split; [reflexivity|]. rewrite flat_map_app, app_length. cbn [flat_map length]. now rewrite app_nil_r.
    + eexists. split; [reflexivity|]. now rewrite app_nil_r.
  - reflexivity.
Qed.
Lemma flat_bytes M data l : bytes data -> bytes (flat_map (row M data) l).
Proof.
  intro B. apply Forall_forall. intros v Hv. apply in_flat_map in Hv. destruct Hv as (x & _ & Hv). unfold row in Hv. apply in_map_iff in Hv.
  destruct Hv as (i & <- & _). now apply coord_byte.
Qed.

(** ** Sound trees *)
Inductive sound (M G : nat) : nat -> node -> Prop :=
| sound_leaf f : ready f -> fM f = M /\ fK f <= G -> bytes (centers f) -> sound M G 0 (Node f None)
| sound_node h f cs : ready f -> fM f = M /\ fK f <= G -> bytes (centers f) -> length cs = fK f -> Forall (sound M G h) cs -> sound M G (S h) (Node f (Some cs)).

Lemma path_height M G u h nd : sound M G h nd -> forall p, path_of M u nd p -> length p = S h.
Proof.
  revert nd. induction h as [|h IH]; intros nd S p P.
  - inversion S; subst. inversion P; subst. reflexivity.
  - inversion S as [|h' f cs R [E Eg] B L F]; subst. inversion P as [|f' cs' k c q L' N E' Q]; subst. cbn [length]. f_equal. apply (IH c); [|assumption].
    rewrite Forall_forall in F. apply F. now apply nth_error_In in E'.
Qed.
Lemma path_unique M G u h nd : sound M G h nd -> forall p q, path_of M u nd p -> path_of M u nd q -> p = q.
Proof.
  revert nd. induction h as [|h IH]; intros nd S p q P Q.
  - inversion S as [f R [Ef Eg] B|]; subst. inversion P; subst. inversion Q; subst. do 2 f_equal. eapply first_nearest_unique; eassumption.
  - inversion S as [|h' f cs R [E Eg] B L F]; subst. inversion P as [|f1 cs1 k1 c1 q1 L1 N1 E1 Q1]; subst. inversion Q as [|f2 cs2 k2 c2 q2 L2 N2 E2 Q2]; subst.
    assert (k1 = k2) by (eapply first_nearest_unique; eassumption). subst k2. assert (c1 = c2) by congruence. subst c2. f_equal. apply (IH c1); try assumption.
    rewrite Forall_forall in F. apply F. now apply nth_error_In in E1.
Qed.
Lemma path_ext M G u u' h nd : (forall i, i < M -> u i = u' i) -> sound M G h nd -> forall p, path_of M u nd p -> path_of M u' nd p.
Proof.
  intro E. revert nd. induction h as [|h IH]; intros nd S p P.
  - inversion S as [f R [Ef Eg] B|]; subst. inversion P; subst. constructor. eapply first_nearest_ext; eassumption.
  - inversion S as [|h' f cs R [Ef Eg] B L F]; subst. inversion P as [|f1 cs1 k1 c1 q1 L1 N1 E1 Q1]; subst. econstructor; try eassumption.
    + eapply first_nearest_ext; eassumption.
    + apply IH; [|assumption]. rewrite Forall_forall in F. apply F. now apply nth_error_In in E1.
Qed.

(** every datum has a path when no node is empty *)
Lemma nearest_exists M K cs u : 0 < K -> exists k, first_nearest M K cs u k.
Proof.
  intro H. induction K as [|K IH]; [lia|]. destruct (Nat.eq_dec K 0) as [->|].
  - exists 0. split; [lia|]. split; [|lia]. intros c L. replace c with 0 by lia. lia.
  - destruct IH as (k & A & B & C); [lia|]. destruct (Z_lt_le_dec (sqdist M u (coord M cs K)) (sqdist M u (coord M cs k))) as [L|L].
    + exists K. split; [lia|]. split; [|intros c Lc; specialize (B c Lc); lia]. intros c Lc. destruct (Nat.eq_dec c K) as [->|]; [lia|]. specialize (B c ltac:(lia)). lia.
    + exists k. split; [lia|]. split; [|assumption]. intros c Lc. destruct (Nat.eq_dec c K) as [->|]; [lia|]. apply B. lia.
Qed.
Lemma inhabited_path M G u h nd : sound M G h nd -> inhabited nd -> exists p, path_of M u nd p.
Proof.
  revert nd. induction h as [|h IH]; intros nd S I.
  - inversion S as [f R [Ef Eg] B|]; subst. inversion I; subst. destruct (nearest_exists (fM f) (fK f) (centers f) u) as (k & F); [assumption|]. eexists. constructor. eassumption.
  - inversion S as [|h' f cs R [Ef Eg] B L F]; subst. inversion I as [|f' cs' P FI]; subst. destruct (nearest_exists (fM f) (fK f) (centers f) u P) as (k & N).
    destruct (nth_error cs k) as [c|] eqn:E; [|apply nth_error_None in E; destruct N; lia].
    rewrite Forall_forall in F, FI. pose proof (nth_error_In _ _ E) as Hin. destruct (IH c (F c Hin) (FI c Hin)) as (p & Q). eexists. econstructor; eassumption.
Qed.

Lemma path_range M G u h nd : sound M G h nd -> forall p, path_of M u nd p -> Forall (fun v => 0 <= v < Z.of_nat G)%Z p.
Proof.
  revert nd. induction h as [|h IH]; intros nd S p P.
  - inversion S as [f R [Ef Eg] B|]; subst. inversion P as [f' k (Lk & _)|]; subst. repeat constructor; lia.
  - inversion S as [|h' f cs R [Ef Eg] B L F]; subst. inversion P as [|f' cs' k c q L' (Lk & _) E' Q]; subst. constructor; [lia|]. apply (IH c); [|assumption].
    rewrite Forall_forall in F. apply F. now apply nth_error_In in E'.
Qed.

(** the code follows the path *)
Lemma nth_firstn_lt (l : list Z) n t : t < n -> nth t (firstn n l) 0%Z = nth t l 0%Z.
Proof. revert n t. induction l as [|h l IH]; intros [|n] [|t] L; cbn; try lia; try reflexivity. apply IH. lia. Qed.
Lemma nth_skipn_at (l : list Z) n t : nth t (skipn n l) 0%Z = nth (n + t) l 0%Z.
Proof. revert n. induction l as [|h l IH]; intros [|n]; cbn; try reflexivity; [now destruct t|apply IH]. Qed.
Definition written (o : nat) (p : list Z) (a a' : list Z) : Prop :=
  length a' = length a /\ forall t, nth t a' 0%Z = if (o <=? t) && (t <? o + length p) then nth (t - o) p 0%Z else nth t a 0%Z.
Lemma descend_ok M G h nd data x : (Z.of_nat M * 65025 < acc_max)%Z -> bytes data -> x * M + M <= length data -> sound M G h nd ->
  forall p fuel o asgn, path_of M (coord M data x) nd p -> S h <= fuel -> o + S h <= length asgn ->
  exists a, descend fuel M nd data x o asgn = Some a /\ written o p asgn a.
Proof.
  intros HM B LD. revert nd. induction h as [|h IH]; intros nd S p fuel o asgn P F LO; (destruct fuel as [|fuel]; [lia|]); cbn [descend].
  - inversion S as [f R [Ef Eg] Bc|]; subst. inversion P as [f' k N|]; subst. pose proof (bytes_fit (fM f) (fK f) (centers f) (coord (fM f) data x) HM Bc ltac:(intros; now apply coord_byte)) as Ft.
    destruct (push_datum_ok f data (x * fM f) R LD ltac:(destruct N; lia) ltac:(intros _; exact Ft)) as (k' & -> & N'). cbn [obind].
    assert (k' = k) by (eapply first_nearest_unique; eassumption). subst k'. rewrite aset_lt by lia. cbn [obind]. eexists. split; [reflexivity|].
    split; [apply upd_length|]. intro t. rewrite nth_upd by lia. cbn [length]. destruct (Nat.eqb_spec t o) as [->|].
    + destruct (Nat.leb_spec o o); [|lia]. destruct (Nat.ltb_spec o (o + 1)); [|lia]. rewrite Nat.sub_diag. reflexivity.
    + destruct (Nat.leb_spec o t); destruct (Nat.ltb_spec t (o + 1)); try reflexivity. lia.
  - inversion S as [|h' f cs R [Ef Eg] Bc L FS]; subst. inversion P as [|f' cs' k c q L' N E Q]; subst. pose proof (bytes_fit (fM f) (fK f) (centers f) (coord (fM f) data x) HM Bc ltac:(intros; now apply coord_byte)) as Ft.
    destruct (push_datum_ok f data (x * fM f) R LD ltac:(destruct N; lia) ltac:(intros _; exact Ft)) as (k' & -> & N'). cbn [obind].
    assert (k' = k) by (eapply first_nearest_unique; eassumption). subst k'. rewrite aset_lt by lia. cbn [obind].
    destruct (Z.ltb_spec (Z.of_nat k) (Z.of_nat (length cs))); [|destruct N; lia].
    unfold zget. destruct (Z.ltb_spec (Z.of_nat k) 0); [lia|]. rewrite Nat2Z.id. unfold aget. rewrite E. cbn [obind].
    rewrite Forall_forall in FS. pose proof (FS c (nth_error_In _ _ E)) as Sc.
    destruct (IH c Sc q fuel (o + 1) (upd asgn o (Z.of_nat k)) Q ltac:(lia) ltac:(rewrite upd_length; lia)) as (a & -> & W1 & W2). exists a. split; [reflexivity|].
    rewrite upd_length in W1. split; [assumption|]. intro t. rewrite W2. cbn [length]. rewrite nth_upd by lia.
    destruct (Nat.leb_spec (o + 1) t); destruct (Nat.leb_spec o t); destruct (Nat.ltb_spec t (o + 1 + length q)); destruct (Nat.ltb_spec t (o + Datatypes.S (length q))); destruct (Nat.eqb_spec t o); try lia; cbn [andb]; try reflexivity.
    + replace (t - o) with (Datatypes.S (t - (o + 1))) by lia. reflexivity.
    + replace (t - o) with 0 by lia. reflexivity.
Qed.
Lemma hikm_push_ok M G h root data N asgn : (Z.of_nat M * 65025 < acc_max)%Z -> bytes data -> N * M <= length data -> sound M G h root -> length asgn = N * S h ->
  (forall x, x < N -> exists p, path_of M (coord M data x) root p) ->
  exists out, hikm_push M (S h) root asgn data N = Some out /\ length out = length asgn /\
    forall x, x < N -> path_of M (coord M data x) root (firstn (S h) (skipn (x * S h) out)).
Proof.
  intros HM B LD S LA HP. unfold hikm_push.
  match goal with |- context [iter N ?f ?s] => destruct (iter_inv (fun j out => length out = length asgn /\
    forall x, x < j -> path_of M (coord M data x) root (firstn (Datatypes.S h) (skipn (x * Datatypes.S h) out))) f N s) as (out & -> & I1 & I2) end.
  - split; [reflexivity|lia].
  - intros x out Hx [I1 I2]. cbv beta. destruct (HP x Hx) as (p & P). pose proof (path_height M G _ h root S p P) as Lp.
    destruct (descend_ok M G h root data x HM B ltac:(nia) S p (Datatypes.S h + 1) (x * Datatypes.S h) out P ltac:(lia) ltac:(nia)) as (a & E & W1 & W2).
    exists a. split; [exact E|]. split; [congruence|]. rewrite Nat.add_1_r. intros x' Hx'.
    assert (LL : forall b : list Z, length b = length asgn -> length (firstn (Datatypes.S h) (skipn (x' * Datatypes.S h) b)) = Datatypes.S h).
    { intros b Lb. rewrite firstn_length, skipn_length, Lb, LA. nia. }
    assert (NN : forall (b : list Z) t, t < Datatypes.S h -> nth t (firstn (Datatypes.S h) (skipn (x' * Datatypes.S h) b)) 0%Z = nth (x' * Datatypes.S h + t) b 0%Z).
    { intros b t Lt. rewrite nth_firstn_lt by assumption. now rewrite nth_skipn_at. }
    destruct (Nat.eq_dec x' x) as [->|Ne].
    + replace (firstn (Datatypes.S h) (skipn (x * Datatypes.S h) a)) with p; [assumption|]. apply (nth_ext _ _ 0%Z 0%Z); [rewrite LL by congruence; assumption|].
      intros t Lt. rewrite NN by lia. rewrite W2. destruct (Nat.leb_spec (x * Datatypes.S h) (x * Datatypes.S h + t)); [|lia].
      destruct (Nat.ltb_spec (x * Datatypes.S h + t) (x * Datatypes.S h + length p)); [|lia]. cbn [andb]. f_equal. lia.
    + replace (firstn (Datatypes.S h) (skipn (x' * Datatypes.S h) a)) with (firstn (Datatypes.S h) (skipn (x' * Datatypes.S h) out)); [apply I2; lia|].
      apply (nth_ext _ _ 0%Z 0%Z); [rewrite !LL by congruence; reflexivity|]. rewrite LL by congruence. intros t Lt. rewrite !NN by assumption. rewrite W2.
      destruct (Nat.leb_spec (x * Datatypes.S h) (x' * Datatypes.S h + t)); [|reflexivity].
      destruct (Nat.ltb_spec (x' * Datatypes.S h + t) (x * Datatypes.S h + length p)); [|reflexivity]. exfalso. nia.
  - exists out. split; [reflexivity|]. split; assumption.
Qed.

(** ** Training a tree *)
Definition chance_ok (ch : chance) : Prop :=
  (forall path n, permutes n (order_at ch path n)) /\ (forall path n, length (fresh_asgn ch path n) = n) /\ (forall path k, length (fresh_inter ch path k) = k * k).
Lemma chosen_in ids N id x : x < N -> nth x ids 0%Z = Z.of_nat id -> exists r, r < length (chosen ids N id) /\ nth r (chosen ids N id) 0 = x.
Proof.
  intros Hx E. assert (H : In x (chosen ids N id)).
  { apply filter_In. split; [apply in_seq; lia|]. unfold of_label. rewrite E. apply Z.eqb_refl. }
  apply (In_nth _ _ 0) in H. destruct H as (r & A & B). exists r. auto.
Qed.
Lemma chosen_le ids N id : length (chosen ids N id) <= N.
Proof.
  unfold chosen. rewrite <- (seq_length N 0) at 2. generalize (seq 0 N). intro l. induction l as [|x l IH]; cbn [filter length]; [lia|].
  destruct (of_label ids id x); cbn [length]; lia.
Qed.
Lemma xmeans_ok el M G nit ch : (Z.of_nat M * 65025 < acc_max)%Z -> chance_ok ch -> forall height path data N K,
  K <= N -> K <= G -> (0 < N -> 0 < K) -> (Z.of_nat K < no_center)%Z -> N * M <= length data -> bytes data ->
  exists nd, xmeans height el M nit ch path data N K = Some nd /\ sound M G height nd /\
    forall x, x < N -> exists p, path_of M (coord M data x) nd p.
Proof.
  intros HM (CO & CA & CI). induction height as [|height IH]; intros path data N K KN KG NK KB LD B; cbn [xmeans].
  all: destruct (init_rand_data_ok el data M N K nit (order_at ch path N) (fresh_inter ch path K) ltac:(lia) LD (CO path N) (CI path K)) as (f & -> & R & E1 & E2 & E3 & E4 & Rows & _); cbn [obind].
  all: assert (Bc : bytes (centers f)) by (destruct R as [LC _]; rewrite E2, E3 in LC; exact (rows_bytes M N K (centers f) data LC B Rows)).
  all: destruct (train_ok f data N (fresh_asgn ch path N)) as (f' & a & done & q & -> & T1 & T2 & T3 & _ & T5 & T6 & _); try assumption; try (rewrite ?E2, ?E3; assumption); [apply CA|]; cbn [obind].
  all: rewrite E1 in T1; rewrite E2 in T2; rewrite E3 in T3.
  all: assert (PU : exists ids, push f' (repeat 0%Z N) data N = Some ids /\ length ids = N /\
      forall x, x < N -> exists k, nth x ids 0%Z = Z.of_nat k /\ first_nearest M K (centers f') (coord M data x) k).
  1, 3: destruct (Nat.eq_dec N 0) as [->|NZ]; [exists []; split; [reflexivity|]; split; [reflexivity|lia]|];
    destruct (push_ok f' (repeat 0%Z N) data N) as (ids & Ei & Li & _ & Hi); rewrite ?T2, ?T3, ?repeat_length; try assumption; try lia;
      [intros x Hx _; apply bytes_fit; [assumption..|intros; now apply coord_byte]|];
    exists ids; split; [exact Ei|]; rewrite repeat_length in Li; split; [exact Li|]; rewrite T2, T3 in Hi; exact Hi.
  all: destruct PU as (ids & -> & Li & Hi); cbn [obind].
  - exists (Node f' None). split; [reflexivity|]. split; [constructor; try assumption; split; [assumption|lia]|]. intros x Hx. destruct (Hi x Hx) as (k & _ & Fk). exists [Z.of_nat k]. constructor. rewrite T3. exact Fk.
  - match goal with |- context [iter K ?g ?s] => destruct (iter_inv (fun j (cs : list node) => length cs = j /\ Forall (sound M G height) cs /\
      forall k, k < j -> exists c, nth_error cs k = Some c /\ forall x, x < N -> nth x ids 0%Z = Z.of_nat k -> exists p, path_of M (coord M data x) c p) g K s) as (cs & -> & I1 & I2 & I3) end.
    + split; [reflexivity|]. split; [constructor|lia].
    + intros k cs Hk (I1 & I2 & I3). cbv beta. rewrite (copy_subset_ok data ids N M k LD) by lia. cbn [obind].
      set (sel := chosen ids N k). pose proof (chosen_le ids N k) as Ls. fold sel in Ls.
      destruct (IH (path ++ [k]) (flat_map (row M data) sel) (length sel) (Nat.min K (length sel))) as (c & -> & Sc & Pc);
        [lia|lia|lia|lia|rewrite flat_rows_length; lia|now apply flat_bytes|]. cbn [obind].
      eexists. split; [reflexivity|]. rewrite Nat.add_1_r, app_length, I1. cbn [length]. split; [lia|]. split; [apply Forall_app; split; [assumption|repeat constructor; assumption]|].
      intros k' Lk'. destruct (Nat.eq_dec k' k) as [->|].
      * exists c. split; [rewrite nth_error_app2, I1, Nat.sub_diag by lia; reflexivity|]. intros x Hx Ex.
        destruct (chosen_in ids N k x Hx Ex) as (r & Lr & Er). fold sel in Lr, Er. destruct (Pc r Lr) as (p & Pp). exists p.
        apply (path_ext M G (coord M (flat_map (row M data) sel) r) _ height); [|assumption..]. intros i Li'. rewrite flat_rows_coord by assumption. now rewrite Er.
      * destruct (I3 k' ltac:(lia)) as (c' & Ec' & Hc'). exists c'. split; [|assumption]. rewrite nth_error_app1 by lia. assumption.
    + cbn [obind]. exists (Node f' (Some cs)). split; [reflexivity|]. split; [constructor; try assumption; [split; [assumption|lia]|lia]|].
      intros x Hx. destruct (Hi x Hx) as (k & Ek & Fk). destruct (I3 k ltac:(apply Fk)) as (c & Ec & Hc). destruct (Hc x Hx Ek) as (p & Pp).
      exists (Z.of_nat k :: p). econstructor; try eassumption; [lia|]. rewrite T3. exact Fk.
Qed.
