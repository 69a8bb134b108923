(** C22, C23, C93-C100: integer k-means and trees. *)
From Coq Require Import List Arith ZArith Lia Bool.
Import ListNotations.
From Verif Require Import Base Loop MserSort_Proofs MserUnion_Proofs Ikm_Model Ikm_Spec IkmDist_Proofs IkmMean_Proofs IkmElkan_Proofs IkmInit_Proofs Hikm_Proofs.
Local Open Scope nat_scope.

(** C22: either method, and vl_ikm_push_one, give the first nearest center *)
Theorem C22_push f asgn data N : ready f -> N * fM f <= length data -> length asgn = N -> 0 < fK f ->
  (forall x, x < N -> fits (fM f) (fK f) (centers f) (coord (fM f) data x)) ->
  exists out, push f asgn data N = Some out /\ length out = N /\ forall x, x < N -> exists k,
    nth x out 0%Z = Z.of_nat k /\ first_nearest (fM f) (fK f) (centers f) (coord (fM f) data x) k /\
    push_one (fM f) (fK f) (centers f) data (x * fM f) = Some (Z.of_nat k).
Proof.
  intros R LD LA HK F. destruct (push_ok f asgn data N R LD ltac:(lia) HK ltac:(auto)) as (out & E & L & _ & H). exists out. split; [exact E|]. split; [congruence|].
  intros x Hx. destruct (H x Hx) as (k & Ek & Fk). exists k. split; [assumption|]. split; [assumption|].
  destruct (push_one_ok (fM f) (fK f) (centers f) data (x * fM f) (proj1 R) ltac:(nia)) as [_ P]. destruct (P HK) as (k' & E' & F').
  assert (k' = k) by (eapply first_nearest_unique; eassumption). now subst.
Qed.
Theorem C22_methods_agree cs d M K nit asgn data N : length cs = M * K -> current M K cs d -> N * M <= length data -> length asgn = N -> 0 < K ->
  (forall x, x < N -> fits M K cs (coord M data x)) ->
  push (mk_ikm true M K cs d nit) asgn data N = push (mk_ikm false M K cs [] nit) asgn data N.
Proof.
  intros LC Cur LD LA HK F.
  destruct (C22_push (mk_ikm true M K cs d nit) asgn data N) as (o1 & -> & L1 & H1); try assumption; [split; [assumption|intros _; assumption]|].
  destruct (C22_push (mk_ikm false M K cs [] nit) asgn data N) as (o2 & -> & L2 & H2); try assumption; [split; [assumption|discriminate]|].
  f_equal. apply (nth_ext _ _ 0%Z 0%Z); [lia|]. intros x Hx. destruct (H1 x ltac:(lia)) as (k1 & -> & F1 & _). destruct (H2 x ltac:(lia)) as (k2 & -> & F2 & _).
  f_equal. eapply first_nearest_unique; eassumption.
Qed.
(** the quantiser is ready after initialisation, and after training *)
Theorem C22_ready el cs M K nit junk data N asgn : length cs = M * K -> length junk = K * K -> bytes cs ->
  0 < K <= N -> (Z.of_nat K < no_center)%Z -> N * M <= length data -> bytes data -> length asgn = N ->
  exists f, init el cs M K nit junk = Some f /\ ready f /\ centers f = cs /\
  exists f' a done p, train f data N asgn = Some (f', a, done, p) /\ ready f' /\ bytes (centers f') /\ fM f' = M /\ fK f' = K /\ elkan f' = el.
Proof.
  intros LC LJ Bc HK HB LD B LA. destruct (init_ok el cs M K nit junk LC LJ) as (f & -> & R & E1 & E2 & E3 & E4 & E5). exists f. split; [reflexivity|].
  split; [assumption|]. split; [assumption|].
  destruct (train_ok f data N asgn) as (f' & a & done & p & E & T1 & T2 & T3 & T4 & T5 & T6 & _); rewrite ?E2, ?E3, ?E4; try assumption; try lia.
  exists f', a, done, p. split; [exact E|]. split; [exact T5|]. split; [assumption|]. repeat split; congruence.
Qed.
Print Assumptions C22_push.
Print Assumptions C22_methods_agree.
Print Assumptions C22_ready.
Definition ex_data : list Z := [1; 22; 25; 19]%Z.
Example C22_ex_push : exists d, update_inter 1 3 [28; 18; 22]%Z (repeat 5%Z 9) = Some d /\
  push (mk_ikm true 1 3 [28; 18; 22]%Z d 200) [9; 9; 9; 9]%Z ex_data 4 = Some [1; 2; 0; 1]%Z /\
  push (mk_ikm false 1 3 [28; 18; 22]%Z [] 200) [9; 9; 9; 9]%Z ex_data 4 = Some [1; 2; 0; 1]%Z.
Proof. eexists. repeat split. Qed.
(** at equal distances the first center is taken *)
Example C22_ex_tie : exists d, update_inter 1 3 [4; 8; 0]%Z (repeat 5%Z 9) = Some d /\
  push (mk_ikm true 1 3 [4; 8; 0]%Z d 200) [9; 9]%Z [6; 2]%Z 2 = Some [0; 0]%Z.
Proof. eexists. repeat split. Qed.

(** C23: paths down a trained tree *)
Theorem C23_training_paths depth el M K nit ch data N asgn :
  0 < depth -> 0 < K -> 0 < N -> (Z.of_nat K < no_center)%Z -> (Z.of_nat M * 65025 < acc_max)%Z -> chance_ok ch ->
  N * M <= length data -> bytes data -> length asgn = N * depth ->
  exists root out, hikm_train depth el M K nit ch data N = Some root /\ hikm_push M depth root asgn data N = Some out /\ length out = N * depth /\
    forall x, x < N -> path_of M (coord M data x) root (firstn depth (skipn (x * depth) out)).
Proof.
  intros HD HK HN KB HM CH LD B LA. destruct depth as [|h]; [lia|]. unfold hikm_train. replace (S h - 1) with h by lia.
  destruct (xmeans_ok el M K nit ch HM CH h [] data N (Nat.min K N)) as (root & -> & S & P); try assumption; try lia.
  destruct (hikm_push_ok M K h root data N asgn HM B LD S LA P) as (out & E & L & Q). exists root, out. split; [reflexivity|]. split; [exact E|]. split; [congruence|assumption].
Qed.
(** any data, if no node of the tree is without centers; the tree itself is always usable that way *)
Theorem C23_paths depth el M K nit ch data N root queries n asgn :
  0 < depth -> 0 < K -> 0 < N -> (Z.of_nat K < no_center)%Z -> (Z.of_nat M * 65025 < acc_max)%Z -> chance_ok ch ->
  N * M <= length data -> bytes data -> hikm_train depth el M K nit ch data N = Some root -> inhabited root ->
  n * M <= length queries -> bytes queries -> length asgn = n * depth ->
  exists out, hikm_push M depth root asgn queries n = Some out /\ length out = n * depth /\
    forall x, x < n -> path_of M (coord M queries x) root (firstn depth (skipn (x * depth) out)).
Proof.
  intros HD HK HN KB HM CH LD B E I LQ BQ LA. destruct depth as [|h]; [lia|]. unfold hikm_train in E. replace (S h - 1) with h in E by lia.
  destruct (xmeans_ok el M K nit ch HM CH h [] data N (Nat.min K N)) as (root' & E' & S & P); try assumption; try lia. rewrite E' in E. injection E as ->.
  destruct (hikm_push_ok M K h root queries n asgn HM BQ LQ S LA) as (out & -> & L & Q); [intros; now apply (inhabited_path M K _ h)|].
  exists out. split; [reflexivity|]. split; [congruence|assumption].
Qed.
(** paths have the depth of the tree, and valid indexes, by their definition *)
Theorem C23_depth depth el M K nit ch data N root u p :
  0 < depth -> 0 < K -> 0 < N -> (Z.of_nat K < no_center)%Z -> (Z.of_nat M * 65025 < acc_max)%Z -> chance_ok ch ->
  N * M <= length data -> bytes data -> hikm_train depth el M K nit ch data N = Some root -> path_of M u root p ->
  length p = depth /\ Forall (fun v => 0 <= v < Z.of_nat K)%Z p.
Proof.
  intros HD HK HN KB HM CH LD B E P. destruct depth as [|h]; [lia|]. unfold hikm_train in E. replace (S h - 1) with h in E by lia.
  destruct (xmeans_ok el M K nit ch HM CH h [] data N (Nat.min K N)) as (root' & E' & S & _); try assumption; try lia. rewrite E' in E. injection E as ->.
  split; [now apply (path_height M K u h root)|now apply (path_range M K u h root)].
Qed.
Print Assumptions C23_training_paths.
Print Assumptions C23_paths.
Print Assumptions C23_depth.
Definition ex_chance : chance := mk_chance (fun _ n => seq 0 n) (fun _ n => repeat 7%Z n) (fun _ k => repeat 9%Z (k * k)).
Example C23_ex_chance : chance_ok ex_chance.
Proof.
  split; [|split; intros; apply repeat_length]. intros path n. cbn [order_at ex_chance]. split; [apply seq_length|]. split; [apply seq_NoDup|].
  intros p H. apply in_seq in H. lia.
Qed.
Definition ex_tree (el : bool) := hikm_train 2 el 1 2 200 ex_chance [1; 3; 40; 43; 2; 41]%Z 6.
Fixpoint inhabited_b (nd : node) : bool :=
  let 'Node f cs := nd in (0 <? fK f) && match cs with None => true | Some l => forallb inhabited_b l end.
Example C23_ex_tree : (forall el, match ex_tree el with
  | Some r => inhabited_b r = true /\ hikm_push 1 2 r (repeat 9%Z 12) [1; 3; 40; 43; 2; 41]%Z 6 = Some [0; 0; 0; 1; 1; 0; 1; 1; 0; 0; 1; 0]%Z
  | None => False end) /\ bytes [1; 3; 40; 43; 2; 41]%Z.
Proof. split; [intros [|]; vm_compute; split; reflexivity|repeat constructor; lia]. Qed.

(** C93: when training stops because the assignments are stable, every datum is at a nearest center
    and every center is the truncated mean of its data (with Lloyd's method, unless the very first
    assignment was already found in the fresh memory); training always stops within the limit *)
Theorem C93_training_stops el cs M K nit junk data N asgn : length cs = M * K -> length junk = K * K -> bytes cs ->
  0 < K <= N -> (Z.of_nat K < no_center)%Z -> N * M <= length data -> bytes data -> length asgn = N ->
  exists f f' a done p, init el cs M K nit junk = Some f /\ train f data N asgn = Some (f', a, done, p) /\
    p <= nit /\ (done = true \/ p = nit) /\ length a = N /\ (forall x, x < N -> exists c, c < K /\ nth x a 0%Z = Z.of_nat c) /\
      (done = true ->
      (forall x, x < N -> exists c, nth x a 0%Z = Z.of_nat c /\ a_nearest M K (centers f') (coord M data x) c) /\
      (el = true \/ 0 < p -> are_means M K N data a (centers f'))).
Proof.
  intros LC LJ Bc HK HB LD B LA. destruct (init_ok el cs M K nit junk LC LJ) as (f & -> & R & E1 & E2 & E3 & E4 & E5).
  destruct (train_ok f data N asgn) as (f' & a & done & p & E & T1 & T2 & T3 & T4 & T5 & T6 & T7 & T8 & T9 & T10 & T11 & T12); rewrite ?E2, ?E3, ?E4; try assumption; try lia.
  rewrite E1, E2, E3, E5 in *. exists f, f', a, done, p. split; [reflexivity|]. split; [exact E|]. do 4 (split; [assumption|]). intro Dt. exact (T12 Dt).
Qed.
(** with Lloyd's method the assignments are the first nearest centers even when the limit is reached *)
Theorem C93_lloyd_assignments cs M K nit junk data N asgn : length cs = M * K -> length junk = K * K -> bytes cs ->
  0 < K <= N -> (Z.of_nat K < no_center)%Z -> N * M <= length data -> bytes data -> length asgn = N ->
  exists f f' a done p, init false cs M K nit junk = Some f /\ train f data N asgn = Some (f', a, done, p) /\
    forall x, x < N -> exists c, nth x a 0%Z = Z.of_nat c /\ first_nearest M K (centers f') (coord M data x) c.
Proof.
  intros LC LJ Bc HK HB LD B LA. destruct (init_ok false cs M K nit junk LC LJ) as (f & -> & R & E1 & E2 & E3 & E4 & E5).
  destruct (train_ok f data N asgn) as (f' & a & done & p & E & T1 & T2 & T3 & T4 & T5 & T6 & T7 & T8 & T9 & T10 & T11 & T12); rewrite ?E2, ?E3, ?E4; try assumption; try lia.
  rewrite E1, E2, E3, E5 in *. exists f, f', a, done, p. split; [reflexivity|]. split; [exact E|]. exact (T11 eq_refl).
Qed.
Print Assumptions C93_training_stops.
Print Assumptions C93_lloyd_assignments.
Definition outcome (r : option (ikm * list Z * bool * nat)) : option (list Z * list Z * bool * nat) :=
  option_map (fun '(f, a, d, p) => (centers f, a, d, p)) r.
Definition run (el : bool) (cs : list Z) (K nit : nat) (data asgn : list Z) : option (list Z * list Z * bool * nat) :=
  outcome (do f <- init el cs 1 K nit (repeat 0%Z (K * K)); train f data (length data) asgn).
Example C93_ex_run : run true [3; 30; 50]%Z 3 200 [1; 3; 40; 43; 2; 41; 90]%Z (repeat 5%Z 7) = Some ([2; 41; 90]%Z, [0; 0; 1; 1; 0; 1; 2]%Z, true, 1) /\
    run false [3; 30; 50]%Z 3 200 [1; 3; 40; 43; 2; 41; 90]%Z (repeat 5%Z 7) = Some ([2; 41; 90]%Z, [0; 0; 1; 1; 0; 1; 2]%Z, true, 2).
Proof. split; vm_compute; reflexivity. Qed.

(** C94: the initial centers are data, distinct ones if the data has enough distinct vectors *)
Theorem C94_initial_centers el data M N K nit order junk : 0 < N -> N * M <= length data -> permutes N order -> length junk = K * K ->
  exists f, init_rand_data el data M N K nit order junk = Some f /\ ready f /\
    (forall c, c < K -> exists p, p < N /\ forall i, i < M -> coord M (centers f) c i = coord M data p i) /\
      ((exists ps, length ps = K /\ (forall p, In p ps -> p < N) /\
          forall a b, a < b < K -> exists i, i < M /\ coord M data (nth a ps 0) i <> coord M data (nth b ps 0) i) ->
     forall a b, a < b < K -> exists i, i < M /\ coord M (centers f) a i <> coord M (centers f) b i).
Proof.
  intros HN LD PO LJ. destruct (init_rand_data_ok el data M N K nit order junk ltac:(auto) LD PO LJ) as (f & E & R & _ & _ & _ & _ & H1 & H2).
  exists f. split; [exact E|]. split; [exact R|]. split.
  - intros c Hc. destruct (H1 c Hc) as (p & Hp & Er). exists p. split; [assumption|]. now apply row_eq.
  - assert (DF : forall l k l' k', row M l k <> row M l' k' -> exists i, i < M /\ coord M l k i <> coord M l' k' i).
    { intros l k l' k' Ne. assert (X : forall n, n <= M -> (forall i, i < n -> coord M l k i = coord M l' k' i) \/ exists i, i < M /\ coord M l k i <> coord M l' k' i).
      { induction n as [|n IHn]; intro Ln; [left; intros; lia|]. destruct IHn as [A|A]; [lia| |right; exact A].
        destruct (Z.eq_dec (coord M l k n) (coord M l' k' n)) as [Q|Q]; [left|right; exists n; split; [lia|assumption]].
        intros i Li. destruct (Nat.eq_dec i n) as [->|]; [assumption|apply A; lia]. }
      destruct (X M (Nat.le_refl _)) as [A|A]; [|exact A]. exfalso. apply Ne. now apply row_eq. }
    intros (ps & Lp & Hp & Dp).
    assert (D : distinct M (centers f) K).
    { apply H2. exists ps. split; [assumption|]. split; [|assumption]. apply (NoDup_nth _ (row M data 0)). rewrite map_length, Lp. intros a b La Lb Eab.
      rewrite !map_nth in Eab. destruct (Nat.lt_trichotomy a b) as [L|[L|L]]; [|assumption|]; exfalso.
      - destruct (Dp a b ltac:(lia)) as (i & Li & Q). apply Q. now apply row_eq.
      - destruct (Dp b a ltac:(lia)) as (i & Li & Q). apply Q. symmetry. now apply row_eq. }
    intros a b Hab. apply DF. intro Eab. unfold distinct in D. rewrite (NoDup_nth _ (row M (centers f) 0)) in D. rewrite map_length, seq_length in D.
    assert (a = b); [|lia]. apply D; [lia..|]. rewrite !map_nth, !seq_nth by lia. exact Eab.
Qed.
Print Assumptions C94_initial_centers.
(** the second vector repeats the first and is passed over *)
Example C94_ex : option_map centers (init_rand_data false [1; 2; 1; 2; 5; 6; 1; 3]%Z 2 4 3 200 [1; 0; 3; 2] []) = Some [1; 2; 1; 3; 5; 6]%Z.
Proof. reflexivity. Qed.

(** C95: a datum outside the training set may meet a node without centers *)
Definition twins (depth : nat) (el : bool) := hikm_train depth el 1 2 200 ex_chance [200; 200]%Z 2.
Theorem C95_any_datum_refuted :
  match twins 2 false with Some root => hikm_push 1 2 root [9; 9]%Z [10]%Z 1 = Some [1; 4294967295]%Z | None => False end /\
  match twins 3 false with Some root => hikm_push 1 3 root [9; 9; 9]%Z [10]%Z 1 = None | None => False end /\
  match twins 3 true with Some root => hikm_push 1 3 root [9; 9; 9]%Z [10]%Z 1 = None | None => False end.
Proof. repeat split; vm_compute; reflexivity. Qed.
Print Assumptions C95_any_datum_refuted.

(** C96: the two methods, from the same centers, can stop at different centers; Elkan's are worse *)
Definition cost (cs : list Z) (data a : list Z) : Z :=
  zsum (length data) (fun x => let d := (nth x data 0 - nth (Z.to_nat (nth x a 0)) cs 0)%Z in (d * d)%Z).
Theorem C96_same_training_refuted :
  run true [28; 18; 22]%Z 3 200 ex_data (repeat 5%Z 4) = Some ([22; 1; 22]%Z, [1; 2; 0; 0]%Z, true, 1) /\
  run false [28; 18; 22]%Z 3 200 ex_data (repeat 5%Z 4) = Some ([25; 1; 20]%Z, [1; 2; 0; 2]%Z, true, 2) /\
  (cost [25; 1; 20] ex_data [1; 2; 0; 2] < cost [22; 1; 22] ex_data [1; 2; 0; 0])%Z.
Proof. repeat split; vm_compute; reflexivity. Qed.
Print Assumptions C96_same_training_refuted.

(** C97: a center without data becomes the zero vector *)
Theorem C97_empty_kept_refuted : forall el,
  match run el [10; 20; 200]%Z 3 200 [10; 20; 20]%Z (repeat 5%Z 3) with
  | Some (cs, a, done, _) => done = true /\ members 3 a 2 = 0%Z /\ nth 2 cs 0%Z = 0%Z
  | None => False end.
Proof. intros [|]; vm_compute; auto. Qed.
Print Assumptions C97_empty_kept_refuted.

(** C98: the centers given by Lloyd's method depend on the contents of fresh memory *)
Theorem C98_deterministic_refuted :
  run false [3; 5]%Z 2 200 [0; 10]%Z [0; 1]%Z = Some ([3; 5]%Z, [0; 1]%Z, true, 0) /\
  run false [3; 5]%Z 2 200 [0; 10]%Z [5; 5]%Z = Some ([0; 10]%Z, [0; 1]%Z, true, 1).
Proof. split; vm_compute; reflexivity. Qed.
(** this is the only such dependence: otherwise the contents do not matter *)
Lemma lloyd_assign_same M K N cs data a1 a2 : N * M <= length data -> length cs = M * K -> length a1 = N -> length a2 = N -> (0 < N -> 0 < K) -> (Z.of_nat K < no_center)%Z ->
  exists a d1 d2, lloyd_assign M K N cs data a1 = Some (a, d1) /\ lloyd_assign M K N cs data a2 = Some (a, d2) /\ (d1 = true <-> a = a1) /\ (d2 = true <-> a = a2).
Proof.
  intros LD LC L1 L2 HK HB. destruct (lloyd_assign_ok M K N cs data a1 LD LC L1 HK HB) as (b1 & d1 & E1 & M1 & F1 & G1).
  destruct (lloyd_assign_ok M K N cs data a2 LD LC L2 HK HB) as (b2 & d2 & E2 & M2 & F2 & G2).
  assert (b2 = b1); [|subst b2; exists b1, d1, d2; auto].
  apply (nth_ext _ _ 0%Z 0%Z); [lia|]. intros x Hx. destruct (F1 x ltac:(lia)) as (k1 & -> & N1). destruct (F2 x ltac:(lia)) as (k2 & -> & N2).
  f_equal. eapply first_nearest_unique; eassumption.
Qed.
Theorem C98_otherwise_deterministic cs M K nit junk data N a1 a2 : length cs = M * K -> bytes cs ->
  0 < K <= N -> (Z.of_nat K < no_center)%Z -> N * M <= length data -> length a1 = N -> length a2 = N ->
  exists f, init false cs M K nit junk = Some f /\
    ((forall f' a p, train f data N a1 <> Some (f', a, true, p) \/ 0 < p) -> (forall f' a p, train f data N a2 <> Some (f', a, true, p) \/ 0 < p) ->
     train f data N a1 = train f data N a2).
Proof.
  intros LC Bc HK HB LD L1 L2. eexists. split; [reflexivity|]. unfold train. cbn [elkan fM fK niters centers inter]. replace (nit + 1) with (S nit) by lia. cbn [lloyd_loop].
  destruct (lloyd_assign_same M K N cs data a1 a2 LD LC L1 L2 ltac:(lia) HB) as (a & d1 & d2 & -> & -> & _ & _). cbn [obind]. intros H1 H2.
  destruct d1; cbn [orb obind] in *.
  - destruct (H1 (mk_ikm false M K cs [] nit) a 0) as [H|H]; [now contradiction H|lia].
  - destruct d2; cbn [orb obind] in *; [|reflexivity]. destruct (H2 (mk_ikm false M K cs [] nit) a 0) as [H|H]; [now contradiction H|lia].
Qed.
Print Assumptions C98_deterministic_refuted.
Print Assumptions C98_otherwise_deterministic.

(** C99: with more centers than data, training writes beyond an array *)
Theorem C99_more_centers_refuted : forall el f data N asgn, elkan f = el -> N < fK f -> ready f -> N * fM f <= length data -> length asgn = N ->
  (el = false -> 0 < niters f /\ (Z.of_nat (fK f) < no_center)%Z /\ exists x, x < N /\ (nth x asgn 0 < 0)%Z) -> train f data N asgn = None.
Proof.
  intros el f data N asgn El KN [LC R] LD LA HL. unfold train. destruct (elkan f).
  - unfold elkan_train. destruct (update_inter_ok (fM f) (fK f) (centers f) (inter f) LC (proj1 (R eq_refl))) as (d & -> & Cur). cbn [obind].
    destruct (first_all (fM f) (fK f) N data (centers f) d asgn LD LC Cur LA ltac:(lia)) as (b & -> & S & V). cbn [obind].
    replace (niters f + 1) with (Datatypes.S (niters f)) by lia. cbn [elkan_loop]. unfold elkan_pass, means, clear_counts. destruct (Nat.leb_spec (fK f) N); [lia|]. reflexivity.
  - destruct (HL ltac:(congruence)) as (P & HB & x & Hx & Ng). replace (niters f + 1) with (S (niters f)) by lia. cbn [lloyd_loop].
    destruct (lloyd_assign_ok (fM f) (fK f) N (centers f) data asgn LD LC LA ltac:(lia) HB) as (a & done & -> & La & Fa & Dn). cbn [obind].
    destruct done.
    + assert (E : a = asgn) by now apply Dn. destruct (Fa x Hx) as (k & Ek & _). rewrite E in Ek. lia.
    + cbn [orb]. destruct (Nat.eqb_spec 0 (niters f)); [lia|]. unfold means, clear_counts. destruct (Nat.leb_spec (fK f) N); [lia|]. reflexivity.
Qed.
Print Assumptions C99_more_centers_refuted.
Example C99_ex : run true [1; 2; 3]%Z 3 200 [1; 2]%Z [5; 5]%Z = None /\ run false [1; 2; 3]%Z 3 200 [1; 2]%Z [5; 5]%Z = None.
Proof. split; vm_compute; reflexivity. Qed.

(** C100: replacing the centers by the truncated means can increase the distortion *)
Theorem C100_descent_refuted : forall el,
  match run el [1]%Z 1 200 [0; 1; 1]%Z (repeat 5%Z 3) with
  | Some (cs, a, done, _) => done = true /\ (cost [1] [0; 1; 1] a < cost cs [0; 1; 1] a)%Z
  | None => False end.
Proof. intros [|]; vm_compute; auto. Qed.
Print Assumptions C100_descent_refuted.
