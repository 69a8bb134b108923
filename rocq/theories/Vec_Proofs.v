(** Proofs about the vector comparison functions. *)
From Coq Require Import List Arith ZArith Lia Bool Ring.
From Verif Require Import Base Loop MserSort_Proofs ImOp_Spec ImOp_Proofs Vec_Model Vec_Spec.
Import ListNotations.
Local Open Scope nat_scope.

Lemma while_safe {S} (I : S -> Prop) (meas : S -> nat) (cond : S -> bool) (body : S -> option S) :
  (forall s, I s -> cond s = true -> exists s', body s = Some s' /\ I s' /\ meas s' < meas s) ->
  forall fuel s, meas s < fuel -> I s -> exists s', while fuel cond body s = Some s' /\ I s' /\ cond s' = false.
Proof.
  intro B. induction fuel as [|fuel IH]; intros s L Is; [lia|]. cbn [while].
  destruct (cond s) eqn:E; [|eauto].
  destruct (B s Is E) as (s1 & -> & I1 & L1). cbn [obind]. apply IH; auto. lia.
Qed.

Section Vec.
Context {A : Type} (o : ops A).
Hypothesis Ex : exact o.
Let Rth := ex_ring o Ex.
Add Ring Rring : Rth.
Notation "0" := (o_zero o).
Notation "x + y" := (o_add o x y).
Notation "x - y" := (o_sub o x y).
Notation "x * y" := (o_mul o x y).
Notation sum := (sum (o_zero o) (o_add o)).

Let sum_ext := sum_ext (o_zero o) (o_add o).
Let sum_app := sum_app _ _ _ _ _ _ Rth.
Let sum_scale := sum_scale _ _ _ _ _ _ Rth.
Let sum_shift := sum_shift _ _ _ _ _ _ Rth.

Definition term2 (t : A -> A -> A) (X Y : list A) (i : nat) : A := t (nth i X 0) (nth i Y 0).
Definition term3 (t : A -> A -> A -> A) (X Y Z : list A) (i : nat) : A := t (nth i X 0) (nth i Y 0) (nth i Z 0).

Lemma tail2_ok f t dim X Y : (forall acc a b, f acc a b = acc + t a b) -> dim <= length X -> dim <= length Y ->
  forall i acc, i <= dim -> tail2 f dim X Y i acc = Some (acc + sum (dim - i)%nat (fun j => term2 t X Y (i + j)%nat)).
Proof.
  intros Ef Lx Ly i acc Li. unfold tail2.
  assert (G : forall n i acc, (i + n = dim)%nat ->
    iter_from n i (fun i acc => do a <- aget X i; do b <- aget Y i; Some (f acc a b)) acc
    = Some (acc + sum n (fun j => term2 t X Y (i + j)%nat))).
  { induction n as [|n IH]; intros i0 acc0 E; cbn [iter_from].
    - cbn. f_equal. ring.
    - rewrite (aget_nth X i0 0) by lia. cbn [obind]. rewrite (aget_nth Y i0 0) by lia. cbn [obind].
      rewrite IH by lia. rewrite sum_shift, Ef, Nat.add_0_r. f_equal. unfold term2 at 2.
      rewrite (sum_ext n (fun j => term2 t X Y (i0 + S j)%nat) (fun j => term2 t X Y (i0 + 1 + j)%nat))
        by (intros; f_equal; lia). ring. }
  apply G. lia.
Qed.
Lemma tail3_ok f t dim X Y Z : (forall acc a b c, f acc a b c = acc + t a b c) -> dim <= length X -> dim <= length Y -> dim <= length Z ->
  forall i acc, i <= dim -> tail3 f dim X Y Z i acc = Some (acc + sum (dim - i)%nat (fun j => term3 t X Y Z (i + j)%nat)).
Proof.
  intros Ef Lx Ly Lz i acc Li. unfold tail3.
  assert (G : forall n i acc, (i + n = dim)%nat ->
    iter_from n i (fun i acc => do a <- aget X i; do b <- aget Y i; do c <- aget Z i; Some (f acc a b c)) acc
    = Some (acc + sum n (fun j => term3 t X Y Z (i + j)%nat))).
  { induction n as [|n IH]; intros i0 acc0 E; cbn [iter_from].
    - cbn. f_equal. ring.
    - rewrite (aget_nth X i0 0) by lia. cbn [obind]. rewrite (aget_nth Y i0 0) by lia. cbn [obind].
      rewrite (aget_nth Z i0 0) by lia. cbn [obind].
      rewrite IH by lia. rewrite sum_shift, Ef, Nat.add_0_r. f_equal. unfold term3 at 2.
      rewrite (sum_ext n (fun j => term3 t X Y Z (i0 + S j)%nat) (fun j => term3 t X Y Z (i0 + 1 + j)%nat))
        by (intros; f_equal; lia). ring. }
  apply G. lia.
Qed.

(** ** Registers *)
Definition fsum (v : list A) : A := fold_right (o_add o) 0 v.

Lemma vop_length (f : A -> A -> A) (a b : list A) n : length a = n -> length b = n -> length (vop f a b) = n.
Proof. intros Ha Hb. unfold vop. rewrite map_length, combine_length. lia. Qed.
Lemma fsum_vadd : forall a b, length a = length b -> fsum (vadd o a b) = fsum a + fsum b.
Proof.
  induction a as [|x a IH]; intros [|y b] L; try discriminate; cbn in *; [ring|].
  change (map (fun p => fst p + snd p) (combine a b)) with (vadd o a b).
  change (fold_right (o_add o) 0 (vadd o a b)) with (fsum (vadd o a b)). rewrite IH by lia.
  unfold fsum. ring.
Qed.
Lemma fsum_zero n : fsum (repeat 0 n) = 0.
Proof. induction n; [reflexivity|]. cbn [repeat fsum fold_right]. change (0 + fsum (repeat 0 n) = 0). rewrite IHn. ring. Qed.

Lemma chunk_cons (X : list A) i v : i < length X -> firstn (S v) (skipn i X) = nth i X 0 :: firstn v (skipn (S i) X).
Proof.
  revert X. induction i as [|i IH]; intros [|x X] L; cbn in *; try lia; auto. apply (IH X). lia.
Qed.
Lemma chunk_length (X : list A) i v : i + v <= length X -> length (firstn v (skipn i X)) = v.
Proof. intro L. rewrite firstn_length, skipn_length. lia. Qed.
Lemma fsum_chunk2 t X Y : forall v i, (i + v <= length X)%nat -> (i + v <= length Y)%nat ->
  fsum (vop t (firstn v (skipn i X)) (firstn v (skipn i Y))) = sum v (fun j => term2 t X Y (i + j)%nat).
Proof.
  induction v as [|v IH]; intros i Lx Ly; [reflexivity|].
  rewrite !chunk_cons by lia. cbn [vop combine map fsum fold_right fst snd].
  change (map (fun p => t (fst p) (snd p)) (combine (firstn v (skipn (S i) X)) (firstn v (skipn (S i) Y))))
    with (vop t (firstn v (skipn (S i) X)) (firstn v (skipn (S i) Y))).
  change (fold_right (o_add o) 0 ?x) with (fsum x). rewrite IH by lia. rewrite sum_shift, Nat.add_0_r.
  f_equal. apply sum_ext. intros; f_equal; lia.
Qed.
Definition vop3 (t : A -> A -> A -> A) (a b c : list A) : list A :=
  map (fun p => t (fst (fst p)) (snd (fst p)) (snd p)) (combine (combine a b) c).
Lemma fsum_chunk3 t X Y Z : forall v i, (i + v <= length X)%nat -> (i + v <= length Y)%nat -> (i + v <= length Z)%nat ->
  fsum (vop3 t (firstn v (skipn i X)) (firstn v (skipn i Y)) (firstn v (skipn i Z))) = sum v (fun j => term3 t X Y Z (i + j)%nat).
Proof.
  induction v as [|v IH]; intros i Lx Ly Lz; [reflexivity|].
  rewrite !chunk_cons by lia. cbn [vop3 combine map fsum fold_right fst snd].
  match goal with |- _ + fold_right (o_add o) 0 ?x = _ => change x with
    (vop3 t (firstn v (skipn (S i) X)) (firstn v (skipn (S i) Y)) (firstn v (skipn (S i) Z))) end.
  change (fold_right (o_add o) 0 ?x) with (fsum x). rewrite IH by lia. rewrite sum_shift, Nat.add_0_r.
  f_equal. apply sum_ext. intros; f_equal; lia.
Qed.

Lemma hsum_sse2_f x : length x = 4 -> vhsum_sse2_f o x = fsum x.
Proof.
  destruct x as [|a [|b [|c [|d [|]]]]]; try discriminate. intros _. cbn. ring.
Qed.
Lemma hsum_sse2_d x : length x = 2 -> vhsum_sse2_d o x = fsum x.
Proof. destruct x as [|a [|b [|]]]; try discriminate. intros _. cbn. ring. Qed.
Lemma hsum_avx_f x : length x = 8 -> vhsum_avx_f o x = fsum x.
Proof.
  destruct x as [|a [|b [|c [|d [|e [|f [|g [|h [|]]]]]]]]]; try discriminate. intros _. cbn. ring.
Qed.
Lemma hsum_avx_d x : length x = 4 -> vhsum_avx_d o x = fsum x.
Proof. destruct x as [|a [|b [|c [|d [|]]]]]; try discriminate. intros _. cbn. ring. Qed.

(** lane-by-lane terms *)
Lemma vop_vop (f g h : A -> A -> A) : forall a b : list A, length a = length b ->
  vop f (vop g a b) (vop h a b) = vop (fun x y => f (g x y) (h x y)) a b.
Proof. induction a as [|x a IH]; intros [|y b] L; try discriminate; cbn in *; auto. f_equal. apply IH. lia. Qed.
Lemma vabs_vop (g : A -> A -> A) : forall a b : list A, length a = length b -> vabs o (vop g a b) = vop (fun x y => o_abs o (g x y)) a b.
Proof. induction a as [|x a IH]; intros [|y b] L; try discriminate; cbn in *; auto. f_equal. apply IH. lia. Qed.
Lemma vabs_both (f : A -> A -> A) : forall a b : list A, length a = length b -> vop f (vabs o a) (vabs o b) = vop (fun x y => f (o_abs o x) (o_abs o y)) a b.
Proof. induction a as [|x a IH]; intros [|y b] L; try discriminate; cbn in *; auto. f_equal. apply IH. lia. Qed.
Lemma vop_vop3 (f g : A -> A -> A) : forall a b c : list A, length a = length b -> length a = length c ->
  vop f (vop g a b) c = vop3 (fun x y z => f (g x y) z) a b c.
Proof.
  induction a as [|x a IH]; intros [|y b] [|z c] L L'; try discriminate; cbn in *; auto. f_equal. apply IH; lia.
Qed.
Lemma vop3_length f (a b c : list A) n : length a = n -> length b = n -> length c = n -> length (vop3 f a b c) = n.
Proof. intros Ha Hb Hc. unfold vop3. rewrite map_length, !combine_length. lia. Qed.

(** ** Vector loops *)
Section Simd.
Variables (vs es : nat) (hsum : list A -> A).
Hypothesis Hvs : 0 < vs.
Hypothesis Hes : 0 < es.
Hypothesis Hsum : forall v, length v = vs -> hsum v = fsum v.

Lemma aligned_step addr j : is_aligned vs es addr = true -> is_aligned vs es (addr + j * vs * es) = true.
Proof.
  unfold is_aligned. rewrite !Nat.eqb_eq. intro E.
  replace (j * vs * es)%nat with (j * (vs * es))%nat by lia. rewrite Nat.mod_add; [exact E|].
  pose proof (Nat.mul_pos_pos vs es Hvs Hes). lia.
Qed.
Lemma ld_ok al addr (X : list A) j : (al = true -> is_aligned vs es addr = true) -> (j * vs + vs <= length X)%nat ->
  ld vs es al addr X (j * vs)%nat = Some (firstn vs (skipn (j * vs)%nat X)).
Proof.
  intros Al L. unfold ld. replace (j * vs + vs <=? length X)%nat with true by (symmetry; apply Nat.leb_le; exact L).
  destruct al; cbn [negb orb andb]; [rewrite aligned_step by auto|]; reflexivity.
Qed.
Lemma st_ok al addr (X : list A) j (v : list A) : (al = true -> is_aligned vs es addr = true) -> (j * vs + vs <= length X)%nat ->
  st vs es al addr X (j * vs)%nat v = Some (firstn (j * vs) X ++ v ++ skipn (j * vs + vs)%nat X).
Proof.
  intros Al L. unfold st. replace (j * vs + vs <=? length X)%nat with true by (symmetry; apply Nat.leb_le; exact L).
  destruct al; cbn [negb orb andb]; [rewrite aligned_step by auto|]; reflexivity.
Qed.
Lemma more_le dim plus i : plus <= 1 -> more vs dim plus i = true -> (i + vs <= dim)%nat.
Proof. unfold more. rewrite Z.ltb_lt. lia. Qed.

Lemma vloop2_ok plus term t dim ax ay X Y : plus <= 1 -> dim <= length X -> dim <= length Y ->
  (forall a b, length a = length b -> term a b = vop t a b) ->
  exists i vacc, vloop2 o vs es plus term dim ax ay X Y = Some (i, vacc) /\ i <= dim /\ length vacc = vs /\
    fsum vacc = sum i (term2 t X Y).
Proof.
  intros Lp Lx Ly Ht. unfold vloop2. set (al := is_aligned vs es ax && is_aligned vs es ay).
  assert (Alx : al = true -> is_aligned vs es ax = true) by (unfold al; intro E; apply andb_prop in E; tauto).
  assert (Aly : al = true -> is_aligned vs es ay = true) by (unfold al; intro E; apply andb_prop in E; tauto).
  clearbody al.
  set (body := fun s : nat * list A => let '(i, vacc) := s in
       do a <- ld vs es al ax X i; do b <- ld vs es al ay Y i;
       Some ((i + vs)%nat, vadd o vacc (term a b))).
  destruct (while_safe (fun s => (exists j, fst s = j * vs)%nat /\ fst s <= dim /\ length (snd s) = vs /\
      fsum (snd s) = sum (fst s) (term2 t X Y)) (fun s => dim - fst s)%nat (fun s => more vs dim plus (fst s)) body)
    with (fuel := S dim) (s := (0%nat, repeat 0 vs)) as ((i & vacc) & E & (Ej & Li & Lv & Es) & _).
  - intros (i, vacc) ((j & Ej) & Li & Lv & Es) M. cbn [fst snd] in *. subst i.
    pose proof (more_le dim plus (j * vs) Lp M) as Lm. unfold body.
    rewrite ld_ok by (auto; lia). cbn [obind]. rewrite ld_ok by (auto; lia). cbn [obind].
    eexists. split; [reflexivity|]. cbn [fst snd]. split; [|lia].
    assert (Lc : forall W, dim <= length W -> length (firstn vs (skipn (j * vs) W)) = vs) by (intros; apply chunk_length; lia).
    split; [exists (j + 1)%nat; lia|]. split; [lia|].
    rewrite Ht by (rewrite !Lc; auto). split; [apply vop_length; auto; apply vop_length; auto|].
    rewrite fsum_vadd by (rewrite (vop_length _ _ _ vs); auto). rewrite Es, fsum_chunk2 by lia.
    now rewrite sum_app.
  - cbn. lia.
  - cbn [fst snd]. split; [exists 0%nat; auto|]. split; [lia|]. split; [apply repeat_length|]. now rewrite fsum_zero.
  - cbn [fst snd] in *. exists i, vacc. auto.
Qed.

Lemma vloop3_ok plus term t dim ax ay az X Y Z : plus <= 1 -> dim <= length X -> dim <= length Y -> dim <= length Z ->
  (forall a b c, length a = length b -> length a = length c -> term a b c = vop3 t a b c) ->
  exists i vacc, vloop3 o vs es plus term dim ax ay az X Y Z = Some (i, vacc) /\ i <= dim /\ length vacc = vs /\
    fsum vacc = sum i (term3 t X Y Z).
Proof.
  intros Lp Lx Ly Lz Ht. unfold vloop3. set (al := is_aligned vs es ax && is_aligned vs es ay && is_aligned vs es az).
  assert (Alx : al = true -> is_aligned vs es ax = true) by (unfold al; intro E; apply andb_prop in E; destruct E as [E _]; apply andb_prop in E; tauto).
  assert (Aly : al = true -> is_aligned vs es ay = true) by (unfold al; intro E; apply andb_prop in E; destruct E as [E _]; apply andb_prop in E; tauto).
  assert (Alz : al = true -> is_aligned vs es az = true) by (unfold al; intro E; apply andb_prop in E; tauto).
  clearbody al.
  set (body := fun s : nat * list A => let '(i, vacc) := s in
       do a <- ld vs es al ax X i; do b <- ld vs es al ay Y i; do c <- ld vs es al az Z i;
       Some ((i + vs)%nat, vadd o vacc (term a b c))).
  destruct (while_safe (fun s => (exists j, fst s = j * vs)%nat /\ fst s <= dim /\ length (snd s) = vs /\
      fsum (snd s) = sum (fst s) (term3 t X Y Z)) (fun s => dim - fst s)%nat (fun s => more vs dim plus (fst s)) body)
    with (fuel := S dim) (s := (0%nat, repeat 0 vs)) as ((i & vacc) & E & (Ej & Li & Lv & Es) & _).
  - intros (i, vacc) ((j & Ej) & Li & Lv & Es) M. cbn [fst snd] in *. subst i.
    pose proof (more_le dim plus (j * vs) Lp M) as Lm. unfold body.
    rewrite ld_ok by (auto; lia). cbn [obind]. rewrite ld_ok by (auto; lia). cbn [obind].
    rewrite ld_ok by (auto; lia). cbn [obind].
    eexists. split; [reflexivity|]. cbn [fst snd]. split; [|lia].
    assert (Lc : forall W, dim <= length W -> length (firstn vs (skipn (j * vs) W)) = vs) by (intros; apply chunk_length; lia).
    split; [exists (j + 1)%nat; lia|]. split; [lia|].
    rewrite Ht by (rewrite !Lc; auto). split; [apply vop_length; auto; apply vop3_length; auto|].
    rewrite fsum_vadd by (rewrite (vop3_length _ _ _ _ vs); auto). rewrite Es, fsum_chunk3 by lia.
    now rewrite sum_app.
  - cbn. lia.
  - cbn [fst snd]. split; [exists 0%nat; auto|]. split; [lia|]. split; [apply repeat_length|]. now rewrite fsum_zero.
  - cbn [fst snd] in *. exists i, vacc. auto.
Qed.

Lemma simd2_ok plus term f t dim ax ay X Y : plus <= 1 -> dim <= length X -> dim <= length Y ->
  (forall a b, length a = length b -> term a b = vop t a b) ->
  (forall acc a b, f acc a b = acc + t a b) ->
  simd2 o vs es hsum plus term f dim ax ay X Y = Some (sum dim (term2 t X Y)).
Proof.
  intros Lp Lx Ly Ht Ef. unfold simd2.
  destruct (vloop2_ok plus term t dim ax ay X Y Lp Lx Ly Ht) as (i & vacc & -> & Li & Lv & Es). cbn [obind].
  rewrite (tail2_ok f t) by auto. rewrite Hsum, Es by auto. f_equal.
  replace dim with (i + (dim - i))%nat at 2 by lia. now rewrite sum_app.
Qed.

Lemma scalar2_ok f t dim X Y : dim <= length X -> dim <= length Y ->
  (forall acc a b, f acc a b = acc + t a b) -> tail2 f dim X Y 0%nat 0 = Some (sum dim (term2 t X Y)).
Proof.
  intros Lx Ly Ef. rewrite (tail2_ok f t) by (auto; lia). rewrite Nat.sub_0_r. f_equal.
  cbn [Nat.add]. change (fun j => term2 t X Y j) with (term2 t X Y). ring.
Qed.

(** the terms *)
Definition t_l2 (a b : A) := (a - b) * (a - b).
Definition t_l1 (a b : A) := o_abs o (a - b).
Definition t_chi2 (a b : A) := if o_nz o (a + b) then o_div o ((a - b) * (a - b)) (a + b) else 0.
Definition t_k2 (a b : A) := a * b.
Definition t_k1 (a b : A) := o_abs o a + o_abs o b - o_abs o (a - b).
Definition t_kchi2 (a b : A) := if o_nz o (a + b) then o_div o (a * b) (a + b) else 0.
Definition t_mahal (a b c : A) := (a - b) * (a - b) * c.

Lemma acc_l1_term acc a b : acc_l1 o acc a b = acc + t_l1 a b.
Proof. unfold acc_l1, t_l1, vl_max. now rewrite (ex_abs o Ex). Qed.
Lemma acc_chi2_term acc a b : acc_chi2 o acc a b = acc + t_chi2 a b.
Proof. unfold acc_chi2, t_chi2. destruct (o_nz o (a + b)); [auto|ring]. Qed.
Lemma acc_kchi2_term acc a b : acc_kchi2 o acc a b = acc + (o_one o + o_one o) * t_kchi2 a b.
Proof.
  unfold acc_kchi2, t_kchi2. destruct (o_nz o (a + b)) eqn:E; [|ring].
  destruct (ex_div o Ex) as (inv & Hd). rewrite !Hd by exact E. ring.
Qed.

Lemma vmask_vop g h a b : length a = length b -> vmask o (vop g a b) (vop h a b) = vop (fun x y => if o_nz o (h x y) then g x y else 0) a b.
Proof. intro L. unfold vmask. now rewrite vop_vop by exact L. Qed.

Lemma l2_simd_ok dim ax ay X Y : dim <= length X -> dim <= length Y ->
  distance_l2_simd o vs es hsum dim ax ay X Y = distance_l2 o dim X Y.
Proof.
  intros Lx Ly. unfold distance_l2_simd, distance_l2. rewrite (simd2_ok _ _ _ t_l2); auto.
  - now rewrite (scalar2_ok _ t_l2).
  - intros a b L. unfold vsub, vmul. now rewrite vop_vop.
Qed.
Lemma k2_simd_ok dim ax ay X Y : dim <= length X -> dim <= length Y ->
  kernel_l2_simd o vs es hsum dim ax ay X Y = kernel_l2 o dim X Y.
Proof.
  intros Lx Ly. unfold kernel_l2_simd, kernel_l2. rewrite (simd2_ok _ _ _ t_k2); auto.
  now rewrite (scalar2_ok _ t_k2).
Qed.
Lemma l1_simd_ok dim ax ay X Y : dim <= length X -> dim <= length Y ->
  distance_l1_simd o vs es hsum dim ax ay X Y = distance_l1 o dim X Y.
Proof.
  intros Lx Ly. unfold distance_l1_simd, distance_l1. rewrite (simd2_ok _ _ _ t_l1); auto using acc_l1_term.
  - now rewrite (scalar2_ok _ t_l1) by auto using acc_l1_term.
  - intros a b L. unfold vsub. now rewrite vabs_vop.
Qed.
Lemma chi2_simd_ok dim ax ay X Y : dim <= length X -> dim <= length Y ->
  distance_chi2_simd o vs es hsum dim ax ay X Y = distance_chi2 o dim X Y.
Proof.
  intros Lx Ly. unfold distance_chi2_simd, distance_chi2. rewrite (simd2_ok _ _ _ t_chi2); auto using acc_chi2_term.
  - now rewrite (scalar2_ok _ t_chi2) by auto using acc_chi2_term.
  - intros a b L. cbv zeta. unfold vsub, vadd, vdiv, vmul. rewrite (vop_vop (o_mul o)) by exact L.
    rewrite (vop_vop (o_div o)) by exact L. now rewrite vmask_vop.
Qed.
Lemma k1_simd_ok dim ax ay X Y : dim <= length X -> dim <= length Y ->
  kernel_l1_simd o vs es hsum dim ax ay X Y = kernel_l1 o dim X Y.
Proof.
  intros Lx Ly. unfold kernel_l1_simd, kernel_l1. rewrite (simd2_ok _ _ _ t_k1); auto.
  - now rewrite (scalar2_ok _ t_k1).
  - intros a b L. unfold vsub, vadd. rewrite vabs_both, vabs_vop by exact L. now rewrite vop_vop.
Qed.
Lemma kchi2_simd_ok dim ax ay X Y : dim <= length X -> dim <= length Y ->
  kernel_chi2_simd o vs es hsum dim ax ay X Y = kernel_chi2 o dim X Y.
Proof.
  intros Lx Ly. unfold kernel_chi2_simd, kernel_chi2. rewrite (simd2_ok _ _ _ t_kchi2); auto.
  - cbn [obind]. rewrite (scalar2_ok _ (fun a b => (o_one o + o_one o) * t_kchi2 a b)) by auto using acc_kchi2_term.
    f_equal. now rewrite <- sum_scale.
  - intros a b L. cbv zeta. unfold vadd, vdiv, vmul.
    rewrite (vop_vop (o_div o)) by exact L. now rewrite vmask_vop.
  - intros acc a b. unfold t_kchi2. destruct (o_nz o (a + b)); [auto|ring].
Qed.
Lemma mahalanobis_simd_ok dim ax ay az X MU Z : dim <= length X -> dim <= length MU -> dim <= length Z ->
  mahalanobis_simd o vs es hsum dim ax ay az X MU Z = mahalanobis o dim X MU Z.
Proof.
  intros Lx Ly Lz. unfold mahalanobis_simd, mahalanobis.
  destruct (vloop3_ok 1 (fun a b c => vmul o (vmul o (vsub o a b) (vsub o a b)) c) t_mahal dim ax ay az X MU Z)
    as (i & vacc & -> & Li & Lv & Es); auto.
  { intros a b c L L'. cbv zeta. unfold vsub, vmul. rewrite vop_vop by exact L. now rewrite vop_vop3. }
  cbn [obind]. rewrite !(tail3_ok _ t_mahal) by (auto; lia). rewrite Hsum, Es by auto. f_equal.
  replace (dim - 0)%nat with (i + (dim - i))%nat by lia. rewrite sum_app. cbn [Nat.add].
  change (fun j => term3 t_mahal X MU Z j) with (term3 t_mahal X MU Z). ring.
Qed.

(** ** Weighted accumulation *)
Lemma nth_skipn' (X : list A) d : forall n k, nth k (skipn n X) d = nth (n + k)%nat X d.
Proof.
  revert X. intros X n. revert X. induction n as [|n IH]; intros X k; [reflexivity|].
  destruct X as [|x X]; cbn; [now destruct k|apply IH].
Qed.
Lemma nth_store (X v : list A) i j : length v = vs -> (i + vs <= length X)%nat ->
  nth j (firstn i X ++ v ++ skipn (i + vs)%nat X) 0 = if (i <=? j)%nat && (j <? i + vs)%nat then nth (j - i)%nat v 0 else nth j X 0.
Proof.
  intros Lv L. destruct (Nat.leb_spec i j) as [H1|H1]; cbn [andb].
  - rewrite app_nth2 by (rewrite firstn_length; lia). rewrite firstn_length, Nat.min_l by lia.
    destruct (Nat.ltb_spec j (i + vs)) as [H2|H2].
    + now rewrite app_nth1 by lia.
    + rewrite app_nth2 by lia. rewrite nth_skipn'. f_equal. lia.
  - rewrite app_nth1 by (rewrite firstn_length; lia).
    rewrite <- (firstn_skipn i X) at 2. now rewrite app_nth1 by (rewrite firstn_length; lia).
Qed.
Lemma store_length (X v : list A) i : length v = vs -> (i + vs <= length X)%nat ->
  length (firstn i X ++ v ++ skipn (i + vs)%nat X) = length X.
Proof. intros Lv L. rewrite !app_length, firstn_length, skipn_length. lia. Qed.
Lemma nth_vop (f : A -> A -> A) : forall (a b : list A) j, length a = length b -> j < length a -> nth j (vop f a b) 0 = f (nth j a 0) (nth j b 0).
Proof. induction a as [|x a IH]; intros [|y b] [|j] L Lj; cbn in *; try lia; auto. apply (IH b j); lia. Qed.
Lemma nth_chunk (X : list A) : forall i j, j < vs -> nth j (firstn vs (skipn i X)) 0 = nth (i + j)%nat X 0.
Proof.
  intros i j L. revert X. induction i as [|i IH]; intros X.
  - cbn. clear - L. revert j X L. induction vs as [|v IHv]; intros [|j] [|x X] L; cbn; try lia; auto. apply IHv. lia.
  - destruct X as [|x X]; cbn; [|apply IH]. rewrite firstn_nil. now destruct j.
Qed.

(** [R] is [R0] with [g i (R0 i)] at every index below [dim] *)
Definition mapped (g : nat -> A -> A) (dim : nat) (R0 R : list A) : Prop :=
  length R = length R0 /\ forall i, nth i R 0 = if (i <? dim)%nat then g i (nth i R0 0) else nth i R0 0.

Lemma tail_mapped g dim R0 (body : nat -> list A -> option (list A)) : dim <= length R0 ->
  (forall i R, i < dim -> length R = length R0 -> body i R = aset R i (g i (nth i R 0))) ->
  forall i R, i <= dim -> mapped g i R0 R -> exists R', iter_from (dim - i)%nat i body R = Some R' /\ mapped g dim R0 R'.
Proof.
  intros L0 Hb i R Li M.
  destruct (iter_from_inv (fun k R => mapped g k R0 R) body dim (dim - i)%nat i R) as (R' & E & M'); [lia|exact M| |eauto].
  intros j R1 _ Lj (L1 & M1). rewrite (Hb j R1 Lj L1). rewrite aset_lt by lia.
  eexists. split; [reflexivity|]. split; [now rewrite upd_length|]. intro k.
  rewrite nth_upd by lia. rewrite !M1.
  destruct (Nat.eqb_spec k j) as [->|N].
  - destruct (Nat.ltb_spec j j); [lia|]. destruct (Nat.ltb_spec j (j + 1)); [auto|lia].
  - destruct (Nat.ltb_spec k j), (Nat.ltb_spec k (j + 1)); auto; lia.
Qed.

Lemma store_mapped g dim R0 R j v : (j * vs + vs <= dim)%nat -> dim <= length R0 ->
  mapped g (j * vs)%nat R0 R -> length v = vs ->
  (forall k, k < vs -> nth k v 0 = g (j * vs + k)%nat (nth (j * vs + k)%nat R 0)) ->
  mapped g (j * vs + vs)%nat R0 (firstn (j * vs) R ++ v ++ skipn (j * vs + vs)%nat R).
Proof.
  intros L L0 (M1 & M2) Lv Hv. split; [rewrite store_length; auto; lia|]. intro k.
  rewrite nth_store by (auto; lia).
  destruct (Nat.leb_spec (j * vs) k), (Nat.ltb_spec k (j * vs + vs)); cbn [andb].
  - rewrite Hv by lia. replace (j * vs + (k - j * vs))%nat with k by lia. rewrite M2.
    destruct (Nat.ltb_spec k (j * vs)); [lia|auto].
  - rewrite M2. destruct (Nat.ltb_spec k (j * vs)); [lia|auto].
  - rewrite M2. destruct (Nat.ltb_spec k (j * vs)); [auto|lia].
  - lia.
Qed.
Lemma nth_repeat' (x : A) n k : k < n -> nth k (repeat x n) 0 = x.
Proof. revert k. induction n; intros [|k] L; cbn; try lia; auto. apply IHn. lia. Qed.

Lemma weighted_mean_ok dim am ax MU X W : dim <= length MU -> dim <= length X ->
  exists MU', weighted_mean_simd o vs es dim am ax MU X W = Some MU' /\
    mapped (fun i m => m + W * nth i X 0) dim MU MU'.
Proof.
  intros Lm Lx. unfold weighted_mean_simd. set (al := is_aligned vs es ax && is_aligned vs es am).
  assert (Alx : al = true -> is_aligned vs es ax = true) by (unfold al; intro E; apply andb_prop in E; tauto).
  assert (Aly : al = true -> is_aligned vs es am = true) by (unfold al; intro E; apply andb_prop in E; tauto).
  clearbody al. set (g := fun i m => m + W * nth i X 0).
  match goal with |- context [while _ ?c ?b _] => set (cond := c); set (body := b) end.
  destruct (while_safe (fun s => (exists j, fst s = j * vs)%nat /\ fst s <= dim /\ mapped g (fst s) MU (snd s))
     (fun s => dim - fst s)%nat cond body)
    with (fuel := S dim) (s := (0%nat, MU)) as ((i & R) & E & (_ & Li & M) & _).
  - intros (i, R) ((j & Ej) & Li & M) Mo. cbn [fst snd] in *. subst i. unfold cond in Mo. cbn [fst] in Mo.
    pose proof (more_le dim 1 (j * vs) ltac:(lia) Mo) as Lmo. unfold body.
    pose proof (proj1 M) as LR.
    rewrite ld_ok by (auto; lia). cbn [obind]. rewrite ld_ok by (auto; lia). cbn [obind].
    rewrite st_ok by (auto; lia). cbn [obind]. eexists. split; [reflexivity|]. cbn [fst snd]. split; [|lia].
    assert (Lc : forall W, dim <= length W -> length (firstn vs (skipn (j * vs) W)) = vs) by (intros; apply chunk_length; lia).
    split; [exists (j + 1)%nat; lia|]. split; [lia|].
    assert (LR' : dim <= length R) by lia.
    apply store_mapped with dim; auto.
    + apply vop_length; auto. apply vop_length; auto. apply repeat_length.
    + intros k Lk. unfold vadd, vmul. rewrite nth_vop.
      2:{ rewrite (vop_length _ _ _ vs); auto; [now rewrite Lc|apply repeat_length]. }
      2:{ rewrite (vop_length _ _ _ vs); auto. apply repeat_length. }
      rewrite nth_vop by (rewrite Lc, ?repeat_length; auto). rewrite !nth_chunk, nth_repeat' by auto.
      unfold g. ring.
  - cbn. lia.
  - cbn [fst snd]. split; [exists 0%nat; auto|]. split; [lia|]. split; auto.
  - cbn [fst snd] in *. rewrite E. cbn [obind]. apply tail_mapped; auto.
    intros k R1 Lk L1. rewrite (aget_nth X k 0) by lia. cbn [obind]. rewrite (aget_nth R1 k 0) by lia. cbn [obind].
    f_equal. unfold g. ring.
Qed.

Lemma weighted_sigma_ok dim as_ ax ay SI X Y W : dim <= length SI -> dim <= length X -> dim <= length Y ->
  exists SI', weighted_sigma_simd o vs es dim as_ ax ay SI X Y W = Some SI' /\
    mapped (fun i m => m + W * ((nth i X 0 - nth i Y 0) * (nth i X 0 - nth i Y 0))) dim SI SI'.
Proof.
  intros Lm Lx Ly. unfold weighted_sigma_simd. set (al := is_aligned vs es ax && is_aligned vs es ay && is_aligned vs es as_).
  assert (Alx : al = true -> is_aligned vs es ax = true) by (unfold al; intro E; apply andb_prop in E; destruct E as [E _]; apply andb_prop in E; tauto).
  assert (Aly : al = true -> is_aligned vs es ay = true) by (unfold al; intro E; apply andb_prop in E; destruct E as [E _]; apply andb_prop in E; tauto).
  assert (Als : al = true -> is_aligned vs es as_ = true) by (unfold al; intro E; apply andb_prop in E; tauto).
  clearbody al. set (g := fun i m => m + W * ((nth i X 0 - nth i Y 0) * (nth i X 0 - nth i Y 0))).
  match goal with |- context [while _ ?c ?b _] => set (cond := c); set (body := b) end.
  destruct (while_safe (fun s => (exists j, fst s = j * vs)%nat /\ fst s <= dim /\ mapped g (fst s) SI (snd s))
     (fun s => dim - fst s)%nat cond body)
    with (fuel := S dim) (s := (0%nat, SI)) as ((i & R) & E & (_ & Li & M) & _).
  - intros (i, R) ((j & Ej) & Li & M) Mo. cbn [fst snd] in *. subst i. unfold cond in Mo. cbn [fst] in Mo.
    pose proof (more_le dim 1 (j * vs) ltac:(lia) Mo) as Lmo. unfold body.
    pose proof (proj1 M) as LR.
    rewrite ld_ok by (auto; lia). cbn [obind]. rewrite ld_ok by (auto; lia). cbn [obind].
    rewrite ld_ok by (auto; lia). cbn [obind].
    rewrite st_ok by (auto; lia). cbn [obind]. eexists. split; [reflexivity|]. cbn [fst snd]. split; [|lia].
    assert (Lc : forall W, dim <= length W -> length (firstn vs (skipn (j * vs) W)) = vs) by (intros; apply chunk_length; lia).
    split; [exists (j + 1)%nat; lia|]. split; [lia|].
    assert (LR' : dim <= length R) by lia.
    assert (Lr : length (repeat W vs) = vs) by apply repeat_length.
    assert (Lxy : forall f, length (vop f (firstn vs (skipn (j * vs) X)) (firstn vs (skipn (j * vs) Y))) = vs)
      by (intro f; apply vop_length; auto).
    apply store_mapped with dim; auto.
    + unfold vadd, vmul, vsub. rewrite vop_vop by (rewrite !Lc; auto). apply vop_length; auto. apply vop_length; auto.
    + intros k Lk. unfold vadd, vmul, vsub. rewrite vop_vop by (rewrite !Lc; auto). rewrite nth_vop.
      2:{ rewrite Lc by auto. symmetry. apply vop_length; auto. }
      2:{ rewrite Lc; auto. }
      rewrite nth_vop by (rewrite Lxy; auto). rewrite nth_vop by (rewrite !Lc; auto).
      rewrite !nth_chunk, nth_repeat' by auto. unfold g. ring.
  - cbn. lia.
  - cbn [fst snd]. split; [exists 0%nat; auto|]. split; [lia|]. split; auto.
  - cbn [fst snd] in *. rewrite E. cbn [obind]. apply tail_mapped; auto.
    intros k R1 Lk L1. rewrite (aget_nth X k 0) by lia. cbn [obind]. rewrite (aget_nth Y k 0) by lia. cbn [obind].
    rewrite (aget_nth R1 k 0) by lia. cbn [obind].
    f_equal. unfold g. ring.
Qed.
End Simd.
End Vec.
