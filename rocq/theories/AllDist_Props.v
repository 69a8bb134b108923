(** C229-C232: pairwise distances and kernels. *)
From Coq Require Import List Arith Bool ZArith QArith Qcanon Qcabs Lia.
Import ListNotations.
From Verif Require Import Base Rat Loop Gauss_Model Bins_Proofs AllDist_Model AllDist_Spec AllDist_Proofs.
Local Open Scope nat_scope.

Definition full (v : list Qc) (L N : nat) : matrix := {| mat := Full v; nrows := L; ncols := N |}.
Definition spar (s : sparse) (L N : nat) : matrix := {| mat := Sparse s; nrows := L; ncols := N |}.
(** [out] holds at row j1 and column j2 the distance of the columns [f j1] and [g j2] *)
Definition table (rt : Qc -> Qc) (n : norm) (L N1 N2 : nat) (f g : nat -> nat -> Qc) (out : list Qc) : Prop :=
  length out = N1 * N2 /\ forall j1 j2, j1 < N1 -> j2 < N2 -> exists v, nth_error out (j2 * N1 + j1) = Some v /\ dist_of rt n L (f j1) (g j2) v.
(** C229: the entries of D are the documented distances or kernels of the columns of two full matrices *)
Theorem C229_full rt n v w L N1 N2 : length v = L * N1 -> length w = L * N2 ->
  exists out, alldist2 rt n (full v L N1) (Some (full w L N2)) = Some (Some out) /\ table rt n L N1 N2 (full_at v L) (full_at w L) out.
Proof.
  intros A B. unfold alldist2, full, data_of. cbn [mat nrows ncols]. cbv zeta. rewrite Nat.eqb_refl. cbn [negb].
  destruct (core_ok (column_dist rt n v w L) (fun j1 j2 => fold rt n L (full_at v L j1) (full_at w L j2)) N1 N2 false) as (out & E & LO & H); [intros; eapply column_dist_ok; try eassumption; lia|discriminate|].
  unfold dense. rewrite E. cbn [obind]. exists out. split; [reflexivity|]. split; [exact LO|]. intros j1 j2 J1 J2. eexists. split; [apply H; assumption|apply fold_dist].
Qed.
(** C229: with one matrix, Y is X; half of the entries are copied from the other half *)
Lemma self_fold rt n v L N1 : length v = L * N1 -> exists out, alldist2 rt n (full v L N1) None = Some (Some out) /\ length out = N1 * N1 /\ forall j1 j2, j1 < N1 -> j2 < N1 -> nth_error out (j2 * N1 + j1) = Some (fold rt n L (full_at v L j1) (full_at v L j2)).
Proof.
  intros A. unfold alldist2, full. cbn [mat nrows ncols]. cbv zeta.
  destruct (core_ok (column_dist rt n v v L) (fun j1 j2 => fold rt n L (full_at v L j1) (full_at v L j2)) N1 N1 true) as (out & E & LO & H); [intros; eapply column_dist_ok; try eassumption; lia|intros _; split; [reflexivity|intros; apply fold_sym]|].
  unfold dense. rewrite E. cbn [obind]. exists out. auto.
Qed.
Theorem C229_self rt n v L N1 : length v = L * N1 -> exists out, alldist2 rt n (full v L N1) None = Some (Some out) /\ table rt n L N1 N1 (full_at v L) (full_at v L) out.
Proof.
  intros A. destruct (self_fold rt n v L N1 A) as (out & E & LO & H). exists out. split; [exact E|]. split; [exact LO|]. intros j1 j2 J1 J2. eexists. split; [apply H; assumption|apply fold_dist].
Qed.
(** C229: matrices with different numbers of rows are an error, as is a full Y with a sparse X *)
Theorem C229_error rt n x y : (nrows x <> nrows y -> alldist2 rt n x (Some y) = Some None) /\ (forall s v, mat x = Sparse s -> mat y = Full v -> alldist2 rt n x (Some y) = Some None).
Proof.
  unfold alldist2. split.
  - intros H. apply Nat.eqb_neq in H. rewrite H. destruct (mat x), (mat y); reflexivity.
  - intros s v -> ->. reflexivity.
Qed.
(** C230: the same for sparse matrices, whose entries not written are zeros *)
Theorem C230_sparse rt n s t L N1 N2 f g : rt 0%Qc = 0%Qc -> well_formed s L N1 -> well_formed t L N2 ->
  (forall j l, j < N1 -> l < L -> sparse_at s j l (f j l)) -> (forall j l, j < N2 -> l < L -> sparse_at t j l (g j l)) ->
  exists out, alldist2 rt n (spar s L N1) (Some (spar t L N2)) = Some (Some out) /\ table rt n L N1 N2 f g out.
Proof.
  intros R WS WT HF HG. unfold alldist2, spar. cbn [mat nrows ncols]. cbv zeta. rewrite Nat.eqb_refl. cbn [negb].
  destruct (core_ok (sparse_dist rt n s t) (fun j1 j2 => fold rt n L (f j1) (g j2)) N1 N2 false) as (out & E & LO & H); [intros; eapply sparse_dist_ok; eauto|discriminate|].
  unfold sparse_core. rewrite E. cbn [obind]. exists out. split; [reflexivity|]. split; [exact LO|]. intros j1 j2 J1 J2. eexists. split; [apply H; assumption|apply fold_dist].
Qed.
Theorem C230_self rt n s L N1 f : rt 0%Qc = 0%Qc -> well_formed s L N1 -> (forall j l, j < N1 -> l < L -> sparse_at s j l (f j l)) ->
  exists out, alldist2 rt n (spar s L N1) None = Some (Some out) /\ table rt n L N1 N1 f f out.
Proof.
  intros R WS HF. unfold alldist2, spar. cbn [mat nrows ncols]. cbv zeta.
  destruct (core_ok (sparse_dist rt n s s) (fun j1 j2 => fold rt n L (f j1) (f j2)) N1 N1 true) as (out & E & LO & H); [intros; eapply sparse_dist_ok; eauto|intros _; split; [reflexivity|intros; apply fold_sym]|].
  unfold sparse_core. rewrite E. cbn [obind]. exists out. split; [reflexivity|]. split; [exact LO|]. intros j1 j2 J1 J2. eexists. split; [apply H; assumption|apply fold_dist].
Qed.
(** the components of a well-formed sparse matrix exist *)
Lemma sparse_total s L N : well_formed s L N -> forall j l, j < N -> exists v, sparse_at s j l v.
Proof.
  intros (LJ & E & W) j l J. destruct (W j J) as (a & b & A & B & AB & R & S).
  assert (D : forall n, (exists p, a <= p < a + n /\ nth_error (ir s) p = Some l) \/ (forall p, a <= p < a + n -> nth_error (ir s) p <> Some l)).
  { induction n as [|n [(p & P & Q)|H]]; [right; intros; lia|left; exists p; split; [lia|exact Q]|]. destruct (nth_error (ir s) (a + n)) as [r|] eqn:Q.
    - destruct (Nat.eq_dec r l) as [->|N0]; [left; exists (a + n); split; [lia|exact Q]|right]. intros p P. destruct (Nat.eq_dec p (a + n)) as [->|]; [congruence|apply H; lia].
    - right. intros p P. destruct (Nat.eq_dec p (a + n)) as [->|]; [congruence|apply H; lia]. }
  destruct (D (b - a)) as [(p & P & Q)|H].
  - destruct (nth_some (pr s) p ltac:(lia)) as [v V]. exists v, a, b. split; [exact A|]. split; [exact B|]. left. exists p. split; [lia|auto].
  - exists 0%Qc, a, b. split; [exact A|]. split; [exact B|]. right. split; [|reflexivity]. intros p P. apply H. lia.
Qed.
(** C231: D(i,j) = K(i,i) + K(j,j) - 2 K(i,j) for the metrics with a kernel, on data that are not negative *)
Definition kernel_of (m k : norm) : Prop := (m = L2 /\ k = KL2) \/ (m = L1 /\ k = KL1) \/ (m = CHI2 /\ k = KCHI2) \/ (m = HELL /\ k = KHELL).
Lemma kchi2_self rt x : (0 <= x)%Qc -> term rt KCHI2 x x = x.
Proof.
  intros X. cbn [term]. destruct (Qc_eq_dec (x + x) 0) as [E|E]; [qc_lra|]. change (zq 2) with (1 + 1)%Qc. field. exact E.
Qed.
Lemma term_kernel rt m k x y : (forall x, (0 <= x)%Qc -> rt (x * x)%Qc = x) -> kernel_of m k -> (0 <= x)%Qc -> (0 <= y)%Qc ->
  term rt m x y = (term rt k x x + term rt k y y - zq 2 * term rt k x y)%Qc.
Proof.
  assert (T : zq 2 = (1 + 1)%Qc) by reflexivity. intros R [[-> ->]|[[-> ->]|[[-> ->]|[-> ->]]]] X Y.
  - cbn [term]. rewrite T. ring.
  - cbn [term]. rewrite T. unfold least. destruct (Qclt_le_dec x x); [qc_lra|]. destruct (Qclt_le_dec y y); [qc_lra|]. destruct (Qclt_le_dec x y); [rewrite Qcabs_neg by qc_lra|rewrite Qcabs_pos by qc_lra]; ring.
  - rewrite !kchi2_self by assumption. cbn [term]. destruct (Qc_eq_dec (x + y) 0) as [E|E].
    + assert (x = 0%Qc) as -> by (apply Qcle_antisym; qc_lra). assert (y = 0%Qc) as -> by (apply Qcle_antisym; qc_lra). ring.
    + rewrite T. field. exact E.
  - cbn [term]. rewrite !R by assumption. ring.
Qed.
Theorem C231_kernel rt m k v L N D K i j : (forall x, (0 <= x)%Qc -> rt (x * x)%Qc = x) -> kernel_of m k -> length v = L * N -> (forall x, In x v -> (0 <= x)%Qc) ->
  alldist2 rt m (full v L N) None = Some (Some D) -> alldist2 rt k (full v L N) None = Some (Some K) -> i < N -> j < N ->
  nth (j * N + i) D 0%Qc = (nth (i * N + i) K 0 + nth (j * N + j) K 0 - zq 2 * nth (j * N + i) K 0)%Qc.
Proof.
  intros R HK A P HD HKK I J. destruct (self_fold rt m v L N A) as (D' & E & _ & H). rewrite HD in E. injection E as <-. destruct (self_fold rt k v L N A) as (K' & E & _ & H'). rewrite HKK in E. injection E as <-.
  rewrite (nth_error_nth _ _ _ (H i j I J)), (nth_error_nth _ _ _ (H' i i I I)), (nth_error_nth _ _ _ (H' j j J J)), (nth_error_nth _ _ _ (H' i j I J)).
  assert (NM : m <> LINF) by (destruct HK as [[-> _]|[[-> _]|[[-> _]|[-> _]]]]; discriminate). assert (NK : k <> LINF) by (destruct HK as [[_ ->]|[[_ ->]|[[_ ->]|[_ ->]]]]; discriminate).
  rewrite !fold_sum by assumption. assert (PF : forall a b, a < N -> b < L -> (0 <= full_at v L a b)%Qc) by (intros a b Ha Hb; apply P, nth_In; nia).
  assert (W : forall n, n <= L -> sum n (fun l => term rt m (full_at v L i l) (full_at v L j l)) = (sum n (fun l => term rt k (full_at v L i l) (full_at v L i l)) + sum n (fun l => term rt k (full_at v L j l) (full_at v L j l)) - zq 2 * sum n (fun l => term rt k (full_at v L i l) (full_at v L j l)))%Qc).
  { induction n as [|n IH]; intros Hn; cbn [sum]; [ring|]. rewrite IH by lia. rewrite (term_kernel rt m k) by (auto; apply PF; lia). ring. }
  now apply W.
Qed.
(** C232: a sparse Y with a full X is not refused; its values are read as if they were a full matrix, beyond their end *)
Theorem C232_mixed_refuted rt n v s L N1 N2 : length v = L * N1 -> 1 <= N1 -> 1 <= N2 -> 1 <= L -> length (pr s) < L * N2 -> alldist2 rt n (full v L N1) (Some (spar s L N2)) = None.
Proof.
  intros A P1 P2 PL B. unfold alldist2, full, spar, data_of. cbn [mat nrows ncols]. cbv zeta. rewrite Nat.eqb_refl. cbn [negb]. unfold dense, core.
  assert (NO : exists j2 l, j2 < N2 /\ l < L /\ length (pr s) = L * j2 + l). { exists (length (pr s) / L), (length (pr s) mod L). pose proof (Nat.div_mod (length (pr s)) L ltac:(lia)). pose proof (Nat.mod_upper_bound (length (pr s)) L ltac:(lia)). repeat split; try lia. apply Nat.div_lt_upper_bound; lia. }
  destruct NO as (j2 & l & J2 & Hl & E).
  assert (W : forall S (body : nat -> S -> option S) m k, (forall s, body m s = None) -> forall n i s, i + n = k -> i <= m < k -> iter_from n i body s = None).
  { intros S body m k H. induction n0 as [|n0 IH]; intros i s0 Ei Hi; [lia|]. cbn [iter_from]. destruct (Nat.eq_dec i m) as [->|Ni]; [now rewrite H|]. destruct (body i s0); [|reflexivity]. cbn [obind]. apply IH; lia. }
  unfold iter at 1. rewrite (W _ _ j2 N2); [reflexivity| |lia|lia]. intros out. unfold iter at 1. apply (W _ _ 0 N1); [|lia|lia]. intros out0. cbn [negb orb]. replace (column_dist rt n v (pr s) L 0 j2) with (@None Qc); [reflexivity|]. symmetry.
  unfold column_dist, iter. apply (W _ _ l L); [|lia|lia]. intros acc. destruct (aget v _); [|reflexivity]. cbn [obind]. unfold aget. now rewrite (proj2 (nth_error_None (pr s) (L * j2 + l))) by lia.
Qed.
Definition q (z : Z) : Qc := zq z.
Definition id_rt (x : Qc) : Qc := x.
Definition show (o : option (option (list Qc))) := option_map (option_map (map this)) o.
Example C229_ex_full : show (alldist2 id_rt L2 (full (map q [0; 0; 3; 4]%Z) 2 2) (Some (full (map q [1; 1]%Z) 2 1))) = Some (Some [2; 13]%Q) /\
  show (alldist2 id_rt LINF (full (map q [0; 0; 3; 4]%Z) 2 2) None) = Some (Some [0; 4; 4; 0]%Q) /\ show (alldist2 id_rt CHI2 (full (map q [0; 1; 0; 3]%Z) 2 2) None) = Some (Some [0; 1; 1; 0]%Q).
Proof. repeat split; vm_compute; reflexivity. Qed.
Example C229_ex_error : alldist2 id_rt L2 (full [q 1] 1 1) (Some (full [q 1; q 2] 2 1)) = Some None.
Proof. reflexivity. Qed.
(** columns (0, 5, 0) and (2, 0, 7) *)
Definition ex_s : sparse := {| pr := map q [5; 2; 7]%Z; ir := [1; 0; 2]; jc := [0; 1; 3] |}.
Example C230_ex_sparse : show (alldist2 id_rt L1 (spar ex_s 3 2) None) = Some (Some [0; 14; 14; 0]%Q) /\ well_formed ex_s 3 2 /\ sparse_at ex_s 1 2 (q 7) /\ sparse_at ex_s 1 1 0%Qc.
Proof.
  split; [vm_compute; reflexivity|]. split; [|split].
  - split; [reflexivity|]. split; [reflexivity|]. intros j J. destruct j as [|[|j]]; [| |lia].
    + exists 0, 1. split; [reflexivity|]. split; [reflexivity|]. split; [cbn; lia|]. split; [|intros; lia]. intros p r P Q. replace p with 0 in Q by lia. injection Q as <-. lia.
    + exists 1, 3. split; [reflexivity|]. split; [reflexivity|]. split; [cbn; lia|]. split.
      * intros p r P Q. assert (p = 1 \/ p = 2) as [-> | ->] by lia; injection Q as <-; lia.
      * intros p p' r t P P' Q T. assert (p = 1) as -> by lia. assert (p' = 2) as -> by lia. injection Q as <-. injection T as <-. lia.
  - exists 1, 3. split; [reflexivity|]. split; [reflexivity|]. left. exists 2. repeat split; lia.
  - exists 1, 3. split; [reflexivity|]. split; [reflexivity|]. right. split; [|reflexivity]. intros p P. assert (p = 1 \/ p = 2) as [-> | ->] by lia; discriminate.
Qed.
Example C231_ex_kernel : show (alldist2 id_rt CHI2 (full (map q [1; 2; 3; 2]%Z) 2 2) None) = Some (Some [0; 1; 1; 0]%Q) /\ show (alldist2 id_rt KCHI2 (full (map q [1; 2; 3; 2]%Z) 2 2) None) = Some (Some [3; 7 # 2; 7 # 2; 5]%Q).
Proof. split; vm_compute; reflexivity. Qed.
Example C232_ex_mixed : alldist2 id_rt L2 (full (map q [1; 2; 3]%Z) 3 1) (Some (spar ex_s 3 2)) = None.
Proof. vm_compute. reflexivity. Qed.
Print Assumptions C229_full. Print Assumptions C229_self. Print Assumptions C229_error. Print Assumptions C230_sparse. Print Assumptions C230_self. Print Assumptions C231_kernel. Print Assumptions C232_mixed_refuted.
