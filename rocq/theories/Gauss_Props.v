(** C50: Gaussian elimination. *)
From Coq Require Import List Arith ZArith Lia Bool QArith Qcanon.
From Verif Require Import Base Loop MserSort_Proofs ImOp_Spec Gauss_Model Gauss_Spec Gauss_Proofs.
Import ListNotations.
Local Open Scope nat_scope.

(** C50.  On a matrix [A, B] with n rows and c >= n columns the elimination never
    leaves the array.  If it reports success then, for every further column k,
    column k of the result is the one and only solution of A v = (column k of the
    input); in particular A is regular.  If it gives up then A is singular up to
    1e-10: some vector with an entry 1 is taken to a vector with entries below 1e-10. *)
Theorem C50_gaussian_elimination : forall (n c : nat) (m : list Qc), n <= c -> n * c <= length m ->
  exists ok m', gaussian_elimination n c m = Some (ok, m') /\ length m' = length m /\
    (ok = true -> forall k v, n <= k < c ->
      (solves n m k v <-> forall i, i < n -> v i = entry n m' i k)) /\
    (ok = false -> nearly_singular n m).
Proof. intros n c m Hnc S. exact (gaussian_ok n c Hnc m S). Qed.
Print Assumptions C50_gaussian_elimination.

(** A x = b for the column-major n x n matrix [a] *)
Definition system (n : nat) (a b x : list Qc) : Prop :=
  forall i, i < n -> sum 0%Qc Qcplus n (fun j => (nth (i + j * n) a 0 * nth j x 0)%Qc) = nth i b 0%Qc.

Lemma solver (n : nat) (a b : list Qc) : length a = n * n -> length b = n ->
  exists ok m', gaussian_elimination n (n + 1) (a ++ b) = Some (ok, m') /\ length m' = n * n + n /\
    (ok = true -> forall x, length x = n ->
       (system n a b x <-> forall i, i < n -> nth i x 0%Qc = nth (n * n + i) m' 0%Qc)) /\
    (ok = false -> nearly_singular n a).
Proof.
  intros La Lb.
  destruct (C50_gaussian_elimination n (n + 1) (a ++ b)) as (ok & m' & E & L & H & B);
    [lia|rewrite app_length; lia|].
  exists ok, m'. split; [exact E|]. split; [rewrite L, app_length; lia|]. split.
  2: { intro F. destruct (B F) as (v & j & Lj & Vj & T). exists v, j. split; [exact Lj|]. split; [exact Vj|]. intros i Li.
    rewrite (qsum_ext n _ (fun j => entry n (a ++ b) i j * v j)%Qc); [now apply T|]. intros t Lt. unfold entry. rewrite app_nth1 by nia. reflexivity. }
  intros -> x Lx.
  assert (Q : solves n (a ++ b) n (fun j => nth j x 0%Qc) <-> system n a b x).
  { unfold solves, system, entry.
    assert (X : forall i, i < n -> nth (i + n * n) (a ++ b) 0%Qc = nth i b 0%Qc).
    { intros i Li. rewrite app_nth2 by lia. f_equal. lia. }
    assert (Y : forall i, i < n -> sum 0%Qc Qcplus n (fun j => (nth (i + j * n) (a ++ b) 0 * nth j x 0)%Qc) =
       sum 0%Qc Qcplus n (fun j => (nth (i + j * n) a 0 * nth j x 0)%Qc)).
    { intros i Li. apply qsum_ext. intros j Lj. rewrite app_nth1 by nia. reflexivity. }
    split; intros Z i Li; specialize (Z i Li); rewrite ?X, ?Y in * by auto; exact Z. }
  rewrite <- Q. rewrite (H eq_refl n _ ltac:(lia)). unfold entry.
  split; intros Z i Li; rewrite (Z i Li); f_equal; lia.
Qed.

(** C50.  The 2x2 solver: on success the returned vector is the only solution. *)
Theorem C50_solve_2 : forall a b, length a = 4 -> length b = 2 ->
  exists ok x, solve2 a b = Some (ok, x) /\
    (ok = true -> length x = 2 /\ system 2 a b x /\ forall y, length y = 2 -> system 2 a b y -> y = x) /\
    (ok = false -> nearly_singular 2 a).
Proof.
  intros a b La Lb. destruct (solver 2 a b La Lb) as (ok & m & E & L & H & B).
  unfold solve2. rewrite (firstn_all2 a) by lia. rewrite (firstn_all2 b) by lia. cbn in E. rewrite E. cbn [obind].
  cbn in L. rewrite !(aget_nth m _ 0%Qc) by lia. cbn [obind].
  eexists _, _. split; [reflexivity|]. split; [|exact B]. intros ->. specialize (H eq_refl).
  split; [reflexivity|]. split.
  - apply H; [reflexivity|]. intros [|[|i]] Li; [reflexivity|reflexivity|lia].
  - intros y Ly Sy. pose proof (proj1 (H y Ly) Sy) as Z. destruct y as [|y0 [|y1 [|]]]; try discriminate.
    f_equal; [apply (Z 0); lia|]. f_equal. apply (Z 1); lia.
Qed.
Print Assumptions C50_solve_2.

(** C50.  The 3x3 solver. *)
Theorem C50_solve_3 : forall a b, length a = 9 -> length b = 3 ->
  exists ok x, solve3 a b = Some (ok, x) /\
    (ok = true -> length x = 3 /\ system 3 a b x /\ forall y, length y = 3 -> system 3 a b y -> y = x) /\
    (ok = false -> nearly_singular 3 a).
Proof.
  intros a b La Lb. destruct (solver 3 a b La Lb) as (ok & m & E & L & H & B).
  unfold solve3. rewrite (firstn_all2 a) by lia. rewrite (firstn_all2 b) by lia. cbn in E. rewrite E. cbn [obind].
  cbn in L. rewrite !(aget_nth m _ 0%Qc) by lia. cbn [obind].
  eexists _, _. split; [reflexivity|]. split; [|exact B]. intros ->. specialize (H eq_refl).
  split; [reflexivity|]. split.
  - apply H; [reflexivity|]. intros [|[|[|i]]] Li; [reflexivity|reflexivity|reflexivity|lia].
  - intros y Ly Sy. pose proof (proj1 (H y Ly) Sy) as Z. destruct y as [|y0 [|y1 [|y2 [|]]]]; try discriminate.
    f_equal; [apply (Z 0); lia|]. f_equal; [apply (Z 1); lia|]. f_equal. apply (Z 2); lia.
Qed.
Print Assumptions C50_solve_3.

Definition qs (l : list Z) : list Qc := map (fun z => Q2Qc (inject_Z z)) l.
(** [0 2; 1 1] x = (4, 5) needs a row exchange; the solution is (3, 2) *)
Example C50_ex_2 : option_map (fun '(ok, x) => (ok, map this x)) (solve2 (qs [0;1;2;1]%Z) (qs [4;5]%Z)) =
  Some (true, map this (qs [3;2]%Z)).
Proof. vm_compute. reflexivity. Qed.
(** a singular matrix is reported *)
Example C50_ex_singular : option_map fst (solve2 (qs [1;2;2;4]%Z) (qs [1;1]%Z)) = Some false.
Proof. vm_compute. reflexivity. Qed.
Example C50_ex_3 : option_map (fun '(ok, x) => (ok, map this x))
  (solve3 (qs [0;1;2; 2;1;0; 1;1;3]%Z) (qs [7;6;11]%Z)) = Some (true, map this (qs [1;2;3]%Z)).
Proof. vm_compute. reflexivity. Qed.
(** the inverse of [2 1; 1 1] from [A, I] *)
Example C50_ex_inverse : option_map (fun '(ok, x) => (ok, map this (skipn 4 x)))
  (gaussian_elimination 2 4 (qs [2;1;1;1; 1;0;0;1]%Z)) = Some (true, map this (qs [1;-1;-1;2]%Z)).
Proof. vm_compute. reflexivity. Qed.
