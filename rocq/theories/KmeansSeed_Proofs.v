(** Proofs about the seeding of k-means. *)
From Coq Require Import List Arith ZArith Lia Bool QArith Qcanon Qcabs Lqa Permutation.
From Verif Require Import Base Loop MserSort_Proofs ImOp_Spec ImOp_Proofs Rat Gauss_Model Gauss_Proofs Vlad_Proofs.
From Verif Require Vec_Proofs.
From Verif Require Import Kmeans_Model Kmeans_Spec Kmeans_Proofs KmeansUpdate_Proofs KmeansEnergy_Proofs KmeansElkan_Model KmeansElkan_Proofs.
Import ListNotations.
Local Open Scope nat_scope.

(** a comparison that is zero between equal vectors only *)
Definition separating (dim : nat) (comp : list Qc -> list Qc -> Qc) : Prop :=
  forall v w, length v = dim -> length w = dim -> (0 <= comp v w)%Qc /\ (comp v w = 0%Qc <-> v = w).

Lemma gap_zero l1 u v : gap l1 u v = 0%Qc <-> u = v.
Proof.
  unfold gap. split.
  - intro H. assert (Z : (u - v = 0)%Qc).
    { destruct l1.
      - destruct (abs_cases (u - v)) as [[_ E]|[L E]]; rewrite E in H; [exact H|]. exfalso. generalize dependent (u - v)%Qc. intros q H1 H2 H3. qc_lra.
      - destruct (Qcmult_integral _ _ H); assumption. }
    replace u with ((u - v) + v)%Qc by ring. rewrite Z. ring.
  - intros ->. destruct l1; [|ring]. replace (v - v)%Qc with 0%Qc by ring. apply Qcabs_pos, Qcle_refl.
Qed.
Lemma distance_separating mt dim : separating dim (distance mt).
Proof.
  intros v w Lv Lw. unfold distance. rewrite (compare_sum mt dim) by auto. rewrite Qcplus_0_l. split.
  - apply sum_nonneg_. intros. apply gap_nonneg.
  - split.
    + intro Z. apply (nth_ext v w 0%Qc 0%Qc); [lia|]. intros d Ld. apply (gap_zero (is_l1 mt)).
      apply (sum_nonneg_zero dim (fun d => gap (is_l1 mt) (nth d v 0%Qc) (nth d w 0%Qc))); [intros; apply gap_nonneg|exact Z|lia].
    + intros ->. rewrite (qsum_ext dim _ (fun _ => 0%Qc)); [apply (sum_zero _ _ _ _ _ _ Qcrt)|]. intros. now apply gap_zero.
Qed.

Section Seed.
Variables (comp : list Qc -> list Qc -> Qc) (dim K : nat) (data : list Qc) (N : nat).
Hypothesis Hd : dim * N <= length data.
Notation R := (rowv dim data).
Lemma R_len j : j < N -> length (R j) = dim.
Proof. intro. apply rowv_length. nia. Qed.

Definition seeded (js : list nat) (cs : list (list Qc)) : Prop := cs = map R js /\ Forall (fun j => j < N) js.

(** enough different data *)
Definition rich : Prop := exists l : list (list Qc), NoDup l /\ K <= length l /\ forall v, In v l -> exists j, j < N /\ v = R j.

Section Rand.
Variable perm : list nat.
Hypothesis Hp : Permutation perm (seq 0 N).
Hypothesis HK : K <= N.
Lemma perm_len : length perm = N.
Proof. apply Permutation_length in Hp. now rewrite seq_length in Hp. Qed.
Lemma perm_lt i : i < N -> nth i perm 0 < N.
Proof. intro L. assert (I : In (nth i perm 0) (seq 0 N)) by (apply (Permutation_in _ Hp), nth_In; rewrite perm_len; exact L). apply in_seq in I. lia. Qed.
Lemma perm_onto j : j < N -> exists i, i < N /\ nth i perm 0 = j.
Proof.
  intro L. assert (I : In j perm) by (apply (Permutation_in _ (Permutation_sym Hp)), in_seq; lia).
  apply (In_nth _ _ 0) in I as (i & Li & E). exists i. rewrite perm_len in Li. auto.
Qed.
Lemma perm_nodup : NoDup perm.
Proof. apply (Permutation_NoDup (Permutation_sym Hp)), seq_NoDup. Qed.

Lemma init_rand_data_ok : exists js cs, init_rand_data comp dim K data N perm = Some cs /\ seeded js cs /\ NoDup js /\ length js = K /\
  (separating dim comp -> rich -> NoDup cs).
Proof.
  unfold init_rand_data.
  set (cond := fun s : nat * list (list Qc) => let '(i, centers) := s in length centers <? K).
  set (body := fun s : nat * list (list Qc) => let '(i, centers) := s in
    do p <- aget perm i;
    do v <- row dim data p;
    if (K - length centers <? N - i) && existsb (fun c => is_zero (comp v c)) centers
    then Some (i + 1, centers)
    else Some (i + 1, centers ++ v :: nil)).
  destruct (Vec_Proofs.while_safe (fun '(i, cs) => i <= N /\ length cs <= K /\ K - length cs <= N - i /\
      (exists js, cs = map R js /\ NoDup js /\ (forall j, In j js -> exists m, m < i /\ j = nth m perm 0)) /\
      (separating dim comp -> (forall m, m < i -> In (R (nth m perm 0)) cs) /\ (NoDup cs \/ K - length cs = N - i)))
    (fun '(i, _) => N - i) cond body) with (fuel := N + K + 1) (s := (0, @nil (list Qc))) as ([i cs] & E & (Li & Lc & Le & (js & Ej & Nj & Vj) & Sep) & Hc).
  - intros [i cs] (Li & Lc & Le & (js & Ej & Nj & Vj) & Sep) Hc. unfold cond in Hc. apply Nat.ltb_lt in Hc. unfold body.
    assert (LiN : i < N) by lia. rewrite (aget_nth perm i 0) by (rewrite perm_len; lia). cbn [obind]. pose proof (perm_lt i LiN) as Lp.
    rewrite row_ok by nia. cbn [obind]. fold (R (nth i perm 0)).
    destruct (Nat.ltb_spec (K - length cs) (N - i)) as [Lt|Ge]; cbn [andb].
    + destruct (existsb _ cs) eqn:Ex.
      * eexists; split; [reflexivity|]. split; [|lia]. split; [lia|]. split; [lia|]. split; [lia|]. split.
        -- exists js. split; [exact Ej|]. split; [exact Nj|]. intros j Ij. destruct (Vj j Ij) as (m & Lm & Em). exists m. split; [lia|exact Em].
        -- intro S. destruct (Sep S) as [All Nd]. split.
           ++ intros m Lm. destruct (Nat.eq_dec m i) as [->|]; [|apply All; lia]. apply existsb_exists in Ex as (c & Ic & Zc).
              assert (Lcd : length c = dim).
              { rewrite Ej in Ic. apply in_map_iff in Ic as (j & <- & Ij). destruct (Vj j Ij) as (m & Lm' & ->). apply R_len, perm_lt. lia. }
              unfold is_zero in Zc. destruct (Qc_eq_dec _ _) as [Z|]; [|discriminate]. apply (S _ _ (R_len _ Lp) Lcd) in Z. rewrite Z. exact Ic.
           ++ destruct Nd as [Nd|Eq]; [now left|lia].
      * eexists; split; [reflexivity|]. split; [|lia]. split; [lia|]. rewrite app_length; cbn [length]. split; [lia|]. split; [lia|]. split.
        -- exists (js ++ nth i perm 0 :: nil). split; [rewrite map_app, Ej; reflexivity|]. split.
           ++ apply (Permutation_NoDup (Permutation_cons_append js (nth i perm 0))). constructor; [|exact Nj]. intro I. destruct (Vj _ I) as (m & Lm & Em).
              pose proof (proj1 (NoDup_nth perm 0) perm_nodup m i ltac:(rewrite perm_len; lia) ltac:(rewrite perm_len; lia) (eq_sym Em)). lia.
           ++ intros j Ij. apply in_app_iff in Ij as [Ij|[<-|[]]]; [destruct (Vj j Ij) as (m & Lm & Em); exists m; split; [lia|exact Em]|exists i; split; [lia|reflexivity]].
        -- intro S. destruct (Sep S) as [All Nd]. split.
           ++ intros m Lm. apply in_app_iff. destruct (Nat.eq_dec m i) as [->|]; [right; now left|left; apply All; lia].
           ++ destruct Nd as [Nd|Eq]; [|lia]. left. apply (Permutation_NoDup (Permutation_cons_append cs (R (nth i perm 0)))). constructor; [|exact Nd]. intro I.
              assert (F : existsb (fun c => is_zero (comp (R (nth i perm 0)) c)) cs = true).
              { apply existsb_exists. exists (R (nth i perm 0)). split; [exact I|]. unfold is_zero. destruct (Qc_eq_dec _ _) as [|Nz]; [reflexivity|]. exfalso. apply Nz.
                now apply (S _ _ (R_len _ Lp) (R_len _ Lp)). }
              congruence.
    + eexists; split; [reflexivity|]. split; [|lia]. split; [lia|]. rewrite app_length; cbn [length]. split; [lia|]. split; [lia|]. split.
      * exists (js ++ nth i perm 0 :: nil). split; [rewrite map_app, Ej; reflexivity|]. split.
        -- apply (Permutation_NoDup (Permutation_cons_append js (nth i perm 0))). constructor; [|exact Nj]. intro I. destruct (Vj _ I) as (m & Lm & Em).
           pose proof (proj1 (NoDup_nth perm 0) perm_nodup m i ltac:(rewrite perm_len; lia) ltac:(rewrite perm_len; lia) (eq_sym Em)). lia.
        -- intros j Ij. apply in_app_iff in Ij as [Ij|[<-|[]]]; [destruct (Vj j Ij) as (m & Lm & Em); exists m; split; [lia|exact Em]|exists i; split; [lia|reflexivity]].
      * intro S. destruct (Sep S) as [All Nd]. split.
        -- intros m Lm. apply in_app_iff. destruct (Nat.eq_dec m i) as [->|]; [right; now left|left; apply All; lia].
        -- right. lia.
  - lia.
  - split; [lia|]. split; [cbn; lia|]. split; [cbn; lia|]. split; [exists []; split; [reflexivity|]; split; [constructor|intros j []]|].
    intros _. split; [lia|]. left. constructor.
  - unfold cond in Hc. apply Nat.ltb_ge in Hc. fold cond body. 
    match goal with |- context [while (N + K + 1) ?f ?g ?s] => change (while (N + K + 1) f g s) with (while (N + K + 1) cond body s) end.
    rewrite E. cbn [obind]. exists js, cs. split; [reflexivity|]. split.
    + split; [exact Ej|]. apply Forall_forall. intros j Ij. destruct (Vj j Ij) as (m & Lm & ->). apply perm_lt. lia.
    + split; [exact Nj|]. split; [rewrite Ej, map_length in *; lia|]. intros S (l & Nl & Ll & Vl). destruct (Sep S) as [All [Nd|Eq]]; [exact Nd|].
      apply (NoDup_incl_NoDup Nl); [lia|]. intros v Iv. destruct (Vl v Iv) as (j & Lj & ->). destruct (perm_onto j Lj) as (m & Lm & <-). apply All. lia.
Qed.
End Rand.

(** *** k-means++ *)
Variable real : nat -> Qc.
Lemma pick_le ms bound acc x last : x <= last -> pick ms bound acc x last <= last.
Proof.
  revert acc x. induction ms as [|m ms IH]; intros acc x L; cbn [pick]; [lia|]. destruct (Nat.eqb_spec x last); [lia|]. destruct (qle bound (acc + m)); [lia|]. apply IH. lia.
Qed.
Lemma pick_positive (M : list Qc) bound : 0 < length M -> (bound <= ksum (length M) (fun i => nth i M 0%Qc))%Qc ->
  forall ms acc x, ms = skipn x M -> x < length M -> acc = ksum x (fun i => nth i M 0%Qc) -> (acc < bound)%Qc ->
  (0 < nth (pick ms bound acc x (length M - 1)) M 0%Qc)%Qc.
Proof.
  intros HM HB. induction ms as [|m ms IH]; intros acc x Es Lx Ea La.
  - assert (Z : length (skipn x M) = 0) by now rewrite <- Es. rewrite skipn_length in Z. lia.
  - assert (Em : m = nth x M 0%Qc). { rewrite <- (Nat.add_0_r x) at 1. rewrite <- (nth_skip M 0%Qc x 0), <- Es. reflexivity. }
    assert (Es' : ms = skipn (x + 1) M).
    { assert (S : skipn 1 (skipn x M) = skipn (x + 1) M). { rewrite <- (firstn_skipn x M) at 2. rewrite skipn_app, skipn_firstn_comm.
        replace (x - (x + 1)) with 0 by lia. cbn [firstn app]. f_equal. rewrite firstn_length. lia. }
      rewrite <- S, <- Es. reflexivity. }
    cbn [pick]. destruct (Nat.eqb_spec x (length M - 1)) as [Ex|Nx].
    + rewrite <- Ex, <- Em. assert (T : ksum (length M) (fun i => nth i M 0%Qc) = (acc + m)%Qc).
      { replace (length M) with (S x) by lia. cbn [sum]. rewrite <- Ea, <- Em. reflexivity. }
      rewrite T in HB. clear - HB La. qc_lra.
    + destruct (qle bound (acc + m)) eqn:Q.
      * apply qle_true in Q. rewrite <- Em. clear - Q La. qc_lra.
      * apply qle_false in Q. apply IH; [exact Es'|lia| |exact Q]. rewrite Nat.add_1_r. cbn [sum]. rewrite <- Ea, <- Em. reflexivity.
Qed.
Lemma fold_sum l acc : (fold_left Qcplus l acc = acc + ksum (length l) (fun i => nth i l 0%Qc))%Qc.
Proof. revert acc. induction l as [|x l IH]; intro acc; [cbn; ring|]. cbn [fold_left length]. rewrite IH, sum_shift. cbn [nth]. ring. Qed.

Hypothesis HN : 0 < N.
(** the distances to the nearest chosen center, zero at the chosen data only *)
Definition mins_ok (cs : list (list Qc)) (mins : list (option Qc)) : Prop := length mins = N /\
  (separating dim comp -> forall j, j < N -> match nth j mins None with
    | None => cs = []
    | Some m => (0 <= m)%Qc /\ (m = 0%Qc <-> In (R j) cs) end).

Lemma plus_plus_ok todo : forall t x mins js cs,
  x < N -> seeded js cs -> mins_ok cs mins -> K = length cs + S todo ->
  (separating dim comp -> rich -> (forall t, 0 < real t /\ real t <= 1)%Qc -> NoDup cs /\ ~ In (R x) cs) ->
  exists js' cs', plus_plus comp dim data N real todo t x mins cs = Some cs' /\ seeded js' cs' /\ length js' = K /\
    (separating dim comp -> rich -> (forall t, 0 < real t /\ real t <= 1)%Qc -> NoDup cs').
Proof.
  induction todo as [|todo IH]; intros t x mins js cs Lx [Ej Fj] [Lm Vm] Lk Nd; cbn [plus_plus]; rewrite row_ok by nia; cbn [obind]; cbv zeta; fold (R x).
  all: assert (Se : seeded (js ++ x :: nil) (cs ++ R x :: nil)) by (split; [rewrite map_app, Ej; reflexivity|apply Forall_app; split; [exact Fj|repeat constructor; exact Lx]]).
  all: assert (Nd' : separating dim comp -> rich -> (forall t, 0 < real t /\ real t <= 1)%Qc -> NoDup (cs ++ R x :: nil)) by
    (intros S Ri Re; destruct (Nd S Ri Re) as [N1 N2]; apply (Permutation_NoDup (Permutation_cons_append cs (R x))); constructor; assumption).
  - exists (js ++ x :: nil), (cs ++ R x :: nil). split; [reflexivity|]. split; [exact Se|]. split; [|exact Nd'].
    rewrite Ej, map_length in Lk. rewrite app_length. cbn. lia.
  - set (cs1 := cs ++ R x :: nil) in *.
    destruct (iter_inv (fun j ms => length ms = j /\ (separating dim comp -> forall i, i < j -> (0 <= nth i ms 0%Qc)%Qc /\ (nth i ms 0%Qc = 0%Qc <-> In (R i) cs1)))
      (fun j ms =>
      do r <- row dim data j;
      do m <- aget mins j;
      let d := comp (R x) r in
      Some (ms ++ (match m with None => d | Some w => if qlt w d then w else d end) :: nil)) N []) as (ms & E & Lms & Vms).
    + split; [reflexivity|]. lia.
    + intros j ms Lj [Lms Vms]. rewrite row_ok by nia. cbn [obind]. rewrite (aget_nth mins j None) by lia. cbn [obind]. cbv zeta. fold (R j).
      eexists; split; [reflexivity|]. split; [rewrite app_length; cbn; lia|]. intros S i Li. destruct (Nat.eq_dec i j) as [->|Ni].
      * rewrite app_nth2 by lia. rewrite Lms, Nat.sub_diag. cbn [nth]. specialize (Vm S j Lj). destruct (S _ _ (R_len x Lx) (R_len j Lj)) as [C0 C1].
        destruct (nth j mins None) as [w|].
        -- destruct Vm as [W0 W1]. destruct (qlt w (comp (R x) (R j))) eqn:Q.
           ++ apply qlt_true in Q. split; [exact W0|]. unfold cs1. rewrite in_app_iff. split.
              ** intro Z. left. now apply W1.
              ** intros [I|[I|[]]]; [now apply W1|]. apply C1 in I. exfalso. clear - Q W0 I. rewrite I in Q. qc_lra.
           ++ apply qlt_false in Q. split; [exact C0|]. unfold cs1. rewrite in_app_iff. split.
              ** intro Z. right. left. now apply C1.
              ** intros [I|[I|[]]]; [|now apply C1]. apply W1 in I. rewrite I in Q. apply Qcle_antisym; assumption.
        -- split; [exact C0|]. unfold cs1. rewrite Vm. cbn [app]. split; [intro Z; left; now apply C1|]. intros [I|[]]. now apply C1.
      * rewrite app_nth1 by lia. apply Vms; [exact S|lia].
    + match goal with |- context [obind ?m _] => replace m with (Some ms) by (symmetry; exact E) end. cbn [obind]. set (x' := pick ms (real t * fold_left Qcplus ms 0)%Qc 0 0 (N - 1)).
      assert (Lx' : x' < N) by (pose proof (pick_le ms (real t * fold_left Qcplus ms 0)%Qc 0%Qc 0 (N - 1) ltac:(lia)); unfold x'; lia).
      apply IH with (js := js ++ x :: nil); [exact Lx'|exact Se| | |].
      * split; [now rewrite map_length|]. intros S j Lj. rewrite (nth_indep _ None (Some 0%Qc)) by (rewrite map_length; lia). rewrite map_nth. now apply Vms.
      * unfold cs1. rewrite app_length. cbn [length]. lia.
      * intros S Ri Re. split; [now apply Nd'|]. specialize (Vms S). intro I. apply (Vms x' Lx') in I.
        assert (Pos : (0 < nth x' ms 0%Qc)%Qc); [|rewrite I in Pos; qc_lra].
        (* some datum has not been chosen *)
        assert (Ex : exists j, j < N /\ ~ In (R j) cs1).
        { destruct Ri as (l & Nl & Ll & Vl).
          assert (Lcs : length cs1 < length l) by (unfold cs1; rewrite app_length; cbn [length]; lia).
          assert (Ex : exists v, In v l /\ ~ In v cs1).
          { clear - Nl Lcs. destruct (Forall_Exists_dec (fun v => In v cs1) (fun v => in_dec (list_eq_dec Qc_eq_dec) v cs1) l) as [F|F].
            - exfalso. rewrite Forall_forall in F. pose proof (NoDup_incl_length Nl F). lia.
            - apply Exists_exists in F. exact F. }
          destruct Ex as (v & Iv & Nv). destruct (Vl v Iv) as (j & Lj & ->). eauto. }
        assert (Energy : (0 < ksum N (fun i => nth i ms 0%Qc))%Qc).
        { destruct Ex as (j & Lj & Nj). destruct (Qc_dec 0 (ksum N (fun i => nth i ms 0%Qc))) as [[G|G]|G].
          - exact G.
          - exfalso. pose proof (sum_nonneg_ N (fun i => nth i ms 0%Qc) (fun i Li => proj1 (Vms i Li))) as P. clear - G P. generalize dependent (ksum N (fun i => nth i ms 0%Qc)). intros. qc_lra.
          - exfalso. apply Nj. apply (Vms j Lj). apply (sum_nonneg_zero N (fun i => nth i ms 0%Qc)); [intros i Li; apply (Vms i Li)|now symmetry|exact Lj]. }
        unfold x'. rewrite fold_sum, Qcplus_0_l, Lms. destruct (Re t) as [R0 R1]. replace (N - 1) with (length ms - 1) by lia. apply pick_positive.
        -- lia.
        -- rewrite Lms. rewrite <- (Qcmult_1_l (ksum N (fun i => nth i ms 0%Qc))) at 2. apply Qcmult_le_compat_r; [exact R1|now apply Qclt_le_weak].
        -- reflexivity.
        -- lia.
        -- reflexivity.
        -- pose proof (Qcmult_lt_compat_r _ _ _ Energy R0) as P. rewrite Qcmult_0_l in P. exact P.
Qed.

Lemma init_plus_plus_ok first : first < N -> 0 < K ->
  exists js cs, init_plus_plus comp dim K data N real first = Some cs /\ seeded js cs /\ length js = K /\
    (separating dim comp -> rich -> (forall t, 0 < real t /\ real t <= 1)%Qc -> NoDup cs).
Proof.
  intros Lf HK. unfold init_plus_plus. apply plus_plus_ok with (js := []); auto.
  - split; [reflexivity|constructor].
  - split; [apply repeat_length|]. intros _ j Lj. now rewrite nth_repeat.
  - cbn. lia.
  - intros _ _ _. split; [constructor|intros []].
Qed.
End Seed.
