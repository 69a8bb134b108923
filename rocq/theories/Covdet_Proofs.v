(** Proofs about the features of the covariant detector. *)
From Coq Require Import List Arith ZArith Lia Bool QArith Qcanon Qcabs.
From Verif Require Import Base Loop Rat Gauss_Model Gauss_Proofs MserSort_Proofs Covdet_Model Covdet_Spec.
Import ListNotations.
Local Open Scope nat_scope.

(** *** Storage *)
Lemma aget_app {T} (l r : list T) x : aget (l ++ x :: r) (length l) = Some x.
Proof. unfold aget. rewrite nth_error_app2 by lia. now rewrite Nat.sub_diag. Qed.
Lemma aset_app {T} (l r : list T) x y : aset (l ++ x :: r) (length l) y = Some (l ++ y :: r).
Proof. rewrite aset_lt by (rewrite app_length; cbn; lia). rewrite upd_app_r by lia. now rewrite Nat.sub_diag. Qed.
Lemma holds_iff s fs : holds s fs <-> s_num s = length fs /\
  ((s_block s = None /\ fs = [] /\ s_size s = 0) \/ exists rest, s_block s = Some (fs ++ rest) /\ length (fs ++ rest) = s_size s).
Proof.
  unfold holds. split; intros [E [X|(l & H)]]; (split; [exact E|]); auto; right.
  - destruct H as (B & L & Le & F). exists (skipn (length fs) l). assert (l = fs ++ skipn (length fs) l) as X by (rewrite <- F at 1; now rewrite firstn_skipn).
    rewrite <- X. auto.
  - destruct H as (B & L). exists (fs ++ l). repeat split; auto.
    + rewrite app_length. lia.
    + rewrite firstn_app, Nat.sub_diag, firstn_all. cbn. apply app_nil_r.
Qed.
Lemma append_ok junk s fs f : holds s fs -> exists s', append junk s f = Some s' /\ holds s' (fs ++ [f]).
Proof.
  intros H. apply holds_iff in H. destruct H as [N H]. unfold append.
  assert (X : exists rest b, length rest = b - length fs /\ (if s_size s <? s_num s + 1 then Store (Some (resized junk (s_block s) (s_num s + 1 + 1000))) (s_num s + 1) (s_num s + 1 + 1000)
            else Store (s_block s) (s_num s + 1) (s_size s)) = Store (Some (fs ++ rest)) (s_num s + 1) b /\ s_num s < b).
  { destruct (Nat.ltb_spec (s_size s) (s_num s + 1)) as [L|L].
    - destruct H as [(B & -> & Z)|(rest & B & Z)]; rewrite B; cbn [resized].
      + eexists _, _. rewrite app_nil_l. split; [|split; [reflexivity|lia]]. rewrite map_length, seq_length. cbn. lia.
      + exists (rest ++ map junk (seq (length (fs ++ rest)) (s_num s + 1 + 1000 - length (fs ++ rest)))), (s_num s + 1 + 1000). rewrite <- app_assoc. split; [|split; [reflexivity|lia]].
        rewrite app_length, map_length, seq_length, app_length in *. lia.
    - destruct H as [(B & -> & Z)|(rest & B & Z)]; [lia|]. exists rest, (s_size s). rewrite B. split; [|split; [reflexivity|lia]]. rewrite app_length in Z. lia. }
  destruct X as (rest & b & Lr & -> & Lb). cbn [s_block s_num s_size obind].
  destruct rest as [|g rest]; [cbn in Lr; lia|]. replace (s_num s + 1 - 1) with (length fs) by lia. rewrite aset_app. cbn [obind].
  eexists. split; [reflexivity|]. apply holds_iff. cbn [s_block s_num s_size]. split; [rewrite app_length; cbn; lia|]. right. exists rest.
  rewrite <- app_assoc. split; [reflexivity|]. cbn in Lr |- *. rewrite app_length. cbn. lia.
Qed.
Lemma store_all_ok junk s fs found : holds s fs -> exists s', store_all junk s found = Some s' /\ holds s' found.
Proof.
  intros H. unfold store_all.
  destruct (iter_inv (fun i s' => holds s' (firstn i found)) (fun i s => do f <- aget found i; append junk s f) (length found) (Store (s_block s) 0 (s_size s))) as (s' & E & H').
  - apply holds_iff in H. apply holds_iff. cbn. split; [reflexivity|]. destruct H as [N [(B & -> & Z)|(rest & B & Z)]]; [now left|]. right. exists (fs ++ rest). now rewrite B.
  - intros j s' Lj Hj. destruct (aget_lt found j Lj) as (f & E). rewrite E. cbn [obind]. destruct (append_ok junk s' _ f Hj) as (s2 & E2 & H2). exists s2. split; [exact E2|].
    replace (firstn (j + 1) found) with (firstn j found ++ [f]); [exact H2|]. rewrite Nat.add_1_r. clear -E. revert j E. induction found as [|a l IH]; intros [|j] E; cbn in *; try discriminate.
    + now injection E as ->.
    + f_equal. now apply IH.
  - rewrite firstn_all in H'. eauto.
Qed.
Lemma change_ok s pre f post g : holds s (pre ++ f :: post) -> exists s', change s (length pre) g = Some s' /\ holds s' (pre ++ g f :: post) /\ s_num s' = s_num s.
Proof.
  intros H. apply holds_iff in H. destruct H as [N [(B & F & Z)|(rest & B & Z)]]; [destruct pre; discriminate|].
  unfold change. rewrite B. cbn [obind]. rewrite <- app_assoc in *. cbn in *. rewrite aget_app. cbn [obind]. rewrite aset_app. cbn [obind].
  eexists. split; [reflexivity|]. cbn [s_num]. split; [|reflexivity]. apply holds_iff. cbn [s_block s_num s_size]. split; [rewrite N, !app_length; reflexivity|]. right. exists rest.
  rewrite <- app_assoc. cbn. split; [reflexivity|]. rewrite app_length in *. cbn in *. lia.
Qed.
Section Variants.
Variable junk : nat -> feature.
Context {A : Type} (found : frame -> list A) (update : A -> feature -> feature) (none : feature -> feature).
Let first f := match found (f_frame f) with [] => none f | a :: _ => update a f end.
Let extra f := map (fun a => update a f) (tl (found (f_frame f))).
Lemma variants_of_ok s done f post : holds s (done ++ f :: post) ->
  exists s', variants_of junk found update none (length done) s = Some s' /\ holds s' (done ++ first f :: post ++ extra f).
Proof.
  intros H. unfold variants_of, first, extra. pose proof (proj1 (holds_iff _ _) H) as [N [(_ & F & _)|(rest & B & Z)]]; [destruct done; discriminate|].
  rewrite B. cbn [obind]. rewrite <- app_assoc. cbn [app]. rewrite aget_app. cbn [obind]. 
  destruct (found (f_frame f)) as [|a vs] eqn:V.
  - cbn [length Nat.eqb tl map]. destruct (change_ok s done f post none H) as (s' & E & H' & _). rewrite E. cbn. rewrite app_nil_r. eauto.
  - cbn [length Nat.eqb obind tl]. change (S (length vs)) with (1 + length vs). unfold iter. cbn [Nat.add iter_from]. cbn [aget nth_error obind Nat.eqb].
    destruct (change_ok s done f post (update a) H) as (s1 & E1 & H1 & _). rewrite E1. cbn [obind].
    destruct (iter_from_inv (fun j s' => holds s' (done ++ update a f :: post ++ map (fun a => update a f) (firstn (j - 1) vs)))
      (fun j s => do a0 <- aget (a :: vs) j; if j =? 0 then change s (length done) (update a0) else do s <- append junk s f; change s (s_num s - 1) (update a0))
      (1 + length vs) (length vs) (0 + 1) s1) as (s2 & E2 & H2); [lia| | |].
    + cbn. now rewrite app_nil_r.
    + intros j s' L1 L2 Hj. destruct j as [|j]; [lia|]. destruct (aget_lt vs j ltac:(lia)) as (b & Eb).
      change (aget (a :: vs) (S j)) with (aget vs j). rewrite Eb. cbn [obind Nat.eqb].
      destruct (append_ok junk s' _ f Hj) as (s3 & E3 & H3). rewrite E3. cbn [obind].
      assert (P : s_num s3 - 1 = length (done ++ update a f :: post ++ map (fun a => update a f) (firstn (S j - 1) vs))).
      { destruct H3 as [N3 _]. rewrite N3, app_length. cbn. lia. }
      rewrite P. destruct (change_ok s3 _ f [] (update b) H3) as (s4 & E4 & H4 & _). exists s4. split; [exact E4|].
      replace (S j + 1 - 1) with (S j) by lia. replace (S j - 1) with j in * by lia.
      replace (firstn (S j) vs) with (firstn j vs ++ [b]).
      * rewrite map_app. cbn [map]. rewrite <- app_assoc in H4. cbn in H4. rewrite <- app_assoc in H4. exact H4.
      * clear -Eb. revert j Eb. induction vs as [|v l IH]; intros [|j] E; cbn in *; try discriminate; [now injection E as ->|]. f_equal. now apply IH.
    + exists s2. replace (1 + length vs - 1) with (length vs) in H2 by lia. rewrite firstn_all in H2. auto.
Qed.
Lemma firstn_S {T} (l : list T) j x : nth_error l j = Some x -> firstn (j + 1) l = firstn j l ++ [x].
Proof. rewrite Nat.add_1_r. revert j. induction l as [|a l IH]; intros [|j] E; cbn in *; try discriminate; [now injection E as ->|]. f_equal. now apply IH. Qed.
Lemma all_variants_ok s fs : holds s fs -> exists s', all_variants junk found update none s = Some s' /\ holds s' (spread found update none fs).
Proof.
  intros H. unfold all_variants. pose proof (proj1 H) as N. rewrite N.
  destruct (iter_inv (fun i s' => holds s' (map first (firstn i fs) ++ skipn i fs ++ flat_map extra (firstn i fs))) (variants_of junk found update none) (length fs) s) as (s' & E & H').
  - cbn. now rewrite app_nil_r.
  - intros j s' Lj Hj. destruct (nth_error fs j) as [f|] eqn:E; [|apply nth_error_None in E; lia].
    assert (Sk : skipn j fs = f :: skipn (j + 1) fs).
    { rewrite Nat.add_1_r. clear -E. revert j E. induction fs as [|a l IH]; intros [|j] E; cbn in *; try discriminate; [now injection E as ->|now apply IH]. }
    rewrite Sk in Hj. cbn [app] in Hj. destruct (variants_of_ok s' _ f _ Hj) as (s2 & E2 & H2).
    rewrite map_length, firstn_length_le in E2 by lia. exists s2. split; [exact E2|].
    rewrite (firstn_S _ _ _ E), map_app, flat_map_app. cbn [map flat_map]. rewrite app_nil_r. rewrite <- !app_assoc in *. exact H2.
  - exists s'. rewrite skipn_all, firstn_all in H'. auto.
Qed.
End Variants.

(** *** Moving features to the front *)
Lemma compact_ok keep fs rest : exists rest', compact keep (fs ++ rest) (length fs) = Some (filter keep fs ++ rest', length (filter keep fs)) /\
  length (filter keep fs ++ rest') = length (fs ++ rest).
Proof.
  unfold compact.
  destruct (iter_inv (fun i (st : list feature * nat) => exists mid, fst st = filter keep (firstn i fs) ++ mid ++ skipn i fs ++ rest /\
      snd st = length (filter keep (firstn i fs)) /\ length (filter keep (firstn i fs)) + length mid = i)
    (fun i (st : list feature * nat) => let (l, j) := st in do f <- aget l i; if keep f then do l <- aset l j f; Some (l, j + 1) else Some (l, j))
    (length fs) (fs ++ rest, 0)) as ((l & j) & E & (mid & H1 & H2 & H3)).
  - exists []. auto.
  - intros i (l & j) Li (mid & H1 & H2 & H3). cbn [fst snd] in *. subst l j.
    destruct (nth_error fs i) as [f|] eqn:E; [|apply nth_error_None in E; lia].
    assert (Sk : skipn i fs = f :: skipn (i + 1) fs).
    { rewrite Nat.add_1_r. clear -E. revert i E. induction fs as [|a l IH]; intros [|i] E; cbn in *; try discriminate; [now injection E as ->|now apply IH]. }
    rewrite Sk. cbn [app]. rewrite app_assoc.
    assert (G : aget ((filter keep (firstn i fs) ++ mid) ++ f :: skipn (i + 1) fs ++ rest) i = Some f).
    { pose proof (aget_app (filter keep (firstn i fs) ++ mid) (skipn (i + 1) fs ++ rest) f) as G. rewrite app_length, H3 in G. exact G. }
    rewrite G. cbn [obind]. rewrite (firstn_S _ _ _ E), filter_app. cbn [filter].
    destruct (keep f) eqn:K.
    + rewrite <- app_assoc. assert (X : exists g tl_, mid ++ f :: skipn (i + 1) fs ++ rest = g :: tl_ ++ skipn (i + 1) fs ++ rest /\ length tl_ = length mid).
      { destruct mid as [|g mid]; [exists f, []; auto|]. exists g, (mid ++ [f]). rewrite <- app_assoc. cbn. split; [reflexivity|]. rewrite app_length. cbn. lia. }
      destruct X as (g & tl_ & -> & Lt). rewrite aset_app. cbn [obind]. eexists. split; [reflexivity|]. exists tl_. cbn [fst snd]. rewrite <- app_assoc. cbn.
      split; [reflexivity|]. rewrite !app_length. cbn. lia.
    + eexists. split; [reflexivity|]. exists (mid ++ [f]). cbn [fst snd]. rewrite app_nil_r, <- !app_assoc. cbn. split; [reflexivity|]. rewrite app_length. cbn. lia.
  - rewrite E. cbn [fst snd] in *. rewrite skipn_all, firstn_all in *. exists (mid ++ rest). subst. cbn [app]. split; [reflexivity|]. rewrite !app_length. lia.
Qed.

(** *** Suppression *)
Lemma isz_true q : isz q = true <-> q = 0%Qc.
Proof. unfold isz. split; [apply Qc_eq_bool_correct|]. intros ->. unfold Qc_eq_bool. now destruct (Qc_eq_dec 0 0). Qed.
Lemma isz_false q : isz q = false <-> q <> 0%Qc.
Proof. destruct (isz q) eqn:E; [apply isz_true in E; split; [discriminate|now intros []]|]. split; [|reflexivity]. intros _ X. apply isz_true in X. congruence. Qed.
Lemma removes_iff tol fi fj : removes tol fi fj = true <-> beats tol fi fj.
Proof. unfold removes, beats. cbv zeta. rewrite !andb_true_iff, !qlt_true. tauto. Qed.
Lemma beats_irrefl tol f : ~ beats tol f f.
Proof. intros (_ & _ & _ & _ & X). exact (Qclt_not_eq _ _ X eq_refl). Qed.
Lemma no_peak_zero f : f_peak f = 0%Qc -> no_peak f = f.
Proof. destruct f; cbn. now intros ->. Qed.
Lemma qabs0_lt q : ~ (Qcabs q < Qcabs 0)%Qc.
Proof. intros X. replace (Qcabs 0) with 0%Qc in X by (symmetry; now apply Qc_is_canon). pose proof (Qcabs_nonneg q) as Y. exact (Qclt_not_le _ _ X Y). Qed.

Section Suppress.
Variables (tol : Qc) (fs rest : list feature).
Let n := length fs.
Let d := Feature (Frame 0 0 0 0 0 0) 0 0 0 0.
Let F j := nth j fs d.
(** feature j after some suppression *)
Definition seen (alive : nat -> bool) (j : nat) : feature := if alive j then F j else no_peak (F j).
Definition after (alive : nat -> bool) (i j : nat) : bool := alive j && negb (alive i && removes tol (F i) (F j)).
Fixpoint alive (i : nat) (j : nat) : bool := match i with 0 => true | S i => after (alive i) i j end.
Definition lost (a : nat -> bool) (m : nat) : nat := length (filter (fun j => negb (a j) && negb (isz (f_peak (F j)))) (seq 0 m)).
Lemma lost_S a m : lost a (m + 1) = lost a m + if negb (a m) && negb (isz (f_peak (F m))) then 1 else 0.
Proof. unfold lost. rewrite seq_app, filter_app, app_length. cbn [Nat.add seq filter]. now destruct (_ && _). Qed.
Lemma lost_ext a b m : (forall j, j < m -> a j = b j) -> lost a m = lost b m.
Proof. intros H. unfold lost. f_equal. apply filter_ext_in. intros j Hj. apply in_seq in Hj. now rewrite H by lia. Qed.
Definition state (a : nat -> bool) : list feature := map (seen a) (seq 0 n) ++ rest.
Lemma state_get a j : j < n -> aget (state a) j = Some (seen a j).
Proof. intros L. unfold aget, state. rewrite nth_error_app1 by (rewrite map_length, seq_length; lia). rewrite nth_error_map, nth_error_nth' with (d := 0) by (rewrite seq_length; lia). now rewrite seq_nth by lia. Qed.
Lemma state_length a : length (state a) = n + length rest.
Proof. unfold state. now rewrite app_length, map_length, seq_length. Qed.
Lemma state_set a b j x : j < n -> x = seen b j -> (forall k, k < n -> k <> j -> seen a k = seen b k) -> upd (state a) j x = state b.
Proof.
  intros L -> H. unfold state. rewrite upd_app_l by (rewrite map_length, seq_length; lia). f_equal.
  apply nth_ext with (d := d) (d' := d); [now rewrite upd_length, !map_length|]. intros k Hk. rewrite upd_length, map_length, seq_length in Hk.
  assert (N : forall c, nth k (map (seen c) (seq 0 n)) d = seen c k).
  { intros c. rewrite nth_indep with (d' := seen c 0) by (rewrite map_length, seq_length; lia). now rewrite map_nth, seq_nth by lia. }
  rewrite nth_upd, !N by (rewrite map_length, seq_length; lia). destruct (Nat.eq_dec k j) as [->|Ne].
  - now rewrite Nat.eqb_refl.
  - rewrite (proj2 (Nat.eqb_neq _ _)) by lia. now apply H.
Qed.
Definition upto (a b : nat -> bool) (m j : nat) : bool := if j <? m then b j else a j.
Lemma around_ok a i : i < n -> suppress_around tol n i (state a, lost a n) = Some (state (after a i), lost (after a i) n).
Proof.
  intros L. unfold suppress_around. cbn [fst]. rewrite state_get by assumption. cbn [obind].
  destruct (iter_inv (fun j (st : list feature * nat) => st = (state (upto a (after a i) j), lost (upto a (after a i) j) n))
    (fun j (st : list feature * nat) => let (l, cnt) := st in do fj <- aget l j; if isz (f_peak fj) then Some (l, cnt) else
       if removes tol (seen a i) fj then do l <- aset l j (no_peak fj); Some (l, cnt + 1) else Some (l, cnt)) n (state a, lost a n)) as (st & E & H).
  - f_equal.
  - intros j st Lj ->. rewrite state_get by assumption. cbn [obind].
    set (u := upto a (after a i) j). set (u' := upto a (after a i) (j + 1)).
    assert (Uj : u j = a j) by (unfold u, upto; destruct (Nat.ltb_spec j j); [lia|reflexivity]).
    assert (U'j : u' j = after a i j) by (unfold u', upto; destruct (Nat.ltb_spec j (j + 1)); [reflexivity|lia]).
    assert (Uk : forall k, k <> j -> u k = u' k) by (intros k Ne; unfold u, u', upto; destruct (Nat.ltb_spec k j), (Nat.ltb_spec k (j + 1)); try lia; reflexivity).
    assert (LS : forall m, lost u' m = lost u m + if (j <? m) && (a j && negb (after a i j) && negb (isz (f_peak (F j)))) then 1 else 0).
    { induction m as [|m IH]; [reflexivity|]. replace (S m) with (m + 1) by lia. rewrite !lost_S, IH. destruct (Nat.eq_dec m j) as [->|Ne].
      - rewrite Uj, U'j. unfold after. destruct (Nat.ltb_spec j j); [lia|]. destruct (Nat.ltb_spec j (j + 1)); [|lia]. destruct (a j), (isz _), (a i && _); cbn; lia.
      - rewrite (Uk m Ne). destruct (Nat.ltb_spec j m), (Nat.ltb_spec j (m + 1)); try lia; cbn; lia. }
    specialize (LS n). destruct (Nat.ltb_spec j n); [|lia]. cbn [andb] in LS.
    assert (Same : seen u j = seen u' j -> state u = state u').
    { intros E. unfold state. f_equal. apply map_ext_in. intros k Hk. destruct (Nat.eq_dec k j) as [->|Ne]; [exact E|]. unfold seen. now rewrite (Uk k Ne). }
    assert (SU : seen u j = if a j then F j else no_peak (F j)) by (unfold seen; now rewrite Uj).
    assert (SU' : seen u' j = if after a i j then F j else no_peak (F j)) by (unfold seen; now rewrite U'j).
    rewrite !SU. destruct (a j) eqn:Aj.
    + destruct (isz (f_peak (F j))) eqn:Z.
      * eexists. split; [reflexivity|]. apply isz_true in Z. rewrite andb_false_r in LS. rewrite Same, LS, Nat.add_0_r; [reflexivity|].
        rewrite SU, SU'. destruct (after a i j); [reflexivity|]. symmetry. now apply no_peak_zero.
      * assert (R : removes tol (seen a i) (F j) = a i && removes tol (F i) (F j)).
        { unfold seen. destruct (a i); [reflexivity|]. cbn [andb]. apply not_true_iff_false. intros X. apply removes_iff in X. destruct X as (_ & _ & _ & _ & X). cbn in X. now apply qabs0_lt in X. }
        rewrite R. unfold after in SU', LS. rewrite Aj in SU', LS. cbn [andb] in SU', LS.
        destruct (a i && removes tol (F i) (F j)) eqn:Q; cbn [negb andb] in SU', LS.
        { rewrite aset_lt by (rewrite state_length; lia). cbn [obind]. eexists. split; [reflexivity|]. rewrite LS. f_equal. apply state_set; [lia| |].
          - now rewrite SU'.
          - intros k _ Ne. unfold seen. now rewrite (Uk k Ne). }
        { eexists. split; [reflexivity|]. rewrite LS, Nat.add_0_r, Same; [reflexivity|]. now rewrite SU, SU'. }
    + assert (Z : isz (f_peak (no_peak (F j))) = true) by reflexivity. rewrite Z. eexists. split; [reflexivity|]. cbn [andb] in LS. rewrite LS, Nat.add_0_r, Same; [reflexivity|].
      rewrite SU, SU'. unfold after. now rewrite Aj.
  - cbn [fst]. rewrite E, H. assert (Q : forall j, j < n -> upto a (after a i) n j = after a i j) by (intros j Lj; unfold upto; destruct (Nat.ltb_spec j n); [reflexivity|lia]).
    rewrite (lost_ext _ (after a i) n Q). f_equal. f_equal. unfold state. f_equal. apply map_ext_in. intros j Hj. apply in_seq in Hj. unfold seen. now rewrite Q by lia.
Qed.
Lemma rounds_ok : iter n (suppress_around tol n) (fs ++ rest, 0) = Some (state (alive n), lost (alive n) n).
Proof.
  destruct (iter_inv (fun i st => st = (state (alive i), lost (alive i) n)) (suppress_around tol n) n (fs ++ rest, 0)) as (st & E & H).
  - f_equal.
    + unfold state. f_equal. clear. unfold n, seen, F. cbn. clear. induction fs as [|a l IH]; [reflexivity|]. cbn [length seq map nth]. f_equal. rewrite <- seq_shift, map_map. exact IH.
    + unfold lost. clear. induction (seq 0 n) as [|a l IH]; [reflexivity|exact IH].
  - intros i st Li ->. rewrite around_ok by assumption. eexists. split; [reflexivity|]. now rewrite Nat.add_1_r.
  - now rewrite E, H.
Qed.
Definition mark : list bool := map (fun j => alive n j && negb (isz (f_peak (F j)))) (seq 0 n).
Lemma mark_nth j : j < n -> nth j mark false = alive n j && negb (isz (f_peak (F j))).
Proof.
  intros L. unfold mark. rewrite nth_indep with (d' := (fun j => alive n j && negb (isz (f_peak (F j)))) 0) by (rewrite map_length, seq_length; lia).
  rewrite (map_nth (fun j => alive n j && negb (isz (f_peak (F j))))). now rewrite seq_nth by lia.
Qed.
Lemma alive_down i k j : alive (i + k) j = true -> alive i j = true.
Proof. induction k as [|k IH]; [now rewrite Nat.add_0_r|]. rewrite Nat.add_succ_r. cbn [alive]. unfold after. intros X. apply andb_prop in X. tauto. Qed.
Lemma dead_why i j : alive i j = false -> exists k, k < i /\ alive k k = true /\ beats tol (F k) (F j).
Proof.
  induction i as [|i IH]; cbn [alive]; [discriminate|]. unfold after. intros X. apply andb_false_elim in X. destruct X as [X|X].
  - destruct (IH X) as (k & L & H). exists k. split; [lia|assumption].
  - apply negb_false_iff, andb_prop in X. destruct X as [X Y]. exists i. split; [lia|]. split; [assumption|]. now apply removes_iff.
Qed.
Lemma dead_late i k j : alive i j = true -> alive (i + k) j = false -> exists m, i <= m < i + k /\ alive m m = true /\ beats tol (F m) (F j).
Proof.
  intros A. induction k as [|k IH]; [rewrite Nat.add_0_r; congruence|]. rewrite Nat.add_succ_r. cbn [alive]. unfold after. intros X.
  apply andb_false_elim in X. destruct X as [X|X].
  - destruct (IH X) as (m & L & H). exists m. split; [lia|assumption].
  - apply negb_false_iff, andb_prop in X. destruct X as [X Y]. exists (i + k). split; [lia|]. split; [assumption|]. now apply removes_iff.
Qed.
Lemma filter_mark : forall m, m <= n -> filter (fun f => negb (isz (f_peak f))) (map (seen (alive n)) (seq 0 m)) = marked (map (fun j => alive n j && negb (isz (f_peak (F j)))) (seq 0 m)) (firstn m fs).
Proof.
  assert (App : forall (A : Type) m1 m2 (l1 l2 : list A), length m1 = length l1 -> marked (m1 ++ m2) (l1 ++ l2) = marked m1 l1 ++ marked m2 l2).
  { intros A m1. induction m1 as [|b m1 IH]; intros m2 [|x l1] l2 E; cbn in *; try lia; [reflexivity|]. destruct b; cbn; rewrite IH by lia; reflexivity. }
  induction m as [|m IH]; intros L; [reflexivity|]. rewrite seq_S, !map_app, filter_app. cbn [Nat.add map].
  assert (E : nth_error fs m = Some (F m)) by (apply nth_error_nth'; unfold n in L; lia).
  replace (S m) with (m + 1) by lia. rewrite (firstn_S _ _ _ E), App by (rewrite map_length, seq_length, firstn_length_le; unfold n in L; lia).
  rewrite IH by lia. f_equal. cbn [filter marked]. unfold seen. destruct (alive n m); [|reflexivity]. cbn [andb]. destruct (isz (f_peak (F m))); reflexivity.
Qed.
Lemma suppress_ok prev : tol <> 0%Qc -> exists rest', suppress tol prev (fs ++ rest) n = Some (marked mark fs ++ rest', length (marked mark fs), lost (alive n) n) /\
  length (marked mark fs ++ rest') = length (fs ++ rest).
Proof.
  intros T. unfold suppress. apply isz_false in T. rewrite T. rewrite rounds_ok. cbn [obind].
  destruct (compact_ok (fun f => negb (isz (f_peak f))) (map (seen (alive n)) (seq 0 n)) rest) as (rest' & E & L).
  rewrite map_length, seq_length in E. unfold state. rewrite E. cbn [obind]. exists rest'.
  pose proof (filter_mark n (Nat.le_refl _)) as M. replace (firstn n fs) with fs in M by (symmetry; apply firstn_all). fold mark in M. rewrite M in *. split; [reflexivity|].
  etransitivity; [exact L|]. rewrite !app_length, map_length, seq_length. reflexivity.
Qed.
Lemma lost_mark : lost (alive n) n = length (filter (fun j => negb (nth j mark false) && negb (isz (f_peak (F j)))) (seq 0 n)).
Proof. unfold lost. f_equal. apply filter_ext_in. intros j Hj. apply in_seq in Hj. rewrite mark_nth by lia. now destruct (alive n j), (isz _). Qed.
Lemma mark_props :
  (forall j, j < n -> nth j mark false = true -> f_peak (F j) <> 0%Qc) /\
  (forall i j, i < n -> j < n -> nth i mark false = true -> nth j mark false = true -> ~ beats tol (F i) (F j)) /\
  (forall j, j < n -> nth j mark false = false -> f_peak (F j) <> 0%Qc ->
     exists i, i < n /\ beats tol (F i) (F j) /\ (nth i mark false = true \/ exists i', i < i' < n /\ beats tol (F i') (F i))).
Proof.
  split; [|split].
  - intros j L H. rewrite mark_nth in H by assumption. apply andb_prop in H. destruct H as [_ H]. apply negb_true_iff in H. now apply isz_false.
  - intros i j Li Lj Hi Hj B. rewrite mark_nth in Hi, Hj by assumption. apply andb_prop in Hi, Hj. destruct Hi as [Hi _], Hj as [Hj _].
    assert (A : alive i i = true) by (apply (alive_down i (n - i)); now replace (i + (n - i)) with n by lia).
    assert (C : alive (S i) j = true) by (apply (alive_down (S i) (n - S i)); now replace (S i + (n - S i)) with n by lia).
    cbn [alive] in C. unfold after in C. apply removes_iff in B. rewrite A, B in C. cbn in C. now rewrite andb_false_r in C.
  - intros j Lj H P. rewrite mark_nth in H by assumption. apply isz_false in P. rewrite P, andb_true_r in H.
    destruct (dead_why n j H) as (i & Li & A & B). exists i. split; [assumption|]. split; [assumption|].
    destruct (alive n i) eqn:Ai.
    + left. rewrite mark_nth by assumption. rewrite Ai. cbn. apply negb_true_iff, isz_false. intros Z. destruct B as (_ & _ & _ & _ & B). rewrite Z in B. now apply qabs0_lt in B.
    + right. destruct (dead_late i (n - i) i A ltac:(now replace (i + (n - i)) with n by lia)) as (m & Lm & Am & Bm).
      exists m. split; [|assumption]. assert (m <> i) by (intros ->; now apply beats_irrefl in Bm). lia.
Qed.
End Suppress.

(** *** Features inside the image *)
Lemma qlt_le_neg a b : negb (qlt a b) = true <-> (b <= a)%Qc.
Proof. rewrite negb_true_iff. apply qlt_false. Qed.
Lemma fold_min l : forall a c, negb (qlt (fold_left qmin l a) c) = true <-> (c <= a)%Qc /\ Forall (fun x => c <= x)%Qc l.
Proof.
  intros a c. rewrite qlt_le_neg. revert a. induction l as [|b l IH]; intros a; cbn [fold_left]; [split; [intros; split; auto|tauto]|].
  rewrite IH. unfold qmin. destruct (qlt a b) eqn:Q.
  - apply qlt_true in Q. split; [intros [A B]; split; [auto|constructor; auto]; apply Qcle_trans with a; auto; now apply Qclt_le_weak|]. intros [A B]. inversion B; auto.
  - apply qlt_false in Q. split; [intros [A B]; split; [apply Qcle_trans with b; auto|constructor; auto]|]. intros [A B]. inversion B; auto.
Qed.
Lemma fold_max l : forall a c, negb (qlt c (fold_left qmax l a)) = true <-> (a <= c)%Qc /\ Forall (fun x => x <= c)%Qc l.
Proof.
  intros a c. rewrite qlt_le_neg. revert a. induction l as [|b l IH]; intros a; cbn [fold_left]; [split; [intros; split; auto|tauto]|].
  rewrite IH. unfold qmax. destruct (qlt b a) eqn:Q.
  - apply qlt_true in Q. split; [intros [A B]; split; [auto|constructor; auto]; apply Qcle_trans with a; auto; now apply Qclt_le_weak|]. intros [A B]. inversion B; auto.
  - apply qlt_false in Q. split; [intros [A B]; split; [apply Qcle_trans with b; auto|constructor; auto]|]. intros [A B]. inversion B; auto.
Qed.
Lemma qc_mul_le a b c : (0 <= a)%Qc -> (b <= c)%Qc -> (a * b <= a * c)%Qc.
Proof. intros A B. rewrite (Qcmult_comm a b), (Qcmult_comm a c). now apply Qcmult_le_compat_r. Qed.
Lemma qc_mul_ge a b c : (a <= 0)%Qc -> (b <= c)%Qc -> (a * c <= a * b)%Qc.
Proof. intros A B. pose proof (qc_mul_le (- a) b c) as X. assert (0 <= - a)%Qc by qc_lra. specialize (X H B). replace (- a * b)%Qc with (- (a * b))%Qc in X by ring. replace (- a * c)%Qc with (- (a * c))%Qc in X by ring. qc_lra. Qed.
(** a linear function on a square is bounded by its values at the corners *)
Lemma on_square a b c m u v lo hi : (- m <= u)%Qc -> (u <= m)%Qc -> (- m <= v)%Qc -> (v <= m)%Qc ->
  (forall su sv, (su = m \/ su = - m)%Qc -> (sv = m \/ sv = - m)%Qc -> lo <= a * su + b * sv + c /\ a * su + b * sv + c <= hi)%Qc ->
  (lo <= a * u + b * v + c /\ a * u + b * v + c <= hi)%Qc.
Proof.
  intros U1 U2 V1 V2 H.
  assert (X : exists p q, (p = m \/ p = - m)%Qc /\ (q = m \/ q = - m)%Qc /\ (a * p <= a * u)%Qc /\ (a * u <= a * q)%Qc).
  { destruct (Qclt_le_dec 0 a) as [A|A].
    - apply Qclt_le_weak in A. exists (- m)%Qc, m. repeat split; auto using qc_mul_le.
    - exists m, (- m)%Qc. repeat split; auto using qc_mul_ge. }
  assert (Y : exists p q, (p = m \/ p = - m)%Qc /\ (q = m \/ q = - m)%Qc /\ (b * p <= b * v)%Qc /\ (b * v <= b * q)%Qc).
  { destruct (Qclt_le_dec 0 b) as [A|A].
    - apply Qclt_le_weak in A. exists (- m)%Qc, m. repeat split; auto using qc_mul_le.
    - exists m, (- m)%Qc. repeat split; auto using qc_mul_ge. }
  destruct X as (p & q & P & Q & X1 & X2). destruct Y as (p' & q' & P' & Q' & Y1 & Y2).
  pose proof (proj1 (H p p' P P')) as A. pose proof (proj2 (H q q' Q Q')) as B. split; qc_lra.
Qed.
Lemma inside_ok w h m f : (0 <= m)%Qc -> frame_inside w h m f = true <->
  forall u v, (- m <= u)%Qc -> (u <= m)%Qc -> (- m <= v)%Qc -> (v <= m)%Qc -> in_image w h (maps f u v).
Proof.
  intros M. unfold frame_inside. cbn [map corners bounds fst snd]. rewrite !andb_true_iff, !fold_min, !fold_max, !Forall_cons_iff.
  unfold in_image, maps. cbn [fst snd]. set (W := zq (Z.of_nat w - 1)). set (Hh := zq (Z.of_nat h - 1)). assert (M' : (- m <= m)%Qc) by qc_lra. split.
  - intros ((((A1 & A2 & A3 & A4 & _) & (B1 & B2 & B3 & B4 & _)) & (C1 & C2 & C3 & C4 & _)) & (D1 & D2 & D3 & D4 & _)) u v U1 U2 V1 V2.
    pose proof (on_square (f_a11 f) (f_a12 f) (f_x f) m u v 0 W U1 U2 V1 V2) as X. pose proof (on_square (f_a21 f) (f_a22 f) (f_y f) m u v 0 Hh U1 U2 V1 V2) as Y.
    destruct X as [X1 X2]; [intros su sv [-> | ->] [-> | ->]; auto|]. destruct Y as [Y1 Y2]; [intros su sv [-> | ->] [-> | ->]; auto|]. auto.
  - intros H. assert (R : forall x : Qc, (x <= x)%Qc) by apply Qcle_refl.
    destruct (H m (- m)%Qc) as (A1 & A2 & A3 & A4); auto. destruct (H m m) as (B1 & B2 & B3 & B4); auto.
    destruct (H (- m)%Qc m) as (C1 & C2 & C3 & C4); auto. destruct (H (- m)%Qc (- m)%Qc) as (D1 & D2 & D3 & D4); auto.
    repeat split; auto.
Qed.

(** *** Octaves *)
Lemma floor_log2_ok a b o : (0 < a)%Z -> (0 < b)%Z -> (o <= floor_log2 a b <-> b * 2 ^ Z.max o 0 <= a * 2 ^ Z.max (- o) 0)%Z.
Proof.
  intros A B. pose proof (Z.log2_spec a A) as [A1 A2]. pose proof (Z.log2_spec b B) as [B1 B2].
  set (p := Z.log2 a) in *. set (q := Z.log2 b) in *. assert (P0 : (0 <= p)%Z) by apply Z.log2_nonneg. assert (Q0 : (0 <= q)%Z) by apply Z.log2_nonneg.
  assert (Mono : forall o o', (o <= o')%Z -> (b * 2 ^ Z.max o' 0 <= a * 2 ^ Z.max (- o') 0 -> b * 2 ^ Z.max o 0 <= a * 2 ^ Z.max (- o) 0)%Z).
  { intros s t L H. assert (2 ^ Z.max s 0 <= 2 ^ Z.max t 0)%Z by (apply Z.pow_le_mono_r; lia). assert (2 ^ Z.max (- t) 0 <= 2 ^ Z.max (- s) 0)%Z by (apply Z.pow_le_mono_r; lia). nia. }
  (* one more than the difference is too large *)
  assert (Hi : ~ (b * 2 ^ Z.max (p - q + 1) 0 <= a * 2 ^ Z.max (- (p - q + 1)) 0)%Z).
  { intros H. destruct (Z.le_ge_cases 0 (p - q + 1)) as [L|L].
    - rewrite (Z.max_l (p - q + 1)), (Z.max_r (- (p - q + 1))) in H by lia.
      assert (E : (2 ^ q * 2 ^ (p - q + 1) = 2 ^ Z.succ p)%Z) by (rewrite <- Z.pow_add_r by lia; f_equal; lia). assert (0 < 2 ^ (p - q + 1))%Z by (apply Z.pow_pos_nonneg; lia). change (2 ^ 0)%Z with 1%Z in H. nia.
    - rewrite (Z.max_r (p - q + 1)), (Z.max_l (- (p - q + 1))) in H by lia.
      assert (E : (2 ^ Z.succ p * 2 ^ (- (p - q + 1)) = 2 ^ q)%Z) by (rewrite <- Z.pow_add_r by lia; f_equal; lia). assert (0 < 2 ^ (- (p - q + 1)))%Z by (apply Z.pow_pos_nonneg; lia). change (2 ^ 0)%Z with 1%Z in H. nia. }
  assert (Lo : (b * 2 ^ Z.max (p - q - 1) 0 <= a * 2 ^ Z.max (- (p - q - 1)) 0)%Z).
  { destruct (Z.le_ge_cases 0 (p - q - 1)) as [L|L].
    - rewrite (Z.max_l (p - q - 1)), (Z.max_r (- (p - q - 1))) by lia.
      assert (E : (2 ^ Z.succ q * 2 ^ (p - q - 1) = 2 ^ p)%Z) by (rewrite <- Z.pow_add_r by lia; f_equal; lia). assert (0 < 2 ^ (p - q - 1))%Z by (apply Z.pow_pos_nonneg; lia). change (2 ^ 0)%Z with 1%Z. nia.
    - rewrite (Z.max_r (p - q - 1)), (Z.max_l (- (p - q - 1))) by lia.
      assert (E : (2 ^ p * 2 ^ (- (p - q - 1)) = 2 ^ Z.succ q)%Z) by (rewrite <- Z.pow_add_r by lia; f_equal; lia). assert (0 < 2 ^ (- (p - q - 1)))%Z by (apply Z.pow_pos_nonneg; lia). change (2 ^ 0)%Z with 1%Z. nia. }
  unfold floor_log2. fold p q.
  assert (T : (if (0 <=? p - q)%Z then (2 ^ (p - q) * b <=? a)%Z else (b <=? a * 2 ^ (- (p - q)))%Z) = true <-> (b * 2 ^ Z.max (p - q) 0 <= a * 2 ^ Z.max (- (p - q)) 0)%Z).
  { destruct (Z.leb_spec 0 (p - q)) as [L|L]; rewrite Z.leb_le.
    - rewrite (Z.max_l (p - q)), (Z.max_r (- (p - q))) by lia. change (2 ^ 0)%Z with 1%Z. split; intros; lia.
    - rewrite (Z.max_r (p - q)), (Z.max_l (- (p - q))) by lia. change (2 ^ 0)%Z with 1%Z. split; intros; lia. }
  destruct (if (0 <=? p - q)%Z then _ else _) eqn:E.
  - assert (E' := proj1 T eq_refl). split.
    + intros L. apply (Mono o (p - q)%Z L E').
    + intros H. apply Z.nlt_ge. intros L. apply Hi, (Mono _ o); [lia|exact H].
  - assert (E' : ~ (b * 2 ^ Z.max (p - q) 0 <= a * 2 ^ Z.max (- (p - q)) 0)%Z) by (intros X; apply T in X; discriminate). split.
    + intros L. apply (Mono o (p - q - 1)%Z); [lia|exact Lo].
    + intros H. apply Z.nlt_ge. intros L. apply E', (Mono _ o); [lia|exact H].
Qed.

(** *** Features without a scale *)
Lemma count_scales_ok found s fs : holds s fs -> Forall (fun f => length (found (f_frame f)) < 5) fs ->
  count_scales found s = Some (map (fun k => length (filter (fun f => length (found (f_frame f)) =? k) fs)) (seq 0 5)).
Proof.
  intros H B. apply holds_iff in H. destruct H as [N H]. unfold count_scales.
  assert (X : exists rest, (match s_block s with None => Some [] | Some l => Some l end) = Some (fs ++ rest)).
  { destruct H as [(E & -> & _)|(rest & E & _)]; rewrite E; [now exists []|now exists rest]. }
  destruct X as (rest & ->). cbn [obind]. rewrite N. clear N H.
  destruct (iter_inv (fun i c => c = map (fun k => length (filter (fun f => length (found (f_frame f)) =? k) (firstn i fs))) (seq 0 5))
    (fun i c => do f <- aget (fs ++ rest) i; let n := length (found (f_frame f)) in do v <- aget c n; aset c n (v + 1)) (length fs) (repeat 0 5)) as (c & E & H).
  - reflexivity.
  - intros i c L ->. destruct (nth_error fs i) as [f|] eqn:E; [|apply nth_error_None in E; lia].
    unfold aget at 1. rewrite nth_error_app1 by assumption. rewrite E. cbn [obind]. cbv zeta.
    pose proof (proj1 (Forall_forall _ _) B f (nth_error_In _ _ E)) as Lf. cbn beta in Lf.
    rewrite (firstn_S _ _ _ E). set (n := length (found (f_frame f))) in *.
    assert (A : forall k, length (filter (fun f => length (found (f_frame f)) =? k) (firstn i fs ++ [f])) =
      length (filter (fun f => length (found (f_frame f)) =? k) (firstn i fs)) + if n =? k then 1 else 0).
    { intros k. rewrite filter_app, app_length. cbn [filter]. fold n. now destruct (n =? k). }
    destruct n as [|[|[|[|[|]]]]]; try lia; cbn [seq map aget nth_error obind]; rewrite aset_lt by (cbn; lia); eexists; (split; [reflexivity|]); cbn [upd];
      rewrite !A; cbn [Nat.eqb]; now rewrite ?Nat.add_0_r.
  - etransitivity; [exact E|]. rewrite H. now rewrite firstn_all.
Qed.
Lemma extract_scales_ok junk found s fs : holds s fs -> Forall (fun f => length (found (f_frame f)) < 5) fs -> Forall (fun f => f_peak f <> 0%Qc) fs ->
  let up a f := Feature (scaled (fst a) (f_frame f)) (f_peak f) (f_edge f) (f_orientation f) (snd a) in
  exists s', extract_scales junk found s = Some (s', map (fun k => length (filter (fun f => length (found (f_frame f)) =? k) fs)) (seq 0 5)) /\
    holds s' (spread found up no_peak (filter (fun f => negb (length (found (f_frame f)) =? 0)) fs)).
Proof.
  intros H B P up. unfold extract_scales. rewrite (count_scales_ok found s fs H B). cbn [obind].
  destruct (all_variants_ok junk found up no_peak s fs H) as (s1 & E1 & H1). fold up. rewrite E1. cbn [obind].
  assert (Fl : filter (fun f => negb (isz (f_peak f))) (spread found up no_peak fs) = spread found up no_peak (filter (fun f => negb (length (found (f_frame f)) =? 0)) fs)).
  { unfold spread. rewrite filter_app. f_equal.
    - clear -P. induction P as [|f fs Hf P IH]; [reflexivity|]. cbn [map filter]. destruct (found (f_frame f)) as [|a vs] eqn:V; cbn [length Nat.eqb negb]; [exact IH|].
      cbn [map]. rewrite V. cbn [up f_peak]. rewrite (proj2 (isz_false _) Hf). cbn [negb]. now f_equal.
    - clear -P. induction P as [|f fs Hf P IH]; [reflexivity|]. cbn [flat_map filter]. rewrite filter_app, IH.
      replace (filter (fun f0 => negb (isz (f_peak f0))) (map (fun a => up a f) (tl (found (f_frame f))))) with (map (fun a => up a f) (tl (found (f_frame f)))).
      + destruct (found (f_frame f)) as [|a vs] eqn:V; cbn [length Nat.eqb negb]; [reflexivity|]. cbn [flat_map]. now rewrite V.
      + induction (tl (found (f_frame f))) as [|a vs IHv]; [reflexivity|]. cbn [map filter up f_peak]. rewrite (proj2 (isz_false _) Hf). cbn [negb]. now f_equal. }
  apply holds_iff in H1. destruct H1 as [N [(Bk & Z & S)|(rest & Bk & S)]]; rewrite Bk.
  - rewrite N, Z. cbn [length Nat.eqb]. eexists. split; [reflexivity|]. rewrite <- Fl, Z. cbn. apply holds_iff. split; [now rewrite N, Z|]. now left.
  - rewrite N. destruct (compact_ok (fun f => negb (isz (f_peak f))) (spread found up no_peak fs) rest) as (rest' & E & L). rewrite E. cbn [obind].
    eexists. split; [reflexivity|]. rewrite <- Fl. apply holds_iff. cbn [s_num s_block s_size]. split; [reflexivity|]. right. exists rest'. split; [reflexivity|]. now rewrite L.
Qed.
