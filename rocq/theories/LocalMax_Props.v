(** C217-C219: local maxima. *)
From Coq Require Import List Arith Bool ZArith QArith Qcanon Lia.
Import ListNotations.
From Verif Require Import Base Rat Gauss_Model Mser_Model MserNbr_Proofs LocalMax_Model LocalMax_Spec LocalMax_Proofs.
Local Open Scope nat_scope.

(** sel are the local maxima along the first p dimensions, in increasing order *)
Definition maxima (F : list Qc) (dims : list nat) (threshold : option Qc) (p : nat) (sel : list nat) : Prop :=
  Sorted.StronglySorted lt sel /\ forall i, In i sel <-> local_max F (firstn p dims) threshold i.
Definition full (F : list Qc) (dims : list nat) : Prop := length F = fold_right Nat.mul 1 dims /\ Forall (fun d => 1 <= d) dims.

Lemma firstn_offsets p : forall s dims, firstn p (offsets_from s dims) = offsets_from s (firstn p dims).
Proof. induction p as [|p IH]; intros s [|d dims]; cbn; auto. now rewrite IH. Qed.
Definition start (s : nat) (D : list nat) : list cell := map (fun od => (fst od, snd od, 1)) (combine (offsets_from s D) D).
Lemma start_ok : forall D s layer, Forall (fun d => 3 <= d) D -> chain s (start s D) /\ dims_of (start s D) = D /\ val (start s D) 0 layer * s = LocalMax_Model.sum (offsets_from s D) + s * prod D * layer.
Proof.
  induction D as [|d D IH]; intros s layer F; [cbn; repeat split; auto; lia|]. apply Forall_inv in F as Hd. apply Forall_inv_tail in F. destruct (IH (s * d) layer F) as (A & B & C). cbn [start offsets_from combine map fst snd chain dims_of val LocalMax_Model.sum fold_right prod]. fold (start (s * d) D). fold (dims_of (start (s * d) D)) (prod D).
  split; [repeat split; auto; lia|]. split; [now rewrite B|]. unfold LocalMax_Model.sum in C. rewrite Nat.mul_add_distr_r. replace (d * val (start (s * d) D) 0 layer * s) with (val (start (s * d) D) 0 layer * (s * d)) by ring. rewrite C. nia.
Qed.
Lemma prod_split p dims : prod dims = prod (firstn p dims) * prod (skipn p dims).
Proof. revert dims. induction p as [|p IH]; intros [|d dims]; try (cbn; lia). specialize (IH dims). unfold prod in *. cbn [firstn skipn fold_right]. rewrite IH. ring. Qed.
Lemma no_interior : forall D i, existsb (fun d => d <? 3) D = true -> interior D i -> False.
Proof. induction D as [|d D IH]; intros i E HI; cbn [existsb] in E; [discriminate|]. destruct HI as (A & B & C). apply orb_true_iff in E. destruct E as [E|E]; [apply Nat.ltb_lt in E; lia|eauto]. Qed.
Lemma dims_ok F dims threshold p : full F dims -> 1 <= p <= length dims -> exists sel, localmax_dims F dims threshold p = Some (map S sel) /\ maxima F dims threshold p sel.
Proof.
  intros [LF DF] P. unfold localmax_dims. cbv zeta. rewrite firstn_offsets. destruct (neighbors_ok (offsets_from 1 (firstn p dims))) as (nbs & -> & HN). cbn [obind]. rewrite offsets_length in HN.
  destruct (existsb (fun d => d <? 3) (firstn p dims)) eqn:EX.
  - exists []. split; [reflexivity|]. split; [constructor|]. intros i. split; [intros []|]. intros (_ & HI & _). exfalso. eapply no_interior; eauto.
  - assert (D3 : Forall (fun d => 3 <= d) (firstn p dims)). { apply Forall_forall. intros d X. destruct (le_lt_dec 3 d) as [Y|Y]; [exact Y|]. exfalso. assert (Z : existsb (fun d => d <? 3) (firstn p dims) = true) by (apply existsb_exists; exists d; split; [exact X|now apply Nat.ltb_lt]). congruence. }
    replace (Nat.max p 1) with p by lia. replace (p =? 0) with false by (symmetry; apply Nat.eqb_neq; lia). rewrite firstn_offsets. change (map (fun od : nat * nat => (fst od, snd od, 1)) (combine (offsets_from 1 (firstn p dims)) (firstn p dims))) with (start 1 (firstn p dims)).
    destruct (start_ok (firstn p dims) 1 0 D3) as (S1 & S2 & S3). set (B := map (fun d => (d, 0)) (skipn p dims)).
    assert (HB : map fst B = skipn p dims) by (unfold B; rewrite map_map; apply map_id). assert (DB : digits B). { unfold digits, B. apply Forall_forall. intros x X. apply in_map_iff in X. destruct X as (d & <- & X). cbn. rewrite Forall_forall in DF. apply DF. rewrite <- (firstn_skipn p dims). apply in_or_app. now right. }
    assert (LB : layer_of B = 0). { unfold B. clear. induction (skipn p dims) as [|d l IH]; cbn; [reflexivity|]. rewrite IH. lia. }
    assert (LP : length F = prod (firstn p dims) * prod (skipn p dims)) by (rewrite <- prod_split; exact LF).
    assert (NE : start 1 (firstn p dims) <> []). { destruct p as [|p]; [lia|]. destruct dims as [|d dims]; [cbn in P; lia|]. discriminate. }
    destruct (scan_ok F threshold nbs (firstn p dims) (skipn p dims) LP D3 HN (2 * fold_right Nat.mul 1 dims + 2) (LocalMax_Model.sum (offsets_from 1 (firstn p dims))) (start 1 (firstn p dims)) B []) as (l & -> & (sel & -> & SS & AA)).
    + apply chain_chain1; [lia|exact S1].
    + exact NE.
    + exact S2.
    + exact DB.
    + exact HB.
    + rewrite LB. lia.
    + exists []. split; [reflexivity|]. split; [constructor|]. intros i. split; [intros []|]. intros [X (_ & HI & _)]. exfalso. destruct (chain_interior (start 1 (firstn p dims)) 0 1 S1) as [_ _]. clear - X HI D3. revert X.
      assert (G : forall D s i, Forall (fun d => 3 <= d) D -> interior D i -> LocalMax_Model.sum (offsets_from s D) <= s * i).
      { induction D as [|d D IH]; intros s j FD HJ; [cbn; lia|]. destruct HJ as (A & B & C). cbn [offsets_from LocalMax_Model.sum fold_right]. apply Forall_inv in FD as Hd. apply Forall_inv_tail in FD. specialize (IH (s * d) (j / d) FD C). unfold LocalMax_Model.sum in IH. pose proof (Nat.div_mod j d ltac:(lia)). nia. }
      specialize (G _ 1 i D3 HI). lia.
    + rewrite LB. rewrite LF. fold (prod dims). assert (prod (skipn p dims) <= prod dims); [|lia]. rewrite (prod_split p dims). assert (1 <= prod (firstn p dims)); [|nia]. clear - D3. induction D3 as [|d D Hd _ IH]; [cbn; lia|]. cbn [prod fold_right]. fold (prod D). nia.
    + exists sel. split; [reflexivity|]. split; [exact SS|]. intros i. rewrite AA. split; [tauto|]. intros X. split; [apply X|exact X].
Qed.
(** C217: the indices listed are those of the local maxima, in increasing order *)
Theorem C217_maxima F dims threshold p : full F dims -> 1 <= p <= length dims -> exists sel, localmax F dims threshold (Some p) = Some (Some (map S sel)) /\ maxima F dims threshold p sel.
Proof. intros HF P. destruct (dims_ok F dims threshold p HF P) as (sel & E & M). exists sel. split; [|exact M]. unfold localmax. replace (length dims <? p) with false by (symmetry; apply Nat.ltb_ge; lia). rewrite E. reflexivity. Qed.
(** C217: without P, all dimensions, except for matrices of one row or column, which are vectors *)
Theorem C217_default F dims threshold : full F dims -> 2 <= length dims -> exists sel, localmax F dims threshold None = Some (Some (map S sel)) /\
  ((exists n, dims = [n; 1] \/ dims = [1; n]) -> maxima F [length F] threshold 1 sel) /\ ((forall n, dims <> [n; 1] /\ dims <> [1; n]) -> maxima F dims threshold (length dims) sel).
Proof.
  intros HF LD.
  assert (GEN : (forall n, dims <> [n; 1] /\ dims <> [1; n]) -> exists sel, localmax F dims threshold None = Some (Some (map S sel)) /\ maxima F dims threshold (length dims) sel).
  { intros NV. destruct (dims_ok F dims threshold (length dims) HF ltac:(lia)) as (sel & E & M). exists sel. split; [|exact M]. destruct dims as [|a [|b [|c l]]]; cbn in LD; try lia.
    - unfold localmax. destruct (Nat.eqb_spec a 1) as [->|Na]; [exfalso; now apply (proj2 (NV b))|]. destruct (Nat.eqb_spec b 1) as [->|Nb]; [exfalso; now apply (proj1 (NV a))|]. cbn [orb length Nat.ltb Nat.leb]. cbn [length] in E. rewrite E. reflexivity.
    - unfold localmax. rewrite Nat.ltb_irrefl, E. reflexivity. }
  assert (VEC : forall n, dims = [n; 1] \/ dims = [1; n] -> exists sel, localmax F dims threshold None = Some (Some (map S sel)) /\ maxima F [length F] threshold 1 sel).
  { intros n V. assert (LN : length F = n /\ 1 <= n). { destruct HF as [L FD]. rewrite Forall_forall in FD. destruct V as [-> | ->]; cbn in L; (split; [lia|apply FD; cbn; tauto]). } destruct LN as [LN N1].
    assert (HF' : full F [n; 1]) by (split; [cbn; lia|repeat constructor; lia]). destruct (dims_ok F [n; 1] threshold 1 HF' ltac:(cbn; lia)) as (sel & E & M). exists sel. split; [|rewrite LN; exact M].
    unfold localmax. destruct V as [-> | ->]; cbn [length].
    - replace (1 =? 1) with true by reflexivity. rewrite orb_true_r. replace (if 1 <? n then n else 1) with n by (destruct (Nat.ltb_spec 1 n); lia). cbn [length Nat.ltb Nat.leb]. rewrite E. reflexivity.
    - replace (1 =? 1) with true by reflexivity. cbn [orb]. replace (if n <? 1 then 1 else n) with n by (destruct (Nat.ltb_spec n 1); lia). cbn [length Nat.ltb Nat.leb]. rewrite E. reflexivity. }
  assert (DEC : (exists n, dims = [n; 1] \/ dims = [1; n]) \/ (forall n, dims <> [n; 1] /\ dims <> [1; n])).
  { destruct dims as [|a [|b [|c l]]]; try (right; intros n; split; discriminate). destruct (Nat.eq_dec b 1) as [->|Nb]; [left; exists a; now left|]. destruct (Nat.eq_dec a 1) as [->|Na]; [left; exists b; now right|]. right. intros n. split; congruence. }
  destruct DEC as [[n V]|NV].
  - destruct (VEC n V) as (sel & E & M). exists sel. split; [exact E|]. split; [intros _; exact M|]. intros NV. exfalso. destruct V as [V|V]; now apply (NV n) in V.
  - destruct (GEN NV) as (sel & E & M). exists sel. split; [exact E|]. split; [|intros _; exact M]. intros [n [V|V]]; exfalso; now apply (NV n) in V.
Qed.
(** C217: P greater than the number of dimensions is an error *)
Theorem C217_error F dims threshold p : length dims < p -> localmax F dims threshold (Some p) = Some None.
Proof. intros L. unfold localmax. replace (length dims <? p) with true by (symmetry; now apply Nat.ltb_lt). reflexivity. Qed.
(** C218: "with P = 0 an element has no neighbours, all that reach the threshold are maxima" is false: the last of each column is left out, and part of the others *)
Theorem C218_zero_refuted : (forall i, i < 6 -> local_max (repeat 1%Qc 6) (firstn 0 [3; 2]) None i) /\ localmax (repeat 1%Qc 6) [3; 2] None (Some 0) = Some (Some [1; 2; 5]).
Proof.
  split; [|vm_compute; reflexivity]. intros i L. split; [exact L|]. split; [exact Logic.I|]. split; [exact Logic.I|]. cbn. intros j -> N. contradiction.
Qed.
(** C219: "an array without elements has no maxima" is false: if none of the first P dimensions is less than three, the array is read out of bounds *)
Theorem C219_empty_refuted dims threshold p : 1 <= p <= length dims -> Forall (fun d => 3 <= d) (firstn p dims) -> fold_right Nat.mul 1 dims = 0 -> localmax [] dims threshold (Some p) = None.
Proof.
  intros P D3 Z0. unfold localmax. replace (length dims <? p) with false by (symmetry; apply Nat.ltb_ge; lia). unfold localmax_dims. cbv zeta. rewrite firstn_offsets. destruct (neighbors_ok (offsets_from 1 (firstn p dims))) as (nbs & -> & _). cbn [obind].
  replace (existsb (fun d => d <? 3) (firstn p dims)) with false. 2:{ symmetry. clear - D3. induction D3 as [|d D Hd _ IH]; cbn [existsb]; [reflexivity|]. rewrite <- IH. replace (d <? 3) with false by (symmetry; apply Nat.ltb_ge; lia). reflexivity. }
  rewrite Z0. replace (Nat.max p 1) with p by lia. replace (p =? 0) with false by (symmetry; apply Nat.eqb_neq; lia). rewrite firstn_offsets. destruct p as [|p]; [lia|]. destruct dims as [|d dims]; [cbn in P; lia|]. cbn [firstn] in *. apply Forall_inv in D3. destruct d as [|[|[|d]]]; try lia. set (q := LocalMax_Model.sum _). assert (NN : forall n, nth_error (@nil Qc) n = None) by (intros []; reflexivity). cbn [offsets_from combine map fst snd Nat.mul Nat.add scan carry Nat.leb]. unfold aget. rewrite NN. reflexivity.
Qed.

Print Assumptions C217_maxima.
Print Assumptions C217_default.
Print Assumptions C217_error.
Print Assumptions C218_zero_refuted.
Print Assumptions C219_empty_refuted.

(** a 4 by 4 matrix with one maximum inside, one on the boundary and a plateau *)
Definition ex_F : list Qc := map (fun z => Q2Qc (inject_Z z)) [0; 1; 0; 0; 2; 9; 3; 8; 1; 4; 5; 0; 7; 0; 5; 1]%Z.
Example C217_ex : localmax ex_F [4; 4] None None = Some (Some [6]). Proof. vm_compute. reflexivity. Qed.
Example C217_ex_columns : localmax ex_F [4; 4] None (Some 1) = Some (Some [2; 6; 11; 15]). Proof. vm_compute. reflexivity. Qed.
Example C217_ex_threshold : localmax ex_F [4; 4] (Some (Q2Qc 5)) (Some 1) = Some (Some [6; 11; 15]). Proof. vm_compute. reflexivity. Qed.
Example C217_ex_vector : localmax (map (fun z => Q2Qc (inject_Z z)) [0; 1; 0; 2; 2; 0; 3; 1]%Z) [1; 8] None None = Some (Some [2; 7]). Proof. vm_compute. reflexivity. Qed.
Example C217_ex_slices : localmax (ex_F ++ ex_F) [4; 4; 2] None (Some 2) = Some (Some [6; 22]) /\ localmax (ex_F ++ ex_F) [4; 4; 2] None None = Some (Some []). Proof. split; vm_compute; reflexivity. Qed.
Example C217_ex_hyp : full ex_F [4; 4]. Proof. split; [reflexivity|repeat constructor]. Qed.
Example C219_ex : localmax [] [3; 3; 0] None (Some 2) = None /\ localmax [] [2; 3; 0] None (Some 2) = Some (Some []). Proof. split; vm_compute; reflexivity. Qed.
