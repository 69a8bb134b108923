From Coq Require Import List ZArith Arith Bool Lia Permutation Sorted.
From Verif Require Import Base Loop MserSort_Proofs KdTree_Model KdTree_Spec KdQuery_Proofs KdForest_Proofs KdBatch_Model KdBatch_Spec.
Import ListNotations.
Local Open Scope nat_scope.

Lemma nth_firstn {A} (d : A) : forall n l i, i < n -> nth i (firstn n l) d = nth i l d.
Proof. induction n as [|n IH]; intros l i H; [lia|]. destruct l as [|x l]; [reflexivity|]. destruct i as [|i]; cbn; [reflexivity|apply IH; lia]. Qed.
Lemma nth_skipn {A} (d : A) : forall n l i, nth i (skipn n l) d = nth (n + i) l d.
Proof. induction n as [|n IH]; intros l i; [reflexivity|]. destruct l as [|x l]; [destruct i; reflexivity|]. cbn. apply IH. Qed.
Lemma map_repeat {A B} (f : A -> B) v : forall n, map f (repeat v n) = repeat (f v) n.
Proof. induction n as [|n IH]; [reflexivity|]. cbn. now rewrite IH. Qed.
Lemma part_length {A} k q (l : list A) : q * k + k <= length l -> length (part k q l) = k.
Proof. intro H. unfold part. rewrite firstn_length, skipn_length. lia. Qed.
Lemma part_nth {A} (d : A) k q l i : i < k -> nth i (part k q l) d = nth (q * k + i) l d.
Proof. intro H. unfold part. rewrite nth_firstn by assumption. apply nth_skipn. Qed.
Lemma part_ext {A} (d : A) k q l l' : length l = length l' -> q * k + k <= length l -> (forall i, i < k -> nth (q * k + i) l d = nth (q * k + i) l' d) -> part k q l = part k q l'.
Proof.
  intros L H E. apply (nth_ext _ _ d d); [rewrite !part_length by lia; reflexivity|]. intros i Hi. rewrite part_length in Hi by assumption. rewrite !part_nth by assumption. apply E. assumption.
Qed.

Lemma write_out_ok k qi nbs I D Q : length nbs = k -> qi < Q -> length I = Q * k -> (forall ds, D = Some ds -> length ds = Q * k) ->
  exists I' D', write_out k qi nbs (I, D) = Some (I', D') /\ length I' = Q * k /\ (forall ds, D' = Some ds -> length ds = Q * k) /\
    part k qi I' = map (fun v => (nb_index v mod 2 ^ 32)%Z) nbs /\ (forall q, q < Q -> q <> qi -> part k q I' = part k q I) /\
    (D = None <-> D' = None) /\
    (forall ds ds', D = Some ds -> D' = Some ds' -> part k qi ds' = map nb_dist nbs /\ forall q, q < Q -> q <> qi -> part k q ds' = part k q ds).
Proof.
  intros LN Lq LI LD. unfold write_out. assert (HB : qi * k + k <= Q * k) by nia. set (d := mk_nbr None 0).
  destruct (iter_inv (fun n s => length (fst s) = Q * k /\
      (forall j, nth j (fst s) 0%Z = if (qi * k <=? j) && (j <? qi * k + n) then (nb_index (nth (j - qi * k) nbs d) mod 2 ^ 32)%Z else nth j I 0%Z) /\
      match D, snd s with
      | None, None => True
      | Some ds, Some ds' => length ds' = Q * k /\ forall j, nth j ds' None = if (qi * k <=? j) && (j <? qi * k + n) then nb_dist (nth (j - qi * k) nbs d) else nth j ds None
      | _, _ => False
      end)
    (fun ni s => let '(indexes, distances) := s in do v <- aget nbs ni; do indexes <- aset indexes (qi * k + ni) (nb_index v mod 2 ^ 32)%Z;
      do distances <- match distances with None => Some None | Some ds => do ds <- aset ds (qi * k + ni) (nb_dist v); Some (Some ds) end; Some (indexes, distances)) k (I, D)) as ([I' D'] & E & A1 & A2 & A3).
  - cbn [fst snd]. split; [assumption|]. split.
    + intro j. destruct (Nat.leb_spec (qi * k) j), (Nat.ltb_spec j (qi * k + 0)); try lia; reflexivity.
    + destruct D as [ds|]; [|exact Logic.I]. split; [apply LD; reflexivity|]. intro j. destruct (Nat.leb_spec (qi * k) j), (Nat.ltb_spec j (qi * k + 0)); try lia; reflexivity.
  - intros n [J E] Ln (B1 & B2 & B3). cbn [fst snd] in *. rewrite (aget_nth nbs n d) by lia. cbn [obind]. rewrite aset_lt by lia. cbn [obind].
    destruct D as [ds|], E as [es|]; try contradiction.
    + destruct B3 as (C1 & C2). rewrite aset_lt by lia. cbn [obind]. eexists. split; [reflexivity|]. cbn [fst snd]. rewrite !upd_length. split; [assumption|]. split; [|split; [assumption|]];
        intro j; rewrite nth_upd by lia; [rewrite B2|rewrite C2]; (destruct (Nat.eqb_spec j (qi * k + n)) as [->|NE];
          [replace (qi * k + n - qi * k) with n by lia; destruct (Nat.leb_spec (qi * k) (qi * k + n)), (Nat.ltb_spec (qi * k + n) (qi * k + (n + 1))); try lia; reflexivity
          |destruct (Nat.leb_spec (qi * k) j), (Nat.ltb_spec j (qi * k + n)), (Nat.ltb_spec j (qi * k + (n + 1))); try lia; reflexivity]).
    + cbn [obind]. eexists. split; [reflexivity|]. cbn [fst snd]. rewrite !upd_length. split; [assumption|]. split; [|exact Logic.I].
      intro j; rewrite nth_upd by lia; rewrite B2; (destruct (Nat.eqb_spec j (qi * k + n)) as [->|NE];
          [replace (qi * k + n - qi * k) with n by lia; destruct (Nat.leb_spec (qi * k) (qi * k + n)), (Nat.ltb_spec (qi * k + n) (qi * k + (n + 1))); try lia; reflexivity
          |destruct (Nat.leb_spec (qi * k) j), (Nat.ltb_spec j (qi * k + n)), (Nat.ltb_spec j (qi * k + (n + 1))); try lia; reflexivity]).
  - cbn [fst snd] in *. exists I', D'. split; [exact E|]. split; [assumption|].
    assert (OUT : forall q, q < Q -> q <> qi -> q * k + k <= Q * k /\ forall i, i < k -> (qi * k <=? q * k + i) && (q * k + i <? qi * k + k) = false).
    { intros q H1 H2. split; [nia|]. intros i Hi. destruct (Nat.leb_spec (qi * k) (q * k + i)), (Nat.ltb_spec (q * k + i) (qi * k + k)); try reflexivity. nia. }
    assert (INN : forall i, i < k -> (qi * k <=? qi * k + i) && (qi * k + i <? qi * k + k) = true).
    { intros i Hi. destruct (Nat.leb_spec (qi * k) (qi * k + i)), (Nat.ltb_spec (qi * k + i) (qi * k + k)); try reflexivity; lia. }
    split; [intros ds' ->; destruct D; [apply A3|contradiction]|]. split; [|split; [|split]].
    + apply (nth_ext _ _ 0%Z (nb_index d mod 2 ^ 32)%Z); [rewrite part_length, map_length by lia; lia|]. intros i Hi. rewrite part_length in Hi by lia. rewrite part_nth, A2, INN by assumption.
      rewrite (map_nth (fun v => (nb_index v mod 2 ^ 32)%Z)). do 3 f_equal. lia.
    + intros q H1 H2. destruct (OUT q H1 H2) as (O1 & O2). apply (part_ext 0%Z); [lia|lia|]. intros i Hi. rewrite A2, O2 by assumption. reflexivity.
    + destruct D, D'; try contradiction; split; congruence.
    + intros ds ds' -> ->. destruct A3 as (C1 & C2). split.
      * apply (nth_ext _ _ None (nb_dist d)); [rewrite part_length, map_length by lia; lia|]. intros i Hi. rewrite part_length in Hi by lia. rewrite part_nth, C2, INN by assumption.
        rewrite (map_nth nb_dist). do 2 f_equal. lia.
      * intros q H1 H2. destruct (OUT q H1 H2) as (O1 & O2). apply (part_ext None); [rewrite C1; symmetry; apply LD; reflexivity|lia|]. intros i Hi. rewrite C2, O2 by assumption. reflexivity.
Qed.

Section Batch.
Variables (F : forest) (met : metric) (maxcmp k Q T : nat) (queries : list Z).
Hypothesis HL : length (fo_data F) = fo_num F * fo_dim F.
Hypothesis Hne : fo_trees F <> [].
Hypothesis HT : Forall (tree_ok F) (fo_trees F).
Hypothesis HC : fo_max_nodes F = fold_right (fun t m => t_used t + m) 0 (fo_trees F).
Hypothesis HN : (Z.of_nat (fo_num F) < 2 ^ 32)%Z.
Hypothesis Hk : 0 < k.
Hypothesis HQ : length queries = Q * fo_dim F.

Definition ok_thread (t : thread) : Prop := searcher_inv F (th_searcher t) /\ length (th_neighbors t) = k.
Definition ncomp (ts : list thread) : nat := fold_right (fun t m => th_count t + m) 0 ts.
Definition dpart (q : nat) (D : option (list (option Z))) : option (list (option Z)) := match D with None => None | Some ds => Some (part k q ds) end.
Definition good (I : list Z) (D : option (list (option Z))) (q n : nat) : Prop :=
  answers (fo_data F) (fo_dim F) (fo_num F) met maxcmp k (part (fo_dim F) q queries) (part k q I) (dpart q D) n.

Lemma ncomp_add : forall ts t th s nb n, nth_error ts t = Some th -> ncomp (upd ts t (mk_thread s nb (th_count th + n))) = ncomp ts + n.
Proof. induction ts as [|x ts IH]; intros [|t] th s nb n E; cbn in *; try discriminate; [injection E as ->; lia|]. specialize (IH t th s nb n E). unfold ncomp in IH. lia. Qed.

Lemma step_ok ts I D t q : Forall ok_thread ts -> t < length ts -> q < Q -> length I = Q * k -> (forall ds, D = Some ds -> length ds = Q * k) ->
  exists ts' I' D' n, batch_step F met maxcmp k queries (ts, (I, D)) (t, q) = Some (ts', (I', D')) /\ Forall ok_thread ts' /\ length ts' = length ts /\
    length I' = Q * k /\ (forall ds, D' = Some ds -> length ds = Q * k) /\ (D = None <-> D' = None) /\ ncomp ts' = ncomp ts + n /\ good I' D' q n /\
    (forall p, p < Q -> p <> q -> part k p I' = part k p I /\ dpart p D' = dpart p D).
Proof.
  intros FT Lt Lq LI LD. unfold batch_step. destruct (nth_error ts t) as [th|] eqn:Et; [|apply nth_error_None in Et; lia].
  unfold aget at 1. rewrite Et. cbn [obind]. assert (OT : ok_thread th) by (rewrite Forall_forall in FT; apply FT; eapply nth_error_In; exact Et).
  destruct OT as ((B1 & B2 & B3) & LNB). unfold query_of. destruct (Nat.leb_spec (q * fo_dim F + fo_dim F) (length queries)) as [HX|HX]; [|nia]. cbn [obind].
  fold (part (fo_dim F) q queries). unfold run_query. cbn [c_max c_k c_query c_out].
  destruct (searcher_query_ok F met maxcmp k (part (fo_dim F) q queries) HL (part_length _ _ _ HX) Hk HT HC (se_book (th_searcher th)) (se_id (th_searcher th)) (se_heap (th_searcher th)) (th_neighbors th))
    as (book' & harr' & out & ncmp & E & L1 & M1 & H1 & A1); auto.
  rewrite E. cbn [obind]. destruct A1 as (comp & found & X1 & X2 & X3 & X4 & (R1 & R2 & R3) & X5 & X6 & X7).
  assert (LO : length out = k) by (rewrite R1, app_length, map_length, repeat_length; lia).
  destruct (write_out_ok k q out I D Q LO Lq LI LD) as (I' & D' & EW & LI' & LD' & PI & OI & DN & PD). rewrite EW. cbn [obind]. rewrite aset_lt by assumption. cbn [obind].
  do 3 eexists. exists ncmp. split; [reflexivity|]. split; [|split; [|split; [|split; [|split; [|split; [|split]]]]]]; try assumption.
  - apply Forall_forall. intros x Ix. apply In_nth_error in Ix as (j & Ej). destruct (Nat.eq_dec j t) as [->|NE].
    + rewrite nth_error_upd_eq in Ej by assumption. injection Ej as <-. split; [|exact LO]. cbn [th_searcher]. repeat split; assumption.
    + rewrite nth_error_upd_neq in Ej by congruence. rewrite Forall_forall in FT. apply FT. eapply nth_error_In. exact Ej.
  - now rewrite upd_length.
  - apply ncomp_add. exact Et.
  - unfold good. exists comp, found. repeat (split; [assumption|]). split; [|split].
    + intros Z1 Z2. destruct (X7 Z1 Z2). auto.
    + rewrite PI, R1, map_app, map_map, map_repeat. cbn [nb_index]. change ((2 ^ 64 - 1) mod 2 ^ 32)%Z with (2 ^ 32 - 1)%Z. apply (f_equal (fun l => l ++ _)). apply map_ext_in. intros a Ia. cbn [nb_index]. apply Z.mod_small. destruct X6 as (X6 & _). apply X6, X2, in_seq in Ia. lia.
    + intros ds Ed. destruct D' as [ds'|]; [|discriminate]. cbn [dpart] in Ed. injection Ed as <-. destruct D as [ds0|]; [|destruct DN as [DN _]; specialize (DN eq_refl); discriminate].
      destruct (PD ds0 ds' eq_refl eq_refl) as (-> & _). rewrite R1, map_app, map_map, map_repeat. reflexivity.
  - intros p H2 H3. split; [apply OI; assumption|]. destruct D as [ds|], D' as [ds'|]; cbn [dpart]; try reflexivity; [|destruct DN as [_ DN]; specialize (DN eq_refl); discriminate|destruct DN as [DN _]; specialize (DN eq_refl); discriminate].
    destruct (PD ds ds' eq_refl eq_refl) as (_ & ->); auto.
Qed.

Lemma run_ok : forall es ts I D, Forall ok_thread ts -> Forall (fun e => fst e < length ts /\ snd e < Q) es -> NoDup (map snd es) -> length I = Q * k -> (forall ds, D = Some ds -> length ds = Q * k) ->
  exists ts' I' D' cnt, batch_run F met maxcmp k queries (ts, (I, D)) es = Some (ts', (I', D')) /\
    length I' = Q * k /\ (forall ds, D' = Some ds -> length ds = Q * k) /\ (D = None <-> D' = None) /\
    ncomp ts' = ncomp ts + fold_right (fun q m => cnt q + m) 0 (map snd es) /\ (forall q, In q (map snd es) -> good I' D' q (cnt q)) /\
    (forall p, p < Q -> ~ In p (map snd es) -> part k p I' = part k p I /\ dpart p D' = dpart p D).
Proof.
  induction es as [|[t q] es IH]; intros ts I D FT FE ND LI LD; cbn [batch_run map snd fold_right].
  - exists ts, I, D, (fun _ => 0). split; [reflexivity|]. split; [assumption|]. split; [assumption|]. split; [tauto|]. split; [lia|]. split; [intros q []|]. auto.
  - inversion FE as [|? ? (H1 & H2) FE']; subst. cbn [fst snd] in *. cbn [map snd] in ND. inversion ND as [|? ? NI ND']; subst.
    destruct (step_ok ts I D t q FT H1 H2 LI LD) as (ts1 & I1 & D1 & n & E1 & FT1 & LT1 & LI1 & LD1 & DN1 & NC1 & G1 & O1). rewrite E1. cbn [obind].
    destruct (IH ts1 I1 D1 FT1) as (ts2 & I2 & D2 & cnt & E2 & LI2 & LD2 & DN2 & NC2 & G2 & O2); [rewrite LT1; assumption|assumption|assumption|assumption|].
    exists ts2, I2, D2, (fun p => if p =? q then n else cnt p). split; [exact E2|]. split; [assumption|]. split; [assumption|]. split; [tauto|].
    split; [|split].
    + rewrite NC2, NC1, Nat.eqb_refl. rewrite <- Nat.add_assoc. do 2 f_equal. clear - NI. induction (map snd es) as [|p l IH]; [reflexivity|]. cbn [fold_right].
      destruct (Nat.eqb_spec p q) as [->|NE]; [destruct NI; now left|]. rewrite IH; [reflexivity|]. intro H. apply NI. now right.
    + intros p Ip. destruct (Nat.eqb_spec p q) as [->|NE].
      * destruct (O2 q H2 NI) as (X & Y). unfold good in *. rewrite X, Y. exact G1.
      * destruct Ip as [Ip|Ip]; [congruence|]. apply G2. exact Ip.
    + intros p Hp NP. destruct (O2 p Hp) as (X & Y); [intro H; apply NP; now right|]. destruct (O1 p Hp) as (X' & Y'); [intro H; apply NP; now left|]. rewrite X, Y. auto.
Qed.

Lemma batch_ok junk es I D : Forall (fun e => fst e < T) es -> Permutation (map snd es) (seq 0 Q) -> length I = Q * k -> (forall ds, D = Some ds -> length ds = Q * k) ->
  exists I' D' cnt, query_with_array F met maxcmp k T junk es queries (I, D) = Some (I', D', fold_right (fun q m => cnt q + m) 0 (seq 0 Q)) /\
    length I' = Q * k /\ (forall ds, D' = Some ds -> length ds = Q * k) /\ (D = None <-> D' = None) /\ (forall q, q < Q -> good I' D' q (cnt q)).
Proof.
  intros FT P LI LD. destruct (run_ok es (repeat (new_thread F k junk) T) I D) as (ts & I' & D' & cnt & E & L1 & L2 & DN & NC & G & _); auto.
  - apply Forall_forall. intros x Ix. apply repeat_spec in Ix. subst x. split; [apply new_buffers_inv|apply repeat_length].
  - rewrite repeat_length. apply Forall_forall. intros e Ie. split; [rewrite Forall_forall in FT; now apply FT|].
    assert (In (snd e) (seq 0 Q)) by (eapply Permutation_in; [exact P|apply in_map; exact Ie]). apply in_seq in H. lia.
  - eapply Permutation_NoDup; [symmetry; exact P|apply seq_NoDup].
  - exists I', D', cnt. unfold query_with_array. rewrite E. cbn [obind]. change (fold_right (fun t m => th_count t + m) 0 ts) with (ncomp ts). rewrite NC.
    assert (Z0 : ncomp (repeat (new_thread F k junk) T) = 0) by (clear; induction T as [|n IH]; [reflexivity|cbn; exact IH]). rewrite Z0.
    assert (S1 : fold_right (fun q m => cnt q + m) 0 (map snd es) = fold_right (fun q m => cnt q + m) 0 (seq 0 Q)).
    { clear - P. induction P; cbn; lia. }
    rewrite S1. split; [reflexivity|]. split; [assumption|]. split; [assumption|]. split; [assumption|]. intros q Lq. apply G. eapply Permutation_in; [symmetry; exact P|]. apply in_seq. lia.
Qed.
End Batch.
