From Coq Require Import List Arith ZArith Lia Bool QArith Qcanon Lqa Permutation.
From Verif Require Import Base Loop MserSort_Proofs ImOp_Spec ImOp_Proofs Rat Gauss_Model Gauss_Proofs Homker_Proofs Vlad_Proofs Kmeans_Spec Kmeans_Model Kmeans_Proofs Aib_Model Aib_Spec Aib_Proofs AibMerge_Proofs AibRun_Proofs.
Import ListNotations.
Local Open Scope nat_scope.
Notation qsum n f := (sum 0%Qc Qcplus n f).

Lemma sum_loop (P : list Qc) (ix : nat -> nat) n : (forall i, i < n -> ix i < length P) ->
  iter n (fun i s => do v <- aget P (ix i); Some (s + v)%Qc) 0%Qc = Some (qsum n (fun i => nth (ix i) P 0%Qc)).
Proof.
  intro H. destruct (iter_inv (fun k t => t = qsum k (fun i => nth (ix i) P 0%Qc)) (fun i s => do v <- aget P (ix i); Some (s + v)%Qc) n 0%Qc) as (t & E & ->); [reflexivity| |exact E].
  intros k t Lk ->. rewrite (aget_nth P _ 0%Qc) by auto. cbn [obind]. eexists; split; [reflexivity|]. rewrite Nat.add_1_r. reflexivity.
Qed.

Lemma normalize_ok P n : length P = n ->
  exists Q, normalize P n = Some Q /\ length Q = n /\ forall i, i < n -> nth i Q 0%Qc = (nth i P 0 / qsum n (fun i => nth i P 0))%Qc.
Proof.
  intro L. unfold normalize. rewrite (sum_loop P (fun i => i) n) by lia. cbn [obind]. set (S := qsum n _).
  set (body := fun i P => _).
  destruct (iter_inv (fun k Q => length Q = n /\ (forall i, i < n -> nth i Q 0%Qc = if i <? k then (nth i P 0 / S)%Qc else nth i P 0%Qc)) body n P) as (Q & E & LQ & H).
  - split; [exact L|]. reflexivity.
  - intros k Q Lk [LQ H]. unfold body. rewrite (aget_nth Q k 0%Qc) by lia. cbn [obind]. rewrite aset_lt by lia.
    eexists; split; [reflexivity|]. rewrite upd_length. split; [exact LQ|]. intros i Li. rewrite nth_upd by lia.
    destruct (Nat.eqb_spec i k) as [->|Ne].
    + rewrite H by lia. destruct (Nat.ltb_spec k k); [lia|]. destruct (Nat.ltb_spec k (k + 1)); [reflexivity|lia].
    + rewrite H by lia. destruct (Nat.ltb_spec i k), (Nat.ltb_spec i (k + 1)); try lia; reflexivity.
  - exists Q. split; [exact E|]. split; [exact LQ|]. intros i Li. rewrite H by auto. destruct (Nat.ltb_spec i n); [reflexivity|lia].
Qed.

Lemma table_loop n (g : nat -> Qc) (body : nat -> list Qc -> option (list Qc)) :
  (forall k out, k < n -> body k out = Some (out ++ [g k])) -> iter n body [] = Some (map g (seq 0 n)).
Proof.
  intro H. destruct (iter_inv (fun k out => out = map g (seq 0 k)) body n []) as (out & E & ->); [reflexivity| |exact E].
  intros k out Lk ->. rewrite H by auto. eexists; split; [reflexivity|]. rewrite Nat.add_1_r, seq_S, map_app. reflexivity.
Qed.
Lemma new_px_ok N nl P : length P = N * nl -> new_px N nl P = Some (map (fun r => qsum nl (fun c => nth (r * nl + c) P 0%Qc)) (seq 0 N)).
Proof.
  intro L. unfold new_px. apply table_loop. intros k out Lk. rewrite (sum_loop P (fun c => k * nl + c)) by (intros; nia). reflexivity.
Qed.
Lemma new_pc_ok N nl P : length P = N * nl -> new_pc N nl P = Some (map (fun c => qsum N (fun r => nth (r * nl + c) P 0%Qc)) (seq 0 nl)).
Proof.
  intro L. unfold new_pc. apply table_loop. intros k out Lk. rewrite (sum_loop P (fun r => r * nl + k)) by (intros; nia). reflexivity.
Qed.

Lemma nth_map_seq {A} (g : nat -> A) n k d : k < n -> nth k (map g (seq 0 n)) d = g k.
Proof. intro L. rewrite (nth_indep _ d (g 0)) by (rewrite map_length, seq_length; lia). rewrite map_nth, seq_nth by lia. reflexivity. Qed.

(** total mass over the entries after a merge *)
Lemma merged_sum (f f' : nat -> Qc) i j last : i < j -> j <= last ->
  f' i = (f i + f j)%Qc -> (forall e, e < last -> e <> i -> f' e = f (old j last e)) -> qsum last f' = qsum (last + 1) f.
Proof.
  intros Lij Lj Hi Ho.
  rewrite (qsum_ext last f' (fun e => (f e + ((if e =? i then f j else 0) + (if e =? j then f last - f j else 0)))%Qc)).
  2:{ intros e Le. destruct (Nat.eqb_spec e i) as [->|Ne].
      - rewrite Hi. destruct (Nat.eqb_spec i j); [lia|]. ring.
      - rewrite Ho by auto. unfold old. destruct (Nat.eqb_spec e j) as [->|Nj]; ring. }
  rewrite !qsum_add, (qsum_single 0 0 (le_n 0) i) by lia. rewrite Nat.add_1_r. cbn [sum]. destruct (Nat.eq_dec j last) as [->|Nl].
  - rewrite (qsum_ext last (fun e => if e =? last then (f last - f last)%Qc else 0%Qc) (fun _ => 0%Qc)).
    + rewrite (sum_zero _ _ _ _ _ _ Qcrt). ring.
    + intros e Le. destruct (Nat.eqb_spec e last); [lia|reflexivity].
  - rewrite (qsum_single 0 0 (le_n 0) j) by lia. ring.
Qed.
