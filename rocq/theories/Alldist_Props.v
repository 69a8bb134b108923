(** Properties C311 and C312: the matrix of comparisons and the metrics of vl_alldist. *)
From Coq Require Import List NArith ZArith Arith Bool Lia String Ascii.
Import ListNotations.
From Verif Require Import Base Str_Model Str_Spec MexUtil_Model MexUtil_Spec MexUtil_Proofs MexUtil_Props ImOp_Spec Vec_Model Vec_Props Alldist_Model Alldist_Spec.
Local Open Scope nat_scope.

Lemma table_good : good_table metric_table.
Proof.
  exists (removelast metric_table), (mk_moption None false 0). split; [reflexivity|]. split; [reflexivity|].
  apply Forall_forall. intros o H. cbn in H.
  repeat (destruct H as [<-|H];
    [split; [cbn; lia|]; match goal with |- context [mk_moption (Some ?l)] => exists (removelast l) end; (split; [reflexivity|repeat constructor; discriminate])|]).
  destruct H.
Qed.
Lemma lower_byte c k : lower c = lower k -> (k < 128)%N -> (c < 128)%N.
Proof.
  unfold lower. intros E K. destruct (_ && _) eqn:A in E; destruct (_ && _) eqn:B in E; rewrite ?andb_true_iff, ?andb_false_iff, ?N.leb_le, ?N.leb_gt in *; lia.
Qed.
Lemma spells_bytes a s : spells a s -> Forall (fun k => 0 < k < 128)%N (codes s) -> map (fun c => (c mod 256)%N) (a_chars a) = a_chars a /\ plain_text a.
Proof.
  intros (_ & _ & E) F. unfold plain_text. revert E. generalize (a_chars a). induction F as [|k l K F IH]; intros [|c cs] E; cbn in E; try discriminate; [split; constructor|].
  injection E as E0 E1. destruct (IH cs E1) as (I1 & I2). pose proof (lower_byte c k E0 ltac:(lia)).
  assert (c <> 0%N). { intros ->. unfold lower in E0. destruct (_ && _) eqn:A in E0; destruct (_ && _) eqn:B in E0; rewrite ?andb_true_iff, ?andb_false_iff, ?N.leb_le, ?N.leb_gt in *; lia. }
  cbn. rewrite I1, N.mod_small by lia. split; [reflexivity|]. constructor; [rewrite N.mod_small by lia; assumption|assumption].
Qed.
Lemma spells_string a s : spells a s -> String.length s <= 1023 -> is_string a (-1) = true /\ List.length (a_chars a) <= 1023.
Proof.
  intros (C & D & E) L. split.
  - apply C274_string. split; [assumption|]. exists 1, (List.length (a_chars a)). split; [assumption|]. split; [now left|]. left. lia.
  - apply (f_equal (@List.length N)) in E. rewrite !map_length in E. rewrite E. clear -L. revert L.
    assert (X : forall s, List.length (codes s) = String.length s) by (induction s0; cbn; congruence). now rewrite X.
Qed.
Lemma spells_entry a s before o after : spells a s -> Forall (fun k => 0 < k < 128)%N (codes s) -> String.length s <= 1023 ->
  metric_table = before ++ o :: after -> (exists n, o_name o = Some (n ++ [0%N]) /\ map lower n = map lower (codes s)) ->
  (forall o' n, In o' before -> o_name o' = Some (n ++ [0%N]) -> map lower n <> map lower (codes s)) -> entry metric_table a o.
Proof.
  intros S F L T (n & N1 & N2) B. destruct (spells_bytes a s S F) as (M & _). destruct (spells_string a s S L) as (S1 & S2). pose proof S as (_ & _ & E).
  exists before, after. split; [assumption|]. split.
  - split; [assumption|]. split; [assumption|]. exists n. split; [assumption|]. rewrite M. congruence.
  - intros o' I (_ & _ & n' & N1' & N2'). apply (B o' n' I N1'). rewrite M in N2'. congruence.
Qed.
Ltac by_entry k :=
  eapply (spells_entry _ _ (firstn k metric_table) _ (skipn (S k) metric_table)); [eassumption|repeat constructor|cbn; lia|reflexivity| |];
  [match goal with |- exists n, o_name (mk_moption (Some ?l) _ _) = _ /\ _ => exists (removelast l); split; reflexivity end
  |let o := fresh in let n := fresh in let I := fresh in let Q := fresh in let R := fresh in
   intros o n I Q R; cbn in I;
   repeat (destruct I as [<-|I]; [cbn in Q; injection Q as Q; apply (f_equal (@removelast N)) in Q; rewrite removelast_last in Q; cbn in Q; subst n; vm_compute in R; discriminate|]);
   destruct I].
Lemma metric_entry a t : spells_metric a t -> exists o, entry metric_table a o /\ o_has_arg o = false /\ metric_case (o_val o) = Some t.
Proof.
  intros (s & I & S). cbn in I.
  destruct I as [I|[I|[I|[I|[I|[I|[I|[I|[I|[I|[]]]]]]]]]]]; injection I as <- <-; eexists.
  - split; [by_entry 1|split; reflexivity].
  - split; [by_entry 2|split; reflexivity].
  - split; [by_entry 4|split; reflexivity].
  - split; [by_entry 5|split; reflexivity].
  - split; [by_entry 6|split; reflexivity].
  - split; [by_entry 7|split; reflexivity].
  - split; [by_entry 8|split; reflexivity].
  - split; [by_entry 9|split; reflexivity].
  - split; [by_entry 10|split; reflexivity].
  - split; [by_entry 11|split; reflexivity].
Qed.
Lemma metric_plain a t : spells_metric a t -> plain_text a.
Proof.
  intros (s & I & S). apply (spells_bytes a s S). cbn in I.
  destruct I as [I|[I|[I|[I|[I|[I|[I|[I|[I|[I|[]]]]]]]]]]]; injection I as <- <-; repeat constructor.
Qed.
Lemma metric_opts args ts : Forall2 spells_metric args ts -> exists l, options_of metric_table args l /\ forall t0, metric_loop l t0 = Some (last ts t0).
Proof.
  induction 1 as [|a t args ts H F (l & O & M)]; [exists []; split; [constructor|reflexivity]|].
  destruct (metric_entry a t H) as (o & E & NA & MC). exists ((o_val o, None) :: l). split; [now constructor|].
  intro t0. cbn [metric_loop]. rewrite MC. cbn [obind]. rewrite M. destruct ts as [|t1 ts]; [reflexivity|].
  f_equal. clear. revert t1. induction ts as [|t2 ts IH]; intro t1; [reflexivity|]. cbn in *. destruct ts; [reflexivity|]. apply (IH t2).
Qed.
(** C311: the metric is the one spelled last, the squared distance without any *)
Lemma metric_last head opts ts : Forall plain_text head -> Forall2 spells_metric opts ts ->
  metric (head ++ opts) (List.length head) = Some (Some (last ts DistanceL2)).
Proof.
  intros HP F. destruct (metric_opts opts ts F) as (l & O & M).
  assert (PT : Forall plain_text (head ++ opts)).
  { apply Forall_app. split; [assumption|]. clear -F. induction F; constructor; [eapply metric_plain; eassumption|assumption]. }
  destruct (C275_options (head ++ opts) metric_table (List.length head) (List.length (head ++ opts) + 1) table_good PT ltac:(rewrite app_length; lia) ltac:(lia)) as (r & E & H).
  unfold metric. rewrite E. cbn [obind]. rewrite skipn_app, skipn_all, Nat.sub_diag in H. cbn [app skipn] in H. destruct r as [l'|].
  - destruct H as (_ & U). rewrite <- (U l O). rewrite M. reflexivity.
  - exfalso. exact (H l O).
Qed.
Lemma real_matrix_ok c d n a v : real_matrix c d n a -> is_matrix (Some v) a (-1) (-1) = Some true /\ is_real a = true /\ get_M a = d /\ get_N a = n.
Proof.
  intros (C & AC & X & S & D & L1 & L2 & L3).
  assert (GM : get_M a = d) by (unfold get_M; now rewrite D). assert (GN : get_N a = n) by (unfold get_N; rewrite D; cbn; lia).
  assert (SM : small_array a).
  { split; [rewrite D; cbn; lia|]. split; [unfold numel; rewrite D; cbn [prod fold_right]; lia|]. split; [rewrite D; repeat constructor; assumption|]. rewrite GN. assumption. }
  split; [|split; [|split; assumption]].
  - destruct (C272_matrix v a (-1) (-1) SM ltac:(lia) ltac:(lia)) as (b & -> & B & _). f_equal. apply B. split; [assumption|]. split; [left; lia|]. split; [left; lia|]. left.
    intros i k Hi Hk. rewrite D in Hk. destruct i as [|[|i]]; [lia|lia|]. destruct i; discriminate.
  - unfold is_real. rewrite AC, X. now destruct C as [-> | ->].
Qed.
Lemma spells_not_real a s : spells a s -> is_real a = false.
Proof. intros (C & _). unfold is_real. now rewrite C. Qed.
Lemma float_class c d n a : real_matrix c d n a -> negb (class_eqb c Single) && negb (class_eqb c MexUtil_Model.Double) = false.
Proof. now intros ([-> | ->] & _). Qed.

(** C311: with two matrices, entry (i, j) is the comparison of column i of X and column j of Y, of the class of X *)
Theorem C311_pairs : forall A (zero : A) fn past c d n m x y opts ts (X Y : list A) (v : nat -> nat -> A),
  real_matrix c d n x -> real_matrix c d m y -> a_chars x = [] -> a_chars y = [] -> Forall2 spells_metric opts ts ->
  (0 < d -> forall i j, i < n -> j < m -> fn c (last ts DistanceL2) d (skipn (i * d) X) (skipn (j * d) Y) = Some (v i j)) ->
  exists D, alldist zero fn (Some past) 1 (x :: y :: opts) X Y = Some (Some (mk_output c [n; m] D)) /\
    entries n m (fun i j => if d =? 0 then zero else v i j) D.
Proof.
  intros A zero fn past c d n m x y opts ts X Y v RX RY CX CY F V.
  destruct (real_matrix_ok c d n x past RX) as (X1 & X2 & X3 & X4). destruct (real_matrix_ok c d m y past RY) as (Y1 & Y2 & Y3 & Y4).
  assert (ACX : a_class x = c) by apply RX. assert (ACY : a_class y = c) by apply RY.
  unfold alldist. cbn [Nat.ltb Nat.leb]. rewrite X1. cbn [obind]. rewrite X2. cbn [andb negb]. rewrite Y1. cbn [obind]. rewrite Y2. cbn [andb]. rewrite ACX, ACY, X3, Y3, X4, Y4.
  replace (class_eqb c c) with true by (now destruct c). rewrite Nat.eqb_refl. cbn [negb]. unfold run. rewrite (float_class c d n x RX).
  change (x :: y :: opts) with ([x; y] ++ opts). change 2 with (List.length [x; y]) at 1.
  rewrite (metric_last [x; y] opts ts); [|repeat constructor; unfold plain_text; rewrite ?CX, ?CY; constructor|assumption]. cbn [obind].
  destruct (Nat.eqb_spec n 0) as [->|N0]; [exists []; split; [reflexivity|]; split; [reflexivity|]; intros; lia|].
  destruct (Nat.eqb_spec m 0) as [->|M0]; [exists []; cbn [orb]; split; [now rewrite Nat.mul_0_r|]; split; [cbn; lia|]; intros; lia|]. cbn [orb].
  destruct (Nat.eqb_spec d 0) as [->|D0].
  - exists (repeat zero (n * m)). split; [reflexivity|]. split; [now rewrite repeat_length|]. intros i j Hi Hj. rewrite nth_error_repeat; [reflexivity|nia].
  - destruct (C40_all_pairs A (fn c (last ts DistanceL2)) v d X n Y m (repeat zero (n * m)) ltac:(lia)) as (R & E & (L & G & _)).
    + now rewrite repeat_length.
    + intros i j Hi Hj. apply V; lia.
    + rewrite E. cbn [obind]. exists R. split; [reflexivity|]. rewrite repeat_length in L. split; [assumption|]. intros i j Hi Hj. rewrite (Nat.mul_comm n j). now apply G.
Qed.
(** C311: with one matrix, of its columns with themselves *)
Theorem C311_self : forall A (zero : A) fn past c d n x opts ts (X Y : list A) (v : nat -> nat -> A),
  real_matrix c d n x -> a_chars x = [] -> Forall2 spells_metric opts ts ->
  (0 < d -> forall i j, i < n -> j < n -> fn c (last ts DistanceL2) d (skipn (i * d) X) (skipn (j * d) X) = Some (v i j)) ->
  (forall i j, i < n -> j < n -> v i j = v j i) ->
  Forall (fun a => (Z.of_nat (List.length (a_chars a)) < 4294967296)%Z /\ a_sparse a = false) opts ->
  exists D, alldist zero fn (Some past) 1 (x :: opts) X Y = Some (Some (mk_output c [n; n] D)) /\
    entries n n (fun i j => if d =? 0 then zero else v i j) D.
Proof.
  intros A zero fn past c d n x opts ts X Y v RX CX F V Sym SZ.
  destruct (real_matrix_ok c d n x past RX) as (X1 & X2 & X3 & X4). assert (ACX : a_class x = c) by apply RX.
  assert (R0 : alldist zero fn (Some past) 1 (x :: opts) X Y = run zero fn (x :: opts) 1 c d n X None).
  { unfold alldist. cbn [Nat.ltb Nat.leb]. rewrite X1. cbn [obind]. rewrite X2. cbn [andb negb]. rewrite ACX, X3, X4. destruct F as [|y t opts ts (s & I & S) F]; [reflexivity|].
    inversion SZ as [|? ? (L & SP) _]; subst. pose proof S as (_ & DM & _).
    assert (SM : small_array y).
    { unfold small_array, numel, get_N. rewrite DM. cbn [List.length prod fold_right tl]. repeat split; try lia. repeat constructor; lia. }
    destruct (is_matrix_ok past y (-1) (-1) SM ltac:(lia) ltac:(lia)) as (b & -> & _). cbn [obind]. rewrite (spells_not_real y s S), andb_false_r. reflexivity. }
  rewrite R0. unfold run. rewrite (float_class c d n x RX). change (x :: opts) with ([x] ++ opts). change 1 with (List.length [x]) at 1.
  rewrite (metric_last [x] opts ts); [|repeat constructor; unfold plain_text; rewrite ?CX; constructor|assumption]. cbn [obind]. rewrite orb_false_r.
  destruct (Nat.eqb_spec n 0) as [->|N0]; [exists []; split; [reflexivity|]; split; [reflexivity|]; intros; lia|].
  destruct (Nat.eqb_spec d 0) as [->|D0].
  - exists (repeat zero (n * n)). split; [reflexivity|]. split; [now rewrite repeat_length|]. intros i j Hi Hj. rewrite nth_error_repeat; [reflexivity|nia].
  - destruct (C40_self_pairs A (fn c (last ts DistanceL2)) v d X n 0 (repeat zero (n * n)) ltac:(lia)) as (R & E & (L & G & _)).
    + now rewrite repeat_length.
    + intros i j Hi Hj. apply V; lia.
    + assumption.
    + rewrite E. cbn [obind]. exists R. split; [reflexivity|]. rewrite repeat_length in L. split; [assumption|]. intros i j Hi Hj. rewrite (Nat.mul_comm n j). now apply G.
Qed.
(** C311: matrices of different classes or heights are refused, whatever follows *)
Theorem C311_refused : forall A (zero : A) fn past c c' d d' n m x y opts (X Y : list A),
  real_matrix c d n x -> real_matrix c' d' m y -> c <> c' \/ d <> d' -> alldist zero fn (Some past) 1 (x :: y :: opts) X Y = Some None.
Proof.
  intros A zero fn past c c' d d' n m x y opts X Y RX RY N.
  destruct (real_matrix_ok c d n x past RX) as (X1 & X2 & X3 & X4). destruct (real_matrix_ok c' d' m y past RY) as (Y1 & Y2 & Y3 & Y4).
  assert (ACX : a_class x = c) by apply RX. assert (ACY : a_class y = c') by apply RY.
  unfold alldist. cbn [Nat.ltb Nat.leb]. rewrite X1. cbn [obind]. rewrite X2. cbn [andb negb]. rewrite Y1. cbn [obind]. rewrite Y2. cbn [andb]. rewrite ACX, ACY, X3, Y3.
  destruct (class_eqb c' c) eqn:E; cbn [negb]; [|reflexivity]. destruct (Nat.eqb_spec d d'); [|reflexivity].
  destruct N as [N|N]; [|contradiction]. exfalso. apply N. destruct c, c'; try discriminate; reflexivity.
Qed.
Print Assumptions C311_pairs.
Print Assumptions C311_self.
Print Assumptions C311_refused.
Definition word (s : string) : marray := mk_marray Char false false [1; String.length s] (codes s).
Definition matrix2 (d n : nat) : marray := mk_marray Single false false [d; n] [].
(* a comparison to follow: the first coordinates, subtracted for L1 and multiplied for the kernel L2 *)
Definition toy (c : mclass) (t : comparison) (d : nat) (X Y : list Z) : option Z :=
  do a <- aget X 0; do b <- aget Y 0; match t with DistanceL1 => Some (Z.abs (a - b)) | KernelL2 => Some (a * b)%Z | _ => None end.
Example C311_ex : real_matrix Single 2 3 (matrix2 2 3) /\ spells_metric (word "kL2") KernelL2 /\
  alldist 0%Z toy (Some 7) 1 [matrix2 2 3; matrix2 2 1; word "l1"; word "kL2"] [1; 0; 2; 0; 3; 0]%Z [5; 0]%Z = Some (Some (mk_output Single [3; 1] [5; 10; 15]%Z)) /\
  alldist 0%Z toy (Some 7) 1 [matrix2 2 2; word "L1"] [1; 0; 4; 0]%Z [] = Some (Some (mk_output Single [2; 2] [0; 3; 3; 0]%Z)).
Proof.
  split; [unfold real_matrix; cbn; repeat split; auto|]. split; [exists "KL2"%string; split; [cbn; tauto|repeat split]|]. split; reflexivity.
Qed.

(** C312: the documented metrics LINF and L0, which are in the table, end the process *)
Theorem C312_metrics_refuted : forall A (zero : A) fn past c d n x s (X Y : list A),
  real_matrix c d n x -> In s ["LINF"; "L0"; "linf"; "l0"]%string ->
  alldist zero fn (Some past) 1 [x; word s] X Y = None /\
  exists o, lookup metric_table (codes s ++ [0%N]) = Some (Some o).
Proof.
  intros A zero fn past c d n x s X Y RX I. destruct (real_matrix_ok c d n x past RX) as (X1 & X2 & X3 & X4). assert (ACX : a_class x = c) by apply RX.
  split.
  - unfold alldist. cbn [Nat.ltb Nat.leb]. rewrite X1. cbn [obind]. rewrite X2. cbn [andb negb].
    assert (SM : small_array (word s)).
    { destruct I as [<-|[<-|[<-|[<-|[]]]]]; unfold small_array, numel, get_N; cbn; repeat split; try lia; repeat constructor. }
    destruct (is_matrix_ok past (word s) (-1) (-1) SM ltac:(lia) ltac:(lia)) as (b & -> & _). cbn [obind]. change (is_real (word s)) with false. rewrite andb_false_r, ACX.
    unfold run. rewrite (float_class c d n x RX). unfold metric.
    assert (E : exists o, metric_loop [o] DistanceL2 = None /\ all_options (List.length [x; word s] + 1) [x; word s] metric_table 1 = Some (Some [o])).
    { destruct I as [<-|[<-|[<-|[<-|[]]]]]; eexists; (split; [|reflexivity]); reflexivity. }
    destruct E as (o & E1 & ->). cbn [obind]. rewrite E1. reflexivity.
  - destruct I as [<-|[<-|[<-|[<-|[]]]]]; eexists; reflexivity.
Qed.
(** C312: any other name is refused with an error *)
Theorem C312_unknown : forall head a rest, Forall plain_text (head ++ a :: rest) -> 
  (forall s, In s ("LINF" :: "L0" :: map fst metrics)%string -> map lower (map (fun c => (c mod 256)%N) (a_chars a)) <> map lower (codes s)) ->
  metric (head ++ a :: rest) (List.length head) = Some None.
Proof.
  intros head a rest PT N.
  destruct (C275_options (head ++ a :: rest) metric_table (List.length head) (List.length (head ++ a :: rest) + 1) table_good PT ltac:(rewrite app_length; lia) ltac:(lia)) as (r & E & H).
  unfold metric. rewrite E. cbn [obind]. destruct r as [l|]; [|reflexivity]. exfalso. destruct H as (O & _). rewrite skipn_app, skipn_all, Nat.sub_diag in O. cbn [app skipn] in O.
  assert (Q : exists o, entry metric_table a o) by (inversion O; eauto). destruct Q as (o & b & af & T & NM & _). 
  assert (I : In o metric_table) by (rewrite T; apply in_or_app; right; now left). destruct NM as (_ & _ & n & N1 & N2).
  assert (Z0 : exists s, In s ("LINF" :: "L0" :: map fst metrics)%string /\ map lower n = map lower (codes s)).
  { clear -I N1. cbn in I.
    repeat (destruct I as [<-|I]; [cbn in N1; try discriminate; injection N1 as N1; apply (f_equal (@removelast N)) in N1; rewrite removelast_last in N1; cbn in N1; subst n|]); [..|destruct I].
    all: match goal with |- exists s, _ /\ ?l = _ => let l' := eval vm_compute in l in
      first [exists "LINF"%string; split; [cbn; tauto|reflexivity]|exists "L0"%string; split; [cbn; tauto|reflexivity]|exists "L2"%string; split; [cbn; tauto|reflexivity]
            |exists "L1"%string; split; [cbn; tauto|reflexivity]|exists "CHI2"%string; split; [cbn; tauto|reflexivity]|exists "HELL"%string; split; [cbn; tauto|reflexivity]
            |exists "JS"%string; split; [cbn; tauto|reflexivity]|exists "KL2"%string; split; [cbn; tauto|reflexivity]|exists "KL1"%string; split; [cbn; tauto|reflexivity]
            |exists "KCHI2"%string; split; [cbn; tauto|reflexivity]|exists "KHELL"%string; split; [cbn; tauto|reflexivity]|exists "KJS"%string; split; [cbn; tauto|reflexivity]] end. }
  destruct Z0 as (s & Z1 & Z2). apply (N s Z1). congruence.
Qed.
Print Assumptions C312_metrics_refuted.
Print Assumptions C312_unknown.
Example C312_ex : real_matrix Single 1 2 (matrix2 1 2) /\ alldist 0%Z toy (Some 7) 1 [matrix2 1 2; word "L0"] [1; 2]%Z [] = None /\
  alldist 0%Z toy (Some 7) 1 [matrix2 1 2; word "l3"] [1; 2]%Z [] = Some None /\ Forall plain_text ([matrix2 1 2] ++ [word "l3"]) /\
  (forall s, In s ("LINF" :: "L0" :: map fst metrics)%string -> map lower (map (fun c => (c mod 256)%N) (a_chars (word "l3"))) <> map lower (codes s)).
Proof.
  split; [unfold real_matrix; cbn; repeat split; auto|]. split; [reflexivity|]. split; [reflexivity|].
  split; [repeat constructor; unfold plain_text; cbn; repeat constructor; discriminate|].
  intros s I. cbn in I. repeat (destruct I as [<-|I]; [vm_compute; discriminate|]). destruct I.
Qed.
