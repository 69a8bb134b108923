(** C224-C228: histograms over an AIB tree. *)
From Coq Require Import List Arith Bool ZArith Lia.
Import ListNotations.
From Verif Require Import Base AibHist_Model AibHist_Spec AibHist_Proofs.
Local Open Scope Z_scope.

(** C224: on a proper tree the entry of a node is the number of data below it, modulo 2^32 *)
Theorem C224_hist fuel parents data : proper parents -> (length parents <= fuel)%nat -> Z.of_nat (length parents) < 2 ^ 32 -> (forall x, In x data -> 1 <= x <= Z.of_nat (length parents)) ->
  exists tree, aibhist fuel parents data false = Some (Done tree) /\ length tree = length parents /\
    forall k, 1 <= k <= Z.of_nat (length parents) -> exists n, counts (fun x => above parents x k) data n /\ nth_error tree (Z.to_nat (k - 1)) = Some (n mod 2 ^ 32).
Proof.
  intros HP HF H32 HD. unfold aibhist. rewrite proper_check by assumption. replace (u32 (0 - 1)) with (2 ^ 32 - 1) by reflexivity.
  destruct (push_ok parents fuel (2 ^ 32 - 1) HP ltac:(lia) ltac:(lia) data 0 (repeat 0 (length parents)) HD (repeat_length _ _)) as (tree & E & L & H).
  exists tree. split; [exact E|]. split; [exact L|]. intros k K. destruct (H k 0 ltac:(lia)) as (t' & n & T & C & V).
  - rewrite (nth_error_nth' _ 0) by (rewrite repeat_length; lia). f_equal. apply nth_repeat.
  - exists n. split; [exact C|]. rewrite T. f_equal. destruct V as [[-> ->]|[_ ->]]; reflexivity.
Qed.
(** C224: a datum 0, all the others being nodes, is an error *)
Theorem C224_zero fuel parents data : proper parents -> (length parents <= fuel)%nat -> Z.of_nat (length parents) < 2 ^ 32 -> (forall x, In x data -> 0 <= x <= Z.of_nat (length parents)) -> In 0 data -> aibhist fuel parents data false = Some Err.
Proof.
  intros HP HF H32 HD H0. unfold aibhist. rewrite proper_check by assumption. replace (u32 (0 - 1)) with (2 ^ 32 - 1) by reflexivity.
  generalize 0 at 1. generalize (repeat_length 0 (length parents)). generalize (repeat 0 (length parents)) as tree. induction data as [|x data IH]; intros tree LT i; [destruct H0|]. cbn [push]. destruct (Z.eq_dec x 0) as [->|N]; [reflexivity|].
  assert (X : 1 <= x <= Z.of_nat (length parents)) by (specialize (HD x (or_introl eq_refl)); lia). destruct (Z.ltb_spec x 1); [lia|]. destruct (Z.ltb_spec (2 ^ 32 - 1) x); [lia|]. cbn [orb].
  destruct (walk_ok parents HP fuel x tree X) as (tree1 & -> & L1 & _); [lia|exact LT|]. cbn [obind]. apply IH; [intros y Y; apply HD; now right| |exact L1]. destruct H0 as [H0|H0]; [contradiction|exact H0].
Qed.
(** C224: a link to a node that does not exist is an error *)
Theorem C224_link fuel parents data mode p : In p parents -> Z.of_nat (length parents) < p -> aibhist fuel parents data mode = Some Err.
Proof.
  intros I L. unfold aibhist. replace (check (Z.of_nat (length parents)) parents 0 0) with (@None Z); [reflexivity|]. symmetry. revert L I. generalize (Z.of_nat (length parents)) as P. intros P L. generalize 0 at 1. generalize 0.
  induction parents as [|q l IH]; intros m i I; [destruct I|]. cbn [check]. destruct (Z.ltb_spec P q); [reflexivity|]. destruct (negb (q =? 0) && negb (q =? 1) && (q <? i)); [reflexivity|]. apply IH. destruct I as [->|I]; [lia|exact I].
Qed.
(** C225: with the option 'hist' every nonempty histogram is refused, as the component 0 is taken for the leaf 0 *)
Theorem C225_mode_refuted fuel parents d data : aibhist fuel parents (d :: data) true = Some Err.
Proof. unfold aibhist. destruct (check _ _ _ _); reflexivity. Qed.
(** C226: a datum that is not a leaf is counted, instead of raising the error "is not a leaf" *)
Theorem C226_leaf_refuted : exists parents data k tree, proper parents /\ parent parents 1 k /\ In k data /\ k <> 0 /\ k <> 1 /\ aibhist 3 parents data false = Some (Done tree).
Proof.
  exists [3; 3; 0], [3], 3, [0; 0; 1]. repeat split; try lia; try (vm_compute; reflexivity); [|now left].
  intros k p [K Q]. destruct (Z.to_nat (k - 1)) as [|[|[|n]]] eqn:E; cbn in Q; [injection Q as <-|injection Q as <-|injection Q as <-|destruct n; discriminate]; cbn [length]; lia.
Qed.
(** C227: a datum greater than the number of nodes is not refused: the code reads past the end of the tree *)
Theorem C227_bounds_refuted fuel parents x data : proper parents -> Z.of_nat (length parents) < x < 2 ^ 32 -> aibhist (S fuel) parents (x :: data) false = None.
Proof.
  intros HP X. unfold aibhist. rewrite proper_check by assumption. replace (u32 (0 - 1)) with (2 ^ 32 - 1) by reflexivity. cbn [push]. destruct (Z.ltb_spec x 1); [lia|]. destruct (Z.ltb_spec (2 ^ 32 - 1) x); [lia|]. cbn [orb walk].
  destruct (zget parents (x - 1)) as [p|] eqn:E; [|reflexivity]. apply zget_some in E. destruct E as [_ E]. assert (Z.to_nat (x - 1) < length parents)%nat by (apply nth_error_Some; congruence). lia.
Qed.
(** C228: a link to the previous node passes the check of backward links, and two nodes linked to each other are walked for ever *)
Theorem C228_cycle_refuted : exists parents x, check (Z.of_nat (length parents)) parents 0 0 = Some 0 /\ parent parents x (x - 1) /\ 2 < x /\
  forall fuel, exists y tree, aibhist fuel parents [x] false = Some (Running y tree).
Proof.
  exists [0; 3; 2], 3. split; [reflexivity|]. split; [split; [lia|reflexivity]|]. split; [lia|]. intros fuel. unfold aibhist. replace (check (Z.of_nat (length [0; 3; 2])) [0; 3; 2] 0 0) with (Some 0) by reflexivity. replace (u32 (0 - 1)) with (2 ^ 32 - 1) by reflexivity. cbn [push]. replace ((3 <? 1) || (2 ^ 32 - 1 <? 3)) with false by reflexivity.
  assert (W : forall fuel x a b c, x = 2 \/ x = 3 -> exists y tree, walk [0; 3; 2] fuel x [a; b; c] = Some (Running y tree)).
  { clear fuel. induction fuel as [|fuel IH]; intros x a b c X; [cbn [walk]; eauto|]. destruct X as [->| ->]; cbn [walk].
    - change (zget [0; 3; 2] (2 - 1)) with (Some 3). change (zget [a; b; c] (2 - 1)) with (Some b). cbn [obind]. change (zset [a; b; c] (2 - 1) (u32 (b + 1))) with (Some [a; u32 (b + 1); c]). cbn [obind]. replace ((3 =? 2) || (3 =? 0) || (3 =? 1)) with false by reflexivity. apply IH. now right.
    - change (zget [0; 3; 2] (3 - 1)) with (Some 2). change (zget [a; b; c] (3 - 1)) with (Some c). cbn [obind]. change (zset [a; b; c] (3 - 1) (u32 (c + 1))) with (Some [a; b; u32 (c + 1)]). cbn [obind]. replace ((2 =? 3) || (2 =? 0) || (2 =? 1)) with false by reflexivity. apply IH. now left. }
  destruct (W fuel 3 0 0 0 (or_intror eq_refl)) as (y & tree & E). cbn [length repeat]. rewrite E. cbn [obind]. eauto.
Qed.
Example C224_ex_hist : aibhist 7 [5; 5; 6; 6; 7; 7; 0] [1; 2; 2; 3; 4] false = Some (Done [1; 2; 1; 1; 3; 2; 5]).
Proof. vm_compute. reflexivity. Qed.
Example C224_ex_proper : proper [5; 5; 6; 6; 7; 7; 0].
Proof. intros k p [K Q]. destruct (Z.to_nat (k - 1)) as [|[|[|[|[|[|[|n]]]]]]] eqn:E; cbn in Q; try (destruct n; discriminate); injection Q as <-; cbn [length]; lia. Qed.
Example C224_ex_error : aibhist 7 [5; 5; 6; 6; 7; 7; 0] [1; 0] false = Some Err /\ aibhist 3 [3; 4; 0] [1] false = Some Err.
Proof. split; vm_compute; reflexivity. Qed.
Example C225_ex_mode : aibhist 7 [5; 5; 6; 6; 7; 7; 0] [1; 1; 1; 1] true = Some Err.
Proof. vm_compute. reflexivity. Qed.
Example C227_ex_bounds : aibhist 9 [5; 5; 6; 6; 7; 7; 0] [8] false = None.
Proof. vm_compute. reflexivity. Qed.
Print Assumptions C224_hist. Print Assumptions C224_zero. Print Assumptions C224_link. Print Assumptions C225_mode_refuted. Print Assumptions C226_leaf_refuted. Print Assumptions C227_bounds_refuted. Print Assumptions C228_cycle_refuted.
