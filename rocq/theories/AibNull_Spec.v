(** Joining values of null probability, stated without the model. *)
From Coq Require Import List Arith Lia Bool.
From Verif Require Import Kmeans_Spec Aib_Spec.
Import ListNotations.

(** [new] is the tree [old] of the [K] used leaves (of [N]), where first the other leaves are merged one after the
    other by the nodes N, N + 1, ..., then joined to the leaf [first] of the first merge of [old]; the nodes of [old]
    come after these, in the same order *)
Record joins (N K : nat) (used : nat -> bool) (old new : list nat) (first : nat) : Prop := mk_joins {
  j_length : length new = 2 * N - 1;
  j_first : first < N /\ used first = true /\ nth first old 0 = N /\ nth first new 0 = N + (N - K) - 1;
  j_leaf : forall x, x < N -> used x = true -> x <> first -> nth x new 0 = nth x old 0 + (N - K);
  j_null : forall x, x < N -> used x = false -> nth x new 0 = N + (count x (fun y => negb (used y)) - 1);
  j_chain : forall j, j < N - K -> nth (N + j) new 0 = N + j + 1;
  j_inner : forall x, N <= x -> x < N + K - 2 -> nth (x + (N - K)) new 0 = nth x old 0 + (N - K);
  j_root : nth (2 * N - 2) new 0 = 0 }.
