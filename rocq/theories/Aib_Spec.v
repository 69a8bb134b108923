(** Agglomerative clustering, stated without the model. *)
From Coq Require Import List Arith ZArith Lia Bool QArith Qcanon Permutation.
From Verif Require Import ImOp_Spec Rat Kmeans_Spec.
Import ListNotations.
Local Open Scope nat_scope.

Section Spec.
Variable log_ : Qc -> Qc.
Variable nlabels : nat.
Notation csum f := (sum 0%Qc Qcplus nlabels f).

Definition when (b : bool) (v : Qc) : Qc := if b then v else 0%Qc.
Definition nonnull (q : Qc) : bool := if Qc_eq_dec q 0 then false else true.
Definition at_ (r : list Qc) (c : nat) : Qc := nth c r 0%Qc.
(** probability of a cluster with joint probabilities [r] *)
Definition prob (r : list Qc) : Qc := csum (at_ r).
(** r c log (r c / p) *)
Definition info (v p : Qc) : Qc := when (nonnull v) (v * log_ (v / p))%Qc.
(** loss of mutual information when two clusters are merged *)
Definition loss (u v : list Qc) : Qc :=
  (csum (fun c => info (at_ u c) (prob u)) + csum (fun c => info (at_ v c) (prob v))
   - (csum (fun c => when (nonnull (at_ u c) || nonnull (at_ v c)) ((at_ u c + at_ v c) * log_ (at_ u c + at_ v c)))
      - (prob u + prob v) * log_ (prob u + prob v)))%Qc.
Definition join (u v : list Qc) : list Qc := map (fun p => (fst p + snd p)%Qc) (combine u v).

(** clusters: node numbers and joint probabilities *)
Definition cluster := (nat * list Qc)%type.
(** mutual information of clusters and labels, [pc] being the probabilities of the labels *)
Fixpoint mutual (pc : list Qc) (act : list cluster) : Qc :=
  match act with
  | [] => 0%Qc
  | (_, r) :: act => (csum (fun c => info (at_ r c) (prob r * at_ pc c)) + mutual pc act)%Qc
  end.

(** merging the pair of smallest loss until a single cluster remains; the new clusters
    are numbered from [n] on; the last list has the mutual information after each
    merge *)
Inductive greedy (pc : list Qc) : nat -> list cluster -> list (nat * nat) -> list Qc -> Prop :=
| greedy_stop n act : length act <= 1 -> greedy pc n act [] []
| greedy_merge n act a b ra rb rest ms cs :
    Permutation act ((a, ra) :: (b, rb) :: rest) ->
    (forall u ru v rv, In (u, ru) act -> In (v, rv) act -> u <> v -> (loss ra rb <= loss ru rv)%Qc) ->
    greedy pc (n + 1) ((n, join ra rb) :: rest) ms cs ->
    greedy pc n act ((a, b) :: ms) (mutual pc ((n, join ra rb) :: rest) :: cs).
End Spec.

(** the table of probabilities divided by its sum; the values that occur, with their
    numbers; the probabilities of the labels *)
Section Input.
Variables (N nl : nat) (P : list Qc).
Definition total : Qc := sum 0%Qc Qcplus (N * nl) (fun i => nth i P 0%Qc).
Definition joint (x : nat) : list Qc := map (fun v => v / total)%Qc (rowv nl P x).
Definition occurring : list cluster := filter (fun c => nonnull (prob nl (snd c))) (map (fun x => (x, joint x)) (seq 0 N)).
Definition labels : list Qc := map (fun c => sum 0%Qc Qcplus N (fun x => at_ (joint x) c)) (seq 0 nl).
End Input.

(** the losses met on the way *)
Inductive descent (log_ : Qc -> Qc) (nl : nat) : nat -> list cluster -> list (nat * nat) -> list Qc -> Prop :=
| descent_stop n act : descent log_ nl n act [] []
| descent_merge n act a b ra rb rest ms ls :
    Permutation act ((a, ra) :: (b, rb) :: rest) ->
    descent log_ nl (n + 1) ((n, join ra rb) :: rest) ms ls ->
    descent log_ nl n act ((a, b) :: ms) (loss log_ nl ra rb :: ls).
Fixpoint running (i : Qc) (ls : list Qc) : list Qc :=
  match ls with [] => [i] | l :: ls => i :: running (i - l)%Qc ls end.

(** a tree given by the parents of its nodes: [N] leaves, of which those [used] are in the tree
    and [m] in number, and m - 1 nodes N, N + 1, ... of two children each, the root being
    the last.  The parent of the root is zero, that of the nodes out of the tree 2 N. *)
Definition binary_tree (N m : nat) (used : nat -> bool) (parents : list nat) : Prop :=
  length parents = 2 * N - 1 /\
  let root := N + m - 2 in
  nth root parents 0 = 0 /\
  (forall x, x < N -> used x = true -> N <= nth x parents 0 <= root) /\
  (forall x, N <= x -> x < root -> x < nth x parents 0 <= root) /\
  (forall p, N <= p <= root -> count (2 * N - 1) (fun x => nth x parents 0 =? p) = 2) /\
  (forall x, x < 2 * N - 1 -> (x < N /\ used x = false) \/ root < x -> nth x parents 0 = 2 * N).
