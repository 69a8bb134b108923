(** C02: qsort-def.h sorts. *)
From Coq Require Import List ZArith Permutation.
From Verif Require Import Base Order_Spec Qsort_Model Qsort_Spec Qsort_Proofs.
Import ListNotations.

(** Sorting the first [n >= 1] entries of an array terminates without undefined
    behaviour, leaves the rest of the array alone, and leaves a sorted
    permutation of the first [n] entries. *)
Theorem C02_qsort_sorts :
  forall (A : Type) (cmp : A -> A -> Z), total_preorder cmp ->
  forall (l : list A) (n : nat), 1 <= n -> n <= length l ->
  exists l', qs_sort cmp l n = Some l' /\
    skipn n l' = skipn n l /\
    Permutation (firstn n l') (firstn n l) /\
    sorted_by cmp (firstn n l').
Proof. exact (fun A cmp H l n => qs_sort_spec cmp H l n). Qed.
Print Assumptions C02_qsort_sorts.

Example C02_ex :
  qs_sort (fun a b => a - b)%Z [5;3;3;9;1;5;0;42]%Z 7 = Some [0;1;3;3;5;5;9;42]%Z.
Proof. vm_compute. reflexivity. Qed.

(** size 0 violates the assertion in the code. *)
Example C02_ex_empty : qs_sort (fun a b => a - b)%Z [] 0 = None.
Proof. reflexivity. Qed.
