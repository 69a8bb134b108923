(** C01: the heap is a priority queue. *)
From Coq Require Import List ZArith.
From Verif Require Import Base Heap_Model Heap_Spec Order_Spec Heap_Proofs.
Import ListNotations.

(** Any allowed history from an empty heap runs without undefined behaviour,
    and what the user observes is a behaviour of the abstract priority queue:
    every pop yields a minimum of the queued elements, nothing is lost. *)
Theorem C01_heap_is_priority_queue :
  forall (A : Type) (cmp : A -> A -> Z), total_preorder cmp ->
  forall (array : list A) (ops : list heap_op),
  allowed (length array) 0 ops ->
  exists h outs, heap_run cmp (mk_heap array 0) ops = Some (h, outs) /\
    pq_trace cmp [] ops outs (firstn (h_size h) (h_array h)).
Proof. exact (fun A cmp H array ops => heap_run_from_empty cmp H array ops). Qed.
Print Assumptions C01_heap_is_priority_queue.

(** A concrete history meeting the hypotheses. *)
Lemma Zsub_total_preorder : total_preorder (fun a b : Z => (a - b)%Z).
Proof. split; intros; Lia.lia. Qed.

Definition ex_ops : list (heap_op (A:=Z)) :=
  [Push 5; Push 3; Push 8; Push 1; Pop; Push 4; Update 2 0; Pop; Pop; Pop; Pop]%Z.

Example C01_ex_allowed : allowed 4 0 ex_ops.
Proof. cbn. Lia.lia. Qed.

Example C01_ex_run :
  option_map snd (heap_run (fun a b => a - b)%Z (mk_heap [0;0;0;0]%Z 0) ex_ops)
  = Some [OPush; OPush; OPush; OPush; OPop 1; OPush; OUpdate 8; OPop 0; OPop 3; OPop 4; OPop 5]%Z.
Proof. vm_compute. reflexivity. Qed.
