(** Property C27: per-thread state is private. *)
From Coq Require Import List ZArith NArith Arith Bool Lia.
From Verif Require Import Base Random_Model Thread_Model Thread_Spec Thread_Proofs.
Import ListNotations.
Local Open Scope Z_scope.

(** Under any interleaving of calls, each thread gets the answers of the
    single-thread specification on its own calls: other threads, the order of the
    calls and the contents of fresh memory do not matter.  Messages are strings
    (no NUL inside); the generator operations of each thread must be defined. *)
Theorem C27_thread_state_private : forall (h : history) (rs : nat -> list answer),
  Forall (fun x => match snd (fst x) with SetLastError _ (Some s) => Forall (fun c => c <> 0) s | _ => True end
                   /\ length (t_message (snd x)) = 1024%nat) h ->
  (forall t, exists v, view_calls view0 (calls_of t h) = Some (v, rs t)) ->
  exists w' l, run_calls world0 h = Some (w', l) /\ map fst l = map (fun x => fst (fst x)) h /\
    forall t, answers_of t l = rs t.
Proof.
  intros h rs HW HV.
  destruct (run_calls_good h world0 (fun _ => view0) rs HW world0_good HV) as (w' & l & R & HL).
  exists w', l. split; auto. split; auto. clear - R. revert l R. generalize world0.
  induction h as [|[[t c] j] h IH]; intros w l R; cbn [run_calls] in R.
  - inversion R. reflexivity.
  - destruct (do_call j w t c) as [[w1 r]|]; [|discriminate]. cbn [obind] in R.
    destruct (run_calls w1 h) as [[w2 rs2]|] eqn:E; [|discriminate]. cbn [obind] in R.
    inversion R; subst. cbn. f_equal. eapply IH; eauto.
Qed.
Print Assumptions C27_thread_state_private.

(** Two threads: the second one's error and timer do not disturb the first. *)
Example C27_example :
  let junk := mk_tstate 77 (repeat 88 1024) (mk_rand (repeat 0%N 624) 3) 99 in
  let h := [(1%nat, SetLastError 3 (Some [97; 98]), junk); (2%nat, SetLastError 5 None, junk);
            (2%nat, Tic 100, junk); (1%nat, GetLastErrorMessage, junk); (1%nat, GetLastError, junk);
            (1%nat, Toc 30, junk); (2%nat, Toc 130, junk)] in
  option_map snd (run_calls world0 h) =
    Some [(1%nat, AInt 3); (2%nat, AInt 5); (2%nat, AVoid); (1%nat, AStr [97; 98]); (1%nat, AInt 3);
          (1%nat, AInt 30); (2%nat, AInt 30)] /\
  (exists v, view_calls view0 (calls_of 1 h) = Some (v, [AInt 3; AStr [97; 98]; AInt 3; AInt 30])).
Proof. cbv zeta. split; [vm_compute; reflexivity|]. eexists. vm_compute. reflexivity. Qed.
