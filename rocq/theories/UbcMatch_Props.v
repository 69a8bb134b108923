(** Properties of the matching of descriptors. *)
From Coq Require Import List Arith Bool ZArith QArith Qcanon Lia.
Import ListNotations.
From Verif Require Import Base Rat Gauss_Model Gauss_Proofs UbcMatch_Model UbcMatch_Spec UbcMatch_Proofs.
Local Open Scope nat_scope.

(** C200: the pairs returned are exactly those that pass the ratio test, in the order of the first set *)
Theorem C200_matches maxval thresh (L1 L2 : list (list Qc)) :
  (forall x y, In x L1 -> In y L2 -> length y = length x /\ below (sqdist x y) maxval) ->
  exists r, ubcmatch maxval thresh L1 L2 = Some r /\
    (forall k1 k2 d, In (k1, k2, d) r <-> exists x, nth_error L1 k1 = Some x /\ matches maxval thresh x L2 k2 d) /\
    (forall a b p q, a < b -> nth_error r a = Some p -> nth_error r b = Some q -> fst (fst p) < fst (fst q)).
Proof.
  intros H. destruct (compare_ok maxval thresh L2 L1 0 H) as (r & E & R1 & R2). exists r. split; [exact E|]. split; [|exact R2]. intros k1 k2 d. rewrite R1. cbn [Nat.add]. split; [intros (i & x & -> & M)|intros (x & M)]; eauto.
Qed.
Print Assumptions C200_matches.
(** with a threshold of at least 1 the match is the only nearest descriptor, unless it is the only one *)
Theorem C200_unique maxval thresh (x : list Qc) L2 k d : (1 <= thresh)%Qc -> matches maxval thresh x L2 k d -> forall j z, j <> k -> nth_error L2 j = Some z -> (d < sqdist x z)%Qc.
Proof.
  intros T (y & N & -> & A & _ & B & _) j z J E. specialize (B j z J E). pose proof (sqdist_nonneg x y) as P. assert (sqdist x y <= thresh * sqdist x y)%Qc; [|qc_lra].
  assert (1 * sqdist x y <= thresh * sqdist x y)%Qc by (apply Qcmult_le_compat_r; auto). qc_lra.
Qed.
Print Assumptions C200_unique.
Definition q (z : Z) : Qc := zq z.
Example C200_ex : ubcmatch None default_thresh [[q 0; q 0]; [q 10; q 0]; [q 5; q 5]] [[q 1; q 0]; [q 9; q 1]; [q 2; q 2]] = Some [(0, 0, q 1); (1, 1, q 2); (2, 2, q 18)] /\
  ubcmatch (Some (q 2147483647)) default_thresh [[q 3]] [[q 1]; [q 5]] = Some [] /\ ubcmatch None default_thresh [[q 3]] [[q 1]] = Some [(0, 0, q 4)] /\ ubcmatch None default_thresh [[q 3]] [] = Some [].
Proof. repeat split; vm_compute; reflexivity. Qed.
Example C200_ex_hyp : forall x y, In x [[q 3]] -> In y [[q 1]; [q 5]] -> length y = length x /\ below (sqdist x y) (Some (q 2147483647)).
Proof. intros x y [<-|[]] [<-|[<-|[]]]; (split; [reflexivity|]); cbn; apply qlt_true; vm_compute; reflexivity. Qed.

(** C201, refuted: the documentation multiplies the distance by the threshold; the code multiplies its square.  At 0 with descriptors at 4 and 5 and the
    default threshold 1.5 there is a match, although 4 times 1.5 is greater than 5. *)
Theorem C201_distance_refuted : ubcmatch None default_thresh [[q 0]] [[q 4]; [q 5]] = Some [(0, 0, q 16)] /\ sqdist [q 0] [q 4] = (q 4 * q 4)%Qc /\ sqdist [q 0] [q 5] = (q 5 * q 5)%Qc /\ (q 5 < q 4 * default_thresh)%Qc.
Proof. split; [vm_compute; reflexivity|]. split; [vm_compute; apply Qc_is_canon; reflexivity|]. split; [vm_compute; apply Qc_is_canon; reflexivity|]. apply qlt_true. vm_compute. reflexivity. Qed.
Print Assumptions C201_distance_refuted.

(** C202, refuted: for the integer classes a lone descriptor of the second set may fail the test, as the initial value is 2^31 - 1 and not infinity *)
Theorem C202_lone_refuted : ubcmatch (Some (q 2147483647)) (q 2147483647) [[q 1]] [[q 0]] = Some [] /\ ubcmatch None (q 2147483647) [[q 1]] [[q 0]] = Some [(0, 0, q 1)].
Proof. split; vm_compute; reflexivity. Qed.
Print Assumptions C202_lone_refuted.
