(** Matching of descriptors by the ratio test, vl_ubcmatch.c.
    The arithmetic is that of rational numbers: the code has double, float or int, and compares after conversion to float.
    [maxval] is the initial value of the best distances: infinity ([None]) for the floating point classes, 2^31 - 1 for the integer classes. *)
From Coq Require Import List Arith Bool ZArith QArith Qcanon.
Import ListNotations.
From Verif Require Import Base Rat.
From Verif Require Import Gauss_Model.

(** a number or infinity *)
Definition ext : Type := option Qc.
Definition elt (x y : ext) : bool := match x, y with Some a, Some b => qlt a b | Some _, None => true | None, _ => false end.
(** the loop over the bins with its early exit, vl_ubcmatch.c:67-75: [acc >= second_best] is [negb (elt acc second_best)] *)
Fixpoint accum (x y : list Qc) (acc : Qc) (second : ext) : option Qc :=
  match x, y with
  | [], _ => Some acc
  | a :: x', b :: y' => let delta := (a - b)%Qc in let acc := (acc + delta * delta)%Qc in
      if negb (elt (Some acc) second) then Some acc else accum x' y' acc second
  | _ :: _, [] => None
  end.
(** the best, the second best and the index of the best, -1 is [None] *)
Record state := St { s_best : ext; s_second : ext; s_k : option nat }.
(** one descriptor of the second set, vl_ubcmatch.c:63-85 *)
Definition consider (x : list Qc) (k2 : nat) (y : list Qc) (s : state) : option state :=
  do acc <- accum x y 0 (s_second s);
  Some (if elt (Some acc) (s_best s) then St (Some acc) (s_best s) (Some k2)
        else if elt (Some acc) (s_second s) then St (s_best s) (Some acc) (s_k s) else s).
Fixpoint scan (x : list Qc) (k2 : nat) (L2 : list (list Qc)) (s : state) : option state :=
  match L2 with [] => Some s | y :: L2' => do s <- consider x k2 y s; scan x (S k2) L2' s end.
(** thresh * best < second_best, vl_ubcmatch.c:90; the product with infinity is not modelled, as then there is no best index *)
Definition accepted (thresh : Qc) (s : state) : option (nat * Qc) :=
  match s_k s, s_best s with
  | Some k, Some b => if elt (Some (thresh * b)%Qc) (s_second s) then Some (k, b) else None
  | _, _ => None
  end.
(** compare, vl_ubcmatch.c:50-101: the pairs k1, k2 and their scores *)
Fixpoint compare (maxval : ext) (thresh : Qc) (k1 : nat) (L1 L2 : list (list Qc)) : option (list (nat * nat * Qc)) :=
  match L1 with
  | [] => Some []
  | x :: L1' => do s <- scan x 0 L2 (St maxval maxval None);
      do r <- compare maxval thresh (S k1) L1' L2;
      Some (match accepted thresh s with Some (k2, b) => (k1, k2, b) :: r | None => r end)
  end.
(** vl_ubcmatch, vl_ubcmatch.c:108-228; indices from 0, MATLAB's are from 1 *)
Definition ubcmatch (maxval : ext) (thresh : Qc) (L1 L2 : list (list Qc)) : option (list (nat * nat * Qc)) := compare maxval thresh 0 L1 L2.
(** vl_ubcmatch.c:114 *)
Definition default_thresh : Qc := Q2Qc (3 # 2).
