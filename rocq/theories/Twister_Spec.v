(** What users expect of vl_twister, after its help text. *)
From Coq Require Import List NArith ZArith QArith Qcanon Arith Bool.
Import ListNotations.
From Verif Require Import Base Rat Str_Spec Random_Model Random_Spec MexUtil_Model MexUtil_Spec Twister_Model.
Local Open Scope nat_scope.

(** vectors and scalars of class DOUBLE *)
Definition double_vector (a : targ) (v : list Qc) : Prop :=
  a_class (t_arr a) = Double /\ a_complex (t_arr a) = false /\ a_sparse (t_arr a) = false /\
  one_long_dimension (a_dims (t_arr a)) /\ numel (t_arr a) = length v /\ t_vals a = v.
Definition double_scalar (a : targ) (x : Qc) : Prop :=
  a_class (t_arr a) = Double /\ a_complex (t_arr a) = false /\ a_sparse (t_arr a) = false /\ numel (t_arr a) = 1 /\ t_vals a = [x].
(** vectors of class UINT32 *)
Definition word_vector (a : targ) (w : list N) : Prop :=
  a_class (t_arr a) = Uint32 /\ numel (t_arr a) = length w /\ t_words a = w.
(** the word STATE, without regard to case *)
Definition says_state (a : targ) : Prop :=
  exists s, t_arr a = mk_marray Char false false [1; length s] s /\ map lower s = [115; 116; 97; 116; 101]%N.
(** a dimension and the double that gives it *)
Definition gives (x : Qc) (d : nat) : Prop := (0 <= x)%Qc /\ (zq (Z.of_nat d) <= x)%Qc /\ (x < zq (Z.of_nat d) + 1)%Qc /\ (x < zq 18446744073709551616)%Qc.
Definition seed_of (x : Qc) (s : N) : Prop := (zq (Z.of_N s) <= x)%Qc /\ (x < zq (Z.of_N s) + 1)%Qc /\ (s < 4294967296)%N.

(** the numbers made of successive words of the generator, with 53 bits *)
Fixpoint res53_of (w : list N) : list Q :=
  match w with
  | a :: b :: w => Qmake (Z.of_N ((a / 32) * 67108864 + b / 64)) 9007199254740992 :: res53_of w
  | _ => []
  end.
(** the calls return the same forever: the sequences of words are equal *)
Definition same_future (g h : vlrand) : Prop := forall n, option_map snd (draws n g) = option_map snd (draws n h).
