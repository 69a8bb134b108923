(** The homogeneous kernel map, stated without the model. *)
From Coq Require Import List Arith ZArith Bool QArith Qcanon Qcabs.
From Verif Require Import Rat.
Import ListNotations.
Local Open Scope nat_scope.

(** 2^e *)
Definition two_to (e : Z) : Qc :=
  match e with
  | Z0 => 1
  | Zpos p => zq (2 ^ Zpos p)
  | Zneg p => (/ zq (2 ^ Zpos p))%Qc
  end.

(** x = m 2^e with 1/2 <= |m| < 1, or m = 0 when x = 0: what frexp returns *)
Definition is_frexp (x m : Qc) (e : Z) : Prop :=
  x = (m * two_to e)%Qc /\
  (x = 0%Qc -> m = 0%Qc) /\
  (x <> 0%Qc -> (Q2Qc (1#2) <= [m] /\ [m] < 1)%Qc).

(** the features of the grid point x: sqrt(L x^gamma kappa_0) and for each further
    frequency a cosine and a sine *)
Definition feature (sqrt_ log_ cos_ sin_ : Qc -> Qc) (pow_ : Qc -> Qc -> Qc) (gamma l : Qc)
    (kappa freq : nat -> Qc) (x : Qc) (k : nat) : Qc :=
  let j := (k + 1) / 2 in
  if k =? 0 then sqrt_ (l * pow_ x gamma * kappa 0%nat)%Qc
  else if Nat.odd k then (sqrt_ (zq 2 * (l * pow_ x gamma) * kappa j) * cos_ (freq j * (l * log_ x)))%Qc
  else (sqrt_ (zq 2 * (l * pow_ x gamma) * kappa j) * sin_ (freq j * (l * log_ x)))%Qc.

(** the values written at 0, stride, 2 stride, ... and nowhere else *)
Definition written (n stride : nat) (val : nat -> Qc) (dst dst' : list Qc) : Prop :=
  length dst' = length dst /\
  (forall k, k < n -> nth_error dst' (k * stride) = Some (val k)) /\
  (forall p, (forall k, k < n -> p <> k * stride) -> nth_error dst' p = nth_error dst p).

(** the frequencies retained: the next one is the least multiple after the previous
    with a positive spectrum, or the bound 3 a - 1 for the a-th *)
Definition retained (spectrum : Qc -> Qc) (l : Qc) (a j : nat) : Prop :=
  (0 < spectrum (nq j * l))%Qc \/ 3 * a <= j + 1.
Definition frequencies (spectrum : Qc -> Qc) (l : Qc) (order : nat) (fr : nat -> nat) : Prop :=
  fr 0 = 0 /\
  forall a, a < order -> fr a < fr (a + 1) /\ retained spectrum l (a + 1) (fr (a + 1)) /\
    forall j, fr a < j -> j < fr (a + 1) -> ~ retained spectrum l (a + 1) j.
