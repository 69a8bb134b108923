(** The Mersenne Twister MT19937 as published (Matsumoto and Nishimura 1998,
    initialisation of 2002), independently of the code's in-place refill. *)
From Coq Require Import List NArith QArith.
From Verif Require Import Base Random_Model.
Import ListNotations.
Local Open Scope N_scope.

(** The twist of two consecutive words: the top bit of the first and the low 31
    bits of the second, shifted right, xor the constant when odd. *)
Definition mt_twist (a b : N) : N :=
  let y := 2 ^ 31 * (a / 2 ^ 31) + b mod 2 ^ 31 in
  N.lxor (y / 2) (if N.odd y then 0x9908b0df else 0).

(** [x] is the word sequence started from the 624 words [s]. *)
Definition is_mt_sequence (s : list N) (x : nat -> N) : Prop :=
  (forall i, (i < 624)%nat -> nth_error s i = Some (x i)) /\
  (forall n, x (n + 624)%nat = N.lxor (x (n + 397)%nat) (mt_twist (x n) (x (n + 1)%nat))).

(** The initial words for seed [s]. *)
Fixpoint mt_seed_word (s : N) (i : nat) : N :=
  match i with
  | O => s mod 2 ^ 32
  | S j => let p := mt_seed_word s j in
           (1812433253 * (N.lxor p (p / 2 ^ 30)) + N.of_nat i) mod 2 ^ 32
  end.

(** The output tempering. *)
Definition mt_temper (y : N) : N :=
  let y := N.lxor y (y / 2 ^ 11) in
  let y := N.lxor y (N.land (y * 2 ^ 7) 0x9d2c5680) in
  let y := N.lxor y (N.land (y * 2 ^ 15) 0xefc60000) in
  N.lxor y (y / 2 ^ 18).

(** [n] successive calls of vl_rand_uint32. *)
Fixpoint draws (n : nat) (g : vlrand) : option (vlrand * list N) :=
  match n with
  | O => Some (g, [])
  | S n' => do (g1, y) <- rand_uint32 g; do (g2, ys) <- draws n' g1; Some (g2, y :: ys)
  end.


(** Preconditions of the calls: a nonempty key array and a nonzero range. *)
Definition op_ok (o : rand_op) : Prop :=
  match o with
  | OpSeedByArray key => key <> []
  | OpUindex range => range <> 0
  | _ => True
  end.


(** The documented range of each result. *)
Definition out_ok (o : rand_op) (r : rand_out) : Prop :=
  match o, r with
  | OpInit, RNone | OpSeed _, RNone | OpSeedByArray _, RNone => True
  | OpUint32, RNum n => n < 2 ^ 32
  | OpUint64, RNum n => n < 2 ^ 64
  | OpInt63, RNum n => n < 2 ^ 63
  | OpInt31, RNum n => n < 2 ^ 31
  | OpUindex range, RNum n => n < range
  | OpReal1, RReal q => (0 <= q /\ q <= 1)%Q
  | OpReal2, RReal q => (0 <= q /\ q < 1)%Q
  | OpReal3, RReal q => (0 < q /\ q < 1)%Q
  | OpRes53, RReal q => (0 <= q /\ q < 1)%Q
  | _, _ => False
  end.

