(** C07: the fast integer square root is exact for every argument. *)
From Coq Require Import ZArith.
From Verif Require Import Isqrt_Model Isqrt_Spec Isqrt_Proofs.
Local Open Scope Z_scope.

(** For a type of any positive number of bytes (1, 2, 4 and 8 are the ones
    instantiated) and any value of the type. *)
Theorem C07_fast_sqrt_exact : forall bytes x,
  (0 < bytes)%nat -> 0 <= x < 2 ^ (8 * Z.of_nat bytes) ->
  is_floor_sqrt x (is_y (vl_fast_sqrt bytes x)).
Proof. exact (fun b x H1 H2 => proj2 (vl_fast_sqrt_correct b x H1 H2)). Qed.
Print Assumptions C07_fast_sqrt_exact.

(** No intermediate value of the loop wraps around. *)
Theorem C07_fast_sqrt_no_overflow : forall bytes x,
  (0 < bytes)%nat -> 0 <= x < 2 ^ (8 * Z.of_nat bytes) ->
  is_ovf (vl_fast_sqrt bytes x) = false.
Proof. exact (fun b x H1 H2 => proj1 (vl_fast_sqrt_correct b x H1 H2)). Qed.
Print Assumptions C07_fast_sqrt_no_overflow.

Theorem C07_fast_sqrt_ui64 : forall x, 0 <= x < 2 ^ 64 -> is_floor_sqrt x (vl_fast_sqrt_ui64 x).
Proof. exact (fun x H => C07_fast_sqrt_exact 8 x (Nat.lt_0_succ 7) H). Qed.
Theorem C07_fast_sqrt_ui32 : forall x, 0 <= x < 2 ^ 32 -> is_floor_sqrt x (vl_fast_sqrt_ui32 x).
Proof. exact (fun x H => C07_fast_sqrt_exact 4 x (Nat.lt_0_succ 3) H). Qed.
Theorem C07_fast_sqrt_ui16 : forall x, 0 <= x < 2 ^ 16 -> is_floor_sqrt x (vl_fast_sqrt_ui16 x).
Proof. exact (fun x H => C07_fast_sqrt_exact 2 x (Nat.lt_0_succ 1) H). Qed.
Theorem C07_fast_sqrt_ui8 : forall x, 0 <= x < 2 ^ 8 -> is_floor_sqrt x (vl_fast_sqrt_ui8 x).
Proof. exact (fun x H => C07_fast_sqrt_exact 1 x (Nat.lt_0_succ 0) H). Qed.
Print Assumptions C07_fast_sqrt_ui64.

(** Non-trivial cases: the largest arguments, and one below/at a square. *)
Example C07_ex_max64 : vl_fast_sqrt_ui64 18446744073709551615 = 4294967295.
Proof. vm_compute. reflexivity. Qed.
Example C07_ex_max8 : vl_fast_sqrt_ui8 255 = 15.
Proof. vm_compute. reflexivity. Qed.
Example C07_ex_square : (vl_fast_sqrt_ui32 1000000, vl_fast_sqrt_ui32 999999) = (1000, 999).
Proof. vm_compute. reflexivity. Qed.
