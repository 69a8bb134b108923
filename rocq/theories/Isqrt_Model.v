(** Model of the integer square root of /repo/vl/mathop.h. *)
From Coq Require Import ZArith Bool.
Local Open Scope bool_scope.
Local Open Scope Z_scope.

(** Machine state of the loop in /repo/vl/mathop.h:582-594: the locals [x] and
    [y] of type T, plus a flag recording whether any exact intermediate value
    ever failed to fit in T (so that the C code would have wrapped). *)
Record isqrt_state := mk_isqrt { is_x : Z; is_y : Z; is_ovf : bool }.

(** Does the exact value [v] fit an unsigned type of [w] bits? *)
Definition fits (w v : Z) : bool := (0 <=? v) && (v <? 2 ^ w).

(** One iteration, /repo/vl/mathop.h:588-593, for a type of [w] bits.
    Every stored value is reduced modulo 2^w, as in C.  For the 8 and 16 bit
    types C evaluates [(2*y+1) << twice_k] in [int] and truncates when storing
    to [tmp], which is the same reduction. *)
Definition isqrt_step (w twice_k : Z) (s : isqrt_state) : isqrt_state :=
  let y1 := (2 * is_y s) in
  let y1' := y1 mod 2 ^ w in
  let t := (2 * y1' + 1) * 2 ^ twice_k in
  let tmp := t mod 2 ^ w in
  let o := is_ovf s || negb (fits w y1) || negb (fits w t) in
  if tmp <=? is_x s
  then mk_isqrt ((is_x s - tmp) mod 2 ^ w) ((y1' + 1) mod 2 ^ w)
                (o || negb (fits w (is_x s - tmp)) || negb (fits w (y1' + 1)))
  else mk_isqrt (is_x s) y1' o.

(** The loop /repo/vl/mathop.h:586-594 with [n] iterations left:
    [twice_k] runs over 2(n-1), ..., 2, 0. *)
Fixpoint isqrt_loop (w : Z) (n : nat) (s : isqrt_state) : isqrt_state :=
  match n with
  | O => s
  | S n' => isqrt_loop w n' (isqrt_step w (2 * Z.of_nat n') s)
  end.

(** [vl_fast_sqrt_uiW], /repo/vl/mathop.h:579-601, for a type of [bytes] bytes:
    [twice_k] starts at 8*bytes-2, so there are 4*bytes iterations. *)
Definition vl_fast_sqrt (bytes : nat) (x : Z) : isqrt_state :=
  isqrt_loop (8 * Z.of_nat bytes) (4 * bytes) (mk_isqrt x 0 false).

(** The four instantiations, /repo/vl/mathop.h:598-601. *)
Definition vl_fast_sqrt_ui64 (x : Z) : Z := is_y (vl_fast_sqrt 8 x).
Definition vl_fast_sqrt_ui32 (x : Z) : Z := is_y (vl_fast_sqrt 4 x).
Definition vl_fast_sqrt_ui16 (x : Z) : Z := is_y (vl_fast_sqrt 2 x).
Definition vl_fast_sqrt_ui8  (x : Z) : Z := is_y (vl_fast_sqrt 1 x).
