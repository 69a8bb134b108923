(** Model of the random number generator of /repo/vl/random.c and random.h.

    32-bit words are natural numbers below 2^32 of type N.  Doubles returned by
    the real-valued generators are modelled as exact rationals: for real2, real3 and
    res53 the C computation is exact in IEEE double; for real1 the product
    y * (1.0/4294967295.0) is rounded in C and is taken exactly here. *)
From Coq Require Import List NArith ZArith QArith Arith.
From Verif Require Import Base.
Import ListNotations.
Local Open Scope N_scope.

(** N, M and the masks, /repo/vl/random.c:119-123 *)
Definition mtN : nat := 624.
Definition mtM : nat := 397.
Definition MATRIX_A : N := 0x9908b0df.
Definition UPPER_MASK : N := 0x80000000.
Definition LOWER_MASK : N := 0x7fffffff.

(** Truncation to vl_uint32. *)
Definition w32 (x : N) : N := x mod 2 ^ 32.

(** struct _VlRand, /repo/vl/random.h:21-24.  Nothing forces the invariants of
    a well-formed generator here: an uninitialised object has arbitrary fields. *)
Record vlrand := mk_rand { r_mt : list N; r_mti : nat }.

(** vl_rand_init, /repo/vl/random.c:131-136 *)
Definition rand_init (g : vlrand) : option vlrand :=
  Some (mk_rand (repeat 0 mtN) (mtN + 1)).

(** The loop of vl_rand_seed, /repo/vl/random.c:149-158, with [n] = N - mti
    iterations left. *)
Fixpoint seed_loop (n : nat) (mt : list N) (mti : nat) : option (list N * nat) :=
  match n with
  | O => Some (mt, mti)
  | S n' =>
      do p <- aget mt (mti - 1);
      do mt1 <- aset mt mti
                  (w32 (1812433253 * (N.lxor p (N.shiftr p 30)) + N.of_nat mti));
      seed_loop n' mt1 (mti + 1)
  end.

(** vl_rand_seed, /repo/vl/random.c:143-161 *)
Definition rand_seed (g : vlrand) (s : N) : option vlrand :=
  do mt0 <- aset (r_mt g) 0 (w32 s);
  do (mt, mti) <- seed_loop (mtN - 1) mt0 1;
  Some (mk_rand mt mti).

(** First loop of vl_rand_seed_by_array, /repo/vl/random.c:178-185. *)
Fixpoint key_loop1 (k : nat) (mt : list N) (key : list N) (i j : nat) : option (list N * nat) :=
  match k with
  | O => Some (mt, i)
  | S k' =>
      do a <- aget mt i;
      do p <- aget mt (i - 1);
      do kj <- aget key j;
      do mt1 <- aset mt i
        (w32 (N.lxor a (w32 (N.lxor p (N.shiftr p 30) * 1664525)) + kj + N.of_nat j));
      let i1 := (i + 1)%nat in
      let j1 := (j + 1)%nat in
      do (mt2, i2) <- (if (mtN <=? i1)%nat
                       then do e <- aget mt1 (mtN - 1); do m <- aset mt1 0 e; Some (m, 1%nat)
                       else Some (mt1, i1));
      let j2 := if (length key <=? j1)%nat then 0%nat else j1 in
      key_loop1 k' mt2 key i2 j2
  end.

(** Second loop, /repo/vl/random.c:186-192.  The subtraction is modulo 2^32. *)
Fixpoint key_loop2 (k : nat) (mt : list N) (i : nat) : option (list N) :=
  match k with
  | O => Some mt
  | S k' =>
      do a <- aget mt i;
      do p <- aget mt (i - 1);
      do mt1 <- aset mt i
        (w32 (N.lxor a (w32 (N.lxor p (N.shiftr p 30) * 1566083941)) + 2 ^ 32 - N.of_nat i));
      let i1 := (i + 1)%nat in
      do (mt2, i2) <- (if (mtN <=? i1)%nat
                       then do e <- aget mt1 (mtN - 1); do m <- aset mt1 0 e; Some (m, 1%nat)
                       else Some (mt1, i1));
      key_loop2 k' mt2 i2
  end.

(** vl_rand_seed_by_array, /repo/vl/random.c:169-197.  [keySize] is the length
    of the key; the C code counts in [int], so the model is meant for keys
    shorter than 2^31. *)
Definition rand_seed_by_array (g : vlrand) (key : list N) : option vlrand :=
  do g1 <- rand_seed g 19650218;
  do (mt1, i) <- key_loop1 (Nat.max mtN (length key)) (r_mt g1) key 1 0;
  do mt2 <- key_loop2 (mtN - 1) mt1 i;
  do mt3 <- aset mt2 0 0x80000000;
  Some (mk_rand mt3 (r_mti g1)).

(** mag01, /repo/vl/random.c:228 *)
Definition mag01 (b : N) : N := if b =? 0 then 0 else MATRIX_A.

(** One word of the refill: /repo/vl/random.c:241-242 (and 245-246, 248-249),
    where [mt[kk]] is replaced using [mt[next]] and [mt[far]]. *)
Definition refill_word (mt : list N) (kk next far : nat) : option (list N) :=
  do a <- aget mt kk;
  do b <- aget mt next;
  do c <- aget mt far;
  let y := N.lor (N.land a UPPER_MASK) (N.land b LOWER_MASK) in
  aset mt kk (N.lxor (N.lxor c (N.shiftr y 1)) (mag01 (N.land y 1))).

(** /repo/vl/random.c:240-243, [n] iterations left *)
Fixpoint refill1 (n : nat) (mt : list N) (kk : nat) : option (list N) :=
  match n with
  | O => Some mt
  | S n' => do mt1 <- refill_word mt kk (kk + 1) (kk + mtM); refill1 n' mt1 (kk + 1)
  end.

(** /repo/vl/random.c:244-247, [n] iterations left *)
Fixpoint refill2 (n : nat) (mt : list N) (kk : nat) : option (list N) :=
  match n with
  | O => Some mt
  | S n' => do mt1 <- refill_word mt kk (kk + 1) (kk - (mtN - mtM)); refill2 n' mt1 (kk + 1)
  end.

(** /repo/vl/random.c:240-249 *)
Definition refill (mt : list N) : option (list N) :=
  do mt1 <- refill1 (mtN - mtM) mt 0;
  do mt2 <- refill2 (mtM - 1) mt1 (mtN - mtM);
  refill_word mt2 (mtN - 1) 0 (mtM - 1).

(** Tempering, /repo/vl/random.c:257-260; shifts to the left are truncated to
    32 bits. *)
Definition temper (y0 : N) : N :=
  let y1 := N.lxor y0 (N.shiftr y0 11) in
  let y2 := N.lxor y1 (N.land (w32 (N.shiftl y1 7)) 0x9d2c5680) in
  let y3 := N.lxor y2 (N.land (w32 (N.shiftl y2 15)) 0xefc60000) in
  N.lxor y3 (N.shiftr y3 18).

(** vl_rand_uint32, /repo/vl/random.c:224-266 *)
Definition rand_uint32 (g : vlrand) : option (vlrand * N) :=
  do g1 <- (if (mtN <=? r_mti g)%nat then
              do g0 <- (if (r_mti g =? mtN + 1)%nat then rand_seed g 5489 else Some g);
              do mt <- refill (r_mt g0);
              Some (mk_rand mt 0)
            else Some g);
  do y <- aget (r_mt g1) (r_mti g1);
  Some (mk_rand (r_mt g1) (r_mti g1 + 1), temper y).

(** vl_rand_uint64, /repo/vl/random.h:81-87 *)
Definition rand_uint64 (g : vlrand) : option (vlrand * N) :=
  do (g1, a) <- rand_uint32 g;
  do (g2, b) <- rand_uint32 g1;
  Some (g2, N.lor (N.shiftl a 32) b).

(** vl_rand_int63 and vl_rand_int31, /repo/vl/random.h:94-109 *)
Definition rand_int63 (g : vlrand) : option (vlrand * N) :=
  do (g1, a) <- rand_uint64 g; Some (g1, N.shiftr a 1).
Definition rand_int31 (g : vlrand) : option (vlrand * N) :=
  do (g1, a) <- rand_uint32 g; Some (g1, N.shiftr a 1).

(** vl_rand_uindex, /repo/vl/random.h:64-74; the remainder by zero of range 0
    is undefined behaviour. *)
Definition rand_uindex (g : vlrand) (range : N) : option (vlrand * N) :=
  if range =? 0 then None
  else if range <=? 0xffffffff then
    do (g1, y) <- rand_uint32 g; Some (g1, y mod range)
  else
    do (g1, y) <- rand_uint64 g; Some (g1, y mod range).

(** vl_rand_real1, real2, real3, res53, /repo/vl/random.h:116-159 *)
Definition rand_real1 (g : vlrand) : option (vlrand * Q) :=
  do (g1, y) <- rand_uint32 g; Some (g1, Qmake (Z.of_N y) 4294967295).
Definition rand_real2 (g : vlrand) : option (vlrand * Q) :=
  do (g1, y) <- rand_uint32 g; Some (g1, Qmake (Z.of_N y) 4294967296).
Definition rand_real3 (g : vlrand) : option (vlrand * Q) :=
  do (g1, y) <- rand_uint32 g;
  Some (g1, Qmult (Qplus (inject_Z (Z.of_N y)) (Qmake 1 2)) (Qmake 1 4294967296)).
Definition rand_res53 (g : vlrand) : option (vlrand * Q) :=
  do (g1, y) <- rand_uint32 g;
  do (g2, z) <- rand_uint32 g1;
  let a := N.shiftr y 5 in
  let b := N.shiftr z 6 in
  Some (g2, Qmake (Z.of_N (a * 67108864 + b)) 9007199254740992).

(** Calls of the public interface, and what each returns. *)
Inductive rand_op :=
| OpInit | OpSeed (s : N) | OpSeedByArray (key : list N)
| OpUint32 | OpUint64 | OpInt63 | OpInt31 | OpUindex (range : N)
| OpReal1 | OpReal2 | OpReal3 | OpRes53.

Inductive rand_out := RNone | RNum (n : N) | RReal (q : Q).

Definition rand_step (g : vlrand) (o : rand_op) : option (vlrand * rand_out) :=
  match o with
  | OpInit => do g1 <- rand_init g; Some (g1, RNone)
  | OpSeed s => do g1 <- rand_seed g s; Some (g1, RNone)
  | OpSeedByArray key => do g1 <- rand_seed_by_array g key; Some (g1, RNone)
  | OpUint32 => do (g1, n) <- rand_uint32 g; Some (g1, RNum n)
  | OpUint64 => do (g1, n) <- rand_uint64 g; Some (g1, RNum n)
  | OpInt63 => do (g1, n) <- rand_int63 g; Some (g1, RNum n)
  | OpInt31 => do (g1, n) <- rand_int31 g; Some (g1, RNum n)
  | OpUindex r => do (g1, n) <- rand_uindex g r; Some (g1, RNum n)
  | OpReal1 => do (g1, q) <- rand_real1 g; Some (g1, RReal q)
  | OpReal2 => do (g1, q) <- rand_real2 g; Some (g1, RReal q)
  | OpReal3 => do (g1, q) <- rand_real3 g; Some (g1, RReal q)
  | OpRes53 => do (g1, q) <- rand_res53 g; Some (g1, RReal q)
  end.

Fixpoint rand_run (g : vlrand) (ops : list rand_op) : option (vlrand * list rand_out) :=
  match ops with
  | [] => Some (g, [])
  | o :: ops' =>
      do (g1, r) <- rand_step g o;
      do (g2, rs) <- rand_run g1 ops';
      Some (g2, r :: rs)
  end.
