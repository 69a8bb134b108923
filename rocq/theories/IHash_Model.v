(** The hash table of labels of the MATLAB toolbox: vl_ihashsum.c and vl_ihashfind.c.
    A label is the list of the bytes of a column; the array ID is the list of its columns.  Slots and the entries of NEXT are natural numbers
    without bound (the code has 32 bits), counts are integers modulo 2^32. *)
From Coq Require Import List Arith Bool ZArith.
Import ListNotations.
From Verif Require Import Base.

Definition label : Type := list Z.
(** fnv_hash, vl_ihashsum.c:20-30 and vl_ihashfind.c:20-30 *)
Definition fnv_hash (x : label) : Z := fold_left (fun h b => Z.lxor ((h * 16777619) mod 2 ^ 32) b) x 2166136261%Z.
(** is_null, vl_ihashsum.c:32-40 *)
Definition is_null (x : label) : bool := forallb (Z.eqb 0) x.
(** is_equal, vl_ihashsum.c:42-50 *)
Fixpoint is_equal (x y : label) : bool :=
  match x, y with
  | [], _ => true
  | a :: x', b :: y' => Z.eqb a b && is_equal x' y'
  | _ :: _, [] => false
  end.

(** the arrays H, ID and NEXT *)
Record table := Table { t_h : list Z; t_id : list label; t_next : list nat }.
(** the loop over the K slots, vl_ihashsum.c:178-184 and vl_ihashfind.c:159-165; [n] passes are left *)
Fixpoint probe (K : nat) (id : list label) (x : label) (h2 : Z) (n : nat) (h1 : Z) (p : nat) : option nat :=
  match n with
  | O => Some p
  | S n' => do l <- aget id p;
    if is_null l || is_equal l x then Some p
    else let h1' := ((h1 + h2) mod 2 ^ 32)%Z in probe K id x h2 n' h1' (Z.to_nat (h1' mod Z.of_nat K))
  end.
(** the slot at which the search of the overflow area begins, vl_ihashsum.c:174-184 and vl_ihashfind.c:155-165; [None]: division by zero *)
Definition first_slot (K : nat) (id : list label) (x : label) : option nat :=
  if K =? 0 then None else
  let h1 := (fnv_hash x mod Z.of_nat K)%Z in
  let h2 := Z.lor h1 1 in
  probe K id x h2 K h1 (Z.to_nat (h1 mod Z.of_nat K)).
(** room for more slots, vl_ihashsum.c:196-206 *)
Definition grow (D : nat) (t : table) : table :=
  let more := Nat.max (length (t_h t) / 2) 2 in
  Table (t_h t ++ repeat 0%Z more) (t_id t ++ repeat (repeat 0%Z D) more) (t_next t ++ repeat 0 more).
(** the overflow area, vl_ihashsum.c:189-210; the result [Some None] is the error raised in line 192 *)
Fixpoint overflow (D : nat) (x : label) (fuel : nat) (t : table) (last p : nat) : option (option (table * nat * nat)) :=
  match fuel with
  | O => None
  | S fuel' => do l <- aget (t_id t) p;
    if is_null l || is_equal l x then Some (Some (t, last, p)) else
    do n <- aget (t_next t) p;
    if length (t_h t) <? n then Some None else
    do (t, last, n) <- (if n =? 0 then
        let t := if length (t_h t) <=? last then grow D t else t in
        do next <- aset (t_next t) p (S last); Some (Table (t_h t) (t_id t) next, S last, S last)
      else Some (t, last, n));
    overflow D x fuel' t last (n - 1)
  end.
(** one column of X, vl_ihashsum.c:163-216; [Some None]: an error is raised *)
Definition add1 (D K : nat) (x : label) (t : table) (last : nat) : option (option (table * nat)) :=
  if is_null x then Some None else
  do p <- first_slot K (t_id t) x;
  do r <- overflow D x (S (S (length (t_h t)))) t last p;
  match r with
  | None => Some None
  | Some (t, last, p) =>
    do c <- aget (t_h t) p;
    do h <- aset (t_h t) p ((c + 1) mod 2 ^ 32)%Z;
    do id <- aset (t_id t) p x;
    Some (Some (Table h id (t_next t), last))
  end.
(** the loop over the columns, vl_ihashsum.c:163 *)
Fixpoint add_all (D K : nat) (X : list label) (t : table) (last : nat) : option (option (table * nat)) :=
  match X with
  | [] => Some (Some (t, last))
  | x :: X' => do r <- add1 D K x t last; match r with None => Some None | Some (t, last) => add_all D K X' t last end
  end.
(** vl_ihashsum, vl_ihashsum.c:69-240, after the checks of types and sizes; the arrays are cut at the last slot in use, lines 218-226 *)
Definition ihashsum (D K : nat) (X : list label) (t : table) : option (option table) :=
  let res := length (t_h t) in
  let last := fold_left Nat.max (t_next t) res in
  if (res <? K) || (res <? last) then Some None else
  do r <- add_all D K X t last;
  Some (match r with None => None | Some (t, last) => Some (Table (firstn last (t_h t)) (firstn last (t_id t)) (firstn last (t_next t))) end).
(** the overflow area, vl_ihashfind.c:168-172 *)
Fixpoint chain (x : label) (fuel : nat) (t : table) (p : nat) : option nat :=
  match fuel with
  | O => None
  | S fuel' => do l <- aget (t_id t) p;
    if is_null l || is_equal l x then Some p else
    do n <- aget (t_next t) p;
    if n =? 0 then Some p else chain x fuel' t (n - 1)
  end.
(** vl_ihashfind.c:144-182 for one column: the slot, from 1, or 0 *)
Definition find1 (K : nat) (t : table) (x : label) : option nat :=
  if is_null x then Some 0 else
  do p <- first_slot K (t_id t) x;
  do p <- chain x (S (length (t_h t))) t p;
  do l <- aget (t_id t) p;
  Some (if is_equal l x then S p else 0).
(** the table with which users begin, vl_ihashsum.m:35-38 *)
Definition empty (D K : nat) : table := Table (repeat 0%Z K) (repeat (repeat 0%Z D) K) (repeat 0 K).
(** a user's calls of vl_ihashsum one after another, each given the arrays the last one returned, vl_ihashsum.m:40 *)
Fixpoint sums (D K : nat) (B : list (list label)) (t : table) : option (option table) :=
  match B with [] => Some (Some t) | X :: B' => match ihashsum D K X t with Some (Some t') => sums D K B' t' | r => r end end.
