(** vl_twister, toolbox/misc/vl_twister.c: the MATLAB interface of the random number generator.  An argument is an array
    as in MexUtil_Model, its values if of class DOUBLE (exact rational numbers; of a sparse array those stored) and its
    words if of class UINT32.  [None] is undefined behaviour, [Some None] an error raised, which leaves the generator as it is.
    The number of output arguments and the memory for the output are not modelled. *)
From Coq Require Import List NArith ZArith QArith Qcanon Arith Bool.
Import ListNotations.
From Verif Require Import Base Rat Str_Model Gauss_Model Random_Model MexUtil_Model.
Local Open Scope nat_scope.

Record targ := mk_targ { t_arr : marray; t_vals : list Qc; t_words : list N }.
Inductive outcome := Drawn (dims : list nat) (x : list Q) | State (w : list N) | Quiet.

(** conversions of a double: to vl_uint32 (undefined out of range), and to mwSize after the test for negative numbers *)
Definition to_uint32 (q : Qc) : option N :=
  if qlt (zq (-1)) q && qlt q (zq 4294967296) then Some (Z.to_N (qfloor q)) else None.
Definition to_size (q : Qc) : option nat :=
  if qlt q (zq 18446744073709551616) then Some (Z.to_nat (qfloor q)) else None.

(** vl_twister.c:116-118: one number for each element *)
Fixpoint draw_all (n : nat) (g : vlrand) : option (vlrand * list Q) :=
  match n with
  | O => Some (g, [])
  | S n => do (g1, x) <- rand_res53 g; do (g2, xs) <- draw_all n g1; Some (g2, x :: xs)
  end.

(** vl_twister.c:67-77: the dimensions are given as scalars *)
Fixpoint scalar_dims (args : list targ) : option (option (list nat)) :=
  match args with
  | [] => Some (Some [])
  | a :: args =>
    if negb (is_plain_scalar (t_arr a)) then Some None
    else do x <- aget (t_vals a) 0;
         if qlt x 0 then Some None
         else do d <- to_size x; do r <- scalar_dims args; Some (option_map (cons d) r)
  end.
(** vl_twister.c:103-109: the dimensions are the elements of a vector *)
Fixpoint vector_dims (vals : list Qc) (n k : nat) : option (option (list nat)) :=
  match n with
  | O => Some (Some [])
  | S n =>
    do x <- aget vals k;
    if qlt x 0 then Some None
    else do d <- to_size x; do r <- vector_dims vals n (k + 1); Some (option_map (cons d) r)
  end.
Definition maxNumDimensions : nat := 30.
(** vl_twister.c:55-111: the dimensions of the output; the array of dimensions starts with 1, 1 *)
Definition out_dims (args : list targ) : option (option (list nat)) :=
  if 1 <? length args then
    if maxNumDimensions <=? length args then Some None else scalar_dims args
  else match args with
  | [] => Some (Some [1; 1])
  | a :: _ =>
    do b <- is_plain_vector (t_arr a) (-1);
    if negb b then Some None
    else
      let n := numel (t_arr a) in
      if maxNumDimensions <? Nat.max 2 n then Some None
      else if n =? 1 then
        do x <- aget (t_vals a) 0;
        if qlt x 0 then Some None else do d <- to_size x; Some (Some [d; d])
      else
        do r <- vector_dims (t_vals a) n 0;
        Some (option_map (fun l => if n =? 0 then [1; 1] else l) r)
  end.

(** vl_twister.c:138-141 *)
Definition read_state (g : vlrand) : option (list N) :=
  do mt <- (fix go (n : nat) (i : nat) {struct n} : option (list N) :=
      match n with O => Some [] | S n => do w <- aget (r_mt g) i; do r <- go n (i + 1); Some (w :: r) end) 624 0;
  Some (mt ++ [w32 (N.of_nat (r_mti g))]).
(** vl_twister.c:154-155, and 164-166 *)
Fixpoint copy_words (n i : nat) (data mt : list N) : option (list N) :=
  match n with O => Some mt | S n => do w <- aget data i; do mt <- aset mt i w; copy_words n (i + 1) data mt end.
Fixpoint key_of (vals : list Qc) (n k : nat) : option (list N) :=
  match n with O => Some [] | S n => do x <- aget vals k; do w <- to_uint32 x; do r <- key_of vals n (k + 1); Some (w :: r) end.
(** vl_twister.c:143-168: seed, restore the state, seed by a key, or do nothing *)
Definition set_state (a : targ) (g : vlrand) : option vlrand :=
  let n := numel (t_arr a) in
  if is_plain_scalar (t_arr a) then do x <- aget (t_vals a) 0; do s <- to_uint32 x; rand_seed g s
  else
    do restore <- (if numeric (a_class (t_arr a)) && class_eqb (a_class (t_arr a)) Uint32 && (n =? 625)
                   then do w <- aget (t_words a) 624; Some (w <=? 624)%N else Some false);
    if restore then
      do mt <- copy_words 624 0 (t_words a) (r_mt g);
      do w <- aget (t_words a) 624; Some (mk_rand mt (N.to_nat w))
    else if numeric (a_class (t_arr a)) && class_eqb (a_class (t_arr a)) Double && (n <=? 624) then
      do key <- key_of (t_vals a) n 0; rand_seed_by_array g key
    else Some g.

(** "state" *)
Definition state_name : list N := [115; 116; 97; 116; 101; 0]%N.
(** vl_twister.c:24-176 *)
Definition twister (args : list targ) (g : vlrand) : option (option (vlrand * outcome)) :=
  match args with
  | a :: rest =>
    if negb (numeric (a_class (t_arr a))) then
      if negb (is_string (t_arr a) (-1)) then Some None
      else match get_string (t_arr a) 32 with
      | None => Some None
      | Some buff =>
        do c <- casei_cmp state_name buff;
        if negb (c =? 0)%Z then Some None
        else match rest with
        | [] => do w <- read_state g; Some (Some (g, State w))
        | b :: _ => do g1 <- set_state b g; Some (Some (g1, Quiet))
        end
      end
    else
      do r <- out_dims args;
      match r with None => Some None | Some dims => do (g1, x) <- draw_all (prod dims) g; Some (Some (g1, Drawn dims x)) end
  | [] =>
    do r <- out_dims args;
    match r with None => Some None | Some dims => do (g1, x) <- draw_all (prod dims) g; Some (Some (g1, Drawn dims x)) end
  end.
