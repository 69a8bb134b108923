(** Tests of MATLAB arrays and parsing of options, toolbox/mexutils.h.  An array is its class, its flags, its
    dimensions (at least two) and, if of class CHAR, its characters; values are not needed.  Sizes are unbounded,
    and compared through casts to 32 bits as in the code.  tolower is that of the "C" locale, and the identity
    above 255, where the C standard does not define it. *)
From Coq Require Import List NArith ZArith Arith Bool.
Import ListNotations.
From Verif Require Import Base Str_Model.
Local Open Scope nat_scope.

Inductive mclass := Double | Single | Int8 | Int16 | Int32 | Int64 | Uint8 | Uint16 | Uint32 | Uint64 | Char | Logical | Struct | Cell | Other.
Definition class_eqb (a b : mclass) : bool :=
  match a, b with
  | Double, Double | Single, Single | Int8, Int8 | Int16, Int16 | Int32, Int32 | Int64, Int64 | Uint8, Uint8 | Uint16, Uint16
  | Uint32, Uint32 | Uint64, Uint64 | Char, Char | Logical, Logical | Struct, Struct | Cell, Cell | Other, Other => true
  | _, _ => false
  end.
Record marray := mk_marray { a_class : mclass; a_complex : bool; a_sparse : bool; a_dims : list nat; a_chars : list N }.

(** the MATLAB functions: mxIsNumeric, mxGetNumberOfElements, mxGetM, mxGetN (the product of the dimensions from the second) *)
Definition numeric (c : mclass) : bool := match c with Char | Logical | Struct | Cell | Other => false | _ => true end.
Definition prod (l : list nat) : nat := fold_right Nat.mul 1 l.
Definition numel (a : marray) : nat := prod (a_dims a).
Definition get_M (a : marray) : nat := nth 0 (a_dims a) 1.
Definition get_N (a : marray) : nat := prod (tl (a_dims a)).
(** a cast to unsigned, of a size and of a vl_index *)
Definition cast (n : nat) : Z := (Z.of_nat n mod 4294967296)%Z.
Definition zcast (z : Z) : Z := (z mod 4294967296)%Z.

(** vlmxIsOfClass, vlmxIsReal, vlmxIsScalar, mexutils.h:307-342 *)
Definition is_of_class (a : marray) (c : mclass) : bool := class_eqb (a_class a) c.
Definition is_real (a : marray) : bool := numeric (a_class a) && negb (a_complex a).
Definition is_scalar (a : marray) : bool := negb (a_sparse a) && (numel a =? 1).

(** the two loops of vlmxIsVector, mexutils.h:370-376; the first returns the index where it stops *)
Fixpoint skip_ones (fuel : nat) (dims : list nat) (nd di : nat) : option nat :=
  match fuel with
  | O => None
  | S fuel =>
    if di <? nd then do d <- aget dims di; if d =? 1 then skip_ones fuel dims nd (di + 1) else Some di
    else Some di
  end.
Fixpoint only_ones (fuel : nat) (dims : list nat) (nd di : nat) : option bool :=
  match fuel with
  | O => None
  | S fuel =>
    if di <? nd then do d <- aget dims di; if d =? 1 then only_ones fuel dims nd (di + 1) else Some false
    else Some true
  end.
(** vlmxIsVector, mexutils.h:352-378 *)
Definition is_vector (a : marray) (numElements : Z) : option bool :=
  if a_sparse a then Some false
  else if ((0 <=? numElements) && negb (cast (numel a) =? zcast numElements))%Z then Some false
  else
    let nd := length (a_dims a) in
    do di <- skip_ones (nd + 1) (a_dims a) nd 0;
    only_ones (nd + 1) (a_dims a) nd (di + 1).

(** the dimension number di; [past] is what is stored after the last one, if it can be read *)
Definition dim_at (past : option nat) (dims : list nat) (di : nat) : option nat :=
  if di <? length dims then aget dims di else if di =? length dims then past else None.
(** the loop of vlmxIsMatrix, mexutils.h:415: the dimension is read before its index is tested *)
Fixpoint skip_single (fuel : nat) (past : option nat) (dims : list nat) (nd di : nat) : option nat :=
  match fuel with
  | O => None
  | S fuel =>
    do d <- dim_at past dims di;
    if (cast d =? 1)%Z && (di <? nd) then skip_single fuel past dims nd (di + 1) else Some di
  end.
(** vlmxIsMatrix, mexutils.h:389-417 *)
Definition is_matrix (past : option nat) (a : marray) (M N : Z) : option bool :=
  if a_sparse a then Some false
  else if ((0 <=? M) && negb (cast (get_M a) =? zcast M))%Z then Some false
  else if ((0 <=? N) && negb (cast (get_N a) =? zcast N))%Z then Some false
  else if (numel a =? 0) && ((get_M a =? 0) || (get_N a =? 0)) then Some true
  else
    let nd := length (a_dims a) in
    do di <- skip_single (nd + 1) past (a_dims a) nd 2;
    Some (di =? nd).

(** vlmxIsArray, mexutils.h:433-452; the prescribed dimensions, if given, are read up to their number *)
Fixpoint dims_match (cnt d : nat) (want : list Z) (dims : list nat) : option bool :=
  match cnt with
  | O => Some true
  | S cnt =>
    do w <- aget want d;
    if (w <? 0)%Z then dims_match cnt (d + 1) want dims
    else do v <- aget dims d; if (zcast w =? cast v)%Z then dims_match cnt (d + 1) want dims else Some false
  end.
Definition is_array (a : marray) (numDimensions : Z) (dimensions : option (list Z)) : option bool :=
  if (numDimensions <? 0)%Z then Some true
  else if negb (cast (length (a_dims a)) =? zcast numDimensions)%Z then Some false
  else match dimensions with
       | None => Some true
       | Some want => dims_match (Z.to_nat numDimensions) 0 want (a_dims a)
       end.

(** plain arrays, mexutils.h:466-516 *)
Definition is_plain (a : marray) : bool := is_real a && is_of_class a Double.
Definition is_plain_scalar (a : marray) : bool := is_plain a && is_scalar a.
Definition is_plain_vector (a : marray) (n : Z) : option bool := if is_plain a then is_vector a n else Some false.
Definition is_plain_matrix (past : option nat) (a : marray) (M N : Z) : option bool := if is_plain a then is_matrix past a M N else Some false.
(** vlmxIsString, mexutils.h:530-541; the cast to signed is to 64 bits *)
Definition is_string (a : marray) (len : Z) : bool :=
  class_eqb (a_class a) Char && (length (a_dims a) =? 2) && ((get_M a =? 1) || ((get_M a =? 0) && (get_N a =? 0))) &&
  ((len <? 0) || (Z.of_nat (get_N a) =? len))%Z.

(** vlmxCompareToStringI, mexutils.h:686-704: [s1] are the characters of the array, [s2] a C string *)
Fixpoint compare_to_string (s1 s2 : list N) {struct s1} : option Z :=
  match s2 with
  | [] => None
  | c2 :: t2 =>
    match s1 with
    | [] => Some (0 - Z.of_N (tolower c2))%Z
    | c1 :: t1 =>
      if (tolower c1 =? tolower c2)%N then if (c2 =? 0)%N then Some 1%Z else compare_to_string t1 t2
      else Some (Z.of_N (tolower c1) - Z.of_N (tolower c2))%Z
    end
  end.
(** vlmxIsEqualToStringI, mexutils.h:713-717 *)
Definition is_equal_to_string (s1 s2 : list N) : option bool := do v <- compare_to_string s1 s2; Some (v =? 0)%Z.

(** mxGetString: at most size - 1 characters, converted to bytes, and a zero; [None] if they do not fit *)
Definition get_string (a : marray) (size : nat) : option (list N) :=
  if length (a_chars a) <? size then Some (map (fun c => (c mod 256)%N) (a_chars a) ++ [0%N]) else None.

(** vlmxOption, mexutils.h:725-734: the table ends with a null name *)
Record moption := mk_moption { o_name : option (list N); o_has_arg : bool; o_val : Z }.
(** the search in the table, mexutils.h:795-800; vlmxCompareStringsI, mexutils.h:659-674, is the code of vl_string_casei_cmp *)
Fixpoint lookup (tbl : list moption) (name : list N) : option (option moption) :=
  match tbl with
  | [] => None
  | o :: tbl =>
    match o_name o with
    | None => Some None
    | Some n => do v <- casei_cmp name n; if (v =? 0)%Z then Some (Some o) else lookup tbl name
    end
  end.
(** what a call of vlmxNextOption returns: no more options, or a code, the argument if any, and the next position *)
Inductive next_result := Done | Found (opt : Z) (optarg : option marray) (next : nat).
(** vlmxNextOption, mexutils.h:764-823; [Some None] is an error raised *)
Definition next_option (args : list marray) (tbl : list moption) (next : nat) : option (option next_result) :=
  if length args <=? next then Some (Some Done)
  else
    do a <- aget args next;
    if negb (is_string a (-1)) then Some None
    else match get_string a 1024 with
      | None => Some None
      | Some name =>
        do r <- lookup tbl name;
        match r with
        | None => Some None
        | Some o =>
          if (o_val o <? 0)%Z then Some None
          else if negb (o_has_arg o) then Some (Some (Found (o_val o) None (next + 1)))
          else if length args <=? next + 1 then Some None
          else do v <- aget args (next + 1); Some (Some (Found (o_val o) (Some v) (next + 2)))
        end
      end.
(** the loop of the callers, for instance vl_kdtreebuild.c:94-145: all the options from a position *)
Fixpoint all_options (fuel : nat) (args : list marray) (tbl : list moption) (next : nat) : option (option (list (Z * option marray))) :=
  match fuel with
  | O => None
  | S fuel =>
    do r <- next_option args tbl next;
    match r with
    | None => Some None
    | Some Done => Some (Some [])
    | Some (Found opt optarg next) =>
      do r <- all_options fuel args tbl next;
      Some (option_map (cons (opt, optarg)) r)
    end
  end.
