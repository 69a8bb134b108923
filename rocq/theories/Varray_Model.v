(** Numeric arrays, vl/array.c and array.h, names and sizes of types, vl/generic.h:57-99, and the conversions from and to MATLAB arrays,
    toolbox/mexutils.h:566-646.  The heap is a list of blocks of bytes, [None] if freed; a pointer is the number of a block.  The number of
    dimensions is the length of the list of dimensions. *)
From Coq Require Import List Arith ZArith Bool String.
Import ListNotations.
From Verif Require Import Base Loop MexUtil_Model.
Local Open Scope Z_scope.

Inductive vtype := TFloat | TDouble | TInt8 | TInt16 | TInt32 | TInt64 | TUint8 | TUint16 | TUint32 | TUint64.
(** vl_get_type_name, generic.h:57-73 *)
Definition type_name (t : vtype) : string :=
  match t with
  | TFloat => "float" | TDouble => "double" | TInt8 => "int8" | TInt16 => "int16" | TInt32 => "int32" | TInt64 => "int64"
  | TUint8 => "int8" | TUint16 => "int16" | TUint32 => "int32" | TUint64 => "int64"
  end%string.
(** vl_get_type_size, generic.h:84-99 *)
Definition type_size (t : vtype) : Z :=
  match t with
  | TDouble => 8 | TFloat => 4 | TInt64 | TUint64 => 8 | TInt32 | TUint32 => 4 | TInt16 | TUint16 => 2 | TInt8 | TUint8 => 1
  end.

Definition heap := list (option (list Z)).
(** vl_malloc: [junk] fills the block *)
Definition malloc (junk : Z) (size : Z) (h : heap) : nat * heap := (List.length h, h ++ [Some (repeat junk (Z.to_nat size))]).
(** vl_free: the block must be live *)
Definition free (p : nat) (h : heap) : option heap := do b <- aget h p; match b with Some _ => aset h p None | None => None end.

(** VlArray, array.h:23-33 *)
Record varray := mk_varray { v_type : vtype; v_envelope : bool; v_sparse : bool; v_dims : list Z; v_data : option nat }.
Definition size_mul (a b : Z) : Z := (a * b) mod 2 ^ 64.
(** vl_array_get_num_elements, array.c:22-34 *)
Definition num_elements (dims : list Z) : option Z :=
  if (List.length dims =? 0)%nat then Some 0 else iter (List.length dims) (fun k n => do d <- aget dims k; Some (size_mul n d)) 1.
Section Array.
Variable junk : Z.
(** vl_array_init, array.c:50-62; the assertion on the number of dimensions precedes the copy *)
Definition array_init (t : vtype) (dims : list Z) (h : heap) : option (varray * heap) :=
  if (16 <? List.length dims)%nat then None else
  do n <- num_elements dims;
  let '(p, h) := malloc junk (size_mul (type_size t) n) h in
  Some (mk_varray t false false dims (Some p), h).
(** vl_array_init_envelope, array.c:75-87 *)
Definition array_init_envelope (data : nat) (t : vtype) (dims : list Z) : option varray :=
  if (16 <? List.length dims)%nat then None else Some (mk_varray t true false dims (Some data)).
(** vl_array_init_matrix, vl_array_init_matrix_envelope, array.c:96-117 *)
Definition array_init_matrix (t : vtype) (rows cols : Z) (h : heap) : option (varray * heap) := array_init t [rows; cols] h.
Definition array_init_matrix_envelope (data : nat) (t : vtype) (rows cols : Z) : option varray := array_init_envelope data t [rows; cols].
(** vl_array_dealloc, array.c:123-132 *)
Definition array_dealloc (a : varray) (h : heap) : option (varray * heap) :=
  if negb (v_envelope a) then
    match v_data a with
    | Some p => do h <- free p h; Some (mk_varray (v_type a) (v_envelope a) (v_sparse a) (v_dims a) None, h)
    | None => Some (a, h)
    end
  else Some (a, h).
(** vl_array_new, vl_array_new_matrix, vl_array_new_envelope, vl_array_new_matrix_envelope, array.c:148-195: the block of the structure, its contents and the heap *)
Definition struct_size : Z := 200.
Definition array_new (t : vtype) (dims : list Z) (h : heap) : option (nat * varray * heap) :=
  let '(self, h) := malloc junk struct_size h in
  do (a, h) <- array_init t dims h; Some (self, a, h).
Definition array_new_matrix (t : vtype) (rows cols : Z) (h : heap) : option (nat * varray * heap) := array_new t [rows; cols] h.
Definition array_new_envelope (data : nat) (t : vtype) (dims : list Z) (h : heap) : option (nat * varray * heap) :=
  let '(self, h) := malloc junk struct_size h in
  do a <- array_init_envelope data t dims; Some (self, a, h).
Definition array_new_matrix_envelope (data : nat) (t : vtype) (rows cols : Z) (h : heap) : option (nat * varray * heap) := array_new_envelope data t [rows; cols] h.
(** vl_array_delete, array.c:201-206 *)
Definition array_delete (self : nat) (a : varray) (h : heap) : option heap :=
  do (_, h) <- array_dealloc a h; free self h.
End Array.

(** a numeric array of MATLAB: class, dimensions and its block *)
Record mnum := mk_mnum { mn_class : mclass; mn_dims : list Z; mn_data : nat }.
(** mexutils.h:583-595 *)
Definition class_of (t : vtype) : mclass :=
  match t with
  | TFloat => Single | TDouble => Double | TInt8 => Int8 | TInt16 => Int16 | TInt32 => Int32 | TInt64 => Int64
  | TUint8 => Uint8 | TUint16 => Uint16 | TUint32 => Uint32 | TUint64 => Uint64
  end.
(** mexutils.h:630-642; other classes abort *)
Definition type_of (c : mclass) : option vtype :=
  match c with
  | Single => Some TFloat | Double => Some TDouble | Int8 => Some TInt8 | Int16 => Some TInt16 | Int32 => Some TInt32 | Int64 => Some TInt64
  | Uint8 => Some TUint8 | Uint16 => Some TUint16 | Uint32 => Some TUint32 | Uint64 => Some TUint64 | _ => None
  end.
(** mxCreateNumericArray: zeros; the number of bytes is not cut to 64 bits *)
Definition create_numeric (c : mclass) (t : vtype) (dims : list Z) (h : heap) : mnum * heap :=
  (mk_mnum c dims (List.length h), h ++ [Some (repeat 0 (Z.to_nat (type_size t * fold_right Z.mul 1 dims)))]).
(** vlmxCreateArrayFromVlArray, mexutils.h:566-607 *)
Definition create_from_vlarray (a : varray) (h : heap) : option (mnum * heap) :=
  do n <- num_elements (v_dims a);
  let t := v_type a in
  if (16 <? List.length (v_dims a))%nat then None else
  let '(m, h) := create_numeric (class_of t) t (v_dims a) h in
  let len := Z.to_nat (size_mul (type_size t) n) in
  do p <- v_data a;
  do src <- aget h p; do src <- src;
  do dst <- aget h (mn_data m); do dst <- dst;
  if (List.length src <? len)%nat || (List.length dst <? len)%nat then None else
  do h <- aset h (mn_data m) (Some (firstn len src ++ skipn len dst));
  Some (m, h).
(** vlmxEnvelopeArrayInVlArray, mexutils.h:616-646: dimensions are copied to an array of 16 before the assertion *)
Definition envelope_in_vlarray (m : mnum) : option varray :=
  if (16 <? List.length (mn_dims m))%nat then None else
  do t <- type_of (mn_class m);
  array_init_envelope (mn_data m) t (mn_dims m).
