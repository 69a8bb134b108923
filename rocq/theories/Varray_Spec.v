(** Numeric arrays, stated with the types of the model only. *)
From Coq Require Import List ZArith.
From Verif Require Import Varray_Model.
Import ListNotations.
Local Open Scope Z_scope.

Fixpoint product (l : list Z) : Z := match l with [] => 1 | d :: l => d * product l end.
(** the bits of an element of each type *)
Definition bits (t : vtype) : Z :=
  match t with TInt8 | TUint8 => 8 | TInt16 | TUint16 => 16 | TFloat | TInt32 | TUint32 => 32 | TDouble | TInt64 | TUint64 => 64 end.
