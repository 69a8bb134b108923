(** Comparison functions in the style of C: the sign of the result decides. *)
From Coq Require Import ZArith.
Local Open Scope Z_scope.

(** [cmp] compares by some total preorder: it is antisymmetric in sign and
    "not greater" is transitive.  Distinct elements may compare equal. *)
Record total_preorder {A : Type} (cmp : A -> A -> Z) : Prop := {
  cmp_flip : forall a b, cmp a b < 0 <-> cmp b a > 0;
  cmp_trans : forall a b c, cmp a b <= 0 -> cmp b c <= 0 -> cmp a c <= 0
}.
