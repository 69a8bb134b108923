(** Specifications for PGM files and byte order, independent of the readers. *)
From Coq Require Import List ZArith.
Import ListNotations.
Local Open Scope Z_scope.

(** [m'] is [m] with the [n] bytes at [dst] replaced by [new], nothing else. *)
Definition replaced (m : list Z) (dst : nat) (new : list Z) (m' : list Z) : Prop :=
  m' = firstn dst m ++ new ++ skipn (dst + length new) m.

(** The [n] bytes at offset [o]. *)
Definition bytes_at (m : list Z) (o n : nat) : list Z := firstn n (skipn o m).

(** The two ranges of [n] bytes do not overlap and lie in the memory. *)
Definition disjoint_ranges (m : list Z) (dst src n : nat) : Prop :=
  (dst + n <= length m /\ src + n <= length m /\ (dst + n <= src \/ src + n <= dst))%nat.

(** Value of a big-endian byte string. *)
Fixpoint be_value (l : list Z) : Z :=
  match l with [] => 0 | b :: l' => b * 256 ^ Z.of_nat (length l') + be_value l' end.
(** Value of a little-endian byte string. *)
Fixpoint le_value (l : list Z) : Z :=
  match l with [] => 0 | b :: l' => b + 256 * le_value l' end.
Definition host_value (big : bool) (l : list Z) : Z := if big then be_value l else le_value l.
