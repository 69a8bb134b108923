(** The region of a pixel, vl_erfill.c of the MATLAB toolbox.  The subscripts and the enumeration of the neighbours are those of mser.c, modelled in Mser_Model:
    lines 103-106, 137-141, 151-155 and 179-183 of vl_erfill.c are the lines cited there.
    [Some None] is an error raised, [None] is an access out of bounds. *)
From Coq Require Import List Arith Bool ZArith.
Import ListNotations.
From Verif Require Import Base Mser_Model.
Local Open Scope nat_scope.

(** the comparison with the value of the first pixel, vl_erfill.c:167-168 *)
Definition passes (invert : bool) (value v : nat) : bool := if invert then value <=? v else v <=? value.
(** visited_pt, and the first [last] entries of members_pt, which has room for [cap] *)
Definition state : Type := list bool * list nat.
(** a neighbour within the image, vl_erfill.c:165-176 *)
Definition visit (cap : nat) (im : list nat) (invert : bool) (value index nindex : nat) (s : state) : option state :=
  let '(visited, members) := s in
  if nindex =? index then Some s else
  do v <- aget im nindex;
  if negb (passes invert value v) then Some s else
  do f <- aget visited nindex;
  if f : bool then Some s else
  do visited <- aset visited nindex true;
  if length members <? cap then Some (visited, members ++ [nindex]) else None.
(** the loop over the neighbours, vl_erfill.c:145-184 *)
Fixpoint neighbours (fuel cap : nat) (dims im : list nat) (invert : bool) (value index : nat) (subs : list nat) (nsubs : list Z) (s : state) : option state :=
  match fuel with
  | O => None
  | S fuel' =>
    do s <- match nbr_index subs nsubs dims (strides_of dims) 0 with Some nindex => visit cap im invert value index nindex s | None => Some s end;
    match next_dsubs nsubs with None => Some s | Some nsubs => neighbours fuel' cap dims im invert value index subs nsubs s end
  end.
(** the main loop, vl_erfill.c:128-186; [k] is last_expanded *)
Fixpoint fill (fuel cap : nat) (dims im : list nat) (invert : bool) (value k : nat) (s : state) : option (list nat) :=
  match fuel with
  | O => None
  | S fuel' => if k <? length (snd s) then
      do index <- aget (snd s) k;
      do s <- neighbours (3 ^ length dims) cap dims im invert value index (subs_of dims index) (repeat (-1)%Z (length dims)) s;
      fill fuel' cap dims im invert value (S k) s
    else Some (snd s)
  end.
(** the same code with room for [cap] members *)
Definition erfill_cap (cap : nat) (dims im : list nat) (er : Z) : option (option (list nat)) :=
  let nel := length im in
  let invert := (er <? 0)%Z in
  let idx := Z.abs er in
  if (idx <? 1)%Z || (Z.of_nat nel <? idx)%Z then Some None else
  let seed := Z.to_nat (idx - 1) in
  if cap <? 1 then None else
  do value <- aget im seed;
  do m <- fill (S (S nel)) cap dims im invert value 0 (repeat false nel, [seed]);
  Some (Some (map S m)).
(** vl_erfill, vl_erfill.c:46-208, after the checks of types: members_pt has room for all pixels, line 98 *)
Definition erfill (dims im : list nat) (er : Z) : option (option (list nat)) := erfill_cap (length im) dims im er.
