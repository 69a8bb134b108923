(** Local maxima of arrays, vl_localmax.c of the MATLAB toolbox.  Values are rational numbers; the array is a list in the order of memory beside its dimensions.
    [Some None] is an error raised, [None] is an access out of bounds. *)
From Coq Require Import List Arith Bool ZArith QArith Qcanon.
Import ListNotations.
From Verif Require Import Base Rat Gauss_Model.
Local Open Scope nat_scope.

(** offsets, vl_localmax.c:120-124 *)
Fixpoint offsets_from (s : nat) (dims : list nat) : list nat := match dims with [] => [] | d :: r => s :: offsets_from (s * d) r end.
(** the next offset of a neighbour, vl_localmax.c:146-153, over the first P dimensions; [None] is the jump to stop *)
Fixpoint nb_next (offs : list nat) (midx : list Z) (o : Z) : option (Z * list Z) :=
  match offs, midx with
  | w :: offs, m :: midx =>
    let o := (o + Z.of_nat w)%Z in
    if (1 <? m + 1)%Z then match nb_next offs midx (o - 3 * Z.of_nat w)%Z with None => None | Some (o, midx) => Some (o, (-1)%Z :: midx) end
    else Some (o, (m + 1)%Z :: midx)
  | _, _ => None
  end.
(** vl_localmax.c:143-154 *)
Fixpoint nb_loop (fuel : nat) (offs : list nat) (midx : list Z) (o : Z) : option (list Z) :=
  match fuel with
  | O => None
  | S fuel' => do r <- match nb_next offs midx o with None => Some [] | Some (o, midx) => nb_loop fuel' offs midx o end;
    Some (if (o =? 0)%Z then r else o :: r)
  end.
(** vl_localmax.c:131-154 *)
Definition neighbors (offs : list nat) : option (list Z) :=
  nb_loop (3 ^ length offs) offs (repeat (-1)%Z (length offs)) (fold_left (fun o w => (o - Z.of_nat w)%Z) offs 0%Z).
(** the dimensions with neighbours: offset, size and multi-index; the carry, vl_localmax.c:182-189.  [up] is one after a carry; the result is true at the jump to next_layer *)
Definition cell : Type := nat * nat * nat.
Fixpoint carry (up : nat) (A : list cell) (pt : nat) : nat * list cell * bool :=
  match A with
  | [] => (pt, [], true)
  | (o, d, m) :: A => if d <=? m + up + 1 then let '(pt, A, b) := carry 1 A (pt + 2 * o) in (pt, (o, d, 1) :: A, b) else (pt, (o, d, m + up) :: A, false)
  end.
(** the other dimensions: size and multi-index; vl_localmax.c:223-231, [None] is the jump to end *)
Fixpoint next_layer (B : list (nat * nat)) : option (list (nat * nat)) :=
  match B with
  | [] => None
  | (d, m) :: B => if d <=? m + 1 then match next_layer B with None => None | Some B => Some ((d, 0) :: B) end else Some ((d, m + 1) :: B)
  end.
(** the scan of the neighbours, vl_localmax.c:198-202 *)
Fixpoint greater (F : list Qc) (pt : nat) (v : Qc) (nbs : list Z) : option bool :=
  match nbs with [] => Some true | o :: nbs => do u <- zget F (Z.of_nat pt + o); if qlt u v then greater F pt v nbs else Some false end.
Definition above (threshold : option Qc) (v : Qc) : bool := match threshold with None => true | Some t => negb (qlt v t) end.
(** ++ midx[0], vl_localmax.c:220 *)
Definition step (A : list cell) : list cell := match A with [] => [] | (o, d, m) :: A => (o, d, m + 1) :: A end.
(** the main loop, vl_localmax.c:177-232 *)
Fixpoint scan (fuel : nat) (F : list Qc) (threshold : option Qc) (nbs : list Z) (pt : nat) (A : list cell) (B : list (nat * nat)) (acc : list nat) : option (list nat) :=
  match fuel with
  | O => None
  | S fuel' =>
    let '(pt, A, b) := carry 0 A pt in
    if b : bool then match next_layer B with None => Some acc | Some B => scan fuel' F threshold nbs pt A B acc end
    else
      do v <- aget F pt;
      do g <- (if above threshold v then greater F pt v nbs else Some false);
      scan fuel' F threshold nbs (pt + 1) (step A) B (if g : bool then acc ++ [pt + 1] else acc)
  end.
Definition sum (l : list nat) : nat := fold_right Nat.add 0 l.
(** vl_localmax.c:112-232 for P dimensions.  For P = 0 the loops treat midx[0] as for P = 1, but it starts at zero and there are no neighbours *)
Definition localmax_dims (F : list Qc) (dims : list nat) (threshold : option Qc) (p : nat) : option (list nat) :=
  let offs := offsets_from 1 dims in
  do nbs <- neighbors (firstn p offs);
  if existsb (fun d => d <? 3) (firstn p dims) then Some [] else
  let q := Nat.max p 1 in
  scan (2 * fold_right Nat.mul 1 dims + 2) F threshold nbs (sum (firstn p offs))
    (map (fun od => (fst od, snd od, if p =? 0 then 0 else 1)) (combine (firstn q offs) (firstn q dims))) (map (fun d => (d, 0)) (skipn q dims)) [].
(** vl_localmax.c:64-107: [P] if given *)
Definition localmax (F : list Qc) (dims : list nat) (threshold : option Qc) (P : option nat) : option (option (list nat)) :=
  let '(dims, p) := match P, dims with
    | None, [M; N] => if (M =? 1) || (N =? 1) then ([if N <? M then M else N; 1], 1) else (dims, 2)
    | None, _ => (dims, length dims)
    | Some p, _ => (dims, p) end in
  if length dims <? p then Some None else
  do l <- localmax_dims F dims threshold p; Some (Some l).
