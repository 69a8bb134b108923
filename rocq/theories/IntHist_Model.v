(** Integral histograms of the MATLAB toolbox: vl_inthist.c with inthist.tc and vl_sampleinthist.c with samplinthist.tc, for the class UINT32.
    W is the number of rows (the fast dimension, called height by the MEX files), H that of columns, K = W * H.
    [Some None] is an error raised, [None] is an access out of bounds. *)
From Coq Require Import List Arith Bool ZArith.
Import ListNotations.
From Verif Require Import Base Loop.
Local Open Scope nat_scope.

(** arithmetic of vl_uint32 *)
Definition u32 (z : Z) : Z := (z mod 2 ^ 32)%Z.

(** one entry of the label maps, vl_inthist.c:183-184 and 190-192: the mass is that of the pixel in the first layer *)
Definition put_label (labels : list nat) (mass : option (list Z)) (K q k : nat) (d : list Z) : option (list Z) :=
  do label <- aget labels (q * K + k);
  if label =? 0 then Some d else
  do m <- match mass with None => Some 1%Z | Some m => aget m k end;
  do v <- aget d (k + (label - 1) * K);
  aset d (k + (label - 1) * K) (u32 (v + m)).
(** vl_inthist.c:180-195 *)
Definition distribute (labels : list nat) (mass : option (list Z)) (K maps : nat) (d : list Z) : option (list Z) :=
  iter maps (fun q => iter K (put_label labels mass K q)) d.

(** integral_ui in place, inthist.tc:25-55, at the offset [off]; all strides are the width *)
Definition first_row (off x : nat) (d : list Z) : option (list Z) :=
  do a <- aget d (off + x - 1); do b <- aget d (off + x); aset d (off + x) (u32 (a + b)).
Definition next_row (p W x : nat) (d : list Z) : option (list Z) :=
  do a <- aget d (p + x - W); do c <- aget d (p + x - W - 1); do e <- aget d (p + x - 1); do b <- aget d (p + x); aset d (p + x) (u32 (a - c + e + b)).
Definition integral_row (off W y : nat) (d : list Z) : option (list Z) :=
  let p := off + W * y in
  do a <- aget d (p - W); do b <- aget d p; do d <- aset d p (u32 (a + b));
  iter_from (W - 1) 1 (next_row p W) d.
Definition integral (off W H : nat) (d : list Z) : option (list Z) :=
  do v <- aget d off; do d <- aset d off v;
  do d <- iter_from (W - 1) 1 (first_row off) d;
  iter_from (H - 1) 1 (integral_row off W) d.

(** the number of labels, vl_inthist.c:148-159: [given] is NUMLABELS or zero; [None]: an error *)
Definition num_labels (labels : list nat) (K given : nat) : option nat :=
  if given =? 0 then Some (fold_left Nat.max (firstn K labels) 0)
  else if existsb (fun l => given <? l) (firstn K labels) then None else Some given.
(** vl_inthist, vl_inthist.c:148-207, after the checks of the dimensions *)
Definition inthist (labels : list nat) (W H maps : nat) (mass : option (list Z)) (given : nat) : option (option (list Z)) :=
  let K := W * H in
  match num_labels labels K given with
  | None => Some None
  | Some L =>
    do d <- distribute labels mass K maps (repeat 0%Z (K * L));
    do d <- iter L (fun k => integral (k * K) W H) d;
    Some (Some d)
  end.

(** one pass over the labels, samplinthist.tc:47-51 and the like: [op h v] is the new value of the bin *)
Definition pass (op : Z -> Z -> Z) (d : list Z) (i K : nat) (k : nat) (h : list Z) : option (list Z) :=
  do v <- aget d (i + k * K); do a <- aget h k; aset h k (u32 (op a v)).
(** a box, samplinthist.tc:16-76: the histogram or an error *)
Definition sample_box (d : list Z) (W H L x1 y1 x2 y2 : nat) : option (option (list Z)) :=
  let K := W * H in
  if (x2 <? x1) || (y2 <? y1) then Some (Some (repeat 0%Z L)) else
  if (x1 <? 1) || (y1 <? 1) then Some None else
  if (W <? x2) || (H <? y2) then Some None else
  let '(x1, x2, y1, y2) := (x1 - 1, x2 - 1, y1 - 1, y2 - 1) in
  do h <- iter L (pass (fun _ v => v) d (x2 + y2 * W) K) (repeat 0%Z L);
  do h <- (if 0 <? x1 then iter L (pass Z.sub d ((x1 - 1) + y2 * W) K) h else Some h);
  do h <- (if (0 <? x1) && (0 <? y1) then iter L (pass Z.add d ((x1 - 1) + (y1 - 1) * W) K) h else Some h);
  do h <- (if 0 <? y1 then iter L (pass Z.sub d (x2 + (y1 - 1) * W) K) h else Some h);
  Some (Some h).
(** all boxes, samplinthist.tc:8-78 and vl_sampleinthist.c:96-128 *)
Fixpoint sample (d : list Z) (W H L : nat) (boxes : list (nat * nat * nat * nat)) : option (option (list (list Z))) :=
  match boxes with
  | [] => Some (Some [])
  | (x1, y1, x2, y2) :: boxes => do h <- sample_box d W H L x1 y1 x2 y2;
    match h with
    | None => Some None
    | Some h => do r <- sample d W H L boxes; match r with None => Some None | Some r => Some (Some (h :: r)) end
    end
  end.
