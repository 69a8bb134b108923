(** Model of vl_image_distance_transform, imopv.c:328-445, in exact rational
    arithmetic with infinite interval ends.  Image values are finite.  [eps] is
    VL_EPSILON_F or VL_EPSILON_D.  The scratch buffers from, base, baseIndexes
    and which hold arbitrary contents when allocated. *)
From Coq Require Import List Arith ZArith QArith Bool.
From Verif Require Import Base Loop.
Import ListNotations.
Local Open Scope nat_scope.

Inductive ext := NInf | Fin (q : Q) | PInf.
(** a <= b *)
Definition ext_leb (a b : ext) : bool :=
  match a, b with
  | NInf, _ => true
  | _, PInf => true
  | Fin x, Fin y => Qle_bool x y
  | _, _ => false
  end.

Definition q_of (n : nat) : Q := inject_Z (Z.of_nat n).

Section Disttf.
Variables (coeff offset eps : Q).

(** the intersection, imopv.c:383-404, for pixel x with value r and the earlier
    pixel x_ with value r_ *)
Definition inters (x x_ : nat) (r r_ : Q) : ext :=
  if Qeq_bool r r_ then Fin (q_of (x + x_) / (2 # 1) + offset)%Q
  else if negb (Qle_bool coeff eps) then
    Fin (((r - r_) + coeff * (q_of (x * x) - q_of (x_ * x_))) / q_of (x - x_) / ((2 # 1) * coeff) + offset)%Q
  else if negb (Qle_bool r_ r) then NInf else PInf.

(** the buffers *)
Record env := mk_env { e_from : list ext; e_base : list Q; e_bidx : list nat; e_which : list nat }.

Section Row.
Variables (image : list Q) (cs rs y : nat).
Definition at_ (x : nat) : nat := x * cs + y * rs.

(** the loop of imopv.c:378-413: number of parabolas kept and from_ *)
Fixpoint pop (e : env) (x : nat) (r : Q) (num : nat) : option (nat * ext) :=
  match num with
  | O => Some (0, NInf)
  | S num' =>
    do x_ <- aget (e_which e) num';
    do r_ <- aget image (at_ x_);
    let s := inters x x_ r r_ in
    do f <- aget (e_from e) num';
    if ext_leb s f then pop e x r num' else Some (num, s)
  end.

(** one column of the scan, imopv.c:357-421; state (buffers, num) *)
Definition scan_col (indexes : option (list nat)) (x : nat) (s : env * nat) : option (env * nat) :=
  let '(e, num) := s in
  do r <- aget image (at_ x);
  do (num, from_) <- pop e x r num;
  do w <- aset (e_which e) num x;
  do f <- aset (e_from e) num from_;
  do b <- aset (e_base e) num r;
  do bi <- match indexes with
           | Some l => do i <- aget l (at_ x); aset (e_bidx e) num i
           | None => Some (e_bidx e)
           end;
  Some (mk_env f b bi w, num + 1).

(** while (x >= from[num + 1]) ++num, imopv.c:434 *)
Definition advance (e : env) (x : nat) (num : nat) : option nat :=
  (fix go (fuel num : nat) : option nat :=
     match fuel with
     | O => None
     | S fuel => do f <- aget (e_from e) (num + 1);
                 if ext_leb f (Fin (q_of x)) then go fuel (num + 1) else Some num
     end) (S (length (e_from e))) num.

(** one column of the fill, imopv.c:432-442; state (num, distances, indexes) *)
Definition fill_col (e : env) (x : nat) (s : nat * list Q * option (list nat)) : option (nat * list Q * option (list nat)) :=
  let '(num, dt, indexes) := s in
  do num <- advance e x num;
  do w <- aget (e_which e) num;
  let delta := (q_of x - q_of w - offset)%Q in
  do b <- aget (e_base e) num;
  do dt <- aset dt (at_ x) (b + coeff * delta * delta)%Q;
  do indexes <- match indexes with
                | Some l => do i <- aget (e_bidx e) num; do l <- aset l (at_ x) i; Some (Some l)
                | None => Some None
                end;
  Some (num, dt, indexes).
End Row.

(** one row, imopv.c:355-443; [image] is [None] when the transform is computed
    in place *)
Definition disttf_row (image : option (list Q)) (width cs rs : nat) (y : nat)
    (s : env * list Q * option (list nat)) : option (env * list Q * option (list nat)) :=
  let '(e, dt, indexes) := s in
  let im := match image with Some l => l | None => dt end in
  do (e, num) <- iter width (scan_col im cs rs y indexes) (e, 0);
  do f <- aset (e_from e) num PInf;
  let e := mk_env f (e_base e) (e_bidx e) (e_which e) in
  do (_, dt, indexes) <- iter width (fill_col cs rs y e) (0, dt, indexes);
  Some (e, dt, indexes).

(** vl_image_distance_transform, imopv.c:328-450; the buffers have width + 1
    (from) and width elements *)
Definition disttf (image : option (list Q)) (width height cs rs : nat) (buf : env) (dt : list Q) (indexes : option (list nat))
    : option (list Q * option (list nat)) :=
  do (_, dt, indexes) <- iter height (disttf_row image width cs rs) (buf, dt, indexes);
  Some (dt, indexes).
End Disttf.
