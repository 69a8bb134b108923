(** Model of the homogeneous kernel map, vl/homkermap.c.

    Numbers are exact rationals; the library functions sqrt, pow, log, cos, sin
    and the smooth spectrum (homkermap.c:231-297) enter as arbitrary functions.
    The loop of the evaluation takes its subdivision and its subtraction as
    parameters so that rounded arithmetic is covered. *)
From Coq Require Import List Arith ZArith Lia Bool QArith Qcanon.
From Verif Require Import Base Loop Rat Gauss_Model.
Import ListNotations.
Local Open Scope nat_scope.

(** the period, homkermap.c:345-363; [default] is the value of the formula for the
    kernel, window and order *)
Definition choose_period (default period : Qc) : Qc :=
  if qlt period 0 then (if qlt default 1 then 1%Qc else default) else period.

(** homkermap.c:370-377 *)
Definition num_subdivisions (order : nat) : nat := 8 + 8 * order.
Definition min_exponent : Z := -20.
Definition max_exponent : Z := 8.
Definition table_height (order : nat) : nat := 2 * order + 1.
Definition table_width (order : nat) : nat :=
  num_subdivisions order * Z.to_nat (max_exponent - min_exponent + 1).

(** ldexp *)
Definition pow2 (e : Z) : Qc := if (e <? 0)%Z then (/ zq (2 ^ (- e)))%Qc else zq (2 ^ e).
Definition ldexp (m : Qc) (e : Z) : Qc := (m * pow2 e)%Qc.

Section New.
Variables (sqrt_ log_ cos_ sin_ : Qc -> Qc) (pow_ : Qc -> Qc -> Qc) (spectrum : Qc -> Qc).
Variables (gamma two_pi period : Qc) (order : nat).

Definition kappa_base : nat := table_height order * table_width order.
Definition freq_base : nat := kappa_base + (1 + order).
Definition big_l : Qc := (two_pi / period)%Qc.

(** one round of the spectrum loop, homkermap.c:396-400; state (i, j, table) *)
Definition spectrum_step (s : nat * nat * list Qc) : option (nat * nat * list Qc) :=
  let '(i, j, table) := s in
  do table <- aset table (freq_base + i) (nq j);
  do table <- aset table (kappa_base + i) (spectrum (nq j * big_l)%Qc);
  let j := j + 1 in
  do k <- aget table (kappa_base + i);
  Some (if qlt 0 k || (3 * i <=? j) then i + 1 else i, j, table).

(** *tablep++ = v *)
Definition push (v : Qc) (s : nat * list Qc) : option (nat * list Qc) :=
  let '(tp, table) := s in
  do table <- aset table tp v;
  Some (tp + 1, table).

(** one mantissa, homkermap.c:413-425 *)
Definition fill_row (x : Qc) (s : nat * list Qc) : option (nat * list Qc) :=
  let xgamma := pow_ x gamma in
  let lxgamma := (big_l * xgamma)%Qc in
  let llogx := (big_l * log_ x)%Qc in
  do k0 <- aget (snd s) (kappa_base + 0);
  do s <- push (sqrt_ (lxgamma * k0)%Qc) s;
  iter_from order 1 (fun j s =>
    do k <- aget (snd s) (kappa_base + j);
    do f <- aget (snd s) (freq_base + j);
    let r := sqrt_ (zq 2 * lxgamma * k)%Qc in
    do s <- push (r * cos_ (f * llogx))%Qc s;
    push (r * sin_ (f * llogx))%Qc s) s.

(** vl_homogeneouskernelmap_new, homkermap.c:372-427: the allocated block after the
    constructor; [block] is its content before *)
Definition new_table (block : list Qc) : option (list Qc) :=
  if negb (length block =? table_height order * table_width order + 2 * (1 + order)) then None else
  do (_, _, table) <- while (3 * order + 3) (fun s => fst (fst s) <=? order) spectrum_step (0, 0, block);
  do (_, table) <- iter (Z.to_nat (max_exponent - min_exponent + 1)) (fun e s =>
    let exponent := (min_exponent + Z.of_nat e)%Z in
    do (_, s) <- iter (num_subdivisions order) (fun i ms =>
      let '(mantissa, s) := ms in
      do s <- fill_row (ldexp mantissa exponent) s;
      Some ((mantissa + 1 / nq (num_subdivisions order))%Qc, s)) (1%Qc, s);
    Some s) (0, table);
  Some table.
End New.

Section Evaluate.
Variables (order : nat) (subdivision : Qc) (sub : Qc -> Qc -> Qc).

(** *destination = v; destination += stride *)
Definition emit (stride : nat) (v : Qc) (s : nat * list Qc) : option (nat * list Qc) :=
  let '(p, dst) := s in
  do dst <- aset dst p v;
  Some (p + stride, dst).

(** the loop on the mantissa, homkermap.c:560-563; it leaves the row of v1 *)
Definition find_row (mantissa : Qc) (row : nat) : option (Qc * nat) :=
  while (num_subdivisions order + 1) (fun s => negb (qlt (fst s) subdivision))
    (fun '(mantissa, row) => Some (sub mantissa subdivision, row + 1)) (mantissa, row).

(** vl_homogeneouskernelmap_evaluate, homkermap.c:525-575; (fm, fe) is the result
    of frexp on the argument.  v1 and v2 are counted in rows of the table. *)
Definition evaluate (table : list Qc) (fm : Qc) (fe : Z) (stride : nat) (dst : list Qc) : option (list Qc) :=
  let sign := if qlt fm 0 then (- (1))%Qc else 1%Qc in
  let mantissa := (fm * (zq 2 * sign))%Qc in
  let exponent := (fe - 1)%Z in
  let dim := 2 * order + 1 in
  if (if Qc_eq_dec mantissa 0 then true else false) || (exponent <=? min_exponent)%Z || (max_exponent <=? exponent)%Z
  then
    do (_, dst) <- iter dim (fun _ s => emit stride 0%Qc s) (0, dst);
    Some dst
  else
    let row := Z.to_nat (exponent - min_exponent) * num_subdivisions order in
    let mantissa := (mantissa - 1)%Qc in
    do (mantissa, row) <- find_row mantissa row;
    do (_, dst) <- iter dim (fun j s =>
      do f1 <- aget table (row * dim + j);
      do f2 <- aget table ((row + 1) * dim + j);
      emit stride (sign * ((f2 - f1) * (nq (num_subdivisions order) * mantissa) + f1))%Qc s) (0, dst);
    Some dst.
End Evaluate.
