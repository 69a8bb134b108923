(** The MATLAB function vl_alldist, toolbox/misc/vl_alldist.c. *)
From Coq Require Import List NArith ZArith Arith Bool.
Import ListNotations.
From Verif Require Import Base Str_Model MexUtil_Model Vec_Model.
Local Open Scope nat_scope.

(** the table of options, vl_alldist.c:33-49; the codes are those of the enumeration at 17-31 and the names end with zero:
    linf, l2, l1, l0, chi2, hell, js, kl2, kl1, kchi2, khell, kjs *)
Definition metric_table : list moption :=
  [mk_moption (Some [108; 105; 110; 102; 0]%N) false 0; mk_moption (Some [108; 50; 0]%N) false 1; mk_moption (Some [108; 49; 0]%N) false 2;
   mk_moption (Some [108; 48; 0]%N) false 3; mk_moption (Some [99; 104; 105; 50; 0]%N) false 4; mk_moption (Some [104; 101; 108; 108; 0]%N) false 5;
   mk_moption (Some [106; 115; 0]%N) false 6; mk_moption (Some [107; 108; 50; 0]%N) false 7; mk_moption (Some [107; 108; 49; 0]%N) false 8;
   mk_moption (Some [107; 99; 104; 105; 50; 0]%N) false 9; mk_moption (Some [107; 104; 101; 108; 108; 0]%N) false 10; mk_moption (Some [107; 106; 115; 0]%N) false 11;
   mk_moption None false 0].
(** the switch on the option, vl_alldist.c:108-121; [None] is the call to abort *)
Definition metric_case (opt : Z) : option comparison :=
  if (opt =? 1)%Z then Some DistanceL2
  else if (opt =? 2)%Z then Some DistanceL1
  else if (opt =? 4)%Z then Some DistanceChi2
  else if (opt =? 5)%Z then Some DistanceHellinger
  else if (opt =? 6)%Z then Some DistanceJS
  else if (opt =? 7)%Z then Some KernelL2
  else if (opt =? 8)%Z then Some KernelL1
  else if (opt =? 9)%Z then Some KernelChi2
  else if (opt =? 10)%Z then Some KernelHellinger
  else if (opt =? 11)%Z then Some KernelJS
  else None.
Fixpoint metric_loop (opts : list (Z * option marray)) (t : comparison) : option comparison :=
  match opts with
  | [] => Some t
  | (opt, _) :: opts => do t' <- metric_case opt; metric_loop opts t'
  end.
(** the loop on the options, vl_alldist.c:107-122, from the type set at 60.  The options are read before the switch is run
    on them, so that when the switch aborts and
    a later option is in error the result here is the error. *)
Definition metric (args : list marray) (next : nat) : option (option comparison) :=
  do r <- all_options (length args + 1) args metric_table next;
  match r with
  | None => Some None
  | Some opts => do t <- metric_loop opts DistanceL2; Some (Some t)
  end.

Section Alldist.
Context {A : Type}.
Variable zero : A.
(** the function returned by vl_get_vector_comparison_function_f or _d *)
Variable fn : mclass -> comparison -> nat -> list A -> list A -> option A.
(** [past] is the value found after the dimensions, which vlmxIsMatrix reads *)
Variable past : option nat.

(** an output array: class, dimensions and elements *)
Record output := mk_output { d_class : mclass; d_dims : list nat; d_data : list A }.

(** the body after the arguments, vl_alldist.c:102-188 *)
Definition run (args : list marray) (next : nat) (cls : mclass) (dim nx : nat) (X : list A) (y : option (nat * list A)) : option (option output) :=
  if negb (class_eqb cls Single) && negb (class_eqb cls MexUtil_Model.Double) then Some None
  else
    do r <- metric args next;
    match r with
    | None => Some None
    | Some t =>
      let d1 := match y with None => nx | Some (ny, _) => ny end in
      let D := repeat zero (nx * d1) in
      if (nx =? 0) || match y with None => false | Some (ny, _) => ny =? 0 end then Some (Some (mk_output cls [nx; d1] D))
      else if dim =? 0 then Some (Some (mk_output cls [nx; d1] D))
      else
        do D <- match y with
                | None => all_pairs (fn cls t) D dim X nx None 0
                | Some (ny, Y) => all_pairs (fn cls t) D dim X nx (Some Y) ny
                end;
        Some (Some (mk_output cls [nx; d1] D))
    end.
(** mexFunction, vl_alldist.c:52-188: [X] and [Y] are the elements of the first two arguments *)
Definition alldist (nout : nat) (args : list marray) (X Y : list A) : option (option output) :=
  if 1 <? nout then Some None
  else match args with
  | [] => Some None
  | x :: rest =>
    do mx <- is_matrix past x (-1) (-1);
    if negb (mx && is_real x) then Some None
    else
      match rest with
      | [] => run args 1 (a_class x) (get_M x) (get_N x) X None
      | y :: _ =>
        do my <- is_matrix past y (-1) (-1);
        if my && is_real y then
          if negb (class_eqb (a_class y) (a_class x)) then Some None
          else if negb (get_M x =? get_M y) then Some None
          else run args 2 (a_class x) (get_M x) (get_N x) X (Some (get_N y, Y))
        else run args 1 (a_class x) (get_M x) (get_N x) X None
      end
  end.
End Alldist.
Arguments output A : clear implicits.
Arguments mk_output {A}.
