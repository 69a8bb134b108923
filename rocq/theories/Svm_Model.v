(** Linear support vector machines, vl/svm.c and vl/svmdataset.c, over exact rationals.  Data are
    plain vectors (vl_svmdataset without kernel map).  The random permutations of each epoch
    are inputs.  [None] is an access out of bounds, a division by zero or an infinite step. *)
From Coq Require Import List Arith ZArith Bool QArith Qcanon Qcabs Qround.
Import ListNotations.
From Verif Require Import Base Loop Rat Gauss_Model.
Local Open Scope nat_scope.

Definition half : Qc := Q2Qc (1 # 2).
Definition two : Qc := zq 2.
Definition four : Qc := zq 4.
Definition vmax (a b : Qc) : Qc := if qlt b a then a else b.
Definition vmin (a b : Qc) : Qc := if qlt a b then a else b.
Definition qle (a b : Qc) : bool := negb (qlt b a).
Definition qabs (x : Qc) : Qc := if qlt x 0 then (- x)%Qc else x.
(** division; [None] is a division by zero *)
Definition div (a b : Qc) : option Qc := if Qc_eq_dec b 0 then None else Some (a / b)%Qc.

(** *** Losses, svm.c:1602-1757.  A conjugate is [None] where it is infinite. *)
Record losses := mk_losses {
  lossFn : Qc -> Qc -> Qc; derivFn : Qc -> Qc -> Qc; conjFn : Qc -> Qc -> option Qc; dcaFn : Qc -> Qc -> Qc -> Qc -> option Qc }.

(** vl_svm_hinge_*, svm.c:1602-1641 *)
Definition hinge_loss (inner label : Qc) : Qc := vmax (1 - label * inner) 0.
Definition hinge_deriv (inner label : Qc) : Qc := if qlt (label * inner) 1 then (- label)%Qc else 0%Qc.
Definition hinge_conj (u label : Qc) : option Qc :=
  let z := (label * u)%Qc in
  if qle (-(1)) z && qle z 0 then Some (label * u)%Qc else None.
Definition hinge_dca (alpha inner norm2 label : Qc) : option Qc :=
  do q <- div (label - inner) norm2;
  let palpha := (q + alpha)%Qc in
  Some (label * vmax 0 (vmin 1 (label * palpha)) - alpha)%Qc.
Definition hinge := mk_losses hinge_loss hinge_deriv hinge_conj hinge_dca.

(** vl_svm_hinge2_*, svm.c:1645-1681 *)
Definition hinge2_loss (inner label : Qc) : Qc := let z := vmax (1 - label * inner) 0 in (z * z)%Qc.
Definition hinge2_deriv (inner label : Qc) : Qc := if qlt (label * inner) 1 then (two * (inner - label))%Qc else 0%Qc.
Definition hinge2_conj (u label : Qc) : option Qc :=
  if qle (label * u) 0 then Some ((label + u / four) * u)%Qc else None.
Definition hinge2_dca (alpha inner norm2 label : Qc) : option Qc :=
  do q <- div (label - inner - half * alpha) (norm2 + half);
  let palpha := (q + alpha)%Qc in
  Some (label * vmax 0 (label * palpha) - alpha)%Qc.
Definition hinge2 := mk_losses hinge2_loss hinge2_deriv hinge2_conj hinge2_dca.

(** vl_svm_l1_*, svm.c:1685-1724 *)
Definition l1_loss (inner label : Qc) : Qc := qabs (label - inner).
Definition l1_deriv (inner label : Qc) : Qc := if qlt inner label then (-(1))%Qc else 1%Qc.
Definition l1_conj (u label : Qc) : option Qc := if qle (qabs u) 1 then Some (label * u)%Qc else None.
Definition l1_dca (alpha inner norm2 label : Qc) : option Qc :=
  if qle (qabs alpha) 1 then
    do q <- div (label - inner) norm2;
    let palpha := (q + alpha)%Qc in
    Some (vmax (-(1)) (vmin 1 palpha) - alpha)%Qc
  else None.
Definition l1 := mk_losses l1_loss l1_deriv l1_conj l1_dca.

(** vl_svm_l2_*, svm.c:1728-1755 *)
Definition l2_loss (inner label : Qc) : Qc := let z := (label - inner)%Qc in (z * z)%Qc.
Definition l2_deriv (inner label : Qc) : Qc := (- two * (label - inner))%Qc.
Definition l2_conj (u label : Qc) : option Qc := Some ((label + u / four) * u)%Qc.
Definition l2_dca (alpha inner norm2 label : Qc) : option Qc := div (label - inner - half * alpha) (norm2 + half).
Definition l2 := mk_losses l2_loss l2_deriv l2_conj l2_dca.

(** *** The machine *)
Record svm := mk_svm {
  dim : nat; numData : nat; data : list Qc; labels : list Qc; weights : option (list Qc);
  lambda : Qc; bmul : Qc; freq : nat; maxit : nat; epsilon : Qc; blr : Qc; iteration : nat;
  model : list Qc; bias : Qc; alpha : list Qc; scores : list Qc }.
Definition with_model (s : svm) (m : list Qc) (b : Qc) : svm :=
  mk_svm (dim s) (numData s) (data s) (labels s) (weights s) (lambda s) (bmul s) (freq s) (maxit s) (epsilon s) (blr s) (iteration s) m b (alpha s) (scores s).
Definition with_alpha (s : svm) (a : list Qc) : svm :=
  mk_svm (dim s) (numData s) (data s) (labels s) (weights s) (lambda s) (bmul s) (freq s) (maxit s) (epsilon s) (blr s) (iteration s) (model s) (bias s) a (scores s).
Definition with_scores (s : svm) (c : list Qc) : svm :=
  mk_svm (dim s) (numData s) (data s) (labels s) (weights s) (lambda s) (bmul s) (freq s) (maxit s) (epsilon s) (blr s) (iteration s) (model s) (bias s) (alpha s) c.

(** vl_svm_new_with_abstract_data, svm.c:1014-1068; lambda is positive.  The default number of
    iterations is the larger of the number of data and 10 / lambda rounded up. *)
Definition new_svm (d n : nat) (x y : list Qc) (lam : Qc) : svm :=
  mk_svm d n x y None lam 1%Qc n (Z.to_nat (Z.max (Z.of_nat n) (Qceiling (this (zq 10 / lam)%Qc)))) (Q2Qc (1 # 100)) (Q2Qc (1 # 100)) 0
    (repeat 0%Qc d) 0%Qc (repeat 0%Qc n) (repeat 0%Qc n).
(** vl_svm_set_lambda, set_weights, set_bias_multiplier, set_bias_learning_rate, set_epsilon,
    set_max_num_iterations, set_diagnostic_frequency, set_iteration_number, svm.c:1123-1325 *)
Definition set_lambda (s : svm) (l : Qc) : svm :=
  mk_svm (dim s) (numData s) (data s) (labels s) (weights s) l (bmul s) (freq s) (maxit s) (epsilon s) (blr s) (iteration s) (model s) (bias s) (alpha s) (scores s).
Definition configure (s : svm) (w : option (list Qc)) (b r e : Qc) (f m i : nat) : svm :=
  mk_svm (dim s) (numData s) (data s) (labels s) w (lambda s) b f m e r i (model s) (bias s) (alpha s) (scores s).

(** _vl_svmdataset_inner_product, svmdataset.c:329-341 *)
Definition inner_product (s : svm) (k : nat) (m : list Qc) : option Qc :=
  iter (dim s) (fun j acc => do a <- aget (data s) (dim s * k + j); do b <- aget m j; Some (acc + a * b)%Qc) 0%Qc.
(** vl_svmdataset_accumulate, svmdataset.c:343-355 *)
Definition accumulate (s : svm) (k : nat) (m : list Qc) (mult : Qc) : option (list Qc) :=
  iter (dim s) (fun j m => do a <- aget (data s) (dim s * k + j); do b <- aget m j; aset m j (b + a * mult)%Qc) m.
Definition weight (s : svm) (k : nat) : option Qc :=
  match weights s with Some w => aget w k | None => Some 1%Qc end.
(** the score of one datum, svm.c:1886-1887, 1973-1974 *)
Definition score (s : svm) (k : nat) : option Qc :=
  do i <- inner_product s k (model s);
  Some (i + bias s * bmul s)%Qc.

(** the statistics: regularizer, loss, objective and dual objective, [None] for minus infinity *)
Record stats := mk_stats { st_reg : Qc; st_loss : Qc; st_obj : Qc; st_dual : option Qc }.
Section Solvers.
Variable L : losses.

(** _vl_svm_update_statistics, svm.c:1871-1905, for the SDCA solver *)
Definition statistics_step (k : nat) (st : svm * Qc * option Qc) : option (svm * Qc * option Qc) :=
  let '(s, loss, dual) := st in
  do p <- weight s k;
  if qle p 0 then Some (s, loss, dual) else
  do i <- score s k;
  do sc <- aset (scores s) k i;
  do y <- aget (labels s) k;
  do a <- aget (alpha s) k;
  let c := conjFn L (- (a) / p)%Qc y in
  Some (with_scores s sc, (loss + p * lossFn L i y)%Qc,
        match dual, c with Some d, Some c => Some (d - p * c)%Qc | _, _ => None end).
Definition update_statistics (s : svm) : option (svm * stats) :=
  do r <- iter (dim s) (fun i r => do m <- aget (model s) i; Some (r + m * m)%Qc) (bias s * bias s)%Qc;
  let reg := (r * (lambda s * half))%Qc in
  do (s, loss, dual) <- iter (numData s) statistics_step (s, 0%Qc, Some 0%Qc);
  do loss <- div loss (nq (numData s));
  Some (s, mk_stats reg loss (reg + loss)%Qc (match dual with Some d => Some (- reg + d / nq (numData s))%Qc | None => None end)).

(** norm2, svm.c:1942-1957 *)
Definition norms (s : svm) : option (list Qc) :=
  iter (numData s) (fun i out =>
    do buffer <- accumulate s i (repeat 0%Qc (dim s)) 1%Qc;
    do n2 <- inner_product s i buffer;
    do v <- div (n2 + bmul s * bmul s)%Qc (lambda s * nq (numData s))%Qc;
    Some (out ++ [v])) [].

(** one coordinate step on datum i, svm.c:1969-1986 *)
Definition sdca_step (norm2 : list Qc) (i : nat) (s : svm) : option svm :=
  do p <- weight s i;
  do delta <- (if qlt 0 p then
      do inner <- score s i;
      do a <- aget (alpha s) i;
      do n2 <- aget norm2 i;
      do y <- aget (labels s) i;
      do d <- dcaFn L (a / p)%Qc inner (p * n2)%Qc y;
      Some (p * d)%Qc
    else Some 0%Qc);
  if Qc_eq_dec delta 0 then Some s else
  do a <- aget (alpha s) i;
  do al <- aset (alpha s) i (a + delta)%Qc;
  do mult <- div delta (nq (numData s) * lambda s)%Qc;
  do m <- accumulate s i (model s) mult;
  Some (with_alpha (with_model s m (bias s + bmul s * mult)%Qc) al).

(** the statuses *)
Inductive status := Converged | MaxReached.
(** whether the diagnostic runs after step t, svm.c:1989 *)
Definition diagnose (s : svm) (t : nat) : bool := (((t + 1) mod freq s =? 0) || (t + 1 =? maxit s)).
(** the loop of _vl_svm_sdca_train, svm.c:1959-2010; [perms e] is the permutation of epoch e *)
Fixpoint sdca_loop (fuel : nat) (perms : nat -> list nat) (norm2 : list Qc) (t : nat) (s : svm) : option (svm * stats * status) :=
  match fuel with
  | O => None
  | S fuel =>
    do i <- aget (perms (t / numData s)) (t mod numData s);
    do s <- sdca_step norm2 i s;
    if diagnose s t then
      do (s, st) <- update_statistics s;
      if (match st_dual st with Some d => qlt (st_obj st - d) (epsilon s) | None => false end) then Some (s, st, Converged)
      else if t + 1 =? maxit s then Some (s, st, MaxReached)
      else sdca_loop fuel perms norm2 (t + 1) s
    else sdca_loop fuel perms norm2 (t + 1) s
  end.
Definition sdca_train (fuel : nat) (perms : nat -> list nat) (s : svm) : option (svm * stats * status) :=
  do norm2 <- norms s;
  sdca_loop fuel perms norm2 0 s.

(** *** Stochastic gradient descent, svm.c:2018-2148 *)
Variable sqrt_ : Qc -> Qc.
(** factors, scores and previous scores, [None] for minus infinity *)
Record sgd := mk_sgd { machine : svm; factor : Qc; bfactor : Qc; sc : list Qc; prev : list (option Qc) }.
Definition t0 (s : svm) : Z := Z.max 2 (Qceiling (this (1 / lambda s)%Qc)).
(** one step, svm.c:2073-2107 *)
Definition sgd_step (t i : nat) (g : sgd) : option sgd :=
  let s := machine g in
  do p <- weight s i;
  let p := vmax 0 p in
  do ip <- inner_product s i (model s);
  let inner := (factor g * ip + bfactor g * (bmul s * bias s))%Qc in
  do y <- aget (labels s) i;
  let gradient := (p * derivFn L inner y)%Qc in
  do old <- aget (sc g) i;
  do pr <- aset (prev g) i (Some old);
  do sc <- aset (sc g) i inner;
  do rate <- div 1 (lambda s * zq (Z.of_nat t + t0 s))%Qc;
  let brate := (rate * blr s)%Qc in
  let f := (factor g * (1 - lambda s * rate))%Qc in
  let bf := (bfactor g * (1 - lambda s * brate))%Qc in
  if Qc_eq_dec gradient 0 then Some (mk_sgd s f bf sc pr) else
  do c <- div (- gradient * rate)%Qc f;
  do m <- accumulate s i (model s) c;
  do cb <- div (- gradient * brate)%Qc bf;
  Some (mk_sgd (with_model s m (bias s + bmul s * cb)%Qc) f bf sc pr).
(** realising the factors, svm.c:2113-2116 *)
Definition realise (g : sgd) : option sgd :=
  let s := machine g in
  do m <- iter (dim s) (fun k m => do a <- aget m k; aset m k (a * factor g)%Qc) (model s);
  Some (mk_sgd (with_model s m (bias s * bfactor g)%Qc) 1%Qc 1%Qc (sc g) (prev g)).
(** scoresVariation, svm.c:2120-2124; [None] is infinite *)
Definition variation (g : sgd) : option (option Qc) :=
  do v <- iter (numData (machine g)) (fun k v =>
    do a <- aget (sc g) k;
    do b <- aget (prev g) k;
    Some (match v, b with Some v, Some b => Some (v + (a - b) * (a - b))%Qc | _, _ => None end)) (Some 0%Qc);
  Some (match v with Some v => Some (sqrt_ v / nq (numData (machine g)))%Qc | None => None end).
(** the loop of _vl_svm_sgd_train; the statistics of vl_svm_get_statistics are those of
    [update_statistics] without the dual *)
Fixpoint sgd_loop (fuel : nat) (perms : nat -> list nat) (t : nat) (g : sgd) : option (sgd * nat * status) :=
  match fuel with
  | O => None
  | S fuel =>
    do i <- aget (perms (t / numData (machine g))) (t mod numData (machine g));
    do g <- sgd_step t i g;
    if diagnose (machine g) t then
      do g <- realise g;
      do v <- variation g;
      if (match v with Some v => qlt v (epsilon (machine g)) | None => false end) then Some (g, t, Converged)
      else if t + 1 =? maxit (machine g) then Some (g, t, MaxReached)
      else sgd_loop fuel perms (t + 1) g
    else sgd_loop fuel perms (t + 1) g
  end.
Definition sgd_train (fuel : nat) (perms : nat -> list nat) (s : svm) : option (sgd * nat * status) :=
  sgd_loop fuel perms 0 (mk_sgd s 1%Qc 1%Qc (repeat 0%Qc (numData s)) (repeat None (numData s))).
End Solvers.
