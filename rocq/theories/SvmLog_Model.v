(** The logistic loss of the SVM solvers, vl/svm.c:1758-1862, and the inner product and accumulation of data expanded by a homogeneous kernel map, vl/svmdataset.c:357-400.
    Numbers are real numbers, without rounding; the infinite conjugate loss is [None].  The kernel map is an arbitrary function of a number to a vector of fixed size. *)
From Coq Require Import Reals List Arith.
Import ListNotations.
From Verif Require Import Base Loop.
Local Open Scope R_scope.

(** vl_svm_logistic_loss, svm.c:1759-1768 *)
Definition logistic_loss (inner label : R) : R :=
  let z := label * inner in
  if Rle_dec 0 z then ln (1 + exp (- z)) else - z + ln (exp z + 1).
(** vl_svm_logistic_loss_derivative, svm.c:1772-1778 *)
Definition logistic_deriv (inner label : R) : R :=
  let z := label * inner in
  let t := 1 / (1 + exp (- z)) in
  label * (t - 1).
(** xlogx, svm.c:1780-1784 *)
Definition xlogx (x : R) : R := if Rle_dec x (/ 10 ^ 10) then 0 else x * ln x.
(** vl_svm_logistic_conjugate_loss, svm.c:1788-1796 *)
Definition logistic_conj (u label : R) : option R :=
  let z := label * u in
  if Rle_dec (-1) z then if Rle_dec z 0 then Some (xlogx (- z) + xlogx (1 + z)) else None else None.

(** the derivative of the objective, svm.c:1839-1840 and 1852-1854 *)
Definition logistic_der (alpha inner norm2 label beta : R) : R :=
  let df := ln beta - ln (1 - beta) in norm2 * beta + label * (inner - norm2 * alpha) + df.
(** the bisection, svm.c:1834-1847; state (beta1, beta2, beta) *)
Definition bisect_step (der : R -> R) (s : R * R * R) : R * R * R :=
  let '(beta1, beta2, beta) := s in
  let '(beta1, beta2) := if Rle_dec 0 (der beta) then (beta1, beta) else (beta, beta2) in
  (beta1, beta2, / 2 * (beta1 + beta2)).
(** a Newton step, svm.c:1851-1858: the loop ends where its condition fails, and then so does that of the next round *)
Definition epsilon : R := / 2 ^ 52.
Definition newton_step (der : R -> R) (norm2 beta : R) : R :=
  if Rlt_dec epsilon beta then if Rlt_dec beta (1 - epsilon) then
    let ddf := 1 / (beta * (1 - beta)) in
    let dder := norm2 + ddf in
    Rmax 0 (Rmin 1 (beta - der beta / dder))
  else beta else beta.
(** vl_svm_logistic_dca_update, svm.c:1800-1862 *)
Definition logistic_dca (alpha inner norm2 label : R) : R :=
  let der := logistic_der alpha inner norm2 label in
  let '(_, _, beta) := Nat.iter 5 (bisect_step der) (0, 1, / 2) in
  let beta := Nat.iter 2 (newton_step der norm2) beta in
  label * beta - alpha.

Section Hom.
Variables (hom : R -> list R) (hom_dim dim : nat).
(** vl_svmdataset_get_dimension, svmdataset.c:200-207 *)
Definition hom_dimension : nat := dim * hom_dim.
(** _vl_svmdataset_inner_product_hom, svmdataset.c:357-379; [hom] fills the buffer, state (product, index of the model) *)
Definition inner_product_hom (data : list R) (element : nat) (model : list R) : option R :=
  do (product, _) <- iter dim (fun j s =>
    do x <- aget data (dim * element + j);
    iter hom_dim (fun i s => let '(product, p) := s in
      do b <- aget (hom x) i; do m <- aget model p; Some ((product + b * m)%R, (p + 1)%nat)) s) (0, 0%nat);
  Some product.
(** vl_svmdataset_accumulate_hom, svmdataset.c:381-404; state (model, index of the model) *)
Definition accumulate_hom (data : list R) (element : nat) (model : list R) (multiplier : R) : option (list R) :=
  do (model, _) <- iter dim (fun j s =>
    do x <- aget data (dim * element + j);
    iter hom_dim (fun i s => let '(model, p) := s in
      do b <- aget (hom x) i; do m <- aget model p; do model <- aset model p (m + b * multiplier); Some (model, (p + 1)%nat)) s) (model, 0%nat);
  Some model.
End Hom.
