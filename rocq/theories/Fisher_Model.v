(** Model of the Fisher vectors, vl/fisher.c, over the real numbers (rounding is not modelled).
    [None] stands for undefined behaviour or for a result that is not a number.  The parallel loop
    over the modes runs whole iterations in an arbitrary order; the posteriors are those of gmm.c. *)
From Coq Require Import List Arith Lia Bool Reals.
From Verif Require Import Base Loop Table Gmm_Model.
Import ListNotations.
Local Open Scope nat_scope.

(** the flags, fisher.h:23-26 *)
Record flags := mk_flags { f_square_root : bool; f_normalized : bool; f_fast : bool }.

Section Fisher.
Variables (D K : nat).

(** sqrtInvSigma, fisher.c:377-381 *)
Definition sqrt_inv (covs : list R) : option (list R) :=
  build (K * D) (fun p => do c <- aget covs p; if Rle_dec c 0 then None else Some (sqrt (1 / c))%R).

(** the largest posterior of datum i, fisher.c:392-400 *)
Definition best_mode (post : list R) (i : nat) : option nat :=
  do p0 <- aget post (i * K);
  do (_, best) <- iter (K - 1) (fun c '(value, best) =>
    do p <- aget post (S c + i * K);
    Some (if ltb value p then (p, S c) else (value, best))) (p0, 0);
  Some best.
(** fisher.c:389-407 *)
Definition sparsify (n : nat) (post : list R) : option (list R) :=
  iter n (fun i post =>
    do best <- best_mode post i;
    iter K (fun k post => aset post (k + i * K) (if k =? best then 1 else 0)%R) post) post.

(** the sums of mode k, fisher.c:431-442; state (enc, numTerms) *)
Definition add_datum (means isg data post : list R) (k i : nat) (s : list R * nat) : option (list R * nat) :=
  let '(enc, terms) := s in
  do p <- aget post (k + i * K);
  if ltb p min_prior then Some s else
  do enc <- iter D (fun d enc =>
    do x <- aget data (i * D + d);
    do m <- aget means (k * D + d);
    do r <- aget isg (k * D + d);
    do enc <- modify (k * D + d) (fun z => z + p * ((x - m) * r))%R enc;
    modify (k * D + K * D + d) (fun z => z + p * (((x - m) * r) * ((x - m) * r) - 1))%R enc) enc;
  Some (enc, terms + 1).
(** mode k, fisher.c:413-452 *)
Definition encode_mode (p : params) (isg data : list R) (n : nat) (post : list R) (k : nat) (s : list R * nat) : option (list R * nat) :=
  do pr <- aget (p_priors p) k;
  if ltb pr min_prior then Some s else
  do (enc, terms) <- iter n (add_datum (p_means p) isg data post k) s;
  if n =? 0 then Some (enc, terms) else
  do enc <- iter D (fun d enc =>
    do enc <- modify (k * D + d) (fun z => z * (1 / (INR n * sqrt pr)))%R enc;
    modify (k * D + K * D + d) (fun z => z * (1 / (INR n * sqrt (2 * pr))))%R enc) enc;
  Some (enc, terms).

(** fisher.c:457-466 *)
Definition signed_sqrt (z : R) : R := if Rle_dec 0 z then sqrt z else (- sqrt (- z))%R.
(** fisher.c:468-479 *)
Definition normalized (enc : list R) : list R :=
  let s := sqrt (fold_left (fun n z => n + z * z)%R enc 0%R) in
  map (fun z => z / Rmax s 1e-12)%R enc.

(** _vl_fisher_encode, fisher.c:350-481; [order] is that of the data in the posteriors, [modes] that
    of the loop over the modes, [junk] the contents of the allocated posteriors *)
Definition encode (junk : nat -> R) (order modes : list nat) (p : params) (data : list R) (n : nat) (f : flags) : option (list R * nat) :=
  do isg <- sqrt_inv (p_covs p);
  do (_, post) <- expectation D K order p data (map junk (seq 0 (n * K)));
  do post <- (if f_fast f then sparsify n post else Some post);
  do (enc, terms) <- over modes (encode_mode p isg data n post) (repeat 0%R (2 * D * K), 0);
  let enc := if f_square_root f then map signed_sqrt enc else enc in
  let enc := if f_normalized f then normalized enc else enc in
  Some (enc, terms).
End Fisher.
