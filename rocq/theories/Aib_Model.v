(** Model of the agglomerative information bottleneck, vl/aib.c.

    Probabilities and information are exact rationals; the logarithm enters as an
    arbitrary function.  BETA_MAX, the largest double, is a value above any loss
    ([None]).  The list [which] of entries to update has one entry at most per
    entry of the table, the C array has nvalues. *)
From Coq Require Import List Arith ZArith Lia Bool QArith Qcanon.
From Verif Require Import Base Loop Rat Gauss_Model.
Import ListNotations.
Local Open Scope nat_scope.

(** VlAIB, aib.h:37-59 *)
Record aib := mk_aib {
  nodes : list nat; nentries : nat; beta : list (option Qc); bidx : list nat;
  which : list nat; pcx : list Qc; px : list Qc }.

Definition is_null (q : Qc) : bool := if Qc_eq_dec q 0 then true else false.
(** x < *minbeta, x < beta[a] *)
Definition less (x y : option Qc) : bool :=
  match x, y with
  | Some x, Some y => qlt x y
  | Some _, None => true
  | None, _ => false
  end.

(** vl_aib_normalize_P, aib.c:139-147 *)
Definition normalize (P : list Qc) (nelem : nat) : option (list Qc) :=
  do sum <- iter nelem (fun i s => do v <- aget P i; Some (s + v)%Qc) 0%Qc;
  iter nelem (fun i P => do v <- aget P i; aset P i (v / sum)%Qc) P.

Section Aib.
Variable log_ : Qc -> Qc.
Variables (nvalues nlabels : nat).

(** vl_aib_new_Px, aib.c:181-193 *)
Definition new_px (P : list Qc) : option (list Qc) :=
  iter nvalues (fun r out =>
    do s <- iter nlabels (fun c s => do v <- aget P (r * nlabels + c); Some (s + v)%Qc) 0%Qc;
    Some (out ++ [s])) [].
(** vl_aib_new_Pc, aib.c:207-219 *)
Definition new_pc (P : list Qc) : option (list Qc) :=
  iter nlabels (fun c out =>
    do s <- iter nvalues (fun r s => do v <- aget P (r * nlabels + c); Some (s + v)%Qc) 0%Qc;
    Some (out ++ [s])) [].

(** vl_aib_new, aib.c:491-528; [bidx] is the allocated array *)
Definition new_aib (P : list Qc) (bidx : list nat) : option (aib * list Qc) :=
  do P <- normalize P (nvalues * nlabels);
  do px <- new_px P;
  do pc <- new_pc P;
  Some (mk_aib (seq 0 nvalues) nvalues (repeat None nvalues) bidx (seq 0 nvalues) P px, pc).

(** vl_aib_min_beta, aib.c:234-253 *)
Definition min_beta (s : aib) : option (nat * nat * option Qc) :=
  do b <- aget (beta s) 0;
  do j <- aget (bidx s) 0;
  iter (nentries s) (fun i '(besti, bestj, minbeta) =>
    do b <- aget (beta s) i;
    if less b minbeta then do j <- aget (bidx s) i; Some (i, j, b)
    else Some (besti, bestj, minbeta)) (0, j, b).

(** arrays moved or added over one row *)
Definition add_rows (P : list Qc) (i j : nat) : option (list Qc) :=
  iter nlabels (fun c P =>
    do u <- aget P (i * nlabels + c);
    do v <- aget P (j * nlabels + c);
    aset P (i * nlabels + c) (u + v)%Qc) P.
Definition copy_row (P : list Qc) (j l : nat) : option (list Qc) :=
  iter nlabels (fun c P => do v <- aget P (l * nlabels + c); aset P (j * nlabels + c) v) P.

(** the scan for entries to update, aib.c:324-333 *)
Definition scan (i j last n : nat) (s : list nat * list (option Qc) * list nat) : option (list nat * list (option Qc) * list nat) :=
  let '(bidx, beta, which) := s in
  do b <- aget bidx n;
  if (b =? i) || (b =? j) then
    do bidx <- aset bidx n 0;
    do beta <- aset beta n None;
    Some (bidx, beta, which ++ [n])
  else if b =? last then
    do bidx <- aset bidx n j;
    Some (bidx, beta, which)
  else Some (bidx, beta, which).

(** vl_aib_merge_nodes, aib.c:274-334 *)
Definition merge_nodes (s : aib) (i j new : nat) : option aib :=
  let last := nentries s - 1 in
  let '(i, j) := if j <? i then (j, i) else (i, j) in
  do pi <- aget (px s) i;
  do pj <- aget (px s) j;
  do px <- aset (px s) i (pi + pj)%Qc;
  do beta <- aset (beta s) i None;
  do nodes <- aset (nodes s) i new;
  do P <- add_rows (pcx s) i j;
  do pl <- aget px last;
  do px <- aset px j pl;
  do bl <- aget beta last;
  do beta <- aset beta j bl;
  do il <- aget (bidx s) last;
  do bidx <- aset (bidx s) j il;
  do nl <- aget nodes last;
  do nodes <- aset nodes j nl;
  do P <- copy_row P j last;
  do (bidx, beta, which) <- iter last (scan i j last) (bidx, beta, []);
  Some (mk_aib nodes last beta bidx which P px).

Definition plogp (x : Qc) : Qc := (x * log_ x)%Qc.

(** tmp[a], aib.c:380-386 *)
Definition self_info (s : aib) (a : nat) : option Qc :=
  iter nlabels (fun c t =>
    do v <- aget (pcx s) (a * nlabels + c);
    do p <- aget (px s) a;
    Some (if is_null v then t else (t + v * log_ (v / p))%Qc)) 0%Qc.
(** T1, aib.c:397-407 *)
Definition pair_loss (s : aib) (tmp : list Qc) (a b : nat) : option Qc :=
  do pa <- aget (px s) a;
  do pb <- aget (px s) b;
  do ta <- aget tmp a;
  do tb <- aget tmp b;
  let t := plogp (pa + pb)%Qc in
  let t := (t + (ta + tb))%Qc in
  iter nlabels (fun c t =>
    do u <- aget (pcx s) (a * nlabels + c);
    do v <- aget (pcx s) (b * nlabels + c);
    Some (if is_null u && is_null v then t else (t + - plogp (u + v))%Qc)) t.
(** aib.c:416-425 *)
Definition lower (a b : nat) (t : Qc) (s : aib) : option aib :=
  do x <- aget (beta s) a;
  if less (Some t) x then
    do be <- aset (beta s) a (Some t);
    do bi <- aset (bidx s) a b;
    Some (mk_aib (nodes s) (nentries s) be bi (which s) (pcx s) (px s))
  else Some s.
(** one other entry, aib.c:393-427 *)
Definition update_pair (tmp : list Qc) (a b : nat) (s : aib) : option aib :=
  do pa <- aget (px s) a;
  do pb <- aget (px s) b;
  if (a =? b) || is_null pa || is_null pb then Some s else
  do t <- pair_loss s tmp a b;
  do s <- lower a b t s;
  lower b a t s.
(** vl_aib_update_beta, aib.c:354-430 *)
Definition update_beta (s : aib) : option aib :=
  do tmp <- iter (nentries s) (fun a l => do t <- self_info s a; Some (l ++ [t])) [];
  iter (length (which s)) (fun i s' =>
    do a <- aget (which s) i;
    iter (nentries s) (update_pair tmp a) s') s.

(** the information of vl_aib_calculate_information, aib.c:442-466 *)
Definition information (s : aib) (pc : list Qc) : option Qc :=
  iter (nentries s) (fun r i =>
    do p <- aget (px s) r;
    if is_null p then Some i else
    iter nlabels (fun c i =>
      do v <- aget (pcx s) (r * nlabels + c);
      do q <- aget pc c;
      Some (if is_null v then i else (i + v * log_ (v / (p * q)))%Qc)) i) 0%Qc.

(** the merges of vl_aib_process, aib.c:604-645; [todo] is nvalues - 1 - i.  Returns the
    pairs of nodes merged, the parents and the costs after each merge, [None] for not a
    number. *)
Fixpoint merges (pc : list Qc) (todo i : nat) (s : aib) (parents : list nat) (costs : list (option Qc))
  : option (list (nat * nat) * list nat * list (option Qc)) :=
  match todo with
  | O => Some ([], parents, costs)
  | S todo =>
    do s <- update_beta s;
    do (besti, bestj, minbeta) <- min_beta s;
    match minbeta with
    | None => Some ([], parents, costs ++ repeat None (S todo))
    | Some _ =>
      let new := nvalues + i in
      do nodei <- aget (nodes s) besti;
      do nodej <- aget (nodes s) bestj;
      do parents <- aset parents nodei new;
      do parents <- aset parents nodej new;
      do parents <- aset parents new 0;
      do s <- merge_nodes s besti bestj new;
      do cost <- information s pc;
      do (ms, parents, costs) <- merges pc todo (i + 1) s parents (costs ++ [Some cost]);
      Some ((nodei, nodej) :: ms, parents, costs)
    end
  end.

(** vl_aib_new followed by vl_aib_process, aib.c:491-528, 592-645; nvalues is not zero *)
Definition aib_run (P : list Qc) (bidx : list nat) : option (list (nat * nat) * list nat * list (option Qc)) :=
  do (s, pc) <- new_aib P bidx;
  do cost <- information s pc;
  merges pc (nvalues - 1) 0 s (repeat (2 * nvalues) (2 * nvalues - 1)) [Some cost].
End Aib.
