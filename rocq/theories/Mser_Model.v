(** Model of the MSER detector, /repo/vl/mser.c.

    Simplifications.
    - Pixels, areas and counts are natural numbers: images are assumed to have
      fewer than 2^31 pixels, as the C code does by using [int].
    - VL_MSER_VOID_NODE is [None].  The field [shortcut] of a basic region is
      reused by the C code, after the forest is built, for the index of the extremal region;
      here it is a second array.
    - The variation of a region and the diversity of two regions are rational
      numbers computed in float by the C code; here they are values of an
      arbitrary type computed by an arbitrary function of the two areas and
      compared by an arbitrary test, so float rounding is included.
    - Buffers obtained from malloc hold arbitrary contents. *)
From Coq Require Import List ZArith Arith Bool QArith.
From Verif Require Import Base.
Import ListNotations.
Local Open Scope nat_scope.

(** * Sorting pixels by intensity, /repo/vl/mser.c:452-476 *)

(** VL_MSER_PIX_MAXVAL, /repo/vl/mser.h:30 *)
Definition MAXVAL : nat := 256.

(** The histogram, 460-463. *)
Fixpoint count_pixels (im : list nat) (buckets : list nat) : option (list nat) :=
  match im with
  | [] => Some buckets
  | v :: im' =>
    do b <- aget buckets v;
    do buckets <- aset buckets v (b + 1);
    count_pixels im' buckets
  end.

(** The cumulated histogram, 466-468; [n] iterations left from index [i]. *)
Fixpoint cumulate (n i : nat) (buckets : list nat) : option (list nat) :=
  match n with
  | O => Some buckets
  | S n' =>
    do a <- aget buckets i;
    do b <- aget buckets (i - 1);
    do buckets <- aset buckets i (a + b);
    cumulate n' (i + 1) buckets
  end.

(** Emptying the buckets, 471-475: [i] pixels left.  A bucket that is already
    empty would wrap around and is [None]. *)
Fixpoint empty_buckets (i : nat) (im buckets perm : list nat) : option (list nat) :=
  match i with
  | O => Some perm
  | S i' =>
    do v <- aget im i';
    do b <- aget buckets v;
    match b with
    | O => None
    | S j =>
      do buckets <- aset buckets v j;
      do perm <- aset perm j i';
      empty_buckets i' im buckets perm
    end
  end.

(** [perm] is the buffer allocated by vl_mser_new. *)
Definition sort_pixels (im perm : list nat) : option (list nat) :=
  do b1 <- count_pixels im (repeat 0 MAXVAL);
  do b2 <- cumulate (MAXVAL - 1) 1 b1;
  empty_buckets (length im) im b2 perm.

(** * Neighbours of a pixel *)

(** The strides, /repo/vl/mser.c:341-345. *)
Fixpoint strides_from (s : nat) (dims : list nat) : list nat :=
  match dims with [] => [] | d :: r => s :: strides_from (s * d) r end.
Definition strides_of (dims : list nat) : list nat := strides_from 1 dims.

(** The number of pixels, 348. *)
Fixpoint nel_of (dims : list nat) : nat :=
  match dims with [] => 1 | d :: r => d * nel_of r end.

(** The subscript of a pixel, 517-524: [rstrides] are the strides from the last
    to the first, and [subs] the part already computed. *)
Fixpoint subs_loop (temp : nat) (rstrides : list nat) (subs : list nat) : list nat :=
  match rstrides with
  | [] => subs
  | s :: r => subs_loop (temp mod s) r (temp / s :: subs)
  end.
Definition subs_of (dims : list nat) (idx : nat) : list nat :=
  subs_loop idx (rev (strides_of dims)) [].

(** The index of the neighbour at offset [dsubs], 536-540; [None] is good = 0. *)
Fixpoint nbr_index (subs : list nat) (dsubs : list Z) (dims strides : list nat) (n_idx : Z) : option nat :=
  match subs, dsubs, dims, strides with
  | s :: subs, d :: dsubs, m :: dims, t :: strides =>
    let temp := (d + Z.of_nat s)%Z in
    if ((0 <=? temp) && (temp <? Z.of_nat m))%Z
    then nbr_index subs dsubs dims strides (n_idx + temp * Z.of_nat t)
    else None
  | _, _, _, _ => Some (Z.to_nat n_idx)
  end.

(** The next offset, 625-629; [None] when all were tried. *)
Fixpoint next_dsubs (dsubs : list Z) : option (list Z) :=
  match dsubs with
  | [] => None
  | d :: r =>
    if (1 <? d + 1)%Z
    then match next_dsubs r with Some r' => Some ((-1)%Z :: r') | None => None end
    else Some ((d + 1)%Z :: r)
  end.

(** * The forest of regions *)

(** struct _VlMserReg, /repo/vl/mser.h:147-153 *)
Record reg := mk_reg { g_parent : option nat; g_shortcut : nat; g_height : Z; g_area : nat }.
Definition set_shortcut (g : reg) (s : nat) : reg := mk_reg (g_parent g) s (g_height g) (g_area g).

(** The two loops of climb, /repo/vl/mser.c:270-302. *)
Fixpoint climb_up (fuel : nat) (r : list reg) (prev_idx idx : nat) : option (list reg * nat) :=
  match fuel with
  | O => None
  | S fuel' =>
    do g <- aget r idx;
    let next_idx := g_shortcut g in
    do r <- aset r idx (set_shortcut g prev_idx);
    if next_idx =? idx then Some (r, idx) else climb_up fuel' r idx next_idx
  end.
Fixpoint climb_down (fuel : nat) (r : list reg) (root_idx idx : nat) : option (list reg) :=
  match fuel with
  | O => None
  | S fuel' =>
    do g <- aget r idx;
    let prev_idx := g_shortcut g in
    do r <- aset r idx (set_shortcut g root_idx);
    if prev_idx =? idx then Some r else climb_down fuel' r root_idx prev_idx
  end.
(** climb, /repo/vl/mser.c:261-305 *)
Definition climb (r : list reg) (idx : nat) : option (list reg * nat) :=
  do (r, root_idx) <- climb_up (length r) r idx idx;
  do r <- climb_down (length r) r root_idx root_idx;
  Some (r, root_idx).

(** The locals of the union loop: the forest, r_idx, joins[0..njoins-1], ner.
    The buffer joins has as many elements as there are pixels. *)
Record ust := mk_ust { u_r : list reg; u_ridx : nat; u_joins : list nat; u_ner : nat }.

Definition add_join (nel : nat) (joins : list nat) (j : nat) : option (list nat) :=
  if length joins <? nel then Some (joins ++ [j]) else None.

(** One neighbour, /repo/vl/mser.c:555-621 (the tests that it is inside the
    image are in [nbr_index]).  The height n_hgt is read before nr_idx is
    computed, so it is the height of pixel 0. *)
Definition visit_neighbor (im : list nat) (idx n_idx : nat) (u : ust) : option ust :=
  if n_idx =? idx then Some u
  else
    do n <- aget (u_r u) n_idx;
    match g_parent n with
    | None => Some u
    | Some _ =>
      do g <- aget (u_r u) (u_ridx u);
      do g0 <- aget (u_r u) 0;
      let hgt := g_height g in
      let n_hgt := g_height g0 in
      do (r, r_idx) <- climb (u_r u) idx;
      do (r, nr_idx) <- climb r n_idx;
      if r_idx =? nr_idx then Some (mk_ust r r_idx (u_joins u) (u_ner u))
      else
        do val <- aget im idx;
        do nr_val <- aget im nr_idx;
        do gr <- aget r r_idx;
        do gn <- aget r nr_idx;
        if (nr_val =? val) && (hgt <? n_hgt)%Z then
          do r <- aset r r_idx (mk_reg (Some nr_idx) nr_idx (g_height gr) (g_area gr));
          do r <- aset r nr_idx (mk_reg (g_parent gn) (g_shortcut gn) (Z.max n_hgt (hgt + 1))
                                       (g_area gn + g_area gr));
          do joins <- add_join (length im) (u_joins u) r_idx;
          Some (mk_ust r r_idx joins (u_ner u))
        else
          do r <- aset r nr_idx (mk_reg (Some r_idx) r_idx (g_height gn) (g_area gn));
          do r <- aset r r_idx (mk_reg (g_parent gr) (g_shortcut gr) (Z.max hgt (n_hgt + 1))
                                      (g_area gr + g_area gn));
          do joins <- add_join (length im) (u_joins u) nr_idx;
          Some (mk_ust r r_idx joins (if nr_val =? val then u_ner u else u_ner u + 1))
    end.

(** The loop over the neighbours, 527-630. *)
Fixpoint neighbor_loop (fuel : nat) (dims im : list nat) (idx : nat) (subs : list nat) (dsubs : list Z)
    (u : ust) : option ust :=
  match fuel with
  | O => None
  | S fuel' =>
    do u <- match nbr_index subs dsubs dims (strides_of dims) 0 with
            | Some n_idx => visit_neighbor im idx n_idx u
            | None => Some u
            end;
    match next_dsubs dsubs with
    | None => Some u
    | Some dsubs => neighbor_loop fuel' dims im idx subs dsubs u
    end
  end.

(** One pixel, 501-631. *)
Definition add_pixel (dims im : list nat) (idx : nat) (r : list reg) (joins : list nat) (ner : nat)
  : option (list reg * list nat * nat) :=
  do r <- aset r idx (mk_reg (Some idx) idx 1 1);
  do u <- neighbor_loop (3 ^ length dims) dims im idx (subs_of dims idx) (repeat (-1)%Z (length dims))
            (mk_ust r idx joins ner);
  Some (u_r u, u_joins u, u_ner u).

(** The loop over the pixels, 498-632. *)
Fixpoint union_loop (dims im : list nat) (perm : list nat) (r : list reg) (joins : list nat) (ner : nat)
  : option (list reg * list nat * nat) :=
  match perm with
  | [] => Some (r, joins, ner)
  | idx :: perm' =>
    do (r, joins, ner) <- add_pixel dims im idx r joins ner;
    union_loop dims im perm' r joins ner
  end.

(** Clearing the forest, 479-481; the other fields keep what they held. *)
Definition clear (r : list reg) : list reg :=
  map (fun g => mk_reg None (g_shortcut g) (g_height g) (g_area g)) r.

(** * Extremal regions *)

Section Select.
  Context {V : Type}.
  (** variation of a region from its area and that of the top region (751), and
      comparison of two variations (787) *)
  Variable variation : nat -> nat -> V.
  Variable vlt : V -> V -> bool.

  (** struct _VlMserExtrReg, /repo/vl/mser.h:184-193 *)
  Record ereg := mk_ereg { e_parent : nat; e_index : nat; e_value : nat; e_shortcut : nat;
                           e_area : nat; e_variation : V; e_stable : bool }.

  (** Extraction, /repo/vl/mser.c:669-698: [ner] regions found so far; [cap]
      is the size of the buffer er; [link] is the reused field shortcut.  The
      fields variation and max_stable of a new region are not written. *)
  Fixpoint extract (junk : ereg) (im : list nat) (r : list reg) (perm : list nat) (cap : nat)
      (er : list ereg) (link : list (option nat)) : option (list ereg * list (option nat)) :=
    match perm with
    | [] => Some (er, link)
    | idx :: perm' =>
      do val <- aget im idx;
      do g <- aget r idx;
      do p_idx <- g_parent g;
      do p_val <- aget im p_idx;
      if (val <? p_val) || (idx =? p_idx) then
        let ner := length er in
        if ner <? cap then
          do link <- aset link idx (Some ner);
          extract junk im r perm' cap
            (er ++ [mk_ereg ner idx val (e_shortcut junk) (g_area g) (e_variation junk) (e_stable junk)]) link
        else None
      else
        do link <- aset link idx None;
        extract junk im r perm' cap er link
    end.

  (** The search of the parent region, 708-710. *)
  Fixpoint find_parent (fuel : nat) (r : list reg) (link : list (option nat)) (idx : nat) : option nat :=
    match fuel with
    | O => None
    | S fuel' =>
      do g <- aget r idx;
      do p <- g_parent g;
      do l <- aget link p;
      match l with Some e => Some e | None => find_parent fuel' r link p end
    end.

  (** The linking loop, 704-714: [n] regions left from [i]. *)
  Fixpoint link_regions (n i : nat) (r : list reg) (link : list (option nat)) (er : list ereg)
    : option (list ereg) :=
    match n with
    | O => Some er
    | S n' =>
      do e <- aget er i;
      do p <- find_parent (S (length r)) r link (e_index e);
      do er <- aset er i (mk_ereg p (e_index e) (e_value e) i (e_area e) (e_variation e) (e_stable e));
      link_regions n' (S i) r link er
    end.

  (** The search of the top region, 730-744. *)
  Fixpoint find_top (fuel : nat) (er : list ereg) (top_val top : nat) : option nat :=
    match fuel with
    | O => None
    | S fuel' =>
      do e <- aget er top;
      let next := e_parent e in
      do n <- aget er next;
      if (next =? top) || (top_val <? e_value n) then Some top else find_top fuel' er top_val next
    end.

  (** Variations, 723-763. *)
  Fixpoint variations (n i : nat) (delta : nat) (er : list ereg) : option (list ereg) :=
    match n with
    | O => Some er
    | S n' =>
      do e <- aget er i;
      do top <- find_top (S (length er)) er (e_value e + delta) (e_shortcut e);
      do t <- aget er top;
      do er <- aset er i (mk_ereg (e_parent e) (e_index e) (e_value e) (e_shortcut e) (e_area e)
                            (variation (e_area e) (e_area t)) true);
      do p <- aget er (e_parent e);
      do er <- aset er (e_parent e)
                 (mk_ereg (e_parent p) (e_index p) (e_value p) (Nat.max top (e_shortcut p)) (e_area p)
                          (e_variation p) (e_stable p));
      variations n' (S i) delta er
    end.

  Definition set_stable (e : ereg) (b : bool) : ereg :=
    mk_ereg (e_parent e) (e_index e) (e_value e) (e_shortcut e) (e_area e) (e_variation e) b.

  (** Maximally stable branches, 769-792; [nmer] is decreased. *)
  Fixpoint select_stable (n i : nat) (er : list ereg) (nmer : nat) : option (list ereg * nat) :=
    match n with
    | O => Some (er, nmer)
    | S n' =>
      do e <- aget er i;
      do p <- aget er (e_parent e);
      if e_value e + 1 <? e_value p then select_stable n' (S i) er nmer
      else
        let loser := if vlt (e_variation e) (e_variation p) then e_parent e else i in
        do l <- aget er loser;
        if e_stable l then
          do er <- aset er loser (set_stable l false);
          select_stable n' (S i) er (nmer - 1)
        else select_stable n' (S i) er nmer
    end.

  (** The tests of the filters, 805-842: variation >= max_var, area > max_area,
      area < min_area, min_div < 1 and diversity < min_div. *)
  Variable too_variable : V -> bool.
  Variable too_big too_small : nat -> bool.
  Variable check_dups : bool.
  Variable too_similar : nat -> nat -> bool.   (* area, area of the parent *)

  (** Statistics, /repo/vl/mser.h: num_abs_unstable, num_too_big,
      num_too_small, num_duplicates. *)
  Record stats := mk_stats { st_bad : nat; st_big : nat; st_small : nat; st_dup : nat }.

  (** The search of a maximally stable ancestor, 831-835. *)
  Fixpoint stable_parent (fuel : nat) (er : list ereg) (parent : nat) : option nat :=
    match fuel with
    | O => None
    | S fuel' =>
      do e <- aget er parent;
      if e_stable e then Some parent
      else if e_parent e =? parent then Some parent
      else stable_parent fuel' er (e_parent e)
    end.

  (** Why region [i] is removed, 812-845: [None] when it stays. *)
  Inductive reason := RBad | RBig | RSmall | RDup.
  Definition verdict (er : list ereg) (i : nat) (e : ereg) : option (option reason) :=
    if too_variable (e_variation e) then Some (Some RBad)
    else if too_big (e_area e) then Some (Some RBig)
    else if too_small (e_area e) then Some (Some RSmall)
    else if check_dups then
      if e_parent e =? i then Some None
      else
        do parent <- stable_parent (S (length er)) er (e_parent e);
        do p <- aget er parent;
        Some (if too_similar (e_area e) (e_area p) then Some RDup else None)
    else Some None.

  Definition count_reason (s : stats) (w : reason) : stats :=
    match w with
    | RBad => mk_stats (st_bad s + 1) (st_big s) (st_small s) (st_dup s)
    | RBig => mk_stats (st_bad s) (st_big s + 1) (st_small s) (st_dup s)
    | RSmall => mk_stats (st_bad s) (st_big s) (st_small s + 1) (st_dup s)
    | RDup => mk_stats (st_bad s) (st_big s) (st_small s) (st_dup s + 1)
    end.

  (** The filtering loop, 806-850: [n] regions left, from the last one down. *)
  Fixpoint filter_regions (n : nat) (er : list ereg) (nmer : nat) (s : stats)
    : option (list ereg * nat * stats) :=
    match n with
    | O => Some (er, nmer, s)
    | S i =>
      do e <- aget er i;
      if e_stable e then
        do v <- verdict er i e;
        match v with
        | None => filter_regions i er nmer s
        | Some w =>
          do er <- aset er i (set_stable e false);
          filter_regions i er (nmer - 1) (count_reason s w)
        end
      else filter_regions i er nmer s
    end.

  (** Saving the result, 861-873, in a buffer of [nmer] elements. *)
  Fixpoint save_regions (er : list ereg) (cap : nat) (mer : list nat) : option (list nat) :=
    match er with
    | [] => Some mer
    | e :: er' =>
      if e_stable e
      then if length mer <? cap then save_regions er' cap (mer ++ [e_index e]) else None
      else save_regions er' cap mer
    end.

  (** What vl_mser_process leaves in the filter. *)
  Record result := mk_result {
    m_perm : list nat; m_r : list reg; m_joins : list nat; m_er : list ereg;
    m_num_extremal : nat; m_num_unstable : nat; m_stats : stats; m_mer : list nat }.

  (** vl_mser_process, /repo/vl/mser.c:417-874, on the buffers [perm] and [r]
      of the filter. *)
  Definition mser_process (junk : ereg) (dims : list nat) (delta : nat) (perm : list nat) (r : list reg)
      (im : list nat) : option result :=
    do perm <- sort_pixels im perm;
    do (r, joins, ner0) <- union_loop dims im perm (clear r) [] 0;
    let ner := ner0 + 1 in
    do (er, link) <- extract junk im r perm ner [] (map (fun g => Some (g_shortcut g)) r);
    do er <- link_regions (length er) 0 r link er;
    do er <- variations (length er) 0 delta er;
    do (er, nmer) <- select_stable (length er) 0 er (length er);
    let unstable := length er - nmer in
    do (er, nmer, s) <- filter_regions (length er) er nmer (mk_stats 0 0 0 0);
    do mer <- save_regions er nmer [];
    Some (mk_result perm r joins er ner unstable s mer).
End Select.

(** * Ellipsoids *)

(** adv, /repo/vl/mser.c:236-244: the subscript of the next pixel. *)
Fixpoint adv (dims subs : list nat) : list nat :=
  match dims, subs with
  | d :: dims', s :: subs' => if s + 1 <? d then (s + 1) :: subs' else 0 :: adv dims' subs'
  | _, _ => subs
  end.

(** Step 1 of vl_mser_ell_fit, 926-948: [n] pixels left; [f] picks the moment of
    a subscript. *)
Fixpoint fill (f : list nat -> Z) (dims : list nat) (n : nat) (subs : list nat) : list Z :=
  match n with
  | O => []
  | S n' => f subs :: fill f dims n' (adv dims subs)
  end.

(** The pair of dimensions of a second order moment, 938-943 and 989-994. *)
Fixpoint unpack (fuel i j : nat) : option (nat * nat) :=
  match fuel with
  | O => None
  | S fuel' => if j <? i then unpack fuel' (i - (j + 1)) (j + 1) else Some (i, j)
  end.
Definition dof_pair (ndims d : nat) : option (nat * nat) := unpack (S d) (d - ndims) 0.

(** Number of degrees of freedom, 350. *)
Definition dof_of (ndims : nat) : nat := ndims * (ndims + 1) / 2 + ndims.

(** Step 2, 951-955. *)
Fixpoint integrate (r : list reg) (joins : list nat) (acc : list Z) : option (list Z) :=
  match joins with
  | [] => Some acc
  | index :: joins' =>
    do g <- aget r index;
    do parent <- g_parent g;
    do a <- aget acc index;
    do p <- aget acc parent;
    do acc <- aset acc parent (p + a)%Z;
    integrate r joins' acc
  end.

(** Moment number d of every pixel's region, 926-955. *)
Definition moment (dims : list nat) (r : list reg) (joins : list nat) (d : nat) : option (list Z) :=
  let zeros := repeat 0 (length dims) in
  do f <- (if d <? length dims then Some (fun s => Z.of_nat (nth d s 0))
           else do (i, j) <- dof_pair (length dims) d;
                Some (fun s => Z.of_nat (nth i s 0 * nth j s 0)));
  integrate r joins (fill f dims (nel_of dims) zeros).

(** Central moments of one region, 976-998: [n] moments left from number [d]. *)
Fixpoint central (n d ndims : nat) (area : Q) (pt : list Q) : option (list Q) :=
  match n with
  | O => Some pt
  | S n' =>
    do x <- aget pt d;
    do pt <- aset pt d (x / area)%Q;
    do pt <- (if d <? ndims then Some pt
              else do (i, j) <- dof_pair ndims d;
                   do x <- aget pt d;
                   do a <- aget pt i;
                   do b <- aget pt j;
                   aset pt d (x - a * b)%Q);
    central n' (S d) ndims area pt
  end.

(** The moments of each selected region, step 3 (965-968) for every d. *)
Fixpoint collect (accs : list (list Z)) (idx : nat) : option (list Q) :=
  match accs with
  | [] => Some []
  | acc :: accs' =>
    do x <- aget acc idx;
    do l <- collect accs' idx;
    Some (inject_Z x :: l)
  end.

Fixpoint each {A B} (f : A -> option B) (l : list A) : option (list B) :=
  match l with
  | [] => Some []
  | x :: l' => do y <- f x; do ys <- each f l'; Some (y :: ys)
  end.

(** vl_mser_ell_fit, /repo/vl/mser.c:884-1001, with exact numbers instead of
    float: one list of dof numbers for each selected region. *)
Definition ell_fit (dims : list nat) (r : list reg) (joins mer : list nat) : option (list (list Q)) :=
  do accs <- each (moment dims r joins) (seq 0 (dof_of (length dims)));
  each (fun idx =>
          do pt <- collect accs idx;
          do g <- aget r idx;
          central (dof_of (length dims)) 0 (length dims) (inject_Z (Z.of_nat (g_area g))) pt) mer.
