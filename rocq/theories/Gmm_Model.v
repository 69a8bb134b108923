(** Model of the Gaussian mixtures, vl/gmm.c, over the real numbers (rounding is not
    modelled).  [None] stands for undefined behaviour or for a result that is not a number.

    Matrices are arrays as in the code: entry d of the mean of mode k is at k * D + d and the
    posterior of mode k for datum i at k + i * K.  Parallel loops run their iterations in an
    arbitrary order; the threads of the maximization get arbitrary parts of the data and
    add their sums one after the other.  The weighted sums and distances of mathop_sse2.c and
    mathop_avx.c are replaced by the scalar loops in gmm.c, to which they are equal (C41).  Messages are left out.
    Memory obtained from vl_malloc holds arbitrary numbers [junk]. *)
From Coq Require Import List Arith Lia Bool Reals.
From Verif Require Import Base Loop Table Vec_Model Vec_Spec.
Import ListNotations.
Local Open Scope nat_scope.

(** a < b *)
Definition ltb (a b : R) : bool := if Rlt_dec a b then true else false.
(** log: not a number, or infinite, for x <= 0 *)
Definition flog (x : R) : option R := if Rle_dec x 0 then None else Some (ln x).
(** VL_GMM_MIN_POSTERIOR and VL_GMM_MIN_PRIOR, gmm.c:308-309 *)
Definition min_posterior : R := (/ 100)%R.
Definition min_prior : R := (/ 1000000)%R.

(** means, covariances and priors *)
Record params := mk_params { p_means : list R; p_covs : list R; p_priors : list R }.
(** the parameters, the buffer of the posteriors and numData, gmm.c:311-329 *)
Record gmm := mk_gmm { g_par : params; g_post : list R; g_num : nat }.

Section Gmm.
Variables (D K : nat).
Variable (junk : nat -> R).
(** sigmaLowBound *)
Variable (bounds : list R).

Definition fresh (n : nat) : list R := map junk (seq 0 n).

(** ** Expectation: vl_get_gmm_data_posteriors, gmm.c:711-797 *)
(** gmm.c:725 *)
Definition half_dim_log : R := (INR D / 2 * ln (2 * PI))%R.
(** gmm.c:745-757; [None] in the weights is minus infinity *)
Definition log_weights (priors : list R) : option (list (option R)) :=
  build K (fun k => do p <- aget priors k;
    if ltb p min_prior then Some None else do l <- flog p; Some (Some l)).
Definition log_covariances (covs : list R) : option (list R) :=
  build K (fun k => iter D (fun d s => do c <- aget covs (k * D + d); do l <- flog c; Some (s + l)%R) 0%R).
Definition inv_covariances (covs : list R) : option (list R) :=
  build (K * D) (fun p => do c <- aget covs p; if Req_EM_T c 0 then None else Some (1 / c)%R).

(** p of gmm.c:768-774 *)
Definition log_density (lw : list (option R)) (lc ic means data : list R) (i k : nat) : option (option R) :=
  do w <- aget lw k;
  do c <- aget lc k;
  do m <- mahalanobis real_ops D (skipn (i * D) data) (skipn (k * D) means) (skipn (k * D) ic);
  Some (match w with None => None | Some w => Some (w - half_dim_log - 0.5 * c - 0.5 * m)%R end).
(** if (p > maxPosterior) maxPosterior = p, from minus infinity *)
Definition larger (m p : option R) : option R :=
  match p, m with
  | None, _ => m
  | Some p, None => Some p
  | Some p, Some m => if ltb m p then Some p else Some m
  end.
(** one datum, gmm.c:763-791; state (LL, posteriors).  The log densities are kept in a list
    of their own.  If all modes have negligible priors the difference of two infinities is
    not a number *)
Definition datum (lw : list (option R)) (lc ic means data : list R) (i : nat) (s : R * list R) : option (R * list R) :=
  let '(ll, post) := s in
  do ps <- build K (log_density lw lc ic means data i);
  match fold_left larger ps None with
  | None => None
  | Some m =>
    let es := map (fun p => match p with None => 0%R | Some p => exp (p - m) end) ps in
    let s := fold_left Rplus es 0%R in
    do l <- flog s;
    do post <- iter K (fun k post => do e <- aget es k; aset post (i * K + k) (e / s)%R) post;
    Some ((ll + (l + m))%R, post)
  end.
Definition expectation (order : list nat) (p : params) (data post : list R) : option (R * list R) :=
  do lw <- log_weights (p_priors p);
  do lc <- log_covariances (p_covs p);
  do ic <- inv_covariances (p_covs p);
  over order (datum lw lc ic (p_means p) data) (0%R, post).

(** ** Maximization *)
(** _vl_gmm_apply_bounds, gmm.c:1006-1030 *)
Definition apply_bounds (covs : list R) : option (list R) :=
  iter K (fun k covs => iter D (fun d covs =>
    do c <- aget covs (k * D + d); do b <- aget bounds d;
    if ltb c b then aset covs (k * D + d) b else Some covs) covs) covs.

(** masses, weighted sums and weighted squares *)
Definition sums : Type := list R * (list R * list R).
Definition no_sums : sums := (repeat 0%R K, (repeat 0%R (K * D), repeat 0%R (K * D))).

(** datum i and mode k, gmm.c:1093-1148 *)
Definition add_mode (post old data : list R) (i k : nat) (s : sums) : option sums :=
  let '(ms, mc) := s in
  do p <- aget post (i * K + k);
  if ltb p (min_posterior / INR K) then Some s else
  do ms <- modify k (fun z => z + p)%R ms;
  do mc <- iter D (fun d '(mu, cv) =>
    do x <- aget data (i * D + d);
    do m <- aget old (k * D + d);
    let diff := (x - m)%R in
    do mu <- modify (k * D + d) (fun z => z + p * x)%R mu;
    do cv <- modify (k * D + d) (fun z => z + p * (diff * diff))%R cv;
    Some (mu, cv)) mc;
  Some (ms, mc).
(** one thread, gmm.c:1072-1148 *)
Definition worker (post old data : list R) (part : list nat) : option sums :=
  over part (fun i s => iter K (add_mode post old data i) s) no_sums.
(** gmm.c:1154-1160 *)
Definition merge (t s : sums) : option sums :=
  let '(tms, (tmu, tcv)) := t in
  let '(ms, mc) := s in
  do ms <- iter K (fun k ms => do x <- aget tms k; modify k (fun z => z + x)%R ms) ms;
  do mc <- iter K (fun k mc => iter D (fun d '(mu, cv) =>
    do x <- aget tmu (k * D + d);
    do mu <- modify (k * D + d) (fun z => z + x)%R mu;
    do y <- aget tcv (k * D + d);
    do cv <- modify (k * D + d) (fun z => z + y)%R cv;
    Some (mu, cv)) mc) mc;
  Some (ms, mc).
(** gmm.c:1168-1178 *)
Definition divide (ms : list R) (mc : list R * list R) : option (list R * list R) :=
  iter K (fun k mc =>
    do mass <- aget ms k;
    if ltb mass (1e-6 / INR K) then Some mc else
    iter D (fun d '(mu, cv) =>
      do mu <- modify (k * D + d) (fun z => z / mass)%R mu;
      do cv <- modify (k * D + d) (fun z => z / mass)%R cv;
      Some (mu, cv)) mc) mc.
(** gmm.c:1180-1191 *)
Definition correct (ms old mu cv : list R) : option (list R) :=
  iter K (fun k cv =>
    do mass <- aget ms k;
    if ltb mass (1e-6 / INR K) then Some cv else
    iter D (fun d cv =>
      do m <- aget mu (k * D + d);
      do o <- aget old (k * D + d);
      let diff := (m - o)%R in
      modify (k * D + d) (fun z => z - diff * diff)%R cv) cv) cv.
(** gmm.c:1195-1204 *)
Definition normalize (ms : list R) : option (list R) :=
  do s <- iter K (fun k s => do m <- aget ms k; Some (s + m)%R) 0%R;
  let s := if ltb 1e-12 s then s else 1e-12%R in
  iter K (fun k ms => modify k (fun z => z / s)%R ms) ms.
(** _vl_gmm_maximization, gmm.c:1036-1213; [parts] are the data of the threads *)
Definition maximization (parts : list (list nat)) (p : params) (data post : list R) : option params :=
  let old := p_means p in
  do (ms, mc) <- over parts (fun part s => do t <- worker post old data part; merge t s) no_sums;
  do (mu, cv) <- divide ms mc;
  do cv <- correct ms old mu cv;
  do cv <- apply_bounds cv;
  do ms <- normalize ms;
  Some (mk_params mu cv ms).

(** ** _vl_gmm_restart_empty_modes, gmm.c:814-999 *)
(** gmm.c:836-848 *)
Definition masses (n : nat) (post : list R) : option (list R) :=
  iter n (fun i ms => iter K (fun k ms => do p <- aget post (i * K + k); modify k (fun z => z + p)%R ms) ms) (repeat 0%R K).
(** the entropy contribution of mode j, gmm.c:921-926 *)
Definition contribution (p : params) (j : nat) : option R :=
  do pr <- aget (p_priors p) j;
  do s <- iter D (fun d s => do c <- aget (p_covs p) (j * D + d); do l <- flog c; Some (s + 0.5 * l)%R)
            (0.5 * INR D * (1 + ln (2 * PI)))%R;
  do l <- flog pr;
  Some (pr * (s - l))%R.
(** "if (x > size) { size = x; best = j }", from minus infinity and -1 *)
Definition better (x : R) (j : nat) (s : option (R * nat)) : option (R * nat) :=
  match s with
  | None => Some (x, j)
  | Some (size, _) => if ltb size x then Some (x, j) else s
  end.
(** gmm.c:919-937 *)
Definition split_mode (p : params) : option (option (R * nat)) :=
  iter K (fun j s =>
    do pr <- aget (p_priors p) j;
    if ltb pr min_prior then Some s else
    do x <- contribution p j;
    Some (better x j s)) None.
(** gmm.c:955-964 *)
Definition split_dimension (covs : list R) (j : nat) : option (option (R * nat)) :=
  iter D (fun d s => do c <- aget covs (j * D + d); Some (better c d s)) None.
(** gmm.c:969-985 *)
Definition reassign (data : list R) (n i j : nat) (best : nat) (mu : R) (post : list R) : option (list R) :=
  iter n (fun a post =>
    do p <- aget post (a * K + j);
    do q <- aget post (a * K + i);
    do x <- aget data (a * D + best);
    if ltb x mu then
      do post <- aset post (a * K + i) (p + q)%R; aset post (a * K + j) 0%R
    else
      do post <- aset post (a * K + i) 0%R; aset post (a * K + j) (p + q)%R) post.
Definition restart (parts : nat -> list (list nat)) (data : list R) (g : gmm) : option gmm :=
  if K <=? 1 then Some g else
  let n := g_num g in
  do mass <- masses n (g_post g);
  let least := (min_posterior * Rmax 1 (INR n / INR K))%R in
  iter K (fun i g =>
    do m <- aget mass i;
    if negb (ltb m least) then Some g else
    do s <- split_mode (g_par g);
    match s with
    | None => Some g
    | Some (_, j) =>
      if j =? i then Some g else
      do s <- split_dimension (p_covs (g_par g)) j;
      match s with
      | None => None   (* means[-1 + j * dimension] *)
      | Some (_, best) =>
        do mu <- aget (p_means (g_par g)) (j * D + best);
        do post <- reassign data n i j best mu (g_post g);
        do p <- maximization (parts i) (g_par g) data post;
        Some (mk_gmm p post n)
      end
    end) g.

(** ** EM *)
(** _vl_gmm_prepare_for_data, gmm.c:336-344; of a buffer that is larger than needed only the part
    in use is kept in the model *)
Definition prepare (n : nat) (g : gmm) : gmm :=
  mk_gmm (g_par g) (if g_num g <? n then fresh (n * K) else firstn (n * K) (g_post g)) n.

(** gmm.c:1279-1280; a quotient by zero is infinite or not a number *)
Definition converged (prev ll : R) : bool :=
  if Req_EM_T ll 0 then false else ltb (Rabs ((ll - prev) / ll)) 0.00001.

(** the schedules of the parallel loops of one iteration *)
Record schedule := mk_schedule { s_order : list nat; s_restart : nat -> list (list nat); s_parts : list (list nat) }.

(** the loop of _vl_gmm_em, gmm.c:1236-1305; [rest] is maxNumIterations - iteration *)
Fixpoint em_loop (sched : nat -> schedule) (data : list R) (rest it : nat) (prev : R) (g : gmm) : option (R * gmm) :=
  do (ll, post) <- expectation (s_order (sched it)) (g_par g) data (g_post g);
  let g := mk_gmm (g_par g) post (g_num g) in
  match rest with
  | O => Some (ll, g)
  | S rest =>
    if (0 <? it) && converged prev ll then Some (ll, g) else
    do g <- (if 1 <? it then restart (s_restart (sched it)) data g else Some g);
    do p <- maximization (s_parts (sched it)) (g_par g) data (g_post g);
    em_loop sched data rest (it + 1) ll (mk_gmm p (g_post g) (g_num g))
  end.
(** _vl_gmm_em, gmm.c:1220-1307; vl_gmm_em, gmm.c:1656-1667 *)
Definition em (sched : nat -> schedule) (max_iterations : nat) (data : list R) (n : nat) (g : gmm) : option (R * gmm) :=
  let g := prepare n g in
  do cv <- apply_bounds (p_covs (g_par g));
  em_loop sched data max_iterations 0 0%R (mk_gmm (mk_params (p_means (g_par g)) cv (p_priors (g_par g))) (g_post g) n).

(** ** Initialization *)
(** vl_gmm_reset, gmm.c:391-405, without the k-means object; no buffer is the empty list *)
Definition reset (g : gmm) : gmm := mk_gmm (g_par g) [] 0.
(** _vl_gmm_init_with_kmeans, gmm.c:1315-1371; [assignments] come from the k-means object *)
Definition init_kmeans (parts : list (list nat)) (assignments : list nat) (data : list R) (n : nat) (g : gmm) : option gmm :=
  let g := prepare n (reset g) in
  let zeros := mk_params (repeat 0%R (K * D)) (repeat 0%R (K * D)) (repeat 0%R K) in
  do post <- (if length (g_post g) <? n * K then None else Some (repeat 0%R (n * K) ++ skipn (n * K) (g_post g)));
  do post <- iter n (fun i post => do a <- aget assignments i; aset post (a + i * K) 1%R) post;
  do p <- maximization parts zeros data post;
  Some (mk_gmm p post n).
(** _vl_gmm_compute_init_sigma, gmm.c:1376-1413 *)
Definition init_sigma (data : list R) (n : nat) : option (list R) :=
  if n <=? 1 then Some (repeat 0%R D) else
  do mean <- build D (fun d =>
    do s <- iter n (fun i s => do x <- aget data (i * D + d); Some (s + x)%R) 0%R; Some (s / INR n)%R);
  build D (fun d =>
    do m <- aget mean d;
    do s <- iter n (fun i s => do x <- aget data (i * D + d); let diff := (x - m)%R in Some (s + diff * diff)%R) 0%R;
    Some (s / (INR n - 1))%R).
(** _vl_gmm_init_with_rand_data, gmm.c:1415-1443; [centers] come from vl_kmeans_init_centers_plus_plus *)
Definition init_rand (centers data : list R) (n : nat) (g : gmm) : option gmm :=
  let g := prepare n (reset g) in
  do priors <- build K (fun _ => Some (1 / INR K)%R);
  do sigma <- init_sigma data n;
  do covs <- build (K * D) (fun p => aget sigma (p mod D));
  if length centers =? K * D then Some (mk_gmm (mk_params centers covs priors) (g_post g) n) else None.

Inductive initialization :=
| Rand (centers : nat -> list R)
| Kmeans (parts : nat -> list (list nat)) (assignments : nat -> list nat)
| Custom.

(** ** vl_gmm_cluster, gmm.c:1560-1649 *)
(** the object during the repetitions: its arrays, [None] when they are the uninitialized ones
    allocated in lines 1575-1578, and the best solution so far *)
Definition progress : Type := option gmm * option (R * gmm).
Definition repetition (init : initialization) (sched : nat -> nat -> schedule) (max_iterations : nat) (data : list R) (n r : nat) (s : progress) : option progress :=
  let '(cur, best) := s in
  let any := mk_gmm (mk_params (fresh (K * D)) (fresh (K * D)) (fresh K)) (fresh (n * K)) n in
  let mine := match cur with Some g => g | None => any end in
  do g <- match init with
          | Rand centers => init_rand (centers r) data n mine
          | Kmeans parts assignments => init_kmeans (parts r) (assignments r) data n mine
          | Custom => cur
          end;
  do (ll, g) <- em (sched r) max_iterations data n g;
  match best with
  | None => Some (None, Some (ll, g))
  | Some (bll, b) => if ltb bll ll then Some (Some b, Some (ll, g)) else Some (Some g, best)
  end.
Definition cluster (init : initialization) (repetitions : nat) (sched : nat -> nat -> schedule) (max_iterations : nat) (data : list R) (n : nat) (g : gmm) : option (R * gmm) :=
  do (_, best) <- iter repetitions (repetition init sched max_iterations data n) (Some g, None);
  best.
End Gmm.

(** ** The object *)
(** the fields that matter for EM; the k-means object and the verbosity are left out *)
Record object := mk_object { o_dim : nat; o_modes : nat; o_bounds : list R; o_iterations : nat; o_gmm : gmm }.
(** vl_gmm_new, gmm.c:353-383 *)
Definition gmm_new (dim modes : nat) : object :=
  mk_object dim modes (repeat 1e-4%R dim) 50
    (mk_gmm (mk_params (repeat 0%R (modes * dim)) (repeat 0%R (modes * dim)) (repeat 0%R modes)) [] 0).
(** vl_gmm_new_copy, gmm.c:1480-1496 *)
Definition gmm_copy (o : object) : object :=
  let c := gmm_new (o_dim o) (o_modes o) in
  mk_object (o_dim c) (o_modes c) (o_bounds c) (o_iterations o) (mk_gmm (g_par (o_gmm o)) [] 0).
(** vl_gmm_em on the object *)
Definition object_em (junk : nat -> R) (sched : nat -> schedule) (data : list R) (n : nat) (o : object) : option (R * gmm) :=
  em (o_dim o) (o_modes o) junk (o_bounds o) sched (o_iterations o) data n (o_gmm o).
