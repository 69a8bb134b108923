(** Life of the objects of k-means, vl/kmeans.c:385-482, 509-521, 990-994, 1805-1826, and of Gaussian mixtures, vl/gmm.c:336-424, 631-638,
    1333-1358, on the heap of blocks of Varray_Model.  Fields that hold no pointers are kept beside the block of the structure; a field that was
    never written since vl_malloc is [None]. *)
From Coq Require Import List Arith ZArith Bool QArith Qcanon.
Import ListNotations.
From Verif Require Import Base Loop Rat Varray_Model.
Local Open Scope Z_scope.

(** VlKMeans, kmeans.h:44-68, without the pointers to functions *)
Record kobj := mk_kobj {
  k_type : vtype; k_dim : Z; k_num : Z; k_trees : Z; k_comparisons : Z;
  k_init : option Z; k_algorithm : Z; k_distance : Z; k_iterations : Z; k_variation : option Qc; k_repetitions : Z; k_verbosity : Z;
  k_centers : option nat; k_distances : option nat; k_energy : option Qc }.
Definition with_data (k : kobj) (dim num : Z) (centers distances : option nat) : kobj :=
  mk_kobj (k_type k) dim num (k_trees k) (k_comparisons k) (k_init k) (k_algorithm k) (k_distance k) (k_iterations k) (k_variation k) (k_repetitions k) (k_verbosity k) centers distances (k_energy k).
(** if (p) vl_free(p) *)
Definition free_if (p : option nat) (h : heap) : option heap := match p with Some p => free p h | None => Some h end.
(** vl_kmeans_reset, kmeans.c:385-396 *)
Definition kmeans_reset (k : kobj) (h : heap) : option (kobj * heap) :=
  do h <- free_if (k_centers k) h;
  do h <- free_if (k_distances k) h;
  Some (with_data k 0 0 None None, h).
Definition bytes3 (a b c : Z) : Z := size_mul (size_mul a b) c.
(** memcpy of [len] bytes from a live block to a live block *)
Definition copy_block (dst src : nat) (len : Z) (h : heap) : option heap :=
  do s <- aget h src; do s <- s; do d <- aget h dst; do d <- d;
  let n := Z.to_nat len in
  if (List.length s <? n)%nat || (List.length d <? n)%nat then None else
  aset h dst (Some (firstn n s ++ skipn n d)).
Section Life.
Variable junk : Z.
Definition kmeans_size : Z := 136.
(** vl_kmeans_new, kmeans.c:404-425: the block of the structure, the fields and the heap *)
Definition kmeans_new (t : vtype) (distance : Z) (h : heap) : option (nat * kobj * heap) :=
  let '(self, h) := malloc 0 kmeans_size h in
  let k := mk_kobj t 0 0 3 100 (Some 0) 0 distance 100 (Some (1 / zq 10000)%Qc) 1 0 None None (Some 0%Qc) in
  do (k, h) <- kmeans_reset k h;
  Some (self, k, h).
(** kmeans.c:453-464 *)
Definition copy_if (p : option nat) (len : Z) (h : heap) : option (option nat * heap) :=
  match p with
  | Some p => let '(q, h) := malloc junk len h in do h <- copy_block q p len h; Some (Some q, h)
  | None => Some (None, h)
  end.
(** vl_kmeans_new_copy, kmeans.c:433-467: initialization, minimum energy variation and energy are not written *)
Definition kmeans_new_copy (k : kobj) (h : heap) : option (nat * kobj * heap) :=
  let '(self, h) := malloc junk kmeans_size h in
  let c := mk_kobj (k_type k) (k_dim k) (k_num k) (k_trees k) (k_comparisons k) None (k_algorithm k) (k_distance k) (k_iterations k) None (k_repetitions k) (k_verbosity k) None None None in
  do (centers, h) <- copy_if (k_centers k) (bytes3 (type_size (k_type c)) (k_dim c) (k_num c)) h;
  do (distances, h) <- copy_if (k_distances k) (bytes3 (type_size (k_type c)) (k_num c) (k_num c)) h;
  Some (self, with_data c (k_dim c) (k_num c) centers distances, h).
(** vl_kmeans_delete, kmeans.c:476-482 *)
Definition kmeans_delete (self : nat) (k : kobj) (h : heap) : option heap :=
  do (_, h) <- kmeans_reset k h; free self h.
(** vl_kmeans_set_centers, kmeans.c:509-521 and 1805-1826; [src] is the pointer to the centers *)
Definition kmeans_set_centers (k : kobj) (src : nat) (dim num : Z) (h : heap) : option (kobj * heap) :=
  do (k, h) <- kmeans_reset k h;
  match k_type k with
  | TFloat | TDouble =>
    let len := bytes3 (type_size (k_type k)) dim num in
    let '(p, h) := malloc junk len h in
    do h <- copy_block p src len h;
    Some (with_data k dim num (Some p) (k_distances k), h)
  | _ => None
  end.
(** _vl_kmeans_update_center_distances, kmeans.c:990-994: only the allocation *)
Definition kmeans_update_distances (k : kobj) (h : heap) : option (kobj * heap) :=
  match k_distances k with
  | Some _ => Some (k, h)
  | None => let '(p, h) := malloc junk (bytes3 (type_size (k_type k)) (k_num k) (k_num k)) h in Some (with_data k (k_dim k) (k_num k) (k_centers k) (Some p), h)
  end.
Inductive kop := KReset | KSet (src : nat) (dim num : Z) | KDistances.
Definition kstep (o : kop) (s : kobj * heap) : option (kobj * heap) :=
  let '(k, h) := s in
  match o with KReset => kmeans_reset k h | KSet src dim num => kmeans_set_centers k src dim num h | KDistances => kmeans_update_distances k h end.
Fixpoint kruns (l : list kop) (s : kobj * heap) : option (kobj * heap) := match l with [] => Some s | o :: l => do s <- kstep o s; kruns l s end.

(** VlGMM, gmm.c:312-330: the pointers and sizes *)
Record gobj := mk_gobj {
  g_type : vtype; g_dim : Z; g_num : Z; g_data : Z;
  g_means : option nat; g_covariances : option nat; g_priors : option nat; g_posteriors : option nat; g_bounds : option nat;
  g_kmeans : option (nat * kobj); g_owner : bool }.
Definition gmm_size : Z := 128.
(** vl_gmm_new, gmm.c:353-383 *)
Definition gmm_new (t : vtype) (dim num : Z) (h : heap) : option (nat * gobj * heap) :=
  let size := type_size t in
  let '(self, h) := malloc 0 gmm_size h in
  let '(priors, h) := malloc 0 (size_mul num size) h in
  let '(means, h) := malloc 0 (bytes3 num dim size) h in
  let '(covariances, h) := malloc 0 (bytes3 num dim size) h in
  let '(bounds, h) := malloc 0 (size_mul dim 8) h in
  Some (self, mk_gobj t dim num 0 (Some means) (Some covariances) (Some priors) None (Some bounds) None false, h).
(** _vl_gmm_prepare_for_data, gmm.c:336-344; vl_free(NULL) does nothing *)
Definition gmm_prepare (n : Z) (g : gobj) (h : heap) : option (gobj * heap) :=
  if g_data g <? n then
    do h <- free_if (g_posteriors g) h;
    let '(p, h) := malloc junk (bytes3 (type_size (g_type g)) n (g_num g)) h in
    Some (mk_gobj (g_type g) (g_dim g) (g_num g) n (g_means g) (g_covariances g) (g_priors g) (Some p) (g_bounds g) (g_kmeans g) (g_owner g), h)
  else Some (mk_gobj (g_type g) (g_dim g) (g_num g) n (g_means g) (g_covariances g) (g_priors g) (g_posteriors g) (g_bounds g) (g_kmeans g) (g_owner g), h).
Definition with_kmeans (g : gobj) (k : option (nat * kobj)) (owner : bool) : gobj :=
  mk_gobj (g_type g) (g_dim g) (g_num g) (g_data g) (g_means g) (g_covariances g) (g_priors g) (g_posteriors g) (g_bounds g) k owner.
(** if (kmeansInit && kmeansInitIsOwner) vl_kmeans_delete *)
Definition delete_owned (g : gobj) (h : heap) : option heap :=
  match g_kmeans g with Some (self, k) => if g_owner g then kmeans_delete self k h else Some h | None => Some h end.
(** vl_gmm_reset, gmm.c:391-405 *)
Definition gmm_reset (g : gobj) (h : heap) : option (gobj * heap) :=
  do (g, h) <- match g_posteriors g with
    | Some p => do h <- free p h; Some (mk_gobj (g_type g) (g_dim g) (g_num g) 0 (g_means g) (g_covariances g) (g_priors g) None (g_bounds g) (g_kmeans g) (g_owner g), h)
    | None => Some (g, h)
    end;
  match g_kmeans g with
  | Some (self, k) => if g_owner g then do h <- kmeans_delete self k h; Some (with_kmeans g None false, h) else Some (g, h)
  | None => Some (g, h)
  end.
(** vl_gmm_delete, gmm.c:412-424 *)
Definition gmm_delete (self : nat) (g : gobj) (h : heap) : option heap :=
  do h <- free_if (g_means g) h;
  do h <- free_if (g_covariances g) h;
  do h <- free_if (g_priors g) h;
  do h <- free_if (g_posteriors g) h;
  do h <- delete_owned g h;
  free self h.
(** vl_gmm_set_kmeans_init_object, gmm.c:631-638 *)
Definition gmm_set_kmeans (ku : nat * kobj) (g : gobj) (h : heap) : option (gobj * heap) :=
  do h <- delete_owned g h; Some (with_kmeans g (Some ku) false, h).
(** gmm.c:1336-1355: a default object; its parameters are not modelled *)
Definition gmm_default_kmeans (g : gobj) (h : heap) : option (gobj * heap) :=
  match g_kmeans g with
  | None => do (self, k, h) <- kmeans_new (g_type g) 0 h; Some (with_kmeans g (Some (self, k)) true, h)
  | Some _ => Some (g, h)
  end.
(** gmm.c:1358: clustering by an object owned by the mixture, which sets its centers; objects of the user are their own affair *)
Definition gmm_cluster (src : nat) (g : gobj) (h : heap) : option (gobj * heap) :=
  match g_kmeans g with
  | Some (self, k) => if g_owner g then do (k, h) <- kmeans_set_centers k src (g_dim g) (g_num g) h; Some (with_kmeans g (Some (self, k)) true, h) else Some (g, h)
  | None => Some (g, h)
  end.
Inductive gop := GPrepare (n : Z) | GReset | GSet (ku : nat * kobj) | GDefault | GCluster (src : nat).
Definition gstep (o : gop) (s : gobj * heap) : option (gobj * heap) :=
  let '(g, h) := s in
  match o with GPrepare n => gmm_prepare n g h | GReset => gmm_reset g h | GSet ku => gmm_set_kmeans ku g h | GDefault => gmm_default_kmeans g h | GCluster src => gmm_cluster src g h end.
Fixpoint gruns (l : list gop) (s : gobj * heap) : option (gobj * heap) := match l with [] => Some s | o :: l => do s <- gstep o s; gruns l s end.
End Life.
