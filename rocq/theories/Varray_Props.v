(** Numeric arrays: C300-C303. *)
From Coq Require Import List Arith ZArith Lia Bool String.
Import ListNotations.
From Verif Require Import Base Loop MexUtil_Model Varray_Model Varray_Spec.
Local Open Scope Z_scope.

Lemma product_nonneg l : Forall (fun d => 0 <= d) l -> 0 <= product l.
Proof. induction 1; cbn [product]; nia. Qed.
Lemma product_app l m : product (l ++ m) = product l * product m.
Proof. induction l; cbn [product app]; [lia|]. rewrite IHl. lia. Qed.
Lemma firstn_S (l : list Z) k d : nth_error l k = Some d -> firstn (k + 1) l = firstn k l ++ [d].
Proof. revert l. induction k as [|k IH]; intros [|x l] H; try discriminate; cbn in *; [now injection H as ->|]. now rewrite IH. Qed.
Lemma num_elements_ok dims : dims <> [] -> num_elements dims = Some (product dims mod 2 ^ 64).
Proof.
  intro NE. unfold num_elements. destruct (Nat.eqb_spec (List.length dims) 0) as [E|_]; [destruct dims; [contradiction|discriminate]|].
  match goal with |- iter ?n ?b ?s = _ => destruct (iter_inv (fun k v => v = product (firstn k dims) mod 2 ^ 64) b n s) as (r & E & I) end.
  - reflexivity.
  - intros k v Lk ->. unfold aget. destruct (nth_error dims k) as [d|] eqn:Ed; [|apply nth_error_None in Ed; lia]. cbn [obind]. eexists. split; [reflexivity|].
    rewrite (firstn_S dims k d Ed), product_app. cbn [product]. unfold size_mul. rewrite Z.mul_1_r. apply Z.mul_mod_idemp_l. lia.
  - rewrite E, I, firstn_all. reflexivity.
Qed.
Lemma room t dims n : Forall (fun d => 0 <= d) dims -> dims <> [] -> type_size t * product dims < 2 ^ 64 -> num_elements dims = Some n -> n = product dims /\ size_mul (type_size t) n = type_size t * product dims.
Proof.
  intros F NE B E. rewrite num_elements_ok in E by exact NE. injection E as <-. pose proof (product_nonneg dims F) as P. assert (1 <= type_size t) by (destruct t; cbn; lia).
  rewrite (Z.mod_small (product dims)) by nia. split; [reflexivity|]. unfold size_mul. apply Z.mod_small. nia.
Qed.
Lemma aset_mid (h h2 : heap) x y : aset (h ++ x :: h2) (List.length h) y = Some (h ++ y :: h2).
Proof.
  rewrite aset_lt by (rewrite app_length; cbn [List.length]; lia). f_equal. induction h as [|z h IH]; cbn [app List.length upd]; [reflexivity|]. now rewrite IH.
Qed.
Lemma free_last (h h2 : heap) b : free (List.length h) (h ++ Some b :: h2) = Some (h ++ None :: h2).
Proof.
  unfold free, aget. rewrite nth_error_app2 by lia. rewrite Nat.sub_diag. cbn [nth_error obind]. apply aset_mid.
Qed.

(** C300.  Arrays own their data, envelopes do not: creating an array of at most 16 dimensions and deleting it frees exactly the two blocks it allocated;
    creating an envelope and deleting it frees the structure only.  Freeing the data twice is harmless. *)
Theorem C300_owned : forall junk t dims h, (List.length dims <= 16)%nat -> exists self a h', array_new junk t dims h = Some (self, a, h') /\
  v_type a = t /\ v_dims a = dims /\ (exists b0 b1, h' = h ++ [Some b0; Some b1] /\ v_data a = Some (S (List.length h))) /\
  array_delete self a h' = Some (h ++ [None; None]) /\
  exists a2 h2, array_dealloc a h' = Some (a2, h2) /\ array_dealloc a2 h2 = Some (a2, h2).
Proof.
  intros junk t dims h L. unfold array_new, array_init, malloc. destruct (Nat.ltb_spec 16 (List.length dims)); [lia|].
  assert (N : exists n, num_elements dims = Some n) by (destruct dims as [|d dims]; [exists 0; reflexivity|eexists; apply num_elements_ok; discriminate]). destruct N as (n & ->). cbn [obind]. cbv beta iota zeta.
  set (b0 := repeat junk (Z.to_nat struct_size)). set (b1 := repeat junk _). clearbody b0 b1. eexists. eexists. eexists. split; [reflexivity|]. split; [reflexivity|]. split; [reflexivity|].
  assert (EH : (h ++ [Some b0]) ++ [Some b1] = h ++ [Some b0; Some b1]) by now rewrite <- app_assoc. assert (EL : List.length (h ++ [Some b0]) = S (List.length h)) by (rewrite app_length; cbn; lia).
  assert (F : free (List.length (h ++ [Some b0])) ((h ++ [Some b0]) ++ [Some b1]) = Some ((h ++ [Some b0]) ++ [None])) by apply free_last.
  split; [exists b0, b1; split; [exact EH|cbn; now rewrite EL]|]. split.
  - unfold array_delete, array_dealloc. cbn [v_envelope negb v_data]. rewrite F. cbn [obind]. rewrite <- app_assoc. cbn [app]. apply free_last.
  - unfold array_dealloc at 1. cbn [v_envelope negb v_data]. rewrite F. cbn [obind]. eexists. eexists. split; reflexivity.
Qed.
Print Assumptions C300_owned.
Theorem C300_envelope : forall junk data t dims h, (List.length dims <= 16)%nat -> exists self a h', array_new_envelope junk data t dims h = Some (self, a, h') /\
  v_type a = t /\ v_dims a = dims /\ v_data a = Some data /\ (exists b0, h' = h ++ [Some b0]) /\ array_delete self a h' = Some (h ++ [None]).
Proof.
  intros junk data t dims h L. unfold array_new_envelope, array_init_envelope, malloc. destruct (Nat.ltb_spec 16 (List.length dims)); [lia|]. cbn [obind]. eexists. eexists. eexists. split; [reflexivity|].
  repeat (split; [reflexivity|]). split; [eexists; reflexivity|]. unfold array_delete, array_dealloc. cbn [v_envelope negb obind]. apply free_last.
Qed.
Print Assumptions C300_envelope.

(** Matrices have two dimensions, the number of rows first. *)
Theorem C300_matrix : forall junk t rows cols h, 0 <= rows -> 0 <= cols -> type_size t * (rows * cols) < 2 ^ 64 ->
  (exists a b, array_init_matrix junk t rows cols h = Some (a, h ++ [Some b]) /\ v_type a = t /\ v_dims a = [rows; cols] /\ v_envelope a = false /\ v_data a = Some (List.length h) /\ Z.of_nat (List.length b) = type_size t * (rows * cols)) /\
  (exists self a b0 b, array_new_matrix junk t rows cols h = Some (self, a, h ++ [Some b0; Some b]) /\ v_type a = t /\ v_dims a = [rows; cols] /\ Z.of_nat (List.length b) = type_size t * (rows * cols)) /\
  (forall data, exists a, array_init_matrix_envelope data t rows cols = Some a /\ v_type a = t /\ v_dims a = [rows; cols] /\ v_data a = Some data /\ v_envelope a = true) /\
  (forall data, exists self a b0, array_new_matrix_envelope junk data t rows cols h = Some (self, a, h ++ [Some b0]) /\ v_type a = t /\ v_dims a = [rows; cols] /\ v_data a = Some data /\ v_envelope a = true).
Proof.
  intros junk t rows cols h R C B.
  assert (E : num_elements [rows; cols] = Some ((rows * cols) mod 2 ^ 64)) by (rewrite num_elements_ok by discriminate; cbn [product]; now rewrite Z.mul_1_r).
  assert (T1 : 1 <= type_size t) by (destruct t; cbn; lia). rewrite Z.mod_small in E by nia.
  assert (SM : size_mul (type_size t) (rows * cols) = type_size t * (rows * cols)) by (unfold size_mul; apply Z.mod_small; nia).
  assert (LB : Z.of_nat (List.length (repeat junk (Z.to_nat (type_size t * (rows * cols))))) = type_size t * (rows * cols)) by (rewrite repeat_length; nia).
  split; [|split; [|split]].
  - unfold array_init_matrix, array_init, malloc. cbn [List.length Nat.ltb Nat.leb]. rewrite E. cbn [obind]. rewrite SM. eexists. eexists. split; [reflexivity|]. repeat (split; [reflexivity|]). exact LB.
  - unfold array_new_matrix, array_new, array_init, malloc. cbn [List.length Nat.ltb Nat.leb]. rewrite E. cbn [obind]. rewrite SM. rewrite <- app_assoc. cbn [app]. eexists. eexists. eexists. eexists. split; [reflexivity|]. repeat (split; [reflexivity|]). exact LB.
  - intro data. eexists. split; [reflexivity|]. repeat split; reflexivity.
  - intro data. eexists. eexists. eexists. split; [reflexivity|]. repeat split; reflexivity.
Qed.
Print Assumptions C300_matrix.
Example C300_ex_matrix : exists self a h', array_new_matrix 7 TDouble 2 1 [] = Some (self, a, h') /\ v_dims a = [2; 1] /\ nth_error h' 1 = Some (Some (repeat 7 16)).
Proof. eexists. eexists. eexists. split; [vm_compute; reflexivity|]. split; reflexivity. Qed.

Lemma type_size_bytes t : type_size t = bits t / 8.
Proof. destruct t; reflexivity. Qed.
(** C301.  The data of an array have room for all of its elements, if their number of bytes is below 2^64; *)
Theorem C301_room : forall junk t dims h, (1 <= List.length dims <= 16)%nat -> Forall (fun d => 0 <= d) dims -> bits t / 8 * product dims < 2 ^ 64 ->
  exists a h' b, array_init junk t dims h = Some (a, h') /\ v_data a = Some (List.length h) /\ h' = h ++ [Some b] /\ Z.of_nat (List.length b) = bits t / 8 * product dims /\ num_elements (v_dims a) = Some (product dims).
Proof.
  intros junk t dims h L F B. rewrite <- type_size_bytes in *. assert (NE : dims <> []) by (destruct dims; [cbn in L; lia|discriminate]). unfold array_init, malloc. destruct (Nat.ltb_spec 16 (List.length dims)); [lia|].
  destruct (num_elements dims) as [n|] eqn:E; [|rewrite num_elements_ok in E by exact NE; discriminate]. destruct (room t dims n F NE B E) as [-> S]. cbn [obind]. rewrite S. eexists. eexists. eexists. split; [reflexivity|].
  split; [reflexivity|]. split; [reflexivity|]. split; [|exact E]. rewrite repeat_length. pose proof (product_nonneg dims F). assert (1 <= type_size t) by (destruct t; cbn; lia). nia.
Qed.
Print Assumptions C301_room.
(** otherwise (refuted) the product wraps: a matrix of 2^32 by 2^32 numbers has a block of no bytes, and no error is reported *)
Theorem C301_wraps_refuted : forall junk h, exists a, array_init_matrix junk TDouble (2 ^ 32) (2 ^ 32) h = Some (a, h ++ [Some []]) /\ v_dims a = [2 ^ 32; 2 ^ 32] /\ num_elements (v_dims a) = Some 0.
Proof. intros junk h. eexists. repeat split; reflexivity. Qed.
Print Assumptions C301_wraps_refuted.

(** C302.  A numeric array of MATLAB, enveloped and copied back, has the same class, dimensions and bytes; the envelope shares its data. *)
Theorem C302_round_trip : forall m t b h, (1 <= List.length (mn_dims m) <= 16)%nat -> Forall (fun d => 0 <= d) (mn_dims m) -> type_of (mn_class m) = Some t -> type_size t * product (mn_dims m) < 2 ^ 64 ->
  nth_error h (mn_data m) = Some (Some b) -> Z.of_nat (List.length b) = type_size t * product (mn_dims m) ->
  exists a m' , envelope_in_vlarray m = Some a /\ v_data a = Some (mn_data m) /\ v_envelope a = true /\
    create_from_vlarray a h = Some (m', h ++ [Some b]) /\ mn_class m' = mn_class m /\ mn_dims m' = mn_dims m /\ mn_data m' = List.length h.
Proof.
  intros m t b h L F ET B EB LB. assert (NE : mn_dims m <> []) by (destruct (mn_dims m); [cbn in L; lia|discriminate]).
  unfold envelope_in_vlarray, array_init_envelope. destruct (Nat.ltb_spec 16 (List.length (mn_dims m))); [lia|]. rewrite ET. cbn [obind]. eexists. eexists. split; [reflexivity|]. split; [reflexivity|]. split; [reflexivity|].
  unfold create_from_vlarray. cbn [v_dims v_type v_data]. destruct (num_elements (mn_dims m)) as [n|] eqn:E; [|rewrite num_elements_ok in E by exact NE; discriminate]. destruct (room t _ n F NE B E) as [-> S]. cbn [obind]. cbv zeta.
  destruct (Nat.ltb_spec 16 (List.length (mn_dims m))); [lia|]. unfold create_numeric. cbv beta iota. cbn [mn_data obind]. rewrite S.
  assert (Lm : (mn_data m < List.length h)%nat) by (apply nth_error_Some; rewrite EB; discriminate). unfold aget. rewrite nth_error_app1 by exact Lm. rewrite EB. cbn [obind]. rewrite nth_error_app2 by lia. rewrite Nat.sub_diag. cbn [nth_error obind].
  assert (FP : fold_right Z.mul 1 (mn_dims m) = product (mn_dims m)) by (clear; induction (mn_dims m) as [|d l IH]; cbn; [reflexivity|now rewrite IH]). rewrite FP. rewrite repeat_length.
  set (len := Z.to_nat (type_size t * product (mn_dims m))). assert (EL : len = List.length b) by (unfold len; lia). rewrite EL. rewrite Nat.ltb_irrefl. cbn [orb]. rewrite skipn_all2 by (rewrite repeat_length; lia). rewrite firstn_all, app_nil_r.
  rewrite aset_mid. cbn [obind].
  split; [reflexivity|]. split; [|split; reflexivity]. cbn [mn_class]. destruct (mn_class m); try discriminate; injection ET as <-; reflexivity.
Qed.
Print Assumptions C302_round_trip.
(** other classes, and (refuted: arrays of MATLAB may have more) more than 16 dimensions are not accepted: they abort or write past an array *)
Theorem C302_dimensions_refuted : forall m, (16 < List.length (mn_dims m))%nat -> envelope_in_vlarray m = None.
Proof. intros m L. unfold envelope_in_vlarray. now rewrite (proj2 (Nat.ltb_lt _ _) L). Qed.
Print Assumptions C302_dimensions_refuted.

(** C303 (refuted).  The claim: different types have different names.  Unsigned types have the names of the signed types, of the same size. *)
Theorem C303_names_refuted : exists s u, s <> u /\ type_name s = type_name u.
Proof. exists TInt8, TUint8. split; [discriminate|reflexivity]. Qed.
Theorem C303_names : forall s u, type_name s = type_name u -> type_size s = type_size u /\ (type_name s = "float" <-> s = TFloat)%string /\ (type_name s = "double" <-> s = TDouble)%string.
Proof. intros s u E. split; [destruct s, u; try discriminate; reflexivity|]. split; destruct s; split; intro H; try discriminate; reflexivity. Qed.
Print Assumptions C303_names_refuted.
Print Assumptions C303_names.

(** ** Examples *)
Example C300_ex : exists self a h', array_new 7 TInt16 [2; 3] [Some [1]] = Some (self, a, h') /\ option_map (fun b => b) (nth_error h' 2) = Some (Some (repeat 7 12)) /\ array_delete self a h' = Some [Some [1]; None; None].
Proof. eexists. eexists. eexists. split; [vm_compute; reflexivity|]. split; reflexivity. Qed.
Example C301_ex : type_size TFloat * product [3; 5; 2] < 2 ^ 64 /\ num_elements [3; 5; 2] = Some 30 /\ num_elements [] = Some 0.
Proof. repeat split; reflexivity. Qed.
Example C302_ex : exists a m' h', envelope_in_vlarray (mk_mnum Uint16 [2; 1] 0) = Some a /\ create_from_vlarray a [Some [1; 0; 255; 3]] = Some (m', h') /\ h' = [Some [1; 0; 255; 3]; Some [1; 0; 255; 3]] /\ mn_class m' = Uint16.
Proof. eexists. eexists. eexists. split; [reflexivity|]. split; [vm_compute; reflexivity|]. split; reflexivity. Qed.
Example C302_ex_logical : envelope_in_vlarray (mk_mnum Logical [2; 1] 0) = None.
Proof. reflexivity. Qed.
