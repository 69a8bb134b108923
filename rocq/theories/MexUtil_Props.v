(** C270-C276: tests of MATLAB arrays and parsing of options. *)
From Coq Require Import List NArith ZArith Arith Lia Bool.
Import ListNotations.
From Verif Require Import Base Str_Model Str_Spec Str_Proofs MexUtil_Model MexUtil_Spec MexUtil_Proofs.
Local Open Scope nat_scope.

(** C270: vectors have at most one dimension that is not one, scalars have one element *)
Theorem C270_vector a want : (Z.of_nat (numel a) < 4294967296)%Z -> (want < 4294967296)%Z ->
  exists b, is_vector a want = Some b /\ (b = true <-> a_sparse a = false /\ fits_size want (numel a) /\ one_long_dimension (a_dims a)).
Proof. apply is_vector_ok. Qed.
Theorem C270_scalar a : is_scalar a = true <-> a_sparse a = false /\ numel a = 1.
Proof. unfold is_scalar. rewrite andb_true_iff, negb_true_iff, Nat.eqb_eq. tauto. Qed.
Theorem C270_scalar_dims a : is_scalar a = true -> forall i d, nth_error (a_dims a) i = Some d -> d = 1.
Proof.
  rewrite C270_scalar. intros (_ & H). unfold numel in H. revert H. induction (a_dims a) as [|x l IH]; cbn [prod fold_right]; intros H [|i] d E; cbn in E; try discriminate.
  - injection E as <-. apply Nat.eq_mul_1 in H. tauto.
  - apply Nat.eq_mul_1 in H. apply (IH (proj2 H) i d E).
Qed.
Theorem C270_plain a want : (Z.of_nat (numel a) < 4294967296)%Z -> (want < 4294967296)%Z ->
  (is_plain_scalar a = true <-> a_class a = Double /\ a_complex a = false /\ a_sparse a = false /\ numel a = 1) /\
  exists b, is_plain_vector a want = Some b /\
    (b = true <-> a_class a = Double /\ a_complex a = false /\ a_sparse a = false /\ fits_size want (numel a) /\ one_long_dimension (a_dims a)).
Proof.
  intros HN HW. assert (P : is_plain a = true <-> a_class a = Double /\ a_complex a = false).
  { unfold is_plain, is_real, is_of_class. destruct (a_class a), (a_complex a); cbn; intuition discriminate. }
  split.
  - unfold is_plain_scalar. rewrite andb_true_iff, P, C270_scalar. tauto.
  - unfold is_plain_vector. destruct (is_plain a) eqn:E.
    + destruct (is_vector_ok a want HN HW) as (b & -> & B). exists b. split; [reflexivity|]. rewrite B. tauto.
    + exists false. split; [reflexivity|]. split; [discriminate|]. intros (A & B & _). assert (X : false = true) by (apply P; auto). discriminate.
Qed.
Print Assumptions C270_vector.
Print Assumptions C270_scalar.
Print Assumptions C270_scalar_dims.
Print Assumptions C270_plain.
Definition numbers (dims : list nat) : marray := mk_marray Double false false dims [].
Example C270_ex : is_vector (numbers [1; 5]) 5 = Some true /\ is_vector (numbers [1; 5]) 4 = Some false /\ is_vector (numbers [1; 1; 7]) (-1) = Some true /\
  is_vector (numbers [2; 3]) (-1) = Some false /\ one_long_dimension [1; 1; 7] /\ is_plain_scalar (numbers [1; 1; 1]) = true.
Proof. repeat split. exists 2. intros [|[|[|[|i]]]] d H E; cbn in E; congruence. Qed.

(** C271: empty arrays are documented to be vectors, but [] is not accepted; sizes are compared modulo 2^32 *)
Theorem C271_empty_refuted : vector_doc (numbers [0; 0]) /\ is_vector (numbers [0; 0]) (-1) = Some false /\ is_plain_vector (numbers [0; 0]) 0 = Some false /\
  vector_doc (numbers [0; 3]) /\ is_vector (numbers [0; 3]) 0 = Some false.
Proof. repeat split; left; reflexivity. Qed.
Theorem C271_size_refuted : exists a, (Z.of_nat (numel a) = 4294967296)%Z /\ is_vector a 0 = Some true.
Proof.
  set (n := Z.to_nat 4294967296). assert (Hn : Z.of_nat n = 4294967296%Z) by (unfold n; rewrite Z2Nat.id; lia).
  assert (N1 : n <> 1) by lia. clearbody n. exists (numbers [1; n]). unfold numel. cbn [a_dims numbers prod fold_right]. split; [lia|].
  unfold is_vector. cbn [a_sparse numbers a_dims length]. unfold numel. cbn [a_dims numbers prod fold_right]. unfold cast. replace (Z.of_nat (1 * (n * 1))) with 4294967296%Z by lia.
  cbn. destruct (Nat.eqb_spec n 1); [contradiction|]. reflexivity.
Qed.
Print Assumptions C271_empty_refuted.
Print Assumptions C271_size_refuted.

(** C272: matrices are flat or empty, whatever is stored after the dimensions; their elements are rows times columns *)
Theorem C272_matrix v a M N : small_array a -> (M < 4294967296)%Z -> (N < 4294967296)%Z ->
  exists b, is_matrix (Some v) a M N = Some b /\
    (b = true <-> a_sparse a = false /\ fits_size M (get_M a) /\ fits_size N (get_N a) /\ (flat (a_dims a) \/ numel a = 0)) /\
    numel a = get_M a * get_N a /\ (b = true -> numel a <> 0 -> get_M a = nth 0 (a_dims a) 0 /\ get_N a = nth 1 (a_dims a) 0).
Proof.
  intros S HM HN. destruct (is_matrix_ok v a M N S HM HN) as (b & E & B). exists b. split; [assumption|]. split; [assumption|]. destruct S as (L & _).
  split; [now apply numel_split|]. intros Eb NZ. apply B in Eb. destruct Eb as (_ & _ & _ & [F|Z0]); [|contradiction]. unfold get_M, get_N.
  destruct (a_dims a) as [|x [|y l]]; cbn [length] in L; try lia. split; [reflexivity|]. cbn [tl prod fold_right nth].
  assert (X : prod l = 1); [|unfold prod in X; rewrite X; lia]. assert (G : forall i d, nth_error l i = Some d -> d = 1) by (intros i d Hd; apply (F (S (S i)) d); [lia|assumption]).
  clear -G. induction l as [|z l IH]; [reflexivity|]. cbn [prod fold_right]. rewrite (G 0 z eq_refl). unfold prod in IH. rewrite IH; [reflexivity|]. intros i d Hd. apply (G (S i) d Hd).
Qed.
Theorem C272_plain v a M N : small_array a -> (M < 4294967296)%Z -> (N < 4294967296)%Z ->
  exists b, is_plain_matrix (Some v) a M N = Some b /\
    (b = true <-> a_class a = Double /\ a_complex a = false /\ a_sparse a = false /\ fits_size M (get_M a) /\ fits_size N (get_N a) /\ (flat (a_dims a) \/ numel a = 0)).
Proof.
  intros S HM HN. assert (P : is_plain a = true <-> a_class a = Double /\ a_complex a = false).
  { unfold is_plain, is_real, is_of_class. destruct (a_class a), (a_complex a); cbn; intuition discriminate. }
  unfold is_plain_matrix. destruct (is_plain a) eqn:E.
  - destruct (is_matrix_ok v a M N S HM HN) as (b & -> & B). exists b. split; [reflexivity|]. rewrite B. tauto.
  - exists false. split; [reflexivity|]. split; [discriminate|]. intros (A & B & _). assert (X : false = true) by (apply P; auto). discriminate.
Qed.
Theorem C272_array a numDimensions want : small_array a -> (Z.of_nat (length (a_dims a)) < 4294967296)%Z -> (numDimensions < 4294967296)%Z ->
  length want = Z.to_nat numDimensions -> Forall (fun w => (w < 4294967296)%Z) want ->
  exists b, is_array a numDimensions (Some want) = Some b /\
    (b = true <-> fits_size numDimensions (length (a_dims a)) /\ (forall i w d, nth_error want i = Some w -> nth_error (a_dims a) i = Some d -> fits_size w d)).
Proof.
  intros (L & _ & F & _) LD HN LW G. unfold is_array. destruct (Z.ltb_spec numDimensions 0) as [H|H].
  - exists true. split; [reflexivity|]. split; [|reflexivity]. intros _. split; [now left|]. intros i w d Hw. destruct want; [destruct i; discriminate|cbn in LW; lia].
  - destruct (cast (length (a_dims a)) =? zcast numDimensions)%Z eqn:E; cbn [negb].
    + apply cast_eq in E; [|lia..]. destruct (dims_match_ok want (a_dims a) ltac:(lia) F G (Z.to_nat numDimensions) 0 ltac:(lia)) as (b & -> & B). exists b. split; [reflexivity|].
      rewrite B. split.
      * intro Q. split; [right; assumption|]. intros i w d. apply Q. lia.
      * intros (_ & Q) i w d _. apply Q.
    + exists false. split; [reflexivity|]. split; [discriminate|]. intros ([Q|Q] & _); [lia|]. assert (X : (cast (length (a_dims a)) =? zcast numDimensions)%Z = true) by (apply cast_eq; lia). congruence.
Qed.
Print Assumptions C272_matrix.
Print Assumptions C272_plain.
Print Assumptions C272_array.
Example C272_ex : is_matrix (Some 9) (numbers [3; 2]) 3 2 = Some true /\ is_matrix (Some 1) (numbers [3; 2]) (-1) 3 = Some false /\
  is_matrix (Some 9) (numbers [3; 2; 4]) (-1) (-1) = Some false /\ is_array (numbers [3; 2; 4]) 3 (Some [3; -1; 4]%Z) = Some true.
Proof. repeat split. Qed.

(** C273: the dimension after the last one is read, for every full matrix; and arrays that are not flat are matrices when empty *)
Theorem C273_bounds_refuted a : a_sparse a = false -> length (a_dims a) = 2 -> numel a <> 0 -> is_matrix None a (-1) (-1) = None.
Proof.
  intros S L NZ. unfold is_matrix. rewrite S. cbn [Z.leb Z.compare andb]. destruct (Nat.eqb_spec (numel a) 0); [contradiction|]. cbn [andb]. cbv zeta. rewrite L.
  cbn [Nat.add skip_single]. unfold dim_at. rewrite L. reflexivity.
Qed.
Theorem C273_doc a v : small_array a -> matrix_doc a -> is_matrix (Some v) a (-1) (-1) = Some true.
Proof.
  intros S (D1 & D2). destruct (is_matrix_ok v a (-1) (-1) S ltac:(lia) ltac:(lia)) as (b & -> & B). f_equal. apply B. split; [assumption|].
  split; [left; lia|]. split; [left; lia|]. destruct D2 as [D2|[D2 _]]; auto.
Qed.
Theorem C273_doc_refuted : exists a, forall v, is_matrix (Some v) a (-1) (-1) = Some true /\ ~ matrix_doc a.
Proof.
  exists (numbers [3; 2; 0]). intro v. split; [reflexivity|]. intros (_ & [F|(_ & [Q|Q])]); [|discriminate..]. specialize (F 2 0 ltac:(lia) eq_refl). discriminate.
Qed.
Print Assumptions C273_bounds_refuted.
Print Assumptions C273_doc.
Print Assumptions C273_doc_refuted.
Example C273_ex : small_array (numbers [0; 5; 2]) /\ matrix_doc (numbers [0; 5; 2]) /\ is_matrix None (numbers [3; 2]) (-1) (-1) = None.
Proof.
  split; [|split; [|reflexivity]].
  - split; [cbn; lia|]. split; [reflexivity|]. split; [repeat constructor|reflexivity].
  - split; [reflexivity|]. right. split; [reflexivity|]. left. reflexivity.
Qed.

(** C274: strings are character arrays with one row, or empty *)
Theorem C274_string a len : is_string a len = true <-> a_class a = Char /\
  (exists r c, a_dims a = [r; c] /\ (r = 1 \/ r = 0 /\ c = 0) /\ fits_size len c).
Proof.
  unfold is_string. rewrite !andb_true_iff, !orb_true_iff, andb_true_iff, !Nat.eqb_eq, Z.ltb_lt, Z.eqb_eq. split.
  - intros (((C & L) & D) & W). split; [destruct (a_class a); try discriminate; reflexivity|]. unfold get_M, get_N in *.
    destruct (a_dims a) as [|r [|c [|]]]; try discriminate. cbn [nth tl prod fold_right] in *. exists r, c. split; [reflexivity|]. split; [lia|].
    unfold fits_size. destruct W; [left; assumption|right; lia].
  - intros (C & r & c & E & D & W). unfold get_M, get_N. rewrite C, E. cbn [length nth tl prod fold_right class_eqb]. unfold fits_size in W. repeat split; lia.
Qed.
(** C274: the comparison of an array with a string is the dictionary order of the lower case strings *)
Theorem C274_compare s1 s2 mem : cstring s2 mem ->
  exists v, compare_to_string s1 mem = Some v /\
    (v = 0%Z <-> map lower s1 = map lower s2) /\ ((v < 0)%Z <-> dict_lt (map lower s1) (map lower s2)) /\ ((v > 0)%Z <-> dict_lt (map lower s2) (map lower s1)) /\
    is_equal_to_string s1 mem = Some (v =? 0)%Z.
Proof.
  intros (T & rest & ->). destruct (compare_ok s1 s2 rest T) as (v & E & H). exists v. split; [assumption|].
  pose proof (dict_lt_irrefl (map lower s1)) as I1. pose proof (dict_lt_irrefl (map lower s2)) as I2.
  pose proof (dict_lt_trans (map lower s1) (map lower s2) (map lower s1)) as T1.
  assert (EQ : is_equal_to_string s1 (s2 ++ 0%N :: rest) = Some (v =? 0)%Z) by (unfold is_equal_to_string; rewrite E; reflexivity).
  destruct H as [[-> Q]|[[L Q]|[L Q]]].
  - rewrite Q in *. repeat split; try assumption; try lia; tauto.
  - split; [split; [lia|intro X; rewrite X in Q; contradiction]|]. split; [tauto|]. split; [|assumption]. split; [lia|]. intro X. exfalso. auto.
  - split; [split; [lia|intro X; rewrite X in Q; contradiction]|]. split; [|split; [tauto|assumption]]. split; [lia|]. intro X. exfalso. auto.
Qed.
Print Assumptions C274_string.
Print Assumptions C274_compare.
Definition string_of (s : list N) : marray := mk_marray Char false false [1; length s] s.
Example C274_ex : is_string (string_of [76; 50]%N) 2 = true /\ is_equal_to_string [76; 50]%N [108; 50; 0]%N = Some true /\
  is_equal_to_string [76]%N [108; 50; 0]%N = Some false /\ is_equal_to_string [76; 50; 0]%N [108; 50; 0]%N = Some false.
Proof. repeat split. Qed.

(** C275: parsing gives exactly the options in the arguments, or an error if they are not a list of options; it ends *)
Theorem C275_options args tbl next fuel : good_table tbl -> Forall plain_text args -> next <= length args -> length args - next < fuel ->
  exists r, all_options fuel args tbl next = Some r /\
    match r with
    | Some l => options_of tbl (skipn next args) l /\ forall l', options_of tbl (skipn next args) l' -> l' = l
    | None => forall l, ~ options_of tbl (skipn next args) l
    end.
Proof.
  intros GT PT L F. destruct (all_options_ok args tbl GT PT fuel next L F) as (r & E & H). exists r. split; [assumption|]. destruct r as [l|]; [|assumption].
  split; [now apply H|]. intros l' O. now apply H.
Qed.
(** C275: every call advances, and reads no argument out of bounds *)
Theorem C275_next args tbl next : good_table tbl -> Forall plain_text args -> next <= length args ->
  exists r, next_option args tbl next = Some r /\ (r = Some Done <-> next = length args) /\
    forall opt oa nx, r = Some (Found opt oa nx) -> (0 <= opt)%Z /\ next < nx <= length args.
Proof.
  intros GT PT L. destruct (Nat.eq_dec next (length args)) as [->|NE].
  - exists (Some Done). unfold next_option. rewrite Nat.leb_refl. split; [reflexivity|]. split; [tauto|]. intros. discriminate.
  - destruct (next_option_ok args tbl next GT PT L) as (r & E & H). exists r. split; [assumption|]. split.
    + split; [|intro; contradiction]. intros ->. apply (f_equal (@length marray)) in H. rewrite skipn_length in H. cbn in H. lia.
    + intros opt oa nx ->. destruct H as (Ln & a & o & (b & af & Et & (_ & _ & n & Hn & _) & _) & -> & _). split; [|assumption].
      destruct GT as (es & e & -> & En & F). destruct (in_app_or es [e] o) as [Hin|[<-|[]]]; [rewrite Et; apply in_or_app; right; now left|..].
      * rewrite Forall_forall in F. now apply F.
      * congruence.
Qed.
Print Assumptions C275_options.
Print Assumptions C275_next.
(* Verbose, no argument; NumTrees, one argument *)
Definition table1 : list moption :=
  [mk_moption (Some [86; 101; 0]%N) false 0; mk_moption (Some [78; 117; 109; 0]%N) true 2; mk_moption None false 0].
Example C275_ex : good_table table1 /\
  all_options 5 [string_of [110; 85; 109]%N; numbers [1; 1]; string_of [118; 69]%N] table1 0 = Some (Some [(2%Z, Some (numbers [1; 1])); (0%Z, None)]) /\
  all_options 5 [string_of [118; 69]%N; string_of [110; 85; 109]%N] table1 0 = Some None /\
  all_options 5 [string_of [118]%N] table1 0 = Some None.
Proof.
  split; [|repeat split].
  exists [mk_moption (Some [86; 101; 0]%N) false 0; mk_moption (Some [78; 117; 109; 0]%N) true 2], (mk_moption None false 0). split; [reflexivity|]. split; [reflexivity|].
  repeat constructor; cbn; try lia; [exists [86; 101]%N|exists [78; 117; 109]%N]; (split; [reflexivity|repeat constructor; lia]).
Qed.
