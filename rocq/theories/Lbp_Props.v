(** C34, C74: local binary patterns. *)
From Coq Require Import List Arith ZArith NArith Lia Bool QArith Qcanon Qcabs.
From Verif Require Import Base Loop ImOp_Spec Rat Lbp_Model Lbp_Spec Lbp_Proofs.
Import ListNotations.
Local Open Scope nat_scope.

(** the table: a string of bits goes to the bin 7 i + (j-1) when its ones are the j
    consecutive bits i, i+1, ... (circularly), to bin 56 when it is constant and to
    bin 57 otherwise; in transposed mode bit k is read as bit 2 - k modulo 8 *)
Theorem C34_mapping (transposed : bool) :
  exists mapping, init_uniform transposed = Some mapping /\ length mapping = 256 /\
  forall s, (s < 256)%N ->
    let b k := N.testbit s (N.of_nat (if transposed then transposed_bit k else k)) in
    exists bin, nth_error mapping (N.to_nat s) = Some bin /\ bin < dimension /\
    (forall i j, i < 8 -> 1 <= j <= 7 ->
       ((forall t, t < 8 -> b t = ((t + 8 - i) mod 8 <? j)) <-> bin = 7 * i + (j - 1))) /\
    ((forall t, t < 8 -> b t = b 0) <-> bin = 56).
Proof.
  destruct (mapping_ok transposed) as (m & E & L & H). exists m. split; [exact E|]. split; [exact L|].
  intros s Ls b. exists (bin_of b). split; [|split; [apply bin_of_lt|split]].
  - rewrite (nth_error_nth' _ 0) by lia. f_equal. rewrite (H s Ls). apply bin_of_ext. intros k Lk. destruct transposed; reflexivity.
  - intros i j Li Lj. split; [now apply bin_of_run|]. intro Eb.
    unfold bin_of in Eb. destruct (is_constant b); [lia|]. destruct (find _ _) as [[i' j']|] eqn:F; [|lia].
    apply find_some in F as [I X]. apply in_prod_iff in I as [I J]. apply in_seq in I, J.
    assert (i' = i) by lia. subst. assert (j' = j) by lia. subst. now apply is_run_iff.
  - split; intro X.
    + unfold bin_of. now rewrite (proj2 (is_constant_iff b) X).
    + unfold bin_of in X. destruct (is_constant b) eqn:C; [now apply is_constant_iff|].
      destruct (find _ _) as [[i' j']|] eqn:F; [|lia].
      apply find_some in F as [I _]. apply in_prod_iff in I as [I J]. apply in_seq in I, J. lia.
Qed.
Print Assumptions C34_mapping.

(** the features: no access outside of the image and of the (width/size) x
    (height/size) x 58 features; each is the root of the total bilinear weight of
    the interior pixels of the bin, divided by the root of the total of the cell
    plus [eps].  [root] is any function. *)
Theorem C34_process {V} (gt : V -> V -> bool) (image : list V) (width height size : nat) (dflt : V)
    (transposed : bool) (mapping : list nat) (root : Qc -> Qc) (eps : Qc) :
  length image = width * height -> 0 < size -> init_uniform transposed = Some mapping ->
  let im (u v : Z) := nth (Z.to_nat (Z.of_nat width * v + u)) image dflt in
  let bin b := bin_of (fun k => b (if transposed then transposed_bit k else k)) in
  let h := histogram gt im width height size bin in
  let columns := width / size in
  let rows := height / size in
  exists f, process gt image width height size root eps mapping = Some f /\
    length f = 58 * (columns * rows) /\
    forall cx cy k, cx < columns -> cy < rows -> k < 58 ->
      nth_error f (columns * rows * k + columns * cy + cx) =
      Some (root (h cx cy k) / (root (sum 0%Qc Qcplus 58 (fun k => h cx cy k)) + eps))%Qc.
Proof.
  intros Him Hs Hm im' bin' h columns rows.
  destruct (process_ok gt image width height size dflt Him Hs transposed mapping Hm root eps) as (f & E & L & H).
  exists f. split; [exact E|]. split; [exact L|]. intros cx cy k B1 B2 B3.
  pose proof (pos_lt image width height size Him Hs cx cy k B1 B2 B3) as Lp. unfold pos in *.
  rewrite (nth_error_nth' f 0%Qc) by (rewrite L; exact Lp). f_equal.
  specialize (H cx cy k B1 B2 B3). exact H.
Qed.
Print Assumptions C34_process.

(** transposed mode: the features of the transposed image in transposed mode are
    the transposed features *)
Theorem C34_transposed_mode {V} (gt : V -> V -> bool) (image image' : list V) (width height size : nat) (dflt : V)
    (transposed : bool) (mapping mapping' : list nat) (root : Qc -> Qc) (eps : Qc) :
  length image = width * height -> length image' = width * height -> 0 < size ->
  init_uniform transposed = Some mapping -> init_uniform (negb transposed) = Some mapping' ->
  (forall x y, x < width -> y < height -> nth_error image' (height * x + y) = nth_error image (width * y + x)) ->
  let columns := width / size in
  let rows := height / size in
  exists f f', process gt image width height size root eps mapping = Some f /\
    process gt image' height width size root eps mapping' = Some f' /\
    length f = 58 * (columns * rows) /\ length f' = 58 * (columns * rows) /\
    forall cx cy k, cx < columns -> cy < rows -> k < 58 ->
      nth_error f' (rows * columns * k + rows * cx + cy) = nth_error f (columns * rows * k + columns * cy + cx).
Proof.
  intros Him Him' Hs Hm Hm' Ht columns rows.
  assert (Ht' : forall x y, x < width -> y < height -> nth (height * x + y) image' dflt = nth (width * y + x) image dflt).
  { intros x y Lx Ly. specialize (Ht x y Lx Ly).
    assert (height * x + y < length image') by nia. assert (width * y + x < length image) by nia.
    rewrite (nth_error_nth' image' dflt), (nth_error_nth' image dflt) in Ht by auto. congruence. }
  destruct (process_ok gt image width height size dflt Him Hs transposed mapping Hm root eps) as (f & E & L & H).
  destruct (process_ok gt image' height width size dflt ltac:(lia) Hs (negb transposed) mapping' Hm' root eps) as (f' & E' & L' & H').
  exists f, f'. split; [exact E|]. split; [exact E'|]. split; [exact L|]. split; [rewrite L'; unfold cstride, cwidth, cheight, dimension, rows, columns; lia|].
  intros cx cy k B1 B2 B3.
  pose proof (pos_lt image width height size Him Hs cx cy k B1 B2 B3) as P. pose proof (pos_lt image' height width size ltac:(lia) Hs cy cx k B2 B1 B3) as P'.
  rewrite (nth_error_nth' f' 0%Qc (n := rows * columns * k + rows * cx + cy)) by (rewrite L'; exact P').
  rewrite (nth_error_nth' f 0%Qc (n := columns * rows * k + columns * cy + cx)) by (rewrite L; exact P).
  f_equal. specialize (H cx cy k B1 B2 B3). specialize (H' cy cx k B2 B1 B3). unfold pos in H, H'.
  transitivity (root (hist gt image' height width size dflt (negb transposed) cy cx k) /
    (root (total (hist gt image' height width size dflt (negb transposed)) cy cx) + eps))%Qc; [exact H'|].
  rewrite <- (hist_transposed gt image image' width height size dflt transposed cx cy k Ht').
  replace (total (hist gt image' height width size dflt (negb transposed)) cy cx)
    with (total (hist gt image width height size dflt transposed) cx cy); [symmetry; exact H|].
  unfold total. apply ImOp_Proofs.sum_ext. intros j _. apply hist_transposed. exact Ht'.
Qed.
Print Assumptions C34_transposed_mode.

(** ** examples: a 4 x 3 image, cells of size 2; the interior pixels are (1,1) and (2,1) *)
Definition ex_image : list Z := [9; 8; 7; 2;  3; 4; 6; 7;  0; 0; 4; 1]%Z.
Definition ex_image_t : list Z := [9; 3; 0;  8; 4; 0;  7; 6; 4;  2; 7; 1]%Z.
Example C34_ex_transposed : forall x y, x < 4 -> y < 3 -> nth_error ex_image_t (3 * x + y) = nth_error ex_image (4 * y + x).
Proof. intros x y Lx Ly. do 4 (destruct x as [|x]; [do 3 (destruct y as [|y]; [reflexivity|]); lia|]). lia. Qed.
Example C34_ex_maps : (if init_uniform false then true else false) = true /\ (if init_uniform true then true else false) = true.
Proof. split; vm_compute; reflexivity. Qed.
Definition nonzero (f : option (list Qc)) : list (nat * Qc) :=
  match f with
  | Some f => filter (fun p => negb (if Qc_eq_dec (snd p) 0 then true else false)) (combine (seq 0 (length f)) f)
  | None => []
  end.
Definition accum (tr : bool) (im : list Z) w h :=
  match init_uniform tr with Some m => accumulate Z.gtb im w h 2 m | None => None end.
Example C34_ex_features : map (fun p => (fst p, this (snd p))) (nonzero (accum false ex_image 4 3)) =
    [(76, (9#16)%Q); (77, (3#16)%Q); (114, (3#16)%Q); (115, (9#16)%Q)] /\
  map (fun p => (fst p, this (snd p))) (nonzero (accum true ex_image_t 3 4)) =
    [(76, (9#16)%Q); (77, (3#16)%Q); (114, (3#16)%Q); (115, (9#16)%Q)].
Proof. split; vm_compute; reflexivity. Qed.

(** ** C74: the documented order of the bits *)
(** lbp.c:72-76: "Pixels are scanned starting from the one to the right in
    anti-clockwise order. ... the second bit is one if, and only if,
    I(x+1,y-1) > I(x,y)".  The image below has only I(2,0) above its centre (1,1):
    the documented string is 01000000, bin 7, but the code counts bin 49, the
    string 00000001. *)
Theorem C74_second_bit_refuted :
  exists (image : list Z) (mapping : list nat) (f : list Qc),
    length image = 9 /\
    (forall x y, x < 3 -> y < 3 -> (nth (3 * y + x) image 0 > nth (3 * 1 + 1) image 0)%Z <-> x = 1 + 1 /\ y = 1 - 1) /\
    init_uniform false = Some mapping /\
    bin_of (fun k => k =? 1) = 7 /\
    accumulate Z.gtb image 3 3 1 mapping = Some f /\
    nth_error f (9 * 7 + 3 * 1 + 1) = Some 0%Qc /\
    nth_error f (9 * 49 + 3 * 1 + 1) = Some 1%Qc.
Proof.
  set (image := [0; 0; 1; 0; 0; 0; 0; 0; 0]%Z).
  destruct (init_uniform false) as [m|] eqn:E; [|vm_compute in E; discriminate].
  destruct (accumulate Z.gtb image 3 3 1 m) as [f|] eqn:F.
  2:{ vm_compute in E. injection E as <-. vm_compute in F. discriminate. }
  exists image, m, f. split; [reflexivity|]. split.
  - intros x y Lx Ly. do 3 (destruct x as [|x]; [do 3 (destruct y as [|y]; [cbn; lia|]); lia|]). lia.
  - split; [reflexivity|]. split; [vm_compute; reflexivity|]. split; [exact F|].
    vm_compute in E. injection E as <-. vm_compute in F. injection F as <-. vm_compute. split; reflexivity.
Qed.
Print Assumptions C74_second_bit_refuted.

(** what holds: bit k is the comparison with neighbour k of E SE S SW W NW N NE
    (y downwards), that is I(x+1,y+1) for the second bit *)
Theorem C74_order_of_bits_partial {V} (gt : V -> V -> bool) (image : list V) (width height : nat) (dflt : V) (x y : Z) :
  length image = width * height -> (1 <= x < Z.of_nat width - 1)%Z -> (1 <= y < Z.of_nat height - 1)%Z ->
  let im (u v : Z) := nth (Z.to_nat (Z.of_nat width * v + u)) image dflt in
  exists s, bit_string gt image width x y = Some s /\ (s < 256)%N /\
    forall k dx dy, nth_error [(1, 0); (1, 1); (0, 1); (-1, 1); (-1, 0); (-1, -1); (0, -1); (1, -1)]%Z k = Some (dx, dy) ->
      N.testbit s (N.of_nat k) = gt (im (x + dx)%Z (y + dy)%Z) (im x y).
Proof.
  intros Him Bx By im'. eexists. split; [apply (bit_string_ok gt image width height 1 dflt Him (le_n 1) x y Bx By)|].
  destruct (word_ok image width height 1 Him (le_n 1) (bits gt (im image width dflt) x y)) as [W T]. split; [exact W|].
  intros k dx dy E. assert (Lk : k < 8) by (do 8 (destruct k as [|k]; [lia|]); destruct k; discriminate).
  rewrite T by exact Lk. unfold bits, neighbour. rewrite (nth_error_nth _ _ _ E). reflexivity.
Qed.
Print Assumptions C74_order_of_bits_partial.
