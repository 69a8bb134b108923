(** C33, C104-C109: SLIC superpixels. *)
From Coq Require Import List Arith ZArith Bool Lia QArith Qcanon.
From Verif Require Import Base Loop Rat ImOp_Spec Kmeans_Spec Slic_Model Slic_Spec SlicTiles_Spec SlicClean_Proofs SlicTiles_Proofs.
Import ListNotations.
Local Open Scope nat_scope.

(** ** C33: removing small regions *)
(** a label image as a function *)
Notation labels l := (fun p => nth p l 0%Z).

(** pixels of a region of the clustering stay together, large regions keep their label, every
    region of the result is large or holds pixel 0, and takes the label of one of its pixels *)
Theorem C33_regions w h minsize seg junk : 0 < w -> length seg = w * h -> (forall p, p < w * h -> (0 <= nth p seg 0)%Z) -> length junk = w * h ->
  exists out, clean w h minsize seg junk = Some out /\ length out = w * h /\
    (forall p q, joined w h (labels seg) p q -> nth p out 0%Z = nth q out 0%Z) /\
    (forall p, p < w * h -> exists q, joined w h (labels out) p q /\ nth p out 0%Z = nth q seg 0%Z) /\
    (forall p, p < w * h -> at_least w h minsize (labels out) p \/ joined w h (labels out) p 0) /\
    (forall p, p < w * h -> at_least w h minsize (labels seg) p -> nth p out 0%Z = nth p seg 0%Z).
Proof. intros W SL SP LJ. exact (clean_ok w h minsize W seg SL SP junk LJ). Qed.
Print Assumptions C33_regions.
(** the fresh memory does not matter *)
Theorem C33_memory w h minsize seg junk junk' : length junk = length junk' -> clean w h minsize seg junk = clean w h minsize seg junk'.
Proof. exact (clean_memory w h minsize seg junk junk'). Qed.
Print Assumptions C33_memory.
(** nothing changes if no region is small *)
Theorem C33_unchanged w h minsize seg junk : 0 < w -> length seg = w * h -> (forall p, p < w * h -> (0 <= nth p seg 0)%Z) -> length junk = w * h ->
  (forall p, p < w * h -> at_least w h minsize (labels seg) p) -> clean w h minsize seg junk = Some seg.
Proof.
  intros W SL SP LJ A. destruct (C33_regions w h minsize seg junk W SL SP LJ) as (out & -> & L & _ & _ & _ & K). f_equal.
  apply nth_ext with (d := 0%Z) (d' := 0%Z); [congruence|]. intros p Hp. apply K; [lia|]. apply A. lia.
Qed.
Print Assumptions C33_unchanged.

(** pixel 5 joins the region above it, pixel 2 the one on its left *)
Example C33_ex_clean : clean 3 2 2 [0; 0; 1; 0; 2; 3]%Z (repeat 7 6) = Some [0; 0; 0; 0; 0; 0]%Z /\
  clean 3 2 2 [0; 1; 1; 0; 1; 2]%Z (repeat 7 6) = Some [0; 1; 1; 0; 1; 1]%Z /\
  clean 3 2 1 [0; 1; 1; 0; 1; 2]%Z (repeat 7 6) = Some [0; 1; 1; 0; 1; 2]%Z.
Proof. vm_compute. auto. Qed.

(** ** C104: superpixels are clusters of pixels near their tile *)
Definition sizes_ok (w h K rs : nat) (reg : Qc) (image : list Qc) : Prop :=
  0 < w /\ 0 < h /\ 0 < rs /\ length image = w * h * K /\ (0 <= reg)%Qc.
(** a and b are as many tiles as are needed in a row and in a column *)
Definition rounded_up (n rs a : nat) : Prop := n <= a * rs < n + rs.
Lemma rounded_tiles n rs a : 0 < rs -> rounded_up n rs a -> a = tiles rs n.
Proof.
  intros R [A B]. destruct (tiles_bounds 1 1 0 rs [] ltac:(lia) ltac:(lia) R eq_refl n) as [C D].
  destruct (Nat.lt_trichotomy a (tiles rs n)) as [E|[E|E]]; [nia|exact E|nia].
Qed.

(** one assignment gives every pixel the closest center among those of the nearby tiles *)
Theorem C104_assignment w h K rs reg image X Y cs seg : sizes_ok w h K rs reg image -> rounded_up w rs X -> rounded_up h rs Y ->
  length cs = (2 + K) * (X * Y) -> length seg = w * h ->
  exists seg', assign w h K rs reg image cs seg = Some (seg', Some (total w h K rs reg image cs seg')) /\ length seg' = w * h /\
    forall p, p < w * h -> closest w h K rs reg image X cs seg' p.
Proof.
  intros (W & H & R & L & _) EX EY LC LS. apply rounded_tiles in EX, EY; try exact R. subst X Y. apply assign_ok; assumption.
Qed.
Print Assumptions C104_assignment.
(** the labels before the clean-up are numbers of nearby tiles, and the labels after it are tile numbers *)
Theorem C104_labels w h K rs reg image X Y seg : sizes_ok w h K rs reg image -> rounded_up w rs X -> rounded_up h rs Y -> length seg = w * h ->
  exists seg' cs es, raw_segment w h K rs reg image seg = Some (seg', cs, es) /\ length seg' = w * h /\
    (forall p, p < w * h -> (0 <= nth p seg' 0)%Z /\ nearby w h rs X p (label_of seg' p)) /\
    forall minsize junk, length junk = w * h -> exists out, segment w h K rs reg image minsize seg junk = Some out /\ clean w h minsize seg' junk = Some out /\
      length out = w * h /\ forall p, p < w * h -> (0 <= nth p out 0 < Z.of_nat (X * Y))%Z.
Proof.
  intros (W & H & R & L & G) EX EY LS. apply rounded_tiles in EX, EY; try exact R. subst X Y.
  destruct (raw_segment_ok w h K rs reg image W H R L G seg LS) as (seg' & cs & es & E & L1 & _ & _ & _ & _ & N).
  exists seg', cs, es. split; [exact E|]. split; [exact L1|]. split; [exact N|]. intros minsize junk LJ.
  destruct (C33_regions w h minsize seg' junk W L1 (fun p Hp => proj1 (N p Hp)) LJ) as (out & EO & LO & _ & C & _ & _).
  exists out. split; [unfold segment; rewrite E; exact EO|]. split; [exact EO|]. split; [exact LO|].
  intros p Hp. destruct (C p Hp) as (q & J & ->). apply joined_lt in J. destruct J as [_ Hq]. destruct (N q Hq) as [P Q].
  apply (nearby_lt w h K rs image W H R L) in Q; [|exact Hq]. unfold label_of in Q. unfold numX, numY in Q. lia.
Qed.
Print Assumptions C104_labels.
(** the initial centers *)
Theorem C104_seeds w h K rs reg image X Y : sizes_ok w h K rs reg image -> rounded_up w rs X -> rounded_up h rs Y ->
  exists e cs, edge_map w h K image = Some e /\ (forall p, p < w * h -> nth p e 0%Qc = edge w h K image p) /\
    init_centers w h K rs image e = Some cs /\ length cs = (2 + K) * (X * Y) /\
    forall u v, u < X -> v < Y -> seed w h K rs image cs X u v.
Proof.
  intros (W & H & R & L & _) EX EY. apply rounded_tiles in EX, EY; try exact R. subst X Y.
  destruct (edge_map_ok w h K rs image W H R L) as (e & E & LE & EV). exists e.
  destruct (init_centers_ok w h K rs image W H R L e LE EV) as (cs & EC & LC & S).
  exists cs. split; [exact E|]. split; [exact EV|]. split; [exact EC|]. split; [exact LC|]. exact S.
Qed.
Print Assumptions C104_seeds.

(** the image 9 0 0 0 with two tiles *)
Definition flat_image : list Qc := map nq [9; 0; 0; 0].
Example C104_ex_sizes : sizes_ok 4 1 1 2 1 flat_image /\ rounded_up 4 2 2 /\ rounded_up 1 2 1.
Proof. unfold sizes_ok, rounded_up. cbn. repeat split; try lia; try discriminate. Qed.
Example C104_ex_labels : option_map (fun '(seg, cs, es) => (seg, length es)) (raw_segment 5 1 1 2 1 (map nq [0; 0; 5; 9; 9]) (repeat 8%Z 5)) = Some ([0; 0; 1; 2; 2]%Z, 3).
Proof. vm_compute. reflexivity. Qed.

(** ** C105: the energy never increases *)
(** the means of the regions never increase the energy, nor does a new assignment *)
Theorem C105_means w h K rs reg image X Y cs seg : sizes_ok w h K rs reg image -> rounded_up w rs X -> rounded_up h rs Y ->
  length cs = (2 + K) * (X * Y) -> length seg = w * h -> (forall p, p < w * h -> label_of seg p < X * Y) ->
  exists cs', recompute w h K rs image seg = Some cs' /\ length cs' = (2 + K) * (X * Y) /\ (forall r, r < X * Y -> centroid w h K image seg cs' r) /\
    (total w h K rs reg image cs' seg <= total w h K rs reg image cs seg)%Qc.
Proof.
  intros (W & H & R & L & G) EX EY LC LS LAB. apply rounded_tiles in EX, EY; try exact R. subst X Y.
  destruct (recompute_ok w h K rs image W H R L seg LS LAB) as (cs' & E & L' & C). exists cs'. split; [exact E|]. split; [exact L'|]. split; [exact C|].
  apply means_better; assumption.
Qed.
Print Assumptions C105_means.
(** the energies es, latest first, of all the iterations of vl_slic_segment: at least one and at most a hundred *)
Theorem C105_energies w h K rs reg image seg : sizes_ok w h K rs reg image -> length seg = w * h ->
  exists seg' cs es, raw_segment w h K rs reg image seg = Some (seg', cs, es) /\ 1 <= length es <= 100 /\
    forall i j, i <= j -> j < length es -> (nth i es 0 <= nth j es 0)%Qc.
Proof.
  intros (W & H & R & L & G) LS. destruct (raw_segment_ok w h K rs reg image W H R L G seg LS) as (seg' & cs & es & E & _ & _ & A & B & C & _).
  exists seg', cs, es. split; [exact E|]. split; [destruct es; [congruence|cbn [length] in *; lia]|exact A].
Qed.
Print Assumptions C105_energies.
Example C105_ex_energies : option_map (fun '(seg, cs, es) => (seg, map (fun e => Qred (this e)) es)) (raw_segment 4 1 1 2 1 (map nq [0; 9; 3; 9]) (repeat 8%Z 4)) =
  Some ([0; 1; 0; 1]%Z, [11 # 2; 11 # 2; 37 # 2; 145 # 2]%Q).
Proof. vm_compute. reflexivity. Qed.

(** ** C106: the region of the first pixel can stay small *)
Definition large_regions : Prop := forall w h K rs reg image minsize seg junk out, sizes_ok w h K rs reg image -> length seg = w * h -> length junk = w * h ->
  minsize <= w * h -> segment w h K rs reg image minsize seg junk = Some out -> forall p, p < w * h -> at_least w h minsize (labels out) p.
Theorem C106_large_refuted : ~ large_regions.
Proof.
  intros A. specialize (A 4 1 1 2 1%Qc flat_image 2 (repeat 8%Z 4) (repeat 0 4) [0; 1; 1; 1]%Z (proj1 C104_ex_sizes) eq_refl eq_refl ltac:(cbn; lia)).
  assert (E : segment 4 1 1 2 1 flat_image 2 (repeat 8%Z 4) (repeat 0 4) = Some [0; 1; 1; 1]%Z) by (vm_compute; reflexivity).
  destruct (A E 0 ltac:(cbn; lia)) as (l & ND & LE & J).
  assert (Z : forall q, joined 4 1 (labels [0; 1; 1; 1]%Z) 0 q -> q = 0).
  { intros q J'. apply joined_lab in J' as L. apply joined_lt in J'. destruct q as [|[|[|[|q]]]]; cbn in *; try lia; try discriminate. }
  destruct l as [|a [|b l]]; cbn [length] in LE; try lia. pose proof (Z a (J a (or_introl eq_refl))). pose proof (Z b (J b (or_intror (or_introl eq_refl)))).
  inversion ND as [|? ? NI _]. apply NI. left. congruence.
Qed.
Print Assumptions C106_large_refuted.

(** ** C107: the labels can skip numbers *)
Definition dense_labels : Prop := forall w h K rs reg image minsize seg junk out, sizes_ok w h K rs reg image -> length seg = w * h -> length junk = w * h ->
  segment w h K rs reg image minsize seg junk = Some out -> forall p, p < w * h -> (nth p out 0 < Z.of_nat (length (nodup Z.eq_dec out)))%Z.
Theorem C107_dense_refuted : ~ dense_labels.
Proof.
  intros A. specialize (A 5 1 1 2 1%Qc (map nq [0; 0; 5; 9; 9]) 2 (repeat 8%Z 5) (repeat 0 5) [0; 0; 0; 2; 2]%Z).
  assert (S : sizes_ok 5 1 1 2 1 (map nq [0; 0; 5; 9; 9])) by (unfold sizes_ok; cbn; repeat split; try lia; discriminate).
  assert (E : segment 5 1 1 2 1 (map nq [0; 0; 5; 9; 9]) 2 (repeat 8%Z 5) (repeat 0 5) = Some [0; 0; 0; 2; 2]%Z) by (vm_compute; reflexivity).
  specialize (A S eq_refl eq_refl E 4 ltac:(cbn; lia)). apply Z.ltb_lt in A. revert A.
  assert (B : (nth 4 [0; 0; 0; 2; 2] 0 <? Z.of_nat (length (nodup Z.eq_dec [0; 0; 0; 2; 2])))%Z = false) by (vm_compute; reflexivity).
  rewrite B. discriminate.
Qed.
Print Assumptions C107_dense_refuted.

(** ** C108: pixels of the same label can be apart *)
Definition connected_labels : Prop := forall w h K rs reg image minsize seg junk out, sizes_ok w h K rs reg image -> length seg = w * h -> length junk = w * h ->
  segment w h K rs reg image minsize seg junk = Some out -> forall p q, p < w * h -> q < w * h -> nth p out 0%Z = nth q out 0%Z -> joined w h (labels out) p q.
Theorem C108_connected_refuted : ~ connected_labels.
Proof.
  intros A. specialize (A 4 1 1 3 1%Qc (map nq [0; 0; 3; 0]) 1 (repeat 8%Z 4) (repeat 0 4) [0; 0; 1; 0]%Z).
  assert (S : sizes_ok 4 1 1 3 1 (map nq [0; 0; 3; 0])) by (unfold sizes_ok; cbn; repeat split; try lia; discriminate).
  assert (E : segment 4 1 1 3 1 (map nq [0; 0; 3; 0]) 1 (repeat 8%Z 4) (repeat 0 4) = Some [0; 0; 1; 0]%Z) by (vm_compute; reflexivity).
  specialize (A S eq_refl eq_refl E 0 3 ltac:(cbn; lia) ltac:(cbn; lia) eq_refl).
  assert (Z : forall q, joined 4 1 (labels [0; 0; 1; 0]%Z) 0 q -> q <= 1).
  { intros q J. induction J as [_|q r J IH B L]; [lia|]. destruct B as (_ & R & B). cbn [Nat.mul] in R.
    assert (q = 0 \/ q = 1) as [-> | ->] by lia; destruct r as [|[|[|[|r]]]]; cbn in *; try lia; try discriminate. }
  apply Z in A. lia.
Qed.
Print Assumptions C108_connected_refuted.

(** ** C109: the weight of the coordinates is not the documented one *)
(** the squared distance of the documented features: coordinates are multiplied by regularizer / regionSize *)
Definition documented_cost (w h K rs : nat) (reg : Qc) (image cs : list Qc) (p r : nat) : Qc :=
  let lambda i := if i <? 2 then (reg / nq rs)%Qc else 1%Qc in
  ksum (2 + K) (fun i => gap false (lambda i * feature w h image p i)%Qc (lambda i * coord K cs r i)%Qc).
Definition documented_weight : Prop := forall w h K rs reg image cs x y r, sizes_ok w h K rs reg image -> x < w -> y < h -> (2 + K) * (r + 1) <= length cs ->
  distance w h K rs reg image cs x y r = Some (documented_cost w h K rs reg image cs (x + y * w) r).
Theorem C109_weight_refuted : ~ documented_weight.
Proof.
  intros A. specialize (A 2 1 0 1 (nq 2) [] [0; 0]%Qc 1 0 0).
  assert (S : sizes_ok 2 1 0 1 (nq 2) []) by (unfold sizes_ok; cbn; repeat split; try lia; discriminate).
  specialize (A S ltac:(lia) ltac:(lia) ltac:(cbn; lia)). apply (f_equal (option_map this)) in A. vm_compute in A. discriminate.
Qed.
Print Assumptions C109_weight_refuted.
