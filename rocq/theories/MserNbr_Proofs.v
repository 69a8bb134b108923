(** The loop over the neighbours of a pixel visits exactly the adjacent pixels. *)
From Coq Require Import List Arith ZArith Lia Bool.
From Verif Require Import Base Mser_Model Mser_Spec.
Import ListNotations.

(** * Subscripts *)
Fixpoint enc (dims cs : list nat) : nat :=
  match dims, cs with d :: ds, c :: cs => c + d * enc ds cs | _, _ => 0 end.

Definition pos_dims (dims : list nat) : Prop := Forall (fun d => 0 < d) dims.

Lemma nel_pos dims : pos_dims dims -> 0 < nel_of dims.
Proof. induction 1; cbn; nia. Qed.

Lemma coords_length dims p : length (coords dims p) = length dims.
Proof. revert p; induction dims; intros; cbn; auto. Qed.

Lemma coords_lt dims : pos_dims dims -> forall p, Forall2 lt (coords dims p) dims.
Proof.
  induction 1 as [|d ds Hd _ IH]; intro p; cbn; constructor; auto.
  apply Nat.mod_upper_bound. lia.
Qed.

Lemma enc_coords dims : pos_dims dims -> forall p, p < nel_of dims -> enc dims (coords dims p) = p.
Proof.
  induction 1 as [|d ds Hd _ IH]; intros p Hp; cbn [coords enc nel_of] in *; [lia|].
  rewrite IH. { rewrite (Nat.div_mod p d) at 3 by lia. lia. }
  apply Nat.div_lt_upper_bound; lia.
Qed.

Lemma coords_enc dims cs : Forall2 lt cs dims -> coords dims (enc dims cs) = cs /\ enc dims cs < nel_of dims.
Proof.
  induction 1 as [|c d cs ds Hc _ [IH1 IH2]]; cbn [coords enc nel_of]; [auto|].
  replace (c + d * enc ds cs) with (c + enc ds cs * d) by lia.
  rewrite Nat.mod_add, Nat.mod_small, Nat.div_add, Nat.div_small by lia. cbn [Nat.add].
  rewrite IH1. split; [reflexivity|]. nia.
Qed.

Lemma subs_loop_coords : forall dims s temp rest acc, 0 < s -> pos_dims dims -> temp < s * nel_of dims ->
  subs_loop temp (rev (strides_from s dims) ++ rest) acc =
  subs_loop (temp mod s) rest (coords dims (temp / s) ++ acc).
Proof.
  induction dims as [|d ds IH]; intros s temp rest acc Hs HP Ht.
  - cbn [strides_from rev app coords nel_of] in *. rewrite Nat.mod_small by lia. reflexivity.
  - inversion HP as [|? ? Hd HP']; subst. cbn [strides_from rev coords nel_of] in *.
    rewrite <- app_assoc, IH by (auto; nia). cbn [app subs_loop].
    rewrite Nat.mod_mul_r, <- Nat.div_div by lia. f_equal.
    + replace (temp mod s + s * ((temp / s) mod d)) with (temp mod s + ((temp / s) mod d) * s) by lia.
      rewrite Nat.mod_add, Nat.mod_mod by lia. reflexivity.
    + f_equal. replace (temp mod s + s * ((temp / s) mod d)) with (temp mod s + ((temp / s) mod d) * s) by lia.
      rewrite Nat.div_add by lia. rewrite (Nat.div_small (temp mod s)) by (apply Nat.mod_upper_bound; lia).
      reflexivity.
Qed.

Lemma subs_of_coords dims idx : pos_dims dims -> idx < nel_of dims -> subs_of dims idx = coords dims idx.
Proof.
  intros HP Hi. unfold subs_of, strides_of. rewrite <- (app_nil_r (rev _)).
  rewrite subs_loop_coords by (auto; lia). cbn [subs_loop]. rewrite Nat.div_1_r, app_nil_r. reflexivity.
Qed.

(** * The neighbour at an offset *)
Definition shift (subs : list nat) (dsubs : list Z) : list Z :=
  map (fun sd => (snd sd + Z.of_nat (fst sd))%Z) (combine subs dsubs).
Definition inside (dims : list nat) (cs : list Z) : Prop :=
  Forall2 (fun c d => (0 <= c < Z.of_nat d)%Z) cs dims.

Lemma nbr_index_spec : forall subs dsubs dims s acc,
  length subs = length dims -> length dsubs = length dims -> (0 <= acc)%Z ->
  match nbr_index subs dsubs dims (strides_from s dims) acc with
  | Some q => inside dims (shift subs dsubs) /\
              q = Z.to_nat acc + s * enc dims (map Z.to_nat (shift subs dsubs))
  | None => ~ inside dims (shift subs dsubs)
  end.
Proof.
  induction subs as [|c subs IH]; intros [|d dsubs] [|m dims] s acc L1 L2 Ha; cbn in L1, L2; try lia.
  - cbn. split; [constructor|lia].
  - cbn [nbr_index strides_from].
    destruct (Z.leb_spec 0 (d + Z.of_nat c)), (Z.ltb_spec (d + Z.of_nat c) (Z.of_nat m)); cbn [andb];
      try (intro X; inversion X; subst; cbn in *; lia).
    specialize (IH dsubs dims (s * m) (acc + (d + Z.of_nat c) * Z.of_nat s)%Z ltac:(lia) ltac:(lia) ltac:(nia)).
    destruct (nbr_index subs dsubs dims _ _) as [q|].
    + destruct IH as [I E]. split; [constructor; cbn; auto; lia|]. cbn [shift combine map enc fst snd].
      fold (shift subs dsubs). rewrite E. rewrite Z2Nat.inj_add, Z2Nat.inj_mul, Nat2Z.id by nia. nia.
    + intro X; inversion X; subst; auto.
Qed.

(** * The odometer *)
Definition digit (d : Z) : Prop := (-1 <= d <= 1)%Z.
Fixpoint dval (ds : list Z) : nat :=
  match ds with [] => 0 | d :: r => Z.to_nat (d + 1) + 3 * dval r end.

Lemma dval_lt ds : Forall digit ds -> dval ds < 3 ^ length ds.
Proof. unfold digit. induction 1; cbn [dval length Nat.pow]; [lia|]. lia. Qed.

Lemma dval_inj : forall a b, length a = length b -> Forall digit a -> Forall digit b -> dval a = dval b -> a = b.
Proof.
  unfold digit. induction a as [|x a IH]; intros [|y b] L Ha Hb E; cbn in L; try lia; auto.
  inversion Ha; inversion Hb; subst. cbn [dval] in E. f_equal; [lia|]. apply IH; auto; lia.
Qed.

Lemma next_dsubs_spec ds : Forall digit ds ->
  match next_dsubs ds with
  | Some ds' => Forall digit ds' /\ length ds' = length ds /\ dval ds' = dval ds + 1
  | None => dval ds + 1 = 3 ^ length ds
  end.
Proof.
  unfold digit. induction 1 as [|d r Hd HF IH]; cbn [next_dsubs]; [reflexivity|].
  destruct (Z.ltb_spec 1 (d + 1)).
  - assert (d = 1%Z) by lia. subst d. destruct (next_dsubs r) as [r'|].
    + destruct IH as (F & L & V). split; [constructor; auto; lia|]. cbn [length dval].
      split; [lia|]. cbn. lia.
    + cbn [dval length Nat.pow]. change (Z.to_nat (1 + 1)) with 2. lia.
  - split; [constructor; auto; lia|]. cbn [dval length]. split; [reflexivity|]. lia.
Qed.

Fixpoint odo (fuel : nat) (d : list Z) : list (list Z) :=
  match fuel with
  | O => []
  | S f => d :: match next_dsubs d with None => [] | Some d' => odo f d' end
  end.

Lemma odo_complete : forall fuel d, Forall digit d -> dval d + fuel = 3 ^ length d ->
  forall d', Forall digit d' -> length d' = length d -> dval d <= dval d' -> In d' (odo fuel d).
Proof.
  induction fuel as [|f IH]; intros d Hd HV d' Hd' HL HD.
  - pose proof (dval_lt d' Hd'). rewrite HL in *. lia.
  - cbn [odo]. destruct (Nat.eq_dec (dval d) (dval d')) as [E|N].
    + left. apply dval_inj; auto.
    + right. pose proof (next_dsubs_spec d Hd) as X. destruct (next_dsubs d) as [e|].
      * destruct X as (F & L & V). apply IH; auto; try lia. rewrite L. lia.
      * pose proof (dval_lt d' Hd'). rewrite HL in *. lia.
Qed.

Lemma odo_sound : forall fuel d, Forall digit d ->
  forall d', In d' (odo fuel d) -> Forall digit d' /\ length d' = length d.
Proof.
  induction fuel as [|f IH]; intros d Hd d' H; cbn [odo] in H; [destruct H|].
  destruct H as [<-|H]; [auto|]. pose proof (next_dsubs_spec d Hd) as X.
  destruct (next_dsubs d) as [e|]; [|destruct H]. destruct X as (F & L & _).
  destruct (IH e F d' H) as [A B]. split; auto. lia.
Qed.

(** * The loop as an iteration over a list of pixels *)
Fixpoint ofold {A S} (f : A -> S -> option S) (l : list A) (s : S) : option S :=
  match l with [] => Some s | x :: l' => do s <- f x s; ofold f l' s end.

Fixpoint keep {A B} (f : A -> option B) (l : list A) : list B :=
  match l with [] => [] | x :: l' => match f x with Some y => y :: keep f l' | None => keep f l' end end.

Lemma in_keep {A B} (f : A -> option B) l y : In y (keep f l) <-> exists x, In x l /\ f x = Some y.
Proof.
  induction l as [|a l IH]; cbn [keep].
  - split; [intros []|intros (x & [] & _)].
  - destruct (f a) as [b|] eqn:E.
    + split.
      * intros [<-|H]; [exists a; cbn; auto|]. apply IH in H. destruct H as (x & H & Hx). exists x; cbn; auto.
      * intros (x & [<-|H] & Hx); [rewrite E in Hx; inversion Hx; now left|]. right. apply IH. eauto.
    + rewrite IH. split.
      * intros (x & H & Hx). exists x; cbn; auto.
      * intros (x & [<-|H] & Hx); [congruence|]. eauto.
Qed.

Lemma neighbor_loop_fold dims im idx subs : forall fuel d u, Forall digit d -> 0 < fuel ->
  dval d + fuel = 3 ^ length d ->
  neighbor_loop fuel dims im idx subs d u =
  ofold (visit_neighbor im idx) (keep (fun d => nbr_index subs d dims (strides_of dims) 0) (odo fuel d)) u.
Proof.
  induction fuel as [|f IH]; intros d u Hd Hf HV; [lia|]. cbn [neighbor_loop odo keep].
  pose proof (next_dsubs_spec d Hd) as X.
  destruct (nbr_index subs d dims (strides_of dims) 0) as [q|]; cbn [ofold obind].
  - destruct (visit_neighbor im idx q u) as [u1|]; cbn [obind]; [|reflexivity].
    destruct (next_dsubs d) as [e|]; [|reflexivity]. destruct X as (F & L & V).
    pose proof (dval_lt e F). apply IH; auto; rewrite ?L in *; lia.
  - destruct (next_dsubs d) as [e|]; [|reflexivity]. destruct X as (F & L & V).
    pose proof (dval_lt e F). apply IH; auto; rewrite ?L in *; lia.
Qed.

Definition nbs (dims : list nat) (p : nat) : list nat :=
  keep (fun d => nbr_index (coords dims p) d dims (strides_of dims) 0)
       (odo (3 ^ length dims) (repeat (-1)%Z (length dims))).

Lemma first_digit n : Forall digit (repeat (-1)%Z n) /\ dval (repeat (-1)%Z n) = 0.
Proof.
  induction n as [|n [IH1 IH2]]; cbn [repeat dval]; [auto|]. split; [constructor; auto; unfold digit; lia|].
  rewrite IH2. reflexivity.
Qed.

Lemma pow3_pos n : 0 < 3 ^ n.
Proof. pose proof (Nat.pow_nonzero 3 n). lia. Qed.

Lemma neighbor_loop_nbs dims im idx u : pos_dims dims -> idx < nel_of dims ->
  neighbor_loop (3 ^ length dims) dims im idx (subs_of dims idx) (repeat (-1)%Z (length dims)) u =
  ofold (visit_neighbor im idx) (nbs dims idx) u.
Proof.
  intros HP Hi. destruct (first_digit (length dims)) as [F V].
  rewrite subs_of_coords, neighbor_loop_fold; auto; [apply pow3_pos|]. rewrite repeat_length, V. reflexivity.
Qed.

Lemma shift_adjacent : forall d cs dims, inside dims (shift cs d) -> Forall digit d -> length cs = length d ->
  Forall2 (fun a b => a <= b + 1 /\ b <= a + 1) cs (map Z.to_nat (shift cs d)).
Proof.
  unfold digit. induction d as [|x d IH]; intros [|c cs] dims I HD LC; cbn in LC; try lia; cbn; constructor;
    inversion I; inversion HD; subst; cbn in *; [lia|]. eapply IH; eauto.
Qed.

Lemma nbs_spec dims p q : pos_dims dims -> p < nel_of dims ->
  In q (nbs dims p) <-> q < nel_of dims /\ adjacent dims p q.
Proof.
  intros HP Hp. destruct (first_digit (length dims)) as [F V]. unfold nbs. rewrite in_keep. split.
  - intros (d & Hd & E). apply odo_sound in Hd; auto. destruct Hd as [HD HL]. rewrite repeat_length in HL.
    pose proof (nbr_index_spec (coords dims p) d dims 1 0 (coords_length _ _) HL ltac:(lia)) as X.
    unfold strides_of in E. rewrite E in X. destruct X as [I ->]. rewrite Nat.mul_1_l. cbn [Z.to_nat Nat.add].
    assert (L : Forall2 lt (map Z.to_nat (shift (coords dims p) d)) dims).
    { clear - I. induction I; cbn; constructor; auto. lia. }
    destruct (coords_enc _ _ L) as [C N]. split; [exact N|]. unfold adjacent. rewrite C.
    eapply shift_adjacent; eauto. rewrite coords_length; auto.
  - intros [Hq A]. unfold adjacent in A.
    set (d := map (fun pq => (Z.of_nat (snd pq) - Z.of_nat (fst pq))%Z) (combine (coords dims p) (coords dims q))).
    assert (S : shift (coords dims p) d = map Z.of_nat (coords dims q)).
    { unfold d. clear - A. induction A; cbn; auto. f_equal; [lia|]. exact IHA. }
    assert (HD : Forall digit d).
    { unfold d, digit. clear - A. induction A; cbn; constructor; auto. cbn. lia. }
    assert (HL : length d = length dims).
    { unfold d. rewrite map_length, combine_length, !coords_length. lia. }
    exists d. split.
    + apply odo_complete; auto; rewrite ?repeat_length, ?V; auto. lia.
    + pose proof (nbr_index_spec (coords dims p) d dims 1 0 (coords_length _ _) HL ltac:(lia)) as X.
      unfold strides_of. rewrite S in X.
      assert (MM : map Z.to_nat (map Z.of_nat (coords dims q)) = coords dims q).
      { rewrite map_map. rewrite <- (map_id (coords dims q)) at 2. apply map_ext. intro; apply Nat2Z.id. }
      destruct (nbr_index _ d dims _ 0) as [q'|].
      * destruct X as [_ ->]. f_equal. rewrite MM, enc_coords by auto. cbn. lia.
      * exfalso. apply X. unfold inside. pose proof (coords_lt dims HP q) as CL. clear - CL.
        induction CL; cbn; constructor; auto. lia.
Qed.

Lemma adjacent_sym dims p q : adjacent dims p q -> adjacent dims q p.
Proof. unfold adjacent. induction 1; constructor; auto. tauto. Qed.
