(** Theorems about HOG (C36, C37, C76, C77). *)
From Coq Require Import List Arith ZArith Lia Bool QArith Qcanon Qcabs Permutation.
From Verif Require Import Base Loop MserSort_Proofs ImOp_Spec ImOp_Proofs Rat Gauss_Model Gauss_Proofs Lbp_Model Lbp_Spec.
From Verif Require Vlad_Proofs Homker_Proofs.
From Verif Require Import Hog_Model Hog_Spec Hog_Proofs HogExtract_Proofs HogFlip_Proofs.
Import ListNotations.
Local Open Scope nat_scope.

(** ** C36: the flip permutation *)

(** It is an involution of the channels; directed channel k goes to the channel of
    pi minus its angle, undirected ones likewise modulo n, and the blocks on the left
    are exchanged with those on the right. *)
Theorem C36_permutation v n perm : 0 < n -> length perm = hog_dimension v n ->
  exists p, hog_permutation v n perm = Some p /\ length p = hog_dimension v n /\
    (forall d, d < hog_dimension v n -> nth d p 0 < hog_dimension v n /\ nth (nth d p 0) p 0 = d) /\
    match v with
    | Uoctti =>
      (forall k, k < 2 * n -> exists q, nth k p 0 < 2 * n /\ k + nth k p 0 = n + q * (2 * n)) /\
      (forall k, k < n -> exists k', k' < n /\ nth (k + 2 * n) p 0 = k' + 2 * n /\ (k + k' = 0 \/ k + k' = n)) /\
      (forall right below, right < 2 -> below < 2 -> nth (3 * n + (right + 2 * below)) p 0 = 3 * n + ((1 - right) + 2 * below))
    | DalalTriggs =>
      forall k right below, k < n -> right < 2 -> below < 2 ->
        exists k', k' < n /\ nth (k + (right + 2 * below) * n) p 0 = k' + ((1 - right) + 2 * below) * n /\ (k + k' = 0 \/ k + k' = n)
    end.
Proof.
  intros Hn Lp. destruct (permutation_ok v n perm Hn Lp) as (p & E & L & V). exists p. split; [exact E|]. split; [exact L|]. split.
  - intros d Ld. destruct (flip_channel_ok v n d Hn Ld) as [F1 F2]. rewrite (V d) by auto. split; [exact F1|]. rewrite V by auto. exact F2.
  - destruct v; cbn [hog_dimension] in *.
    + split; [|split].
      * intros k Lk. rewrite V by lia. rewrite flip_directed by auto. pose proof (flip_orientation_lt n k Hn).
        rewrite flip_orientation_eq in * by auto. destruct (Nat.leb_spec k n); [exists 0|exists 1]; lia.
      * intros k Lk. exists ((n - k) mod n). split; [apply Nat.mod_upper_bound; lia|]. rewrite V by lia. unfold flip_channel.
        destruct (Nat.ltb_spec (k + 2 * n) n); [lia|]. destruct (Nat.ltb_spec (k + 2 * n) (2 * n)); [lia|]. destruct (Nat.ltb_spec (k + 2 * n) (3 * n)); [|lia].
        replace (k + 2 * n - 2 * n) with k by lia. split; [reflexivity|]. rewrite mod_flip by lia. destruct (Nat.eqb_spec k 0); lia.
      * intros r b Lr Lb. rewrite V by lia. unfold flip_channel.
        destruct (Nat.ltb_spec (3 * n + (r + 2 * b)) n); [lia|]. destruct (Nat.ltb_spec (3 * n + (r + 2 * b)) (2 * n)); [lia|].
        destruct (Nat.ltb_spec (3 * n + (r + 2 * b)) (3 * n)); [lia|]. replace (3 * n + (r + 2 * b) - n * 3) with (r + 2 * b) by lia.
        destruct r as [|[|r]], b as [|[|b]]; try lia; cbn; lia.
    + intros k r b Lk Lr Lb. exists ((n - k) mod n). split; [apply Nat.mod_upper_bound; lia|]. rewrite V by nia. unfold flip_channel.
      rewrite Nat.mod_add, Nat.div_add, (Nat.mod_small k), (Nat.div_small k) by lia. split.
      * f_equal. destruct r as [|[|r]], b as [|[|b]]; try lia; reflexivity.
      * rewrite mod_flip by lia. destruct (Nat.eqb_spec k 0); lia.
Qed.

(** Entry of plane d at cell (x, y) of an array of W x H cells *)
Definition at_ (W H : nat) (l : list Qc) (x y d : nat) : Qc := nth (x + y * W + d * (W * H)) l 0%Qc.

(** If the histograms of an object are those of another one mirrored about a vertical
    axis, so are the features, up to the permutation. *)
Theorem C36_mirrored n v perm p transposed isq eps c02 c18 (s s' : hog) out out' W H :
  0 < n -> length perm = hog_dimension v n -> hog_permutation v n perm = Some p ->
  h_width s = W -> h_height s = H -> h_width s' = W -> h_height s' = H ->
  length (h_bins s) = W * H * (2 * n) -> length (h_bins s') = W * H * (2 * n) ->
  length (h_norm s) = W * H -> length (h_norm s') = W * H ->
  length out = W * H * hog_dimension v n -> length out' = W * H * hog_dimension v n ->
  (forall x y k, x < W -> y < H -> k < 2 * n ->
    at_ W H (h_bins s') x y k = at_ W H (h_bins s) (flip_x W transposed x) (flip_y H transposed y) (flip_orientation n k)) ->
  (forall x y, x < W -> y < H ->
    at_ W H (h_norm s') x y 0 = at_ W H (h_norm s) (flip_x W transposed x) (flip_y H transposed y) 0) ->
  exists s1 f s1' f',
    extract n v transposed isq eps c02 c18 s out = Some (s1, f) /\
    extract n v transposed isq eps c02 c18 s' out' = Some (s1', f') /\
    length f = W * H * hog_dimension v n /\ length f' = W * H * hog_dimension v n /\
    forall x y d, x < W -> y < H -> d < hog_dimension v n ->
      at_ W H f' x y d = at_ W H f (flip_x W transposed x) (flip_y H transposed y) (nth d p 0).
Proof.
  intros Hn Lp Ep E1 E2 E3 E4 Lb Lb' Lm Lm' Lo Lo' Hb Hm.
  destruct (permutation_ok v n perm Hn Lp) as (p' & Ep' & _ & V). assert (p' = p) by congruence. subst p'.
  set (h := at_ W H (h_bins s)). set (h' := at_ W H (h_bins s')).
  set (u := fun x y => at_ W H (h_norm s) x y 0). set (u' := fun x y => at_ W H (h_norm s') x y 0).
  assert (A : forall l P, length l = W * H * P -> holds W H P l (at_ W H l)) by (intros l P Ll; split; [exact Ll|reflexivity]).
  assert (B : forall l, length l = W * H -> holds W H 1 l (fun x y _ => at_ W H l x y 0)).
  { intros l Ll. split; [lia|]. intros x y k _ _ Lk. replace k with 0 by lia. reflexivity. }
  destruct (extract_ok n W H v transposed isq eps c02 c18 h u s out Hn E1 E2 (A _ _ Lb) (B _ Lm) Lo) as (s1 & f & F1 & _ & _ & _ & _ & Lf & Vf).
  destruct (extract_ok n W H v transposed isq eps c02 c18 h' u' s' out' Hn E3 E4 (A _ _ Lb') (B _ Lm') Lo') as (s1' & f' & F1' & _ & _ & _ & _ & Lf' & Vf').
  exists s1, f, s1', f'. split; [exact F1|]. split; [exact F1'|]. split; [exact Lf|]. split; [exact Lf'|].
  intros x y d Lx Ly Ld. unfold pos in Vf, Vf'. unfold at_. rewrite Vf' by auto.
  rewrite V by auto. destruct (flip_channel_ok v n d Hn Ld) as [F _].
  rewrite Vf by (try exact F; unfold flip_x, flip_y; destruct transposed; lia).
  apply feature_flip; auto. intros x' y' Lx' Ly'. cbv beta. f_equal.
  - apply Hm; auto.
  - apply cell_norm_flip; auto.
Qed.

(** ** C37: contents, and independence from the history of the object *)
Inductive call :=
| Put (sqrt_ acos_ : Qc -> Qc) (pi tiny : Qc) (ox oy : list Qc) (bilinear : bool) (image : list Qc) (width height channels size : nat)
| Polar (step : Qc) (bilinear directed : bool) (modulus angle : list Qc) (width height size : nat)
| Extract (v : variant) (transposed : bool) (isq : Qc -> Qc) (eps c02 c18 : Qc) (features : list Qc).
Definition perform (n : nat) (c : call) (s : option hog) : option (option hog) :=
  match c with
  | Put sqrt_ acos_ pi tiny ox oy bilinear image width height channels size =>
    do s <- put_image n sqrt_ acos_ pi tiny ox oy bilinear s image width height channels size; Some (Some s)
  | Polar step bilinear directed modulus angle width height size =>
    do s <- put_polar_field n step bilinear directed s modulus angle width height size; Some (Some s)
  | Extract v transposed isq eps c02 c18 features =>
    match s with
    | None => None
    | Some s => do (s, _) <- extract n v transposed isq eps c02 c18 s features; Some (Some s)
    end
  end.
Fixpoint run (n : nat) (l : list call) (s : option hog) : option (option hog) :=
  match l with [] => Some s | c :: l => do s <- perform n c s; run n l s end.

Lemma iter_from_pres {A} (P : A -> Prop) body : (forall (j : nat) s s', body j s = Some s' -> P s -> P s') ->
  forall m i s s', iter_from m i body s = Some s' -> P s -> P s'.
Proof.
  intro Hb. induction m as [|m IH]; cbn [iter_from]; intros i s s' E Hs.
  - injection E as <-. exact Hs.
  - destruct (body i s) as [s1|] eqn:E1; cbn [obind] in E; [|discriminate]. apply (IH _ _ _ E). apply (Hb _ _ _ E1 Hs).
Qed.
Lemma zset_len {A} (l l' : list A) z v : zset l z v = Some l' -> length l' = length l.
Proof.
  unfold zset. destruct (z <? 0)%Z; [discriminate|]. unfold aset. destruct (_ <? _); [|discriminate]. intro E. injection E as <-. apply upd_length.
Qed.
Lemma aset_len {A} (l l' : list A) i v : aset l i v = Some l' -> length l' = length l.
Proof. unfold aset. destruct (_ <? _); [|discriminate]. intro E. injection E as <-. apply upd_length. Qed.
Lemma add_cell_len hw hh x y k value f f' : add_cell hw hh x y k value f = Some f' -> length f' = length f.
Proof. unfold add_cell. destruct (zget f _); cbn [obind]; [|discriminate]. apply zset_len. Qed.
Lemma splat_len hw hh size amount x y o f f' : splat hw hh size amount x y o f = Some f' -> length f' = length f.
Proof.
  unfold splat. destruct (o <? 0)%Z; [now intros [= <-]|]. destruct (axis size _) as [[bx wx1] wx2]. destruct (axis size _) as [[by_ wy1] wy2].
  assert (G : forall (b : bool) x y k val f f', (if b then add_cell hw hh x y k val f else Some f) = Some f' -> length f' = length f).
  { intros b x' y' k val g g'. destruct b; [apply add_cell_len|now intros [= <-]]. }
  match goal with |- obind ?m _ = _ -> _ => destruct m as [f1|] eqn:E1 end; cbn [obind]; [|discriminate]. apply G in E1.
  match goal with |- obind ?m _ = _ -> _ => destruct m as [f2|] eqn:E2 end; cbn [obind]; [|discriminate]. apply G in E2.
  match goal with |- obind ?m _ = _ -> _ => destruct m as [f3|] eqn:E3 end; cbn [obind]; [|discriminate]. apply G in E3.
  intro E4. apply G in E4. congruence.
Qed.
Lemma perform_wf n c s s' : wf n s -> perform n c s = Some s' -> wf n s'.
Proof.
  intros Ws E. destruct c; cbn [perform] in E.
  - destruct (put_image _ _ _ _ _ _ _ _ _ _ _ _ _ _) as [s1|] eqn:E1; cbn [obind] in E; [|discriminate]. injection E as <-.
    unfold put_image in E1. destruct (prepare n s width height size) as [s2|] eqn:E2; cbn [obind] in E1; [|discriminate].
    destruct (prepare_zero n s width height size s2 Ws E2) as [_ E3].
    destruct (iter_from _ _ _ _) as [b|] eqn:E4; cbn [obind] in E1; [|discriminate]. injection E1 as <-. cbn [wf h_bins h_norm h_width h_height].
    apply (iter_from_pres (fun b => length b = length (h_bins s2))) in E4; [|clear E4; intros j a a' Ea La|reflexivity].
    + rewrite E4, E3. cbn [h_bins h_norm h_width h_height]. now rewrite !repeat_length.
    + apply (iter_from_pres (fun b => length b = length (h_bins s2)) _) with (2 := Ea) ; [|exact La].
      clear. intros x f f' Ef Lf. unfold image_pixel in Ef.
      destruct (gradient _ _ _ _ _ _) as [[[gx gy] g2]|]; cbn [obind] in Ef; [|discriminate].
      destruct (votes _ _ _ _ _ _ _ _ _ _) as [[[[w0 b0] w1] b1]|]; cbn [obind] in Ef; [|discriminate].
      destruct (splat _ _ _ _ _ _ b0 f) as [f1|] eqn:E1; cbn [obind] in Ef; [|discriminate].
      apply splat_len in E1, Ef. congruence.
  - destruct (put_polar_field _ _ _ _ _ _ _ _ _ _) as [s1|] eqn:E1; cbn [obind] in E; [|discriminate]. injection E as <-.
    unfold put_polar_field in E1. destruct (prepare n s width height size) as [s2|] eqn:E2; cbn [obind] in E1; [|discriminate].
    destruct (prepare_zero n s width height size s2 Ws E2) as [_ E3].
    destruct (iter _ _ _) as [b|] eqn:E4; cbn [obind] in E1; [|discriminate]. injection E1 as <-. cbn [wf h_bins h_norm h_width h_height].
    apply (iter_from_pres (fun b => length b = length (h_bins s2))) in E4; [|clear E4; intros j a a' Ea La|reflexivity].
    + rewrite E4, E3. cbn [h_bins h_norm h_width h_height]. now rewrite !repeat_length.
    + apply (iter_from_pres (fun b => length b = length (h_bins s2)) _) with (2 := Ea) ; [|exact La].
      clear. intros x f f' Ef Lf. unfold polar_pixel in Ef.
      destruct (aget modulus _); cbn [obind] in Ef; [|discriminate]. destruct (aget angle _); cbn [obind] in Ef; [|discriminate].
      destruct (negb _); [now injection Ef as <-|]. destruct (angle_votes _ _ _ _ _) as [[[w0 b0] w1] b1].
      destruct (splat _ _ _ _ _ _ b0 f) as [f1|] eqn:E1; cbn [obind] in Ef; [|discriminate].
      apply splat_len in E1, Ef. congruence.
  - destruct s as [s|]; [|discriminate]. destruct (extract _ _ _ _ _ _ _ _ _) as [[s1 o]|] eqn:E1; cbn [obind] in E; [|discriminate]. injection E as <-.
    unfold extract in E1. destruct (norms n s) as [m|] eqn:E2; cbn [obind] in E1; [|discriminate].
    destruct (iter _ _ _); cbn [obind] in E1; [|discriminate]. injection E1 as <- <-. cbn [wf h_bins h_norm h_width h_height] in *.
    destruct Ws as [W1 W2]. split; [exact W1|]. rewrite <- W2. clear - E2. unfold norms in E2.
    apply (iter_from_pres (fun b => length b = length (h_norm s))) in E2; [exact E2| |reflexivity]. clear.
    intros j a a' Ea La. apply (iter_from_pres (fun b => length b = length (h_norm s)) _) with (2 := Ea); [|exact La].
    clear. intros x f f' Ef Lf. destruct (aget (h_bins s) _); cbn [obind] in Ef; [|discriminate].
    destruct (aget (h_bins s) _); cbn [obind] in Ef; [|discriminate]. destruct (aget f x); cbn [obind] in Ef; [|discriminate].
    apply aset_len in Ef. congruence.
Qed.
Lemma run_wf n l : forall s s', wf n s -> run n l s = Some s' -> wf n s'.
Proof.
  induction l as [|c l IH]; cbn [run]; intros s s' Ws E; [now injection E as <-|].
  destruct (perform n c s) as [s1|] eqn:E1; cbn [obind] in E; [|discriminate]. apply (IH _ _ (perform_wf _ _ _ _ Ws E1) E).
Qed.

(** Whatever has been done with the object before, putting an image or a polar field
    leaves it as it would leave a new one. *)
Theorem C37_history_irrelevant n history s c : run n history None = Some s ->
  match c with Extract _ _ _ _ _ _ _ => False | _ => True end ->
  perform n c s = perform n c None.
Proof.
  intros E Hc. assert (Ws : wf n s) by (apply (run_wf n history None s I E)).
  destruct c; cbn [perform]; [| |destruct Hc].
  - unfold put_image. rewrite (prepare_ok n s) by exact Ws. reflexivity.
  - unfold put_polar_field. rewrite (prepare_ok n s) by exact Ws. reflexivity.
Qed.

(** The histograms after putting an image: each interior pixel votes with the norm of
    its strongest gradient for the closest orientation (or the two closest ones), and
    the vote is shared bilinearly among the cells. *)
Theorem C37_put_image n sqrt_ acos_ pi tiny oxl oyl bilinear history s image width height channels size :
  run n history None = Some s ->
  0 < n -> length oxl = n -> length oyl = n -> length image = channels * (width * height) ->
  0 < size -> 3 < width -> 3 < height ->
  let W := (width + size / 2) / size in let H := (height + size / 2) / size in
  0 < W -> 0 < H ->
  let im x y k := nth (y * width + x + k * (width * height)) image 0%Qc in
  let ox k := nth k oxl 0%Qc in let oy k := nth k oyl 0%Qc in
  exists s' bin amount,
    put_image n sqrt_ acos_ pi tiny oxl oyl bilinear s image width height channels size = Some s' /\
    h_width s' = W /\ h_height s' = H /\ h_norm s' = repeat 0%Qc (W * H) /\ length (h_bins s') = W * H * (2 * n) /\
    (forall x y k, x < W -> y < H -> k < 2 * n ->
      at_ W H (h_bins s') x y k = hog_bins 1 (width - 2) 1 (height - 2) size bin amount x y k) /\
    (forall x y, 1 <= x -> x + 1 < width -> 1 <= y -> y + 1 < height ->
      exists gx gy k1, strongest im channels x y gx gy /\ closest n ox oy gx gy k1 /\
        bin x y 0 = directed_bin n ox oy gx gy k1 /\
        let norm := sqrt_ (gx * gx + gy * gy)%Qc in
        if bilinear then
          let ratio := ([score ox oy gx gy k1] / (if Qclt_le_dec tiny norm then norm else tiny))%Qc in
          let a := (acos_ (if Qclt_le_dec ratio 1 then ratio else 1) / (pi / nq n))%Qc in
          amount x y 0 = (norm * (1 - a))%Qc /\ amount x y 1 = (norm * a)%Qc /\
          ((n = 1 /\ bin x y 1 = (-1)%Z) \/
           exists k2, second n ox oy gx gy k1 k2 /\ bin x y 1 = directed_bin n ox oy gx gy k2)
        else bin x y 1 = (-1)%Z /\ amount x y 0 = norm).
Proof.
  intros Er Hn Lox Loy Li Hs W3 H3 W H LW LH im ox oy.
  assert (Ws : wf n s) by (apply (run_wf n history None s I Er)).
  destruct (put_image_ok n sqrt_ acos_ pi tiny oxl oyl bilinear image width height channels size Lox Loy Hn Li s Ws Hs W3 H3 LW LH) as (b & E & Lb & Vb).
  fold W H in E, Lb, Vb.
  exists (mk_hog W H b (repeat 0%Qc (W * H))),
    (vote_bin n sqrt_ acos_ pi tiny oxl oyl bilinear image width height channels),
    (vote_amount n sqrt_ acos_ pi tiny oxl oyl bilinear image width height channels).
  split; [exact E|]. cbn [h_width h_height h_bins h_norm]. do 3 (split; [reflexivity|]). split; [exact Lb|]. split.
  { intros x y k Lx Ly Lk. unfold at_. apply Vb; auto. }
  intros x y L1 L2 L3 L4.
  destruct (pixel_votes_ok n sqrt_ acos_ pi tiny oxl oyl bilinear image width height channels Lox Loy Hn Li x y L1 L2 L3 L4)
    as (gx & gy & k1 & _ & St & _ & _ & C & B0 & F1 & F2).
  exists gx, gy, k1. split; [exact St|]. split; [exact C|]. split; [exact B0|]. cbv zeta.
  destruct bilinear; [|exact (F1 eq_refl)]. destruct (F2 eq_refl) as (A0 & A1 & B1).
  assert (Eq : forall a b : Qc, qmax a b = if Qclt_le_dec b a then a else b).
  { intros a c. unfold qmax. apply Vlad_Proofs.qlt_dec. }
  assert (Em : forall a b : Qc, qmin a b = if Qclt_le_dec a b then a else b).
  { intros a c. unfold qmin. apply Vlad_Proofs.qlt_dec. }
  rewrite Em, Eq in A0, A1. split; [exact A0|]. split; [exact A1|]. exact B1.
Qed.

(** The features extracted next: every undirected histogram normalised by the energy
    of the four blocks around its cell. *)
Theorem C37_features n v transposed isq eps c02 c18 s W H out : 0 < n ->
  h_width s = W -> h_height s = H -> length (h_bins s) = W * H * (2 * n) -> h_norm s = repeat 0%Qc (W * H) ->
  length out = W * H * hog_dimension v n ->
  let h := at_ W H (h_bins s) in
  exists s' f, extract n v transposed isq eps c02 c18 s out = Some (s', f) /\ length f = W * H * hog_dimension v n /\
    forall x y d, x < W -> y < H -> d < hog_dimension v n ->
      at_ W H f x y d = match v with
        | Uoctti => uoctti n W H h (cell_norm n h) transposed isq eps c02 c18 x y d
        | DalalTriggs => dalal_triggs n W H h (cell_norm n h) transposed isq eps c02 x y d
        end.
Proof.
  intros Hn Ew Eh Lb Em Lo h.
  assert (Hb : holds W H (2 * n) (h_bins s) h) by (split; [exact Lb|reflexivity]).
  assert (Hm : holds W H 1 (h_norm s) (fun _ _ _ => 0%Qc)).
  { rewrite Em. split; [rewrite repeat_length; lia|]. intros. apply nth_repeat. }
  destruct (extract_ok n W H v transposed isq eps c02 c18 h (fun _ _ => 0%Qc) s out Hn Ew Eh Hb Hm Lo) as (s' & f & E & _ & _ & _ & _ & Lf & Vf).
  exists s', f. split; [exact E|]. split; [exact Lf|]. intros x y d Lx Ly Ld. unfold at_ at 1. unfold pos in Vf. rewrite (Vf x y d) by auto.
  assert (Eu : forall a b c d0, block_norm W H (fun x y => 0 + cell_norm n h x y)%Qc a b c d0 = block_norm W H (cell_norm n h) a b c d0).
  { intros. unfold block_norm. destruct a. all: cbn [sum]; ring. }
  unfold feature. destruct v.
  - unfold uoctti, directed_value, undirected_value, gain. destruct (d <? 2 * n); [|destruct (d <? 3 * n)]; cbn [sum]; rewrite ?Eu; try reflexivity;
    f_equal; apply qsum_ext; intros k _; now rewrite Eu.
  - unfold dalal_triggs, undirected_value, gain. now rewrite Eu.
Qed.

(** ** C76: extracting again *)

(** Extractions accumulate the norms in the object: the t-th one divides by the
    energies multiplied by t. *)
Theorem C76_norms_accumulate n v transposed isq eps c02 c18 s W H out t : 0 < n ->
  h_width s = W -> h_height s = H -> length (h_bins s) = W * H * (2 * n) ->
  length out = W * H * hog_dimension v n ->
  let h := at_ W H (h_bins s) in
  holds W H 1 (h_norm s) (fun x y _ => nq t * cell_norm n h x y)%Qc ->
  exists s' f, extract n v transposed isq eps c02 c18 s out = Some (s', f) /\
    h_bins s' = h_bins s /\ h_width s' = W /\ h_height s' = H /\
    holds W H 1 (h_norm s') (fun x y _ => nq (Datatypes.S t) * cell_norm n h x y)%Qc /\
    length f = W * H * hog_dimension v n /\
    forall x y d, x < W -> y < H -> d < hog_dimension v n ->
      at_ W H f x y d = match v with
        | Uoctti => uoctti n W H h (fun x y => nq (Datatypes.S t) * cell_norm n h x y)%Qc transposed isq eps c02 c18 x y d
        | DalalTriggs => dalal_triggs n W H h (fun x y => nq (Datatypes.S t) * cell_norm n h x y)%Qc transposed isq eps c02 x y d
        end.
Proof.
  intros Hn Ew Eh Lb Lo h Hm.
  assert (Hb : holds W H (2 * n) (h_bins s) h) by (split; [exact Lb|reflexivity]).
  destruct (extract_ok n W H v transposed isq eps c02 c18 h (fun x y => nq t * cell_norm n h x y)%Qc s out Hn Ew Eh Hb Hm Lo) as (s' & f & E & E1 & E2 & E3 & Hm' & Lf & Vf).
  exists s', f. split; [exact E|]. split; [exact E3|]. split; [exact E1|]. split; [exact E2|].
  assert (Eu : forall x y, (nq t * cell_norm n h x y + cell_norm n h x y = nq (Datatypes.S t) * cell_norm n h x y)%Qc).
  { intros. rewrite <- (Nat.add_1_r t), Homker_Proofs.nq_S. ring. }
  split; [apply (holds_ext _ _ _ _ _ _ Hm'); intros; apply Eu|]. split; [exact Lf|].
  intros x y d Lx Ly Ld. unfold at_ at 1. unfold pos in Vf. rewrite (Vf x y d) by auto.
  assert (Eb : forall a b c d0, block_norm W H (fun x y => nq t * cell_norm n h x y + cell_norm n h x y)%Qc a b c d0 =
     block_norm W H (fun x y => nq (Datatypes.S t) * cell_norm n h x y)%Qc a b c d0).
  { intros. unfold block_norm. destruct a. all: cbn [sum]; rewrite !Eu; ring. }
  unfold feature. destruct v.
  - unfold uoctti, directed_value, undirected_value, gain. destruct (d <? 2 * n); [|destruct (d <? 3 * n)]; cbn [sum]; rewrite ?Eb; try reflexivity;
    f_equal; apply qsum_ext; intros k _; now rewrite Eb.
  - unfold dalal_triggs, undirected_value, gain. now rewrite Eb.
Qed.

(** a reciprocal square root, exact where it is needed *)
Definition isq_ (x : Qc) : Qc :=
  if Qc_eq_dec x (Q2Qc (25#10000)) then zq 20 else if Qc_eq_dec x (Q2Qc (49#10000)) then Q2Qc (100#7) else 0%Qc.
Lemma isq_exact : (isq_ (Q2Qc (25#10000)) * isq_ (Q2Qc (25#10000)) * Q2Qc (25#10000) = 1)%Qc /\
  (isq_ (Q2Qc (49#10000)) * isq_ (Q2Qc (49#10000)) * Q2Qc (49#10000) = 1)%Qc.
Proof. split; apply Qc_is_canon; vm_compute; reflexivity. Qed.
Definition field : list Qc :=
  let w := Q2Qc (64#4900) in (repeat 0 5 ++ [zq 2 * w; w; 0; 0; w; 0; 0] ++ repeat 0 4)%Qc.
Definition angles : list Qc := (repeat 0 5 ++ [0; 1; 0; 0; zq 2; 0; 0] ++ repeat 0 4)%Qc.

(** After putting a field of gradients once, the second extraction returns other
    features than the first. *)
Theorem C76_extract_twice_refuted :
  exists s f f' s1 s2,
    put_polar_field 3 1%Qc false true None field angles 4 4 4 = Some s /\
    extract 3 DalalTriggs false isq_ (Q2Qc (1#10000)) (Q2Qc (1#5)) 0%Qc s (repeat 0%Qc 12) = Some (s1, f) /\
    extract 3 DalalTriggs false isq_ (Q2Qc (1#10000)) (Q2Qc (1#5)) 0%Qc s1 (repeat 0%Qc 12) = Some (s2, f') /\
    nth 1 f 0%Qc = Q2Qc (1#5) /\ nth 1 f' 0%Qc = Q2Qc (1#7).
Proof.
  do 5 eexists. split; [vm_compute; reflexivity|]. split; [vm_compute; reflexivity|]. split; [vm_compute; reflexivity|].
  split; apply Qc_is_canon; vm_compute; reflexivity.
Qed.

(** ** C77: polar fields *)

(** What a polar field leaves in the object: the orientation weights enter squared. *)
Theorem C77_polar_contents n step bilinear directed history s modulus angle width height size :
  run n history None = Some s ->
  0 < n -> length modulus = width * height -> length angle = width * height ->
  0 < size -> 3 < width -> 3 < height ->
  let W := (width + size / 2) / size in let H := (height + size / 2) / size in
  0 < W -> 0 < H ->
  exists s' bin amount,
    put_polar_field n step bilinear directed s modulus angle width height size = Some s' /\
    h_width s' = W /\ h_height s' = H /\ h_norm s' = repeat 0%Qc (W * H) /\ length (h_bins s') = W * H * (2 * n) /\
    (forall x y k, x < W -> y < H -> k < 2 * n ->
      at_ W H (h_bins s') x y k = hog_bins 0 width 0 height size bin amount x y k) /\
    (forall x y, x < width -> y < height ->
      let m := nth (y * width + x) modulus 0%Qc in
      let t := (nth (y * width + x) angle 0 / step)%Qc in
      let w := (t - zq (qfloor t))%Qc in
      let period := Z.of_nat (if directed then 2 * n else n) in
      ((m <= 0)%Qc -> bin x y 0 = (-1)%Z /\ bin x y 1 = (-1)%Z) /\
      ((0 < m)%Qc -> if bilinear then
          bin x y 0 = (qfloor t mod period)%Z /\ bin x y 1 = ((qfloor t + 1) mod period)%Z /\
          amount x y 0 = (m * ((1 - w) * (1 - w)))%Qc /\ amount x y 1 = (m * (w * w))%Qc
        else bin x y 1 = (-1)%Z /\ amount x y 0 = m /\
          bin x y 0 = ((if Qclt_le_dec w (1 - w) then qfloor t else qfloor t + 1) mod period)%Z)).
Proof.
  intros Er Hn Lm La Hs W3 H3 W H LW LH.
  assert (Ws : wf n s) by (apply (run_wf n history None s I Er)).
  destruct (put_polar_ok n step bilinear directed modulus angle width height size Hn Lm La s Ws Hs W3 H3 LW LH) as (b & E & Lb & Vb).
  fold W H in E, Lb, Vb.
  exists (mk_hog W H b (repeat 0%Qc (W * H))), (polar_bin n step bilinear directed modulus angle width), (polar_amount n step bilinear directed modulus angle width).
  split; [exact E|]. cbn [h_width h_height h_bins h_norm]. do 3 (split; [reflexivity|]). split; [exact Lb|]. split.
  { intros x y k Lx Ly Lk. unfold at_. apply Vb; auto. }
  intros x y Lx Ly. cbv zeta. unfold polar_bin, polar_amount, angle_votes.
  assert (Ep : n * (if directed then 2 else 1) = if directed then 2 * n else n) by (destruct directed; lia). rewrite Ep.
  set (m := nth (y * width + x) modulus 0%Qc). set (t := (nth (y * width + x) angle 0 / step)%Qc). split.
  - intro Hm. destruct (Qclt_le_dec 0 m) as [P|P]; [exfalso; qc_lra|]. split; reflexivity.
  - intro Hm. destruct (Qclt_le_dec 0 m) as [P|P]; [|exfalso; qc_lra]. destruct bilinear; cbn [Nat.eqb].
    + repeat split.
    + split; [reflexivity|]. split; [ring|]. rewrite (Vlad_Proofs.qlt_dec (t - zq (qfloor t)) (1 - (t - zq (qfloor t)))).
      destruct (Qclt_le_dec _ _); [now rewrite Z.add_0_r|reflexivity].
Qed.

(** Documented to act on gradients as put_image does, but a gradient half-way between
    two orientations gives a quarter of its modulus to each, not a half. *)
Definition one_pixel : list Qc := (repeat 0 5 ++ [Q2Qc (64#49)] ++ repeat 0 10)%Qc.
Theorem C77_polar_weights_refuted :
  exists s, put_polar_field 2 1%Qc true true None one_pixel (repeat (Q2Qc (1#2)) 16) 4 4 4 = Some s /\
    (tent 4 0 1 * tent 4 0 1 * Q2Qc (64#49) = 1)%Qc /\
    map this (h_bins s) = [1#4; 1#4; 0; 0]%Q.
Proof. eexists. split; [vm_compute; reflexivity|]. split; [apply Qc_is_canon|]; vm_compute; reflexivity. Qed.

(** ** examples *)
Example C36_ex_uoctti : hog_permutation Uoctti 3 (repeat 0 13) = Some [3; 2; 1; 0; 5; 4; 6; 8; 7; 10; 9; 12; 11].
Proof. reflexivity. Qed.
Example C36_ex_dalal : hog_permutation DalalTriggs 3 (repeat 0 12) = Some [3; 5; 4; 0; 2; 1; 9; 11; 10; 6; 8; 7].
Proof. reflexivity. Qed.
(** two cells side by side; the second object is the first one mirrored *)
Definition left_right : hog := mk_hog 2 1 [zq 1; zq 2; zq 3; zq 4]%Qc [0; 0]%Qc.
Definition right_left : hog := mk_hog 2 1 [zq 4; zq 3; zq 2; zq 1]%Qc [0; 0]%Qc.
Example C36_ex_mirrored : exists s1 f s1' f',
  extract 1 DalalTriggs false (fun x => / x)%Qc 1%Qc (zq 100) 0%Qc left_right (repeat 0%Qc 8) = Some (s1, f) /\
  extract 1 DalalTriggs false (fun x => / x)%Qc 1%Qc (zq 100) 0%Qc right_left (repeat 0%Qc 8) = Some (s1', f') /\
  nth 0 f 0%Qc = Q2Qc (4#65) /\ nth 3 f' 0%Qc = Q2Qc (4#65) /\ nth 2 f 0%Qc <> nth 0 f 0%Qc.
Proof. do 4 eexists. split; [vm_compute; reflexivity|]. split; [vm_compute; reflexivity|]. split; [apply Qc_is_canon; vm_compute; reflexivity|]. split; [apply Qc_is_canon; vm_compute; reflexivity|]. vm_compute. discriminate. Qed.
(** an image with a vertical edge *)
Definition edge : list Qc := concat (repeat [0; 0; 1; 1]%Qc 4).
Definition put_edge : call := Put (fun x => x) (fun _ => 0%Qc) 1%Qc (Q2Qc (1#1000)) [1; 0]%Qc [0; 1]%Qc false edge 4 4 1 4.
Example C37_ex_history :
  exists s, run 2 [put_edge; Polar 1%Qc true true one_pixel (repeat (Q2Qc (1#2)) 16) 4 4 4; Extract Uoctti false (fun x => x) 0%Qc 1%Qc 1%Qc (repeat 0%Qc 10)] None = Some (Some s) /\
    map this (h_norm s) = ((1#8) :: nil)%Q /\
    exists s', perform 2 put_edge (Some s) = Some (Some s') /\ map this (h_bins s') = [49#16; 0; 0; 0]%Q.
Proof. eexists. split; [vm_compute; reflexivity|]. split; [vm_compute; reflexivity|]. eexists. split; vm_compute; reflexivity. Qed.

Print Assumptions C36_permutation.
Print Assumptions C36_mirrored.
Print Assumptions C37_history_irrelevant.
Print Assumptions C37_put_image.
Print Assumptions C37_features.
Print Assumptions C76_norms_accumulate.
Print Assumptions C76_extract_twice_refuted.
Print Assumptions C77_polar_contents.
Print Assumptions C77_polar_weights_refuted.
