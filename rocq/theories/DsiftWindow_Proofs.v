From Coq Require Import List Arith ZArith Lia Bool QArith Qcanon Qcabs.
From Verif Require Import Base Loop MserSort_Proofs ImOp_Spec ImOp_Model ImOp_Proofs ImOp_Props Rat Gauss_Model Gauss_Proofs Dsift_Model Dsift_Spec Dsift_Proofs.
Local Open Scope nat_scope.

(** *** Kernels *)
Section Kernel.
Variable exp_ : Qc -> Qc.
Lemma weight_ok bs nb bin wi x : gauss_weight exp_ bs nb bin wi x = gaussian exp_ bs wi (bin_pos bs nb bin - zq x).
Proof. unfold gauss_weight, gaussian, bin_pos, Qcdiv. f_equal. fold half. ring. Qed.
Lemma new_kernel_ok bs nb bin wi : new_kernel exp_ bs nb bin wi = Some (kernel exp_ bs nb bin wi).
Proof.
  unfold new_kernel, kernel. match goal with |- iter _ ?b _ = Some (map ?f _) => set (body := b); set (g := f) end.
  destruct (iter_inv (fun k out => out = map g (seq 0 k)) body (2 * bs - 1) nil) as (out & E & ->); [reflexivity| |exact E].
  intros k out Lk ->. unfold body. eexists; split; [reflexivity|]. rewrite Nat.add_1_r, seq_S, map_app. cbn [map plus]. do 2 f_equal. unfold g. now rewrite weight_ok.
Qed.
Lemma window_mean_ok bs nb bin wi : window_mean exp_ bs nb bin wi = Some (bin_mean exp_ bs nb bin wi).
Proof.
  unfold window_mean, bin_mean. set (g := fun k => gauss_weight exp_ bs nb bin wi (- Z.of_nat bs + 1 + Z.of_nat k)).
  destruct (iter_inv (fun k t => t = qsum k g) (fun k acc => Some (acc + g k)%Qc) (2 * bs - 1) 0%Qc) as (t & E & ->); [reflexivity| |].
  - intros k t Lk ->. eexists; split; [reflexivity|]. rewrite Nat.add_1_r. reflexivity.
  - unfold g in E at 1. rewrite E. cbn [obind]. do 2 f_equal. rewrite (sum_rev _ _ _ _ _ _ Qcrt). apply qsum_ext. intros k Lk. unfold g. rewrite weight_ok. f_equal.
    replace (- Z.of_nat bs + 1 + Z.of_nat (2 * bs - 1 - 1 - k))%Z with (- (- Z.of_nat bs + 1 + Z.of_nat k))%Z by lia. rewrite zq_opp. ring.
Qed.
Lemma kernel_length bs nb bin wi : length (kernel exp_ bs nb bin wi) = 2 * bs - 1.
Proof. unfold kernel. now rewrite map_length, seq_length. Qed.
End Kernel.

(** *** Two passes of filtering *)
Lemma padded_ext h (f g : nat -> Qc) p : 0 < h -> (forall i, i < h -> f i = g i) -> padded 0%Qc false h f p = padded 0%Qc false h g p.
Proof.
  intros Hh H. unfold padded. destruct ((0 <=? p)%Z && (p <? Z.of_nat h)%Z) eqn:E.
  - apply andb_true_iff in E as [E1 E2]. apply H. apply Z.leb_le in E1. apply Z.ltb_lt in E2. lia.
  - destruct (p <? 0)%Z; apply H; lia.
Qed.
Lemma filtered_ext n f g bs ker x : 0 < n -> (forall i, i < n -> f i = g i) -> filtered n f bs ker x = filtered n g bs ker x.
Proof. intros Hn H. unfold filtered, conv_at. apply qsum_ext. intros i Li. now rewrite (padded_ext n f g) by auto. Qed.
Lemma smoothed_ext n f g bs x : 0 < n -> (forall i, i < n -> f i = g i) -> smoothed n f bs x = smoothed n g bs x.
Proof. intros Hn H. unfold smoothed, triangle_at. f_equal. apply qsum_ext. intros i Li. unfold times. now rewrite (padded_ext n f g) by auto. Qed.

Section Passes.
Variables w h : nat.
Hypothesis Hw : 0 < w.
Hypothesis Hh : 0 < h.
Lemma pass_inside (g : list Qc) a b : length g = a * b -> inside g a b a.
Proof. intros L x y Lx Ly. nia. Qed.

Lemma two_convs exp_ g t1 t2 bx nx ix by_ ny iy wi : length g = w * h -> length t1 = w * h -> length t2 = w * h -> 0 < bx -> 0 < by_ ->
  exists u1 u2, imconvcol 0%Qc Qcplus Qcmult h g w h w (kernel exp_ by_ ny iy wi) (- (Z.of_nat by_ - 1)) (Z.of_nat by_ - 1) 1 true false t1 = Some u1 /\
    imconvcol 0%Qc Qcplus Qcmult w u1 h w h (kernel exp_ bx nx ix wi) (- (Z.of_nat bx - 1)) (Z.of_nat bx - 1) 1 true false t2 = Some u2 /\
    length u1 = w * h /\ length u2 = w * h /\
    forall x y, x < w -> y < h -> img u2 w x y =
      filtered w (fun a => filtered h (img g w a) by_ (kernel exp_ by_ ny iy wi) y) bx (kernel exp_ bx nx ix wi) x.
Proof.
  intros Lg L1 L2 Hbx Hby.
  assert (E1 : (h - 1) / 1 + 1 = h) by (rewrite Nat.div_1_r; lia). assert (E2 : (w - 1) / 1 + 1 = w) by (rewrite Nat.div_1_r; lia).
  destruct (C29_column_convolution Qc _ _ _ _ _ _ Qcrt t1 g h w h w (kernel exp_ by_ ny iy wi) (- (Z.of_nat by_ - 1)) (Z.of_nat by_ - 1) 1 true false)
    as (u1 & U1 & F1 & F2 & _); rewrite ?kernel_length, ?E1 in *; try lia.
  { now apply pass_inside. } { intros x k Lx Lk. unfold out_pos. nia. }
  assert (Lu : length u1 = h * w) by lia.
  destruct (C29_column_convolution Qc _ _ _ _ _ _ Qcrt t2 u1 w h w h (kernel exp_ bx nx ix wi) (- (Z.of_nat bx - 1)) (Z.of_nat bx - 1) 1 true false)
    as (u2 & U2 & G1 & G2 & _); rewrite ?kernel_length, ?E2 in *; try lia.
  { now apply pass_inside. } { intros x k Lx Lk. unfold out_pos. nia. }
  exists u1, u2. split; [exact U1|]. split; [exact U2|]. split; [lia|]. split; [lia|]. intros x y Lx Ly. unfold img at 1.
  specialize (G2 y x Ly Lx). unfold out_pos in G2. rewrite (Nat.add_comm x). rewrite (nth_error_nth _ _ _ G2). rewrite Nat.mul_1_r.
  apply filtered_ext; [exact Hw|]. intros a La. specialize (F2 a y La Ly). unfold out_pos in F2. unfold pixel. rewrite (Nat.add_comm y). rewrite (nth_error_nth _ _ _ F2).
  rewrite Nat.mul_1_r. reflexivity.
Qed.

Lemma two_tris c junk g t1 t2 bx by_ : length g = w * h -> length t1 = w * h -> length t2 = w * h -> 0 < bx -> 0 < by_ ->
  exists u1 u2, tri junk c h g w h w by_ t1 = Some u1 /\ tri junk c w u1 h w h bx t2 = Some u2 /\
    length u1 = w * h /\ length u2 = w * h /\
    forall x y, x < w -> y < h -> img u2 w x y = smoothed w (fun a => smoothed h (img g w a) by_ y) bx x.
Proof.
  intros Lg L1 L2 Hbx Hby. unfold tri.
  assert (E1 : (h - 1) / 1 + 1 = h) by (rewrite Nat.div_1_r; lia). assert (E2 : (w - 1) / 1 + 1 = w) by (rewrite Nat.div_1_r; lia).
  destruct (C30_triangular_convolution Qc _ _ _ _ _ _ Qcrt t1 g h w h w by_ (1 / (nq by_ * nq by_))%Qc 1 true false (fresh junk (h + by_)))
    as (u1 & U1 & F1 & F2 & _); rewrite ?E1 in *; try lia.
  { unfold fresh. now rewrite map_length, seq_length. } { now apply pass_inside. } { intros x k Lx Lk. unfold out_pos. nia. }
  assert (Lu : length u1 = h * w) by lia.
  destruct (C30_triangular_convolution Qc _ _ _ _ _ _ Qcrt t2 u1 w h w h bx (1 / (nq bx * nq bx))%Qc 1 true false (fresh junk (w + bx)))
    as (u2 & U2 & G1 & G2 & _); rewrite ?E2 in *; try lia.
  { unfold fresh. now rewrite map_length, seq_length. } { now apply pass_inside. } { intros x k Lx Lk. unfold out_pos. nia. }
  exists u1, u2. split; [exact U1|]. split; [exact U2|]. split; [lia|]. split; [lia|]. intros x y Lx Ly. unfold img at 1.
  specialize (G2 y x Ly Lx). unfold out_pos in G2. rewrite (Nat.add_comm x). rewrite (nth_error_nth _ _ _ G2). rewrite Nat.mul_1_r.
  apply (smoothed_ext w); [exact Hw|]. intros a La. specialize (F2 a y La Ly). unfold out_pos in F2. unfold pixel. rewrite (Nat.add_comm y). rewrite (nth_error_nth _ _ _ F2).
  rewrite Nat.mul_1_r. reflexivity.
Qed.
End Passes.

(** *** Sampling *)
Section Sample.
Variable c : settings.
Notation w := (imw c).
Notation h := (imh c).
Notation T := (nbt c).
Notation X := (nbx c).
Notation Y := (nby c).
Hypothesis stepx_pos : (0 < stepx c)%Z.
Hypothesis stepy_pos : (0 < stepy c)%Z.
Hypothesis in_x : (0 <= minx c)%Z /\ (maxx c < Z.of_nat w)%Z.
Hypothesis in_y : (0 <= miny c)%Z /\ (maxy c < Z.of_nat h)%Z.
Hypothesis HT : 0 < T.
Hypothesis HX : 0 < X.
Hypothesis HY : 0 < Y.
Definition nx : nat := nfit (minx c) (maxx c) (stepx c) X (bsx c).
Definition ny : nat := nfit (miny c) (maxy c) (stepy c) Y (bsy c).
Definition px (k : nat) : nat := Z.to_nat (minx c + Z.of_nat k * stepx c).
Definition py (k : nat) : nat := Z.to_nat (miny c + Z.of_nat k * stepy c).
Definition D : nat := X * Y * T.

Lemma px_ok k : k < nx -> Z.of_nat (px k) = (minx c + Z.of_nat k * stepx c)%Z /\ forall b, b < X -> px k + b * bsx c < w.
Proof.
  intro L. apply (nfit_fits _ _ _ _ _ stepx_pos) in L. unfold px. split; [nia|]. intros b Lb. nia.
Qed.
Lemma py_ok k : k < ny -> Z.of_nat (py k) = (miny c + Z.of_nat k * stepy c)%Z /\ forall b, b < Y -> py k + b * bsy c < h.
Proof.
  intro L. apply (nfit_fits _ _ _ _ _ stepy_pos) in L. unfold py. split; [nia|]. intros b Lb. nia.
Qed.

Definition base (bint binx biny : nat) : nat := bint + binx * T + biny * (X * T).
Lemma base_lt bint binx biny : bint < T -> binx < X -> biny < Y -> base bint binx biny < D.
Proof.
  intros. unfold base, D. assert (biny * (X * T) + X * T <= X * Y * T) by nia. assert (binx * T + T <= X * T) by nia. lia.
Qed.

Lemma sample_ok bint binx biny v src d : bint < T -> binx < X -> biny < Y -> length src = w * h -> length d = nx * ny * D ->
  exists d', sample c (Z.of_nat D) bint binx biny v src d = Some d' /\ length d' = nx * ny * D /\
    forall q, q < nx * ny * D -> nth q d' 0%Qc =
      if q mod D =? base bint binx biny then (v * img src w (px (q / D mod nx) + binx * bsx c) (py (q / D / nx) + biny * bsy c))%Qc else nth q d 0%Qc.
Proof.
  intros Lt Lbx Lby Ls Ld. pose proof (base_lt _ _ _ Lt Lbx Lby) as Lb. fold (base bint binx biny). unfold sample.
  rewrite frames_loop_iter by exact stepy_pos. fold ny. fold (base bint binx biny). set (b := base bint binx biny) in *.
  set (val := fun k => (v * img src w (px (k mod nx) + binx * bsx c) (py (k / nx) + biny * bsy c))%Qc).
  assert (HD : D <> 0) by lia.
  match goal with |- context [iter ny ?body ?s] => 
    destruct (iter_inv (fun ky '(dp, e) => dp = Z.of_nat (b + ky * nx * D) /\ length e = nx * ny * D /\
      forall q, q < nx * ny * D -> nth q e 0%Qc = if (q mod D =? b) && (q / D <? ky * nx) then val (q / D) else nth q d 0%Qc) body ny s) as ([dp e] & E & _ & Le & He) end.
  - cbn [Nat.mul]. split; [f_equal; lia|]. split; [exact Ld|]. intros q Lq. now rewrite andb_false_r.
  - intros ky [dp e] Lky (-> & Le & He). cbv beta. rewrite frames_loop_iter by exact stepx_pos. fold nx.
    match goal with |- context [iter nx ?body ?s] => 
      destruct (iter_inv (fun kx '(dp, e) => dp = Z.of_nat (b + (ky * nx + kx) * D) /\ length e = nx * ny * D /\
        forall q, q < nx * ny * D -> nth q e 0%Qc = if (q mod D =? b) && (q / D <? ky * nx + kx) then val (q / D) else nth q d 0%Qc) body nx s) as ([dp' e'] & E & Hd & Le' & He') end.
    + split; [f_equal; lia|]. split; [exact Le|]. intros q Lq. rewrite Nat.add_0_r. now apply He.
    + intros kx [dp e2] Lkx (-> & Le2 & He2).
      destruct (px_ok kx Lkx) as [Ex Bx]. destruct (py_ok ky Lky) as [Ey By]. specialize (Bx binx Lbx). specialize (By biny Lby).
      rewrite <- Ex, <- Ey. unfold zget, zset.
      replace ((Z.of_nat (px kx) + Z.of_nat (binx * bsx c)) * 1 + (Z.of_nat (py ky) + Z.of_nat (biny * bsy c)) * Z.of_nat w)%Z
        with (Z.of_nat (px kx + binx * bsx c + (py ky + biny * bsy c) * w)) by lia.
      destruct (Z.ltb_spec (Z.of_nat (px kx + binx * bsx c + (py ky + biny * bsy c) * w)) 0); [lia|]. rewrite Nat2Z.id. rewrite (aget_nth src _ 0%Qc) by nia. cbn [obind].
      destruct (Z.ltb_spec (Z.of_nat (b + (ky * nx + kx) * D)) 0); [lia|]. rewrite Nat2Z.id.
      assert (K : ky * nx + kx < nx * ny) by nia.
      assert (Kq : b + (ky * nx + kx) * D < nx * ny * D) by nia.
      rewrite aset_lt by (rewrite Le2; exact Kq). cbn [obind]. eexists; split; [reflexivity|]. split; [|split].
      * lia.
      * now rewrite upd_length.
      * intros q Lq. rewrite nth_upd by (rewrite Le2; exact Kq). destruct (Nat.eqb_spec q (b + (ky * nx + kx) * D)) as [->|Nq].
        -- rewrite Nat.mod_add, Nat.mod_small by lia. rewrite Nat.eqb_refl. rewrite Nat.div_add, Nat.div_small by lia. cbn [plus andb].
           destruct (Nat.ltb_spec (ky * nx + kx) (ky * nx + (kx + 1))); [|lia]. unfold val.
           rewrite (Nat.add_comm (ky * nx)), Nat.mod_add, Nat.mod_small, Nat.div_add, Nat.div_small by lia. reflexivity.
        -- rewrite He2 by exact Lq. destruct (Nat.eqb_spec (q mod D) b) as [Eq|]; [|reflexivity]. cbn [andb].
           assert (q / D <> ky * nx + kx) by (intro Z; apply Nq; rewrite (Nat.div_mod q D HD), Eq, Z; lia).
           destruct (Nat.ltb_spec (q / D) (ky * nx + kx)), (Nat.ltb_spec (q / D) (ky * nx + (kx + 1))); try lia; reflexivity.
    + exists (dp', e'). split; [exact E|]. replace ((ky + 1) * nx) with (ky * nx + nx) by lia. auto.
  - rewrite E. cbn [obind]. exists e. split; [reflexivity|]. split; [exact Le|]. intros q Lq. rewrite He by exact Lq.
    assert (Q : q / D < ny * nx) by (apply Nat.div_lt_upper_bound; nia). destruct (Nat.ltb_spec (q / D) (ny * nx)); [|lia]. rewrite andb_true_r. reflexivity.
Qed.

(** entries of a set of positions in the descriptors are final *)
Definition ready (F : nat -> nat -> Qc) (done : nat -> Prop) (d : list Qc) : Prop :=
  length d = nx * ny * D /\ forall q, q < nx * ny * D -> done (q mod D) -> nth q d 0%Qc = F (q mod D) (q / D).
Lemma ready_weaken F (p p' : nat -> Prop) d : (forall j, j < D -> p' j -> p j) -> ready F p d -> ready F p' d.
Proof. intros H [L R]. split; [exact L|]. intros q Lq P. apply R; [exact Lq|]. apply H; [|exact P]. apply Nat.mod_upper_bound. intro E. rewrite E, Nat.mul_0_r in Lq. exact (Nat.nlt_0_r _ Lq). Qed.
End Sample.

Lemma base_split T X Y bint binx biny : bint < T -> binx < X -> biny < Y ->
  let j := bint + binx * T + biny * (X * T) in j mod T = bint /\ j / T mod X = binx /\ j / T / X = biny.
Proof.
  intros. assert (E : j / T = binx + biny * X).
  { unfold j. replace (bint + binx * T + biny * (X * T)) with (bint + (binx + biny * X) * T) by lia. rewrite Nat.div_add, Nat.div_small by lia. reflexivity. }
  rewrite E. split; [|split].
  - unfold j. replace (bint + binx * T + biny * (X * T)) with (bint + (binx + biny * X) * T) by lia. rewrite Nat.mod_add, Nat.mod_small by lia. reflexivity.
  - rewrite Nat.mod_add, Nat.mod_small by lia. reflexivity.
  - rewrite Nat.div_add, Nat.div_small by lia. reflexivity.
Qed.
