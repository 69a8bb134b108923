(** C166-C171: extrema of the covariant detector. *)
From Coq Require Import List Arith ZArith Znumtheory Lia Bool QArith Qcanon Qcabs Sorted.
Import ListNotations.
From Verif Require Import Base Loop Rat MserSort_Proofs ImOp_Spec KmeansEnergy_Proofs Homker_Proofs Gauss_Spec Gauss_Proofs Sift_Model SiftDetect_Spec SiftDetect_Model.
From Verif Require Import SiftDetect_Proofs Covdet_Model Covdet_Proofs CovdetExt_Model CovdetExt_Spec CovdetExt_Proofs.
Local Open Scope nat_scope.

(** C166.  In an array of w by h by d numbers exactly the extrema not on the border are listed: the points of value at least [t] above
    their 26 neighbours and of value at most [- t] below.  They are listed once, by slices, rows and columns, whatever the buffer was, which is grown as needed. *)
Theorem C166_volume : forall junk t m w h d b, w * h * d <= length m ->
  exists n b' keys, extrema3 junk t m w h d b = Some (n, b') /\ n = length keys /\ firstn (3 * n) b' = written3 keys /\ StronglySorted earlier keys /\
    forall x y z, In (x, y, z) keys <-> inner w x /\ inner h y /\ inner d z /\ extremal t (volume_of m w h) x y z.
Proof. exact extrema3_ok. Qed.
Print Assumptions C166_volume.
(** C166.  The same in an image, with 8 neighbours. *)
Theorem C166_image : forall junk t m w h b, w * h <= length m ->
  exists n b' keys, extrema2 junk t m w h b = Some (n, b') /\ n = length keys /\ firstn (2 * n) b' = written2 keys /\ StronglySorted earlier2 keys /\
    forall x y, In (x, y) keys <-> inner w x /\ inner h y /\ extremal2 t (image_of m w) x y.
Proof. exact extrema2_ok. Qed.
Print Assumptions C166_image.

(** C167.  The refinement of an extremum takes at most four steps of one pixel towards the stationary point of the second order expansion, never
    to the border.  The result is the last pixel, the stationary point from there (the pixel itself if the Hessian is singular) and the value of the expansion.
    It is reported stable if there is a stationary point less than 1.5 pixels away and inside the array. *)
Theorem C167_volume : forall root m w h d x y z (V := volume_of m w h), w * h * d <= length m -> inner w x -> inner h y -> inner d z ->
  exists x' y' o r ok, inner w x' /\ inner h y' /\ steps w h (fun x y => stationary V x y z) fst 4 x y x' y' o /\
    refine3 root m w h d x y z = Some (r, ok) /\
    (let '(b0, b1, b2) := match o with Some b => b | None => (0, 0, 0)%Qc end in
     e_xi r = x' /\ e_yi r = y' /\ e_zi r = z /\ e_x r = (zq x' + b0)%Qc /\ e_y r = (zq y' + b1)%Qc /\ e_z r = (zq z + b2)%Qc /\ e_peak r = value3 V x' y' z b0 b1 b2 /\
     e_edge r = edge_score root (D_xx V x' y' z) (D_yy V x' y' z) (D_xy V x' y' z) /\
     (ok = true <-> o <> None /\ fits w x' b0 /\ fits h y' b1 /\ fits d z b2)).
Proof.
  intros root m w h d x y z V L Hx Hy Hz. destruct (refine3_ok m w h d z L Hz root x y Hx Hy) as (x' & y' & o & ok & A1 & A2 & A3 & A4).
  destruct (match o with Some b => b | None => (0, 0, 0)%Qc end) as [[b0 b1] b2] eqn:Eb. destruct A4 as [E O]. exists x', y', o. do 2 eexists. split; [exact A1|]. split; [exact A2|]. split; [exact A3|]. split; [exact E|]. rewrite Eb.
  cbn [e_xi e_yi e_zi e_x e_y e_z e_peak e_edge]. repeat (split; [reflexivity|]). exact O.
Qed.
Print Assumptions C167_volume.
Theorem C167_image : forall root m w h x y (I := image_of m w), w * h <= length m -> inner w x -> inner h y ->
  exists x' y' o r ok, inner w x' /\ inner h y' /\ steps w h (stationary2 I) (fun b => b) 4 x y x' y' o /\
    refine2 root m w h x y = Some (r, ok) /\
    (let '(b0, b1) := match o with Some b => b | None => (0, 0)%Qc end in
     p_xi r = x' /\ p_yi r = y' /\ p_x r = (zq x' + b0)%Qc /\ p_y r = (zq y' + b1)%Qc /\ p_peak r = value2 I x' y' b0 b1 /\
     p_edge r = edge_score root (I_xx I x' y') (I_yy I x' y') (I_xy I x' y') /\
     (ok = true <-> o <> None /\ fits w x' b0 /\ fits h y' b1)).
Proof.
  intros root m w h x y V L Hx Hy. destruct (refine2_ok m w h L root x y Hx Hy) as (x' & y' & o & ok & A1 & A2 & A3 & A4).
  destruct (match o with Some b => b | None => (0, 0)%Qc end) as [b0 b1] eqn:Eb. destruct A4 as [E O]. exists x', y', o. do 2 eexists. split; [exact A1|]. split; [exact A2|]. split; [exact A3|]. split; [exact E|]. rewrite Eb.
  cbn [p_xi p_yi p_x p_y p_peak p_edge]. repeat (split; [reflexivity|]). exact O.
Qed.
Print Assumptions C167_image.

(** C168.  If the eigenvalues of the 2 by 2 Hessian are b and q b with q at least one, the edge score is q. *)
Theorem C168_ratio : forall root xx yy xy q b, square_root root -> eigenvalues xx yy xy (q * b) b -> b <> 0%Qc -> (1 <= q)%Qc -> edge_score root xx yy xy = Some q.
Proof. exact edge_ratio. Qed.
Print Assumptions C168_ratio.
(** C168.  If an eigenvalue is zero, or they have opposite signs and a sum other than zero, the score is below no threshold. *)
Theorem C168_none : forall root xx yy xy, (xx * yy - xy * xy = 0 \/ xx * yy - xy * xy < 0 /\ xx + yy <> 0)%Qc -> edge_score root xx yy xy = None.
Proof. exact edge_none. Qed.
Print Assumptions C168_none.

(** C170: what becomes of an extremum.  It is refined; if the refinement is stable, the value exceeds the threshold and the edge score is below its threshold
    a feature is found at the refined position, with the scale of the refined position. *)
Definition outcome3 (root : Qc -> Qc) (pow : Qc -> Qc -> Qc) (peak edge base : Qc) (res : nat) (o first : Z) (step : Qc) (w h d : nat) (V : volume) (p : Z * Z * Z) (out : list feature) : Prop :=
  let '(x, y, z) := p in exists x' y' ob, inner w x' /\ inner h y' /\ steps w h (fun x y => stationary V x y z) fst 4 x y x' y' ob /\
    let accepted b0 b1 b2 e := ob = Some (b0, b1, b2) /\ fits w x' b0 /\ fits h y' b1 /\ fits d z b2 /\ (peak < Qcabs (value3 V x' y' z b0 b1 b2))%Qc /\
      edge_score root (D_xx V x' y' z) (D_yy V x' y' z) (D_xy V x' y' z) = Some e /\ (e < edge)%Qc in
    (exists b0 b1 b2 e, accepted b0 b1 b2 e /\ let sigma := (base * pow (nq 2) (zq o + (zq z + b2 + zq first) / nq res))%Qc in
       out = Feature (Frame ((zq x' + b0) * step) ((zq y' + b1) * step) sigma 0 0 sigma)%Qc (value3 V x' y' z b0 b1 b2) e 0 0 :: nil) \/
    ((forall b0 b1 b2 e, ~ accepted b0 b1 b2 e) /\ out = nil).
Definition outcome2 (root : Qc -> Qc) (pow : Qc -> Qc -> Qc) (peak edge base : Qc) (res : nat) (o s : Z) (step : Qc) (w h : nat) (I : Z -> Z -> Qc) (p : Z * Z) (out : list feature) : Prop :=
  let '(x, y) := p in exists x' y' ob, inner w x' /\ inner h y' /\ steps w h (stationary2 I) (fun b => b) 4 x y x' y' ob /\
    let accepted b0 b1 e := ob = Some (b0, b1) /\ fits w x' b0 /\ fits h y' b1 /\ (peak < Qcabs (value2 I x' y' b0 b1))%Qc /\
      edge_score root (I_xx I x' y') (I_yy I x' y') (I_xy I x' y') = Some e /\ (e < edge)%Qc in
    (exists b0 b1 e, accepted b0 b1 e /\ let sigma := (base * pow (nq 2) (zq o + zq s / nq res))%Qc in
       out = Feature (Frame ((zq x' + b0) * step) ((zq y' + b1) * step) sigma 0 0 sigma)%Qc (value2 I x' y' b0 b1) e 0 0 :: nil) \/
    ((forall b0 b1 e, ~ accepted b0 b1 e) /\ out = nil).

(** C170.  The features found in an octave by the DoG and Hessian methods: those of all extrema of at least 0.8 times the peak threshold, in order. *)
Theorem C170_octave : forall junk root pow peak edge base res o first step m w h d b (V := volume_of m w h), w * h * d <= length m ->
  exists keys outs b', octave_features junk root pow peak edge base res o first step m w h d b = Some (concat outs, b') /\ StronglySorted earlier keys /\
    (forall x y z, In (x, y, z) keys <-> inner w x /\ inner h y /\ inner d z /\ extremal (zq 8 / zq 10 * peak) V x y z) /\
    Forall2 (outcome3 root pow peak edge base res o first step w h d V) keys outs.
Proof.
  intros junk root pow peak edge base res o first step m w h d b V L. unfold octave_features.
  destruct (extrema3_ok junk (point8 * peak) m w h d b L) as (n & b' & keys & E & N & F & S & I). rewrite E. cbn [obind]. subst n.
  match goal with |- context [iter (length keys) ?body nil] => destruct (collect keys (outcome3 root pow peak edge base res o first step w h d V) body) as (outs & E2 & O) end.
  - intros i [[x y] z] l Ek. destruct (written3_get b' keys i x y z F Ek) as (-> & -> & ->). cbn [obind].
    assert (Hin : In (x, y, z) keys) by (eapply nth_error_In; exact Ek). apply I in Hin. destruct Hin as (Hx & Hy & Hz & _).
    destruct (refine3_ok m w h d z L Hz root x y Hx Hy) as (x' & y' & ob & ok & A1 & A2 & A3 & A4). fold V in A3, A4.
    destruct (match ob with Some b => b | None => (0, 0, 0)%Qc end) as [[b0 b1] b2] eqn:Eb. destruct A4 as [-> O]. cbn [obind e_peak e_edge e_x e_y e_z].
    change (val V x' y' z + (D_x V x' y' z * b0 + D_y V x' y' z * b1 + D_s V x' y' z * b2) / nq 2)%Qc with (value3 V x' y' z b0 b1 b2).
    unfold strong. destruct (ok && _) eqn:Q.
    + apply andb_true_iff in Q. destruct Q as [Q1 Q]. apply andb_true_iff in Q. destruct Q as [Q2 Q3]. apply qlt_true in Q2. destruct (edge_score root (D_xx V x' y' z) (D_yy V x' y' z) (D_xy V x' y' z)) as [e|] eqn:Ee; [|discriminate]. apply qlt_true in Q3.
      apply O in Q1. destruct Q1 as (Nb & F1 & F2 & F3). eexists. split; [reflexivity|]. exists x', y', ob. split; [exact A1|]. split; [exact A2|]. split; [exact A3|]. cbv zeta. left. exists b0, b1, b2, e. split; [|reflexivity].
      split; [destruct ob as [bb|]; [now rewrite <- Eb|now destruct Nb]|]. auto 10.
    + exists nil. split; [now rewrite app_nil_r|]. exists x', y', ob. split; [exact A1|]. split; [exact A2|]. split; [exact A3|]. cbv zeta. right. split; [|reflexivity].
      intros c0 c1 c2 e (Eo & F1 & F2 & F3 & F4 & F5 & F6). rewrite Eo in Eb, O. injection Eb as -> -> ->. rewrite F5 in Q.
      rewrite (proj2 O) in Q by (split; [discriminate|auto]). rewrite (proj2 (qlt_true _ _) F4), (proj2 (qlt_true _ _) F6) in Q. discriminate.
  - rewrite E2. cbn [obind]. exists keys, outs, b'. split; [reflexivity|]. split; [exact S|]. split; [exact I|exact O].
Qed.
Print Assumptions C170_octave.
(** C170.  The features found at one level by the other methods. *)
Theorem C170_level : forall junk root pow peak edge base res o s step m w h b (I := image_of m w), w * h <= length m ->
  exists keys outs b', level_features junk root pow peak edge base res o s step m w h b = Some (concat outs, b') /\ StronglySorted earlier2 keys /\
    (forall x y, In (x, y) keys <-> inner w x /\ inner h y /\ extremal2 (zq 8 / zq 10 * peak) I x y) /\
    Forall2 (outcome2 root pow peak edge base res o s step w h I) keys outs.
Proof.
  intros junk root pow peak edge base res o s step m w h b V L. unfold level_features.
  destruct (extrema2_ok junk (point8 * peak) m w h b L) as (n & b' & keys & E & N & F & S & I). rewrite E. cbn [obind]. subst n.
  match goal with |- context [iter (length keys) ?body nil] => destruct (collect keys (outcome2 root pow peak edge base res o s step w h V) body) as (outs & E2 & O) end.
  - intros i [x y] l Ek. destruct (written2_get b' keys i x y F Ek) as (-> & ->). cbn [obind].
    assert (Hin : In (x, y) keys) by (eapply nth_error_In; exact Ek). apply I in Hin. destruct Hin as (Hx & Hy & _).
    destruct (refine2_ok m w h L root x y Hx Hy) as (x' & y' & ob & ok & A1 & A2 & A3 & A4). fold V in A3, A4.
    destruct (match ob with Some b => b | None => (0, 0)%Qc end) as [b0 b1] eqn:Eb. destruct A4 as [-> O]. cbn [obind p_peak p_edge p_x p_y].
    change (pix V x' y' + (I_x V x' y' * b0 + I_y V x' y' * b1) / nq 2)%Qc with (value2 V x' y' b0 b1).
    unfold strong. destruct (ok && _) eqn:Q.
    + apply andb_true_iff in Q. destruct Q as [Q1 Q]. apply andb_true_iff in Q. destruct Q as [Q2 Q3]. apply qlt_true in Q2. destruct (edge_score root (I_xx V x' y') (I_yy V x' y') (I_xy V x' y')) as [e|] eqn:Ee; [|discriminate]. apply qlt_true in Q3.
      apply O in Q1. destruct Q1 as (Nb & F1 & F2). eexists. split; [reflexivity|]. exists x', y', ob. split; [exact A1|]. split; [exact A2|]. split; [exact A3|]. cbv zeta. left. exists b0, b1, e. split; [|reflexivity].
      split; [destruct ob as [bb|]; [now rewrite <- Eb|now destruct Nb]|]. auto 10.
    + exists nil. split; [now rewrite app_nil_r|]. exists x', y', ob. split; [exact A1|]. split; [exact A2|]. split; [exact A3|]. cbv zeta. right. split; [|reflexivity].
      intros c0 c1 e (Eo & F1 & F2 & F4 & F5 & F6). rewrite Eo in Eb, O. injection Eb as -> ->. rewrite F5 in Q.
      rewrite (proj2 O) in Q by (split; [discriminate|auto]). rewrite (proj2 (qlt_true _ _) F4), (proj2 (qlt_true _ _) F6) in Q. discriminate.
  - rewrite E2. cbn [obind]. exists keys, outs, b'. split; [reflexivity|]. split; [exact S|]. split; [exact I|exact O].
Qed.
Print Assumptions C170_level.

(** C170.  In particular every feature found in an octave lies in the image of the octave, its score exceeds the threshold and its edge score is below its threshold. *)
Theorem C170_inside : forall junk root pow peak edge base res o first step m w h d b l b', w * h * d <= length m -> (0 <= step)%Qc ->
  octave_features junk root pow peak edge base res o first step m w h d b = Some (l, b') ->
  forall f, In f l -> (0 <= f_x (f_frame f) <= zq (Z.of_nat w - 1) * step)%Qc /\ (0 <= f_y (f_frame f) <= zq (Z.of_nat h - 1) * step)%Qc /\ (peak < Qcabs (f_peak f))%Qc /\ (f_edge f < edge)%Qc.
Proof.
  intros junk root pow peak edge base res o first step m w h d b l b' L Hs E f Hf.
  destruct (C170_octave junk root pow peak edge base res o first step m w h d b L) as (keys & outs & b2 & E2 & _ & _ & O). rewrite E2 in E. injection E as <- <-.
  apply in_concat in Hf. destruct Hf as (out & Hout & Hf). clear E2.
  induction O as [|[[x y] z] out' keys outs H O IH]; [destruct Hout|]. destruct Hout as [->|Hout]; [|auto].
  destruct H as (x' & y' & ob & _ & _ & _ & [(b0 & b1 & b3 & e & (_ & F1 & F2 & F3 & P & _ & Ed) & Eo)|[_ Eo]]); rewrite Eo in Hf; [|destruct Hf].
  cbv zeta in Hf. destruct Hf as [<-|[]]. cbn [f_frame f_peak f_edge f_x f_y]. destruct F1 as (_ & G1 & G2), F2 as (_ & G3 & G4).
  assert (M : forall u v, (u <= v -> u * step <= v * step)%Qc) by (intros u v Huv; apply Qcmult_le_compat_r; assumption).
  assert (Z0 : (0 * step = 0)%Qc) by ring.
  repeat split; try assumption; try (rewrite <- Z0 at 1; apply M; assumption); apply M; assumption.
Qed.
Print Assumptions C170_inside.

(** a square root, exact for squares, below by less than a millionth of the reciprocal of the denominator for others *)
Definition near_root (q : Qc) : Qc := Q2Qc (Z.sqrt (Qnum q * Zpos (Qden q) * 1000000000000) # (Qden q * 1000000)).
Lemma near_root_ok : square_root near_root.
Proof.
  intros [[n d] C] Hq. assert (G : Z.gcd n (Zpos d) = 1%Z) by (apply (Qred_identity2 (n # d) C)).
  assert (Nn : (0 <= n)%Z) by (unfold Qcle, Qle in Hq; cbn in Hq; lia).
  unfold near_root. change (this (Qcmult {| this := n # d; canon := C |} {| this := n # d; canon := C |})) with (Qred (n * n # d * d)).
  rewrite (Qred_identity (n * n # d * d)).
  2:{ cbn [Qnum Qden]. rewrite Pos2Z.inj_mul. apply Zgcd_1_rel_prime. apply Zgcd_1_rel_prime in G. apply rel_prime_mult; apply rel_prime_sym, rel_prime_mult; apply rel_prime_sym; exact G. }
  cbn [Qnum Qden]. rewrite Pos2Z.inj_mul. replace (n * n * (Z.pos d * Z.pos d) * 1000000000000)%Z with ((n * Z.pos d * 1000000) * (n * Z.pos d * 1000000))%Z by ring.
  rewrite Z.sqrt_square by lia. apply Qc_is_canon. cbn [this Q2Qc]. rewrite Qred_correct. unfold Qeq. cbn [Qnum Qden]. rewrite !Pos2Z.inj_mul. ring.
Qed.

Definition nums (l : list Z) : list Qc := map zq l.
Definition no_junk (_ : nat) : Z := 0%Z.
Definition pow_one (_ _ : Qc) : Qc := 1%Qc.

(** C169 is false: a feature can be at a saddle point.  When the eigenvalues are opposite the edge score is -1, below any threshold. *)
Definition map169 : list Qc := nums [5; 6; 0; 8; 3; 8; 7; 4; 1; 7; 6; 4; 0; 1; 6; 3]%Z.
Definition saddle (I : Z -> Z -> Qc) (x y : Z) : Prop := (I_xx I x y * I_yy I x y - I_xy I x y * I_xy I x y < 0)%Qc.
Theorem C169_saddles_refuted : exists root m w h x y r f b,
  square_root root /\ length m = w * h /\ refine2 root m w h x y = Some (r, true) /\ saddle (image_of m w) (p_xi r) (p_yi r) /\
  level_features no_junk root pow_one 1 (zq 10) 1 3 0%Z 0%Z 1 m w h nil = Some (f :: nil, b) /\ f_x (f_frame f) = p_x r /\ f_y (f_frame f) = p_y r /\ f_edge f = (- (1))%Qc.
Proof.
  exists near_root, map169, 4, 4, 1%Z, 1%Z. do 3 eexists. split; [exact near_root_ok|]. split; [reflexivity|]. split; [vm_compute; reflexivity|]. split; [vm_compute; reflexivity|].
  split; [vm_compute; reflexivity|]. repeat split; apply Qc_is_canon; vm_compute; reflexivity.
Qed.
Print Assumptions C169_saddles_refuted.
(** C169.  This is the only case: the edge score of a saddle is undefined, or -1 with opposite eigenvalues. *)
Theorem C169_score : forall root xx yy xy, square_root root -> (xx * yy - xy * xy < 0)%Qc ->
  (xx + yy <> 0 -> edge_score root xx yy xy = None)%Qc /\ (xx + yy = 0 -> edge_score root xx yy xy = Some (- (1)))%Qc.
Proof. intros root xx yy xy R D. split; intros H; [apply edge_none; right; split; assumption|apply edge_saddle; assumption]. Qed.
Print Assumptions C169_score.

(** C171 is false: one feature can be found twice, from two extrema refined to the same pixel. *)
Definition map171 : list Qc := nums [3; 4; 6; 8; 0; 8;  3; 8; 8; 9; 8; 2;  5; 9; 0; 0; 5; 0;  0; 4; 1; 9; 3; 1]%Z.
Theorem C171_twice_refuted : exists root m w h f b, square_root root /\ length m = w * h /\
  level_features no_junk root pow_one 1 (zq 10) 1 3 0%Z 0%Z 1 m w h nil = Some (f :: f :: nil, b).
Proof. exists near_root, map171, 6, 4. do 2 eexists. split; [exact near_root_ok|]. split; [reflexivity|]. vm_compute. reflexivity. Qed.
Print Assumptions C171_twice_refuted.

(** ** examples *)
(** one maximum in a 4 by 4 by 3 array *)
Definition vol : list Qc := nums [0;0;0;0; 0;1;0;0; 0;0;0;0; 0;0;0;0;   0;0;0;0; 0;9;4;0; 0;3;1;0; 0;0;0;0;  0;0;0;0; 0;4;2;0; 0;0;0;0; 0;0;0;0]%Z.
Example C166_ex : option_map (fun r => (fst r, firstn 3 (snd r))) (extrema3 no_junk 1%Qc vol 4 4 3 nil) = Some (1, [1; 1; 1]%Z) /\ 4 * 4 * 3 <= length vol /\
  option_map (fun r => (fst r, firstn 4 (snd r))) (extrema2 no_junk 1%Qc map171 6 4 nil) = Some (2, [3; 1; 1; 2]%Z).
Proof. vm_compute. repeat constructor. Qed.
Example C167_ex : inner 4 1 /\ inner 3 1 /\
  match refine3 near_root vol 4 4 3 1 1 1 with Some (r, ok) => ok = true /\ this (e_x r) = (50105 # 43607)%Q /\ e_xi r = 1%Z | None => False end /\
  match refine2 near_root map171 6 4 3 1 with Some (r, ok) => ok = true /\ p_xi r = 1%Z /\ p_yi r = 2%Z | None => False end.
Proof. split; [unfold inner; lia|]. split; [unfold inner; lia|]. vm_compute. repeat constructor. Qed.
Example C168_ex : eigenvalues (zq 4) (zq 2) 0 (zq 2 * zq 2) (zq 2) /\ match edge_score near_root (zq 4) (zq 2) 0 with Some e => this e = 2%Q | None => False end /\ edge_score near_root (zq 4) (- zq 2) 0 = None.
Proof. split; [split; apply Qc_is_canon; vm_compute; reflexivity|]. split; vm_compute; reflexivity. Qed.
Example C170_ex : match octave_features no_junk near_root pow_one 1 (zq 10) 1 3 0%Z 0%Z (zq 2) vol 4 4 3 nil with
  Some (f :: nil, _) => this (f_x (f_frame f)) = (100210 # 43607)%Q | _ => False end.
Proof. vm_compute. reflexivity. Qed.
