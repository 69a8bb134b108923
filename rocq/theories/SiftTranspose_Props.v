(** SIFT descriptors in MATLAB: C287-C290. *)
From Coq Require Import List Arith ZArith Lia Bool QArith Qcanon Qcabs.
Import ListNotations.
From Verif Require KdBatch_Proofs CovdetPatch2_Proofs KmeansEnergy_Proofs.
From Verif Require Import Base Loop Rat ImOp_Spec ImOp_Proofs Kmeans_Spec MserSort_Proofs Gauss_Model Gauss_Proofs Homker_Proofs Vlad_Proofs Sift_Model Sift_Spec Sift_Proofs Sift_Props SiftDescr_Spec SiftDescr_Model SiftDescr_Proofs
  SiftDescr_Props SiftTranspose_Model SiftTranspose_Spec SiftTranspose_Proofs.
Local Open Scope nat_scope.

(** C287.  Transposing descriptors: entry t + 8 i + 32 j goes to orientation - t (modulo 8), the same column i and row 3 - j;
    all 128 entries of the destination are written and none after them, and transposing twice gives the descriptor back. *)
Theorem C287_transposed : forall (A : Type) (d0 : A) dst src, 128 <= length src -> 128 <= length dst ->
  exists out, transpose_descriptor dst src = Some out /\ length out = length dst /\ skipn 128 out = skipn 128 dst /\
    (forall j i t, j < 4 -> i < 4 -> t < 8 -> nth (32 * (3 - j) + 8 * i + (8 - t) mod 8) out d0 = nth (32 * j + 8 * i + t) src d0) /\
    forall dst2, 128 <= length dst2 -> exists back, transpose_descriptor dst2 out = Some back /\ firstn 128 back = firstn 128 src.
Proof.
  intros A d0 dst src Ls Ld. destruct (transpose_ok d0 dst src Ls Ld) as (out & E & L & H & K). exists out. split; [exact E|]. split; [exact L|].
  split.
  { apply (nth_ext _ _ d0 d0); [rewrite !skipn_length; lia|]. intros n Hn. rewrite !(KdBatch_Proofs.nth_skipn d0). apply K. lia. }
  split.
  { intros j i t Lj Li Lt. rewrite <- H by lia. f_equal. rewrite mirror_at by assumption. lia. }
  intros dst2 L2. destruct (transpose_ok d0 dst2 out ltac:(lia) L2) as (back & E2 & LB & H2 & _). exists back. split; [exact E2|].
  apply (nth_ext _ _ d0 d0); [rewrite !firstn_length; lia|]. intros n Hn. rewrite firstn_length in Hn. rewrite !(KdBatch_Proofs.nth_firstn d0) by lia.
  destruct (mirror_facts n) as (M1 & M2 & _); [lia|]. rewrite <- M2 at 1. rewrite H2 by exact M1. apply H. lia.
Qed.
Print Assumptions C287_transposed.

(** C288.  The descriptor which MATLAB is given for the frame (fx, fy, s, th), before multiplication by 512, is the descriptor of
    the image itself: with the gradient by rows ([R]), pixels in columns along x and rows along y from 1 and the angle of the frame,
    bins and normalisation as of C125. *)
Theorem C288_descriptor : forall root fsqrt expo sine cosine pi eps_d eps_f f G R M N buf0 rbuf0 fx fy s th,
  (0 < pi)%Qc -> sine (pi / nq 2 - th)%Qc = cosine th -> cosine (pi / nq 2 - th)%Qc = sine th -> by_rows M N G R -> length buf0 = 128 -> length rbuf0 = 128 ->
  let c := f_cfg f in
  let size := (c_magnif c * s + eps_d)%Qc in
  let reach := qfloor (root (nq 2) * (nq 5 / nq 2 * size) + 1 / nq 2)%Qc in
  let x := (fx - 1)%Qc in let y := (fy - 1)%Qc in
  (forall px py, px < N -> py < M -> descr_argument sine cosine x y th size (c_window c) px py <> nq 25) ->
  on_image (N - 1) x -> on_image M y -> (0 <= reach)%Z ->
  exists out, siftdescriptor root fsqrt expo sine cosine pi eps_d eps_f f G M N buf0 rbuf0 fx fy s th = Some out /\
    described fsqrt eps_f (c_norm c) (around_sum reach 0 N M x y (fun _ _ => 1%Qc)) (descr_bin expo sine cosine pi R 0 N M x y th size (c_window c) reach 0) rbuf0 out.
Proof.
  intros root fsqrt expo sine cosine pi eps_d eps_f f G R M N buf0 rbuf0 fx fy s th Hp TS TC (LG & LR & BR) LB LRB c size reach x y NE Ox Oy RP.
  unfold siftdescriptor, frame_descriptor. destruct (angles_ok pi M N G LG) as (G' & EG & LG' & HG). rewrite EG. cbn [obind]. cbv zeta. fold x y.
  assert (PX : forall r c, r < M -> c < N -> mag G' 0 M r c = mag R 0 N c r /\ ang G' 0 M r c = (pi / nq 2 - ang R 0 N c r)%Qc).
  { intros r k Lr Lk. destruct (BR r k Lr Lk) as [-> ->]. now apply HG. }
  destruct (C125_raw_descriptor root fsqrt expo sine cosine pi eps_d eps_f f G' buf0 M N y x s (pi / nq 2 - th)%Qc Hp ltac:(lia) ltac:(lia)) as [A _].
  { intros px py Lx Ly. fold c size. rewrite (turned_argument sine cosine pi x y th size (c_window c) TS TC). now apply NE. }
  destruct (A (conj Oy Ox)) as (buf & EB & HB). clear A. fold c size reach in HB. rewrite EB. cbn [obind]. destruct (HB RP) as (LBF & _ & D1 & D2).
  destruct (transpose_ok 0%Qc rbuf0 buf ltac:(lia) ltac:(lia)) as (out & EO & LO & HO & _). exists out. split; [exact EO|].
  set (H' := descr_bin expo sine cosine pi G' 0 M N y x (pi / nq 2 - th) size (c_window c) reach 0) in *.
  set (H := descr_bin expo sine cosine pi R 0 N M x y th size (c_window c) reach 0).
  assert (HH : forall i, i < 128 -> H' (mirror i) = H i) by (intros i Li; apply (turned_bin expo sine cosine pi M N G' R x y th size (c_window c) TS TC PX reach i Li)).
  rewrite (around_swap reach 0 M N y x) in D1, D2. cbv beta in D1, D2.
  assert (BB : below fsqrt eps_f 128 (c_norm c) (around_sum reach 0 N M x y (fun _ _ => 1%Qc)) H' <-> below fsqrt eps_f 128 (c_norm c) (around_sum reach 0 N M x y (fun _ _ => 1%Qc)) H).
  { unfold below. rewrite (norm_mirror fsqrt eps_f H' H HH). reflexivity. }
  assert (BACK : forall i, i < 128 -> nth i out 0%Qc = nth (mirror i) buf 0%Qc).
  { intros i Li. destruct (mirror_facts i Li) as (M1 & M2 & _). rewrite <- M2 at 1. now apply HO. }
  split; [exact LO|]. split; [rewrite !skipn_all2 by lia; reflexivity|]. split.
  - intros B i Li. rewrite BACK by exact Li. apply D1; [now apply BB|]. now apply mirror_facts.
  - intros B i Li. rewrite BACK by exact Li. rewrite D2; [now apply final_mirror|rewrite BB; exact B|now apply mirror_facts].
Qed.
Print Assumptions C288_descriptor.

(** C289 (refuted).  The claim: the descriptors are determined by the arguments.  For frames off the image, and also for frames
    in its last column, vl_sift_calc_raw_descriptor writes nothing and the descriptor is made of what the local array happens to
    contain. *)
Theorem C289_uninitialised : forall root fsqrt expo sine cosine pi eps_d eps_f f G M N buf0 rbuf0 fx fy s th,
  (0 < pi)%Qc -> sine (pi / nq 2 - th)%Qc = cosine th -> cosine (pi / nq 2 - th)%Qc = sine th -> length G = 2 * (M * N) -> length buf0 = 128 -> length rbuf0 = 128 ->
  (forall px py, px < N -> py < M -> descr_argument sine cosine (fx - 1) (fy - 1) th (c_magnif (f_cfg f) * s + eps_d) (c_window (f_cfg f)) px py <> nq 25) ->
  ~ (on_image (N - 1) (fx - 1)%Qc /\ on_image M (fy - 1)%Qc) ->
  siftdescriptor root fsqrt expo sine cosine pi eps_d eps_f f G M N buf0 rbuf0 fx fy s th = transpose_descriptor rbuf0 buf0.
Proof.
  intros root fsqrt expo sine cosine pi eps_d eps_f f G M N buf0 rbuf0 fx fy s th Hp TS TC LG LB LRB NE O.
  unfold siftdescriptor, frame_descriptor. destruct (angles_ok pi M N G LG) as (G' & EG & LG' & HG). rewrite EG. cbn [obind]. cbv zeta.
  destruct (C125_raw_descriptor root fsqrt expo sine cosine pi eps_d eps_f f G' buf0 M N (fy - 1)%Qc (fx - 1)%Qc s (pi / nq 2 - th)%Qc Hp ltac:(lia) ltac:(lia)) as [_ A].
  { intros px py Lx Ly. rewrite (turned_argument sine cosine pi _ _ th _ _ TS TC). now apply NE. }
  rewrite A; [reflexivity|]. intros [O1 O2]. now apply O.
Qed.
Print Assumptions C289_uninitialised.
Definition ex_sine (a : Qc) : Qc := if Qc_eq_bool a 1 then (zq 6 / zq 10)%Qc else (zq 8 / zq 10)%Qc.
Definition ex_cosine (a : Qc) : Qc := if Qc_eq_bool a 1 then (zq 8 / zq 10)%Qc else (zq 6 / zq 10)%Qc.
Definition ex_grad : list Qc := map (fun i => nq (i * i mod 7)) (seq 0 24).
Definition ex_run (junk : Qc) (fx fy : nat) : option (list Qc) :=
  siftdescriptor ex_root ex_fsqrt ex_expo ex_sine ex_cosine (nq 3) 0 1 ex_wide ex_grad 3 4 (repeat junk 128) (repeat 0%Qc 128) (nq fx) (nq fy) 1 1.
(** column 4 of 4 *)
Theorem C289_determined_refuted : exists root fsqrt expo sine cosine pi eps_d eps_f f G M N buf0 buf1 rbuf0 fx fy s th out0 out1,
  length G = 2 * (M * N) /\ length buf0 = 128 /\ length buf1 = 128 /\ (1 <= fx /\ fx <= nq N /\ 1 <= fy /\ fy <= nq M)%Qc /\
  siftdescriptor root fsqrt expo sine cosine pi eps_d eps_f f G M N buf0 rbuf0 fx fy s th = Some out0 /\
  siftdescriptor root fsqrt expo sine cosine pi eps_d eps_f f G M N buf1 rbuf0 fx fy s th = Some out1 /\ out0 <> out1.
Proof.
  exists ex_root, ex_fsqrt, ex_expo, ex_sine, ex_cosine, (nq 3), 0%Qc, 1%Qc, ex_wide, ex_grad, 3, 4, (repeat (nq 5) 128), (repeat (nq 7) 128), (repeat 0%Qc 128), (nq 4), (nq 2), 1%Qc, 1%Qc.
  exists (repeat (nq 5) 128), (repeat (nq 7) 128). split; [reflexivity|]. split; [reflexivity|]. split; [reflexivity|]. split; [repeat split; discriminate|].
  split; [vm_compute; reflexivity|]. split; [vm_compute; reflexivity|]. intro E. apply (f_equal (fun l => Qc_eq_bool (nth 0 l 0%Qc) (nq 5))) in E. vm_compute in E. discriminate.
Qed.
Print Assumptions C289_determined_refuted.

(** C290.  Entries of class uint8 are 512 times the entries, rounded down, at most 255. *)
Theorem C290_bytes : forall v, (0 <= v)%Qc -> byte_entry v = Z.min 255 (qfloor (nq 512 * v)%Qc) /\ (0 <= byte_entry v <= 255)%Z.
Proof.
  intros v V. assert (P : (0 <= nq 512 * v)%Qc) by (apply KmeansEnergy_Proofs.Qc_mult_nonneg; [discriminate|exact V]). unfold byte_entry. cbv zeta. set (x := (nq 512 * v)%Qc) in *. clearbody x.
  assert (F : (0 <= qfloor x)%Z) by (apply CovdetPatch2_Proofs.floor_ge; exact P).
  destruct (qlt x (nq 255)) eqn:E.
  - apply qlt_true in E. assert (qfloor x < 255)%Z by (destruct (Z.lt_ge_cases (qfloor x) 255) as [T|T]; [exact T|]; apply zq_le in T; pose proof (Qcle_trans _ _ _ T (qfloor_le x)) as T2; destruct (Qclt_not_le _ _ E T2)). rewrite trunc_pos by exact P. lia.
  - apply qlt_false in E. assert (255 <= qfloor x)%Z by (apply CovdetPatch2_Proofs.floor_ge; exact E). change (trunc (nq 255)) with 255%Z. lia.
Qed.
Print Assumptions C290_bytes.

(** C291.  check_sorted accepts frames exactly when no frame has a smaller scale than one before; it reads only the frames given. *)
Theorem C291_sorted : forall keys n, length keys = 4 * n -> exists b, check_sorted keys n = Some b /\
  (b = true <-> forall i j, i <= j -> j < n -> (nth (4 * i + 2) keys 0 <= nth (4 * j + 2) keys 0)%Qc).
Proof.
  intros keys n L. unfold check_sorted.
  match goal with |- context [iter _ ?b ?s] => destruct (iter_inv (fun k (sb : bool) => sb = true <-> forall i, i < k -> (nth (4 * i + 2) keys 0 <= nth (4 * (i + 1) + 2) keys 0)%Qc) b (n - 1) s) as (r & E & I) end.
  - split; [intros _ i Hi; lia|reflexivity].
  - intros k s Lk I. destruct s.
    + rewrite (aget_nth keys (4 * k + 2) 0%Qc), (aget_nth keys (4 * (k + 1) + 2) 0%Qc) by lia. cbn [obind]. eexists. split; [reflexivity|].
      assert (K : negb (0 <? korder (nth (4 * k + 2) keys 0%Qc) (nth (4 * (k + 1) + 2) keys 0%Qc))%Z = true <-> (nth (4 * k + 2) keys 0 <= nth (4 * (k + 1) + 2) keys 0)%Qc).
      { generalize (nth (4 * k + 2) keys 0%Qc), (nth (4 * (k + 1) + 2) keys 0%Qc). clear. intros a b. unfold korder. destruct (qlt (a - b) 0) eqn:E1.
        - apply qlt_true in E1. cbn. split; [intros _|reflexivity]. qn.
        - apply qlt_false in E1. destruct (qlt 0 (a - b)) eqn:E2; cbn.
          + apply qlt_true in E2. split; [discriminate|]. intro H. exfalso. qn.
          + apply qlt_false in E2. split; [intros _|reflexivity]. qn. }
      rewrite K. split.
      * intros H i Hi. destruct (Nat.eq_dec i k) as [->|N]; [exact H|]. apply I; [reflexivity|lia].
      * intros H. apply H. lia.
    + exists false. split; [reflexivity|]. split; [discriminate|]. intro H. apply I. intros i Hi. apply H. lia.
  - rewrite E. cbn [obind]. exists r. split; [reflexivity|]. rewrite I. split.
    + intros H i j Lij. induction Lij as [|j Lij IH]; intro Lj; [apply Qcle_refl|]. apply Qcle_trans with (nth (4 * j + 2) keys 0%Qc); [apply IH; lia|].
      replace (S j) with (j + 1) by lia. apply H. lia.
    + intros H i Hi. apply H; lia.
Qed.
Print Assumptions C291_sorted.

(** ** Examples *)
Example C287_ex : transpose_descriptor (repeat 0 130) (seq 1000 128) = Some (map (fun i => 1000 + mirror i) (seq 0 128) ++ [0; 0]).
Proof. vm_compute. reflexivity. Qed.
(** hypotheses of C288 and the descriptor *)
Definition ex_rows : list Qc := flat_map (fun k => let r := k / 4 in let c := k mod 4 in [nth (2 * (c * 3 + r)) ex_grad 0%Qc; nth (2 * (c * 3 + r) + 1) ex_grad 0%Qc]) (seq 0 12).
Example C288_ex_rows : by_rows 3 4 ex_grad ex_rows.
Proof.
  split; [reflexivity|]. split; [reflexivity|]. intros r c Lr Lc. do 3 (destruct r as [|r]; [do 4 (destruct c as [|c]; [split; vm_compute; reflexivity|]); lia|]). lia.
Qed.
Example C288_ex_angles : ex_sine (nq 3 / nq 2 - 1)%Qc = ex_cosine 1 /\ ex_cosine (nq 3 / nq 2 - 1)%Qc = ex_sine 1.
Proof. split; vm_compute; reflexivity. Qed.
Example C288_ex : also (ex_run (nq 5) 2 2) (fun d => also (raw_descriptor ex_root ex_fsqrt ex_expo ex_sine ex_cosine (nq 3) 0 1 ex_wide ex_rows (repeat (nq 9) 128) 4 3 1 1 1 1)
  (fun e => forallb (fun i => Qc_eq_bool (nth i d 0%Qc) (nth i e 0%Qc)) (seq 0 128) && existsb (fun v => qlt 0 v) d)) = true.
Proof. vm_compute. reflexivity. Qed.
Example C290_ex : byte_entry (zq 2 / zq 10)%Qc = 102%Z /\ byte_entry 1 = 255%Z.
Proof. split; vm_compute; reflexivity. Qed.
Example C291_ex : check_sorted (map nq [9; 9; 1; 0;  3; 3; 1; 2;  0; 0; 2; 0]) 3 = Some true /\ check_sorted (map nq [9; 9; 1; 0;  3; 3; 2; 2;  0; 0; 1; 0]) 3 = Some false /\ check_sorted [] 0 = Some true.
Proof. vm_compute. auto. Qed.
Example C288_ex_hypotheses : on_image (4 - 1) (nq 2 - 1)%Qc /\ on_image 3 (nq 2 - 1)%Qc /\ (0 <= qfloor (ex_root (nq 2) * (nq 5 / nq 2 * (c_magnif (f_cfg ex_wide) * 1 + 0)) + 1 / nq 2)%Qc)%Z /\
  forall px py, px < 4 -> py < 3 -> descr_argument ex_sine ex_cosine (nq 2 - 1) (nq 2 - 1) 1 (c_magnif (f_cfg ex_wide) * 1 + 0) (c_window (f_cfg ex_wide)) px py <> nq 25.
Proof.
  split; [split; [lia|split; reflexivity]|]. split; [split; [lia|split; reflexivity]|]. split; [vm_compute; discriminate|].
  intros px py Lx Ly E. apply (f_equal (fun q => Qc_eq_bool q (nq 25))) in E. do 4 (destruct px as [|px]; [do 3 (destruct py as [|py]; [vm_compute in E; discriminate|]); lia|]). lia.
Qed.
(** hypotheses of C289: the last column *)
Example C289_ex : ~ (on_image (4 - 1) (nq 4 - 1)%Qc /\ on_image 3 (nq 2 - 1)%Qc).
Proof. intros [(_ & _ & L) _]. vm_compute in L. discriminate. Qed.
