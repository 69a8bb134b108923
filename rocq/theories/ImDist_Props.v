(** Properties C31 and C66: the distance transform. *)
From Coq Require Import List Arith ZArith QArith Lia Lqa Bool.
From Verif Require Import Base Loop ImDist_Model ImDist_Spec ImDist_Proofs.
Import ListNotations.
Local Open Scope nat_scope.

(** C31.  For a coefficient above VL_EPSILON, or zero, every pixel receives the
    minimum over its row of the parabolas, and its index is the input index of a
    pixel attaining it.  This holds with strides addressing distinct pixels, in
    place ([image] is [None]) or not, whatever the scratch buffers contain; no
    other cell of the outputs changes. *)
Theorem C31_lower_envelope : forall coeff offset eps image width height cs rs from base bidx which dt indexes,
  (0 <= eps)%Q -> (eps < coeff)%Q \/ (coeff == 0)%Q ->
  (forall x x' y y', x < width -> x' < width -> y < height -> y' < height ->
     x * cs + y * rs = x' * cs + y' * rs -> x = x' /\ y = y') ->
  length from = width + 1 -> length base = width -> length bidx = width -> length which = width ->
  (forall x y, x < width -> y < height -> x * cs + y * rs < length dt /\
     (forall l, image = Some l -> x * cs + y * rs < length l) /\
     (forall l, indexes = Some l -> x * cs + y * rs < length l)) ->
  let value y x := nth (x * cs + y * rs) (match image with Some l => l | None => dt end) 0%Q in
  exists dt' indexes',
    disttf coeff offset eps image width height cs rs (mk_env from base bidx which) dt indexes = Some (dt', indexes') /\
    length dt' = length dt /\ option_map (@length nat) indexes' = option_map (@length nat) indexes /\
    (forall x y, x < width -> y < height -> exists u,
       lower_envelope coeff offset width (value y) x u (nth (x * cs + y * rs) dt' 0%Q) /\
       forall l l', indexes = Some l -> indexes' = Some l' -> nth (x * cs + y * rs) l' 0 = nth (u * cs + y * rs) l 0) /\
    (forall i, (forall x y, x < width -> y < height -> i <> x * cs + y * rs) ->
       nth i dt' 0%Q = nth i dt 0%Q /\
       forall l l', indexes = Some l -> indexes' = Some l' -> nth i l' 0 = nth i l 0).
Proof.
  intros c o eps image width height cs rs from base bidx which dt indexes He Hc Inj L1 L2 L3 L4 Hin value.
  destruct (disttf_ok c o eps (conj He Hc) image width height cs rs Inj (mk_env from base bidx which) dt indexes)
    as (dt' & ix' & E & R1 & R2 & R3 & R4).
  - unfold sized; cbn; auto.
  - intros x y Lx Ly. exact (proj1 (Hin x y Lx Ly)).
  - intros l El x y Lx Ly. exact (proj1 (proj2 (Hin x y Lx Ly)) l El).
  - intros l El x y Lx Ly. exact (proj2 (proj2 (Hin x y Lx Ly)) l El).
  - exists dt', ix'. split; [exact E|]. split; [exact R1|]. split; [exact R2|]. split.
    + intros x y Lx Ly. destruct (R3 x y Lx Ly) as (u & U1 & U2). exists u. split; [exact U1|].
      intros l l' -> ->. exact U2.
    + intros i Hi. destruct (R4 i Hi) as (U1 & U2). split; [exact U1|]. intros l l' -> ->. exact U2.
Qed.
Print Assumptions C31_lower_envelope.

(** Two rows of three pixels, coefficient 1, offset 0, initial indexes 10..15. *)
Example C31_ex :
  match disttf 1 0 (1 # 1024) (Some [0; 9; 1;  5; 0; 7]%Q) 3 2 1 3
    (mk_env [PInf; PInf; NInf; NInf] [0; 0; 0]%Q [0; 0; 0] [0; 0; 0]) [8; 8; 8; 8; 8; 8; 8]%Q (Some [10; 11; 12; 13; 14; 15]) with
  | Some (dt, ix) => forallb (fun p => Qeq_bool (fst p) (snd p)) (combine dt [0; 1; 1; 1; 0; 1; 8]%Q) = true /\
                     ix = Some [10; 10; 12; 14; 14; 14]
  | None => False
  end.
Proof. vm_compute. auto. Qed.
(** The same rows, in place, with the columns as the scan direction. *)
Example C31_ex_in_place :
  match disttf 0 (1 # 2) (1 # 1024) None 2 3 3 1
    (mk_env [PInf; PInf; NInf] [0; 0]%Q [0; 0] [0; 0]) [0; 9; 1;  5; 0; 7]%Q None with
  | Some (dt, ix) => forallb (fun p => Qeq_bool (fst p) (snd p)) (combine dt [0; 0; 1; 0; 0; 1]%Q) = true /\ ix = None
  | None => False
  end.
Proof. vm_compute. auto. Qed.

(** C66.  A positive coefficient not above VL_EPSILON is treated as zero when
    the envelope is built but not when it is evaluated, so the result is not the
    minimum.  Here eps is VL_EPSILON_D and the coefficient is equal to it. *)
Theorem C66_small_coefficient_refuted :
  let eps := (1 # 4503599627370496)%Q in
  exists image dt', let coeff := eps in
    disttf coeff 0 eps (Some image) 2 1 1 2 (mk_env [PInf; PInf; PInf] [0; 0]%Q [0; 0] [0; 0]) [0; 0]%Q None = Some (dt', None) /\
    (0 < coeff)%Q /\
    ~ exists u, lower_envelope coeff 0 2 (fun i => nth i image 0%Q) 1 u (nth 1 dt' 0%Q).
Proof.
  intro eps. exists [0; (1 # 9007199254740992)]%Q. unfold eps. eexists. split; [vm_compute; reflexivity|].
  split; [reflexivity|]. intros (u & _ & _ & M). specialize (M 1 ltac:(lia)).
  revert M. vm_compute. intro M. exact (M eq_refl).
Qed.
Print Assumptions C66_small_coefficient_refuted.
