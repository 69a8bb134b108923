(** Proofs about the evaluation on all pairs. *)
From Coq Require Import List Arith ZArith Lia Bool.
From Verif Require Import Base Loop MserSort_Proofs ImOp_Spec ImOp_Proofs Vec_Model.
Import ListNotations.
Local Open Scope nat_scope.

Section Pairs.
Context {A : Type} (fn : nat -> list A -> list A -> option A) (dim : nat) (X : list A) (nx : nat).
Hypothesis Hdim : 0 < dim.

Lemma pos_bound (st n m a b : nat) : n <= st -> a < n -> b < m -> a + b * st < st * m.
Proof. nia. Qed.

Lemma pairs_ok Y ny v result : nx * ny <= length result ->
  (forall i j, i < nx -> j < ny -> fn dim (skipn (i * dim) X) (skipn (j * dim) Y) = Some (v i j)) ->
  exists result', all_pairs fn result dim X nx (Some Y) ny = Some result' /\
    filled (fun xi yi => xi + yi * nx) v nx ny result result'.
Proof.
  intros Lr Hv. unfold all_pairs. destruct (Nat.eqb_spec dim 0); [lia|].
  destruct (Nat.eqb_spec nx 0) as [->|Nx].
  { exists result. split; [reflexivity|]. split; [auto|]. split; [intros; lia|auto]. }
  destruct (Nat.eqb_spec ny 0) as [->|Ny].
  { exists result. split; [reflexivity|]. split; [auto|]. split; [intros; lia|auto]. }
  set (pos := fun xi yi => xi + yi * nx).
  assert (Bd : forall a b, a < nx -> b < ny -> pos a b < length result).
  { intros a b La Lb. pose proof (pos_bound nx nx ny a b ltac:(lia) La Lb). unfold pos. lia. }
  destruct (iter_inv (fun yi (s : nat * list A) => fst s = yi * nx /\
      painted pos v nx ny result (fun a b => b < yi) (snd s))
    (fun yi s => iter nx (fun xi s => let '(r, result) := s in
        do z <- fn dim (skipn (xi * dim) X) (skipn (yi * dim) Y);
        do result <- aset result r z;
        Some (r + 1, result)) s) ny (0, result)) as ((r, res) & E & _ & P).
  - split; [reflexivity|]. apply painted_start. intros; lia.
  - intros yi (r0, res0) Ly (Er & P). cbn [fst snd] in *. subst r0.
    destruct (iter_inv (fun xi (s : nat * list A) => fst s = xi + yi * nx /\
       painted pos v nx ny result (fun a b => b < yi \/ (b = yi /\ a < xi)) (snd s))
      (fun xi s => let '(r, result) := s in
        do z <- fn dim (skipn (xi * dim) X) (skipn (yi * dim) Y);
        do result <- aset result r z;
        Some (r + 1, result)) nx (yi * nx, res0)) as (s' & E & Er & P').
    + split; [cbn; lia|]. eapply painted_weaken; [|exact P]. cbn. intros; lia.
    + intros xi (r1, res1) Lx (Er & P1). cbn [fst snd] in *. subst r1.
      rewrite Hv by auto. cbn [obind].
      destruct (painted_set pos v nx ny result (fun a b => b < yi \/ (b = yi /\ a < xi))
        (fun a b => b < yi \/ (b = yi /\ a < xi + 1)) res1 xi yi (v xi yi)) as (E2 & P2); auto.
      { apply inj_cols. lia. } { intros; lia. }
      unfold pos at 1 in E2. rewrite E2. cbn [obind]. eexists. split; [reflexivity|]. split; [cbn; lia|exact P2].
    + exists s'. split; [exact E|]. destruct s' as (r', res'). cbn [fst snd] in *. split; [lia|].
      eapply painted_weaken; [|exact P']. cbn. intros; lia.
  - rewrite E. cbn [obind]. exists res. split; [reflexivity|].
    eapply painted_filled; [|exact P]. cbn. auto.
Qed.

Lemma pairs_self_ok ny v result : nx * nx <= length result ->
  (forall i j, i <= j -> j < nx -> fn dim (skipn (i * dim) X) (skipn (j * dim) X) = Some (v i j)) ->
  exists result', all_pairs fn result dim X nx None ny = Some result' /\
    filled (fun a b => a + b * nx) (fun a b => v (Nat.min a b) (Nat.max a b)) nx nx result result'.
Proof.
  intros Lr Hv. unfold all_pairs. destruct (Nat.eqb_spec dim 0); [lia|].
  destruct (Nat.eqb_spec nx 0) as [->|Nx].
  { exists result. split; [reflexivity|]. split; [auto|]. split; [intros; lia|auto]. }
  set (pos := fun xi yi => xi + yi * nx). set (val := fun a b => v (Nat.min a b) (Nat.max a b)).
  assert (Bd : forall a b, a < nx -> b < nx -> pos a b < length result).
  { intros a b La Lb. pose proof (pos_bound nx nx nx a b ltac:(lia) La Lb). unfold pos. lia. }
  assert (J : inj2 pos nx nx) by (apply inj_cols; lia).
  match goal with |- context [iter nx ?b ?s] => set (body := b) end.
  destruct (iter_inv (fun yi (s : Z * Z * list A) => let '(r, rt, res) := s in
      r = Z.of_nat (yi * nx) /\ rt = Z.of_nat yi /\
      painted pos val nx nx result (fun a b => a < yi /\ b < yi) res)
    body nx (0%Z, 0%Z, result)) as (((r, rt), res) & E & _ & _ & P).
  - split; [reflexivity|]. split; [reflexivity|]. apply painted_start. intros; lia.
  - intros yi ((r0, rt0), res0) Ly (Er & Et & P). subst r0 rt0. unfold body.
    match goal with |- context [iter (yi + 1) ?b ?s] => set (body2 := b) end.
    destruct (iter_inv (fun xi (s : Z * Z * list A) => let '(r, rt, res) := s in
       r = Z.of_nat (xi + yi * nx) /\ rt = Z.of_nat (yi + xi * nx) /\
       painted pos val nx nx result (fun a b => (a < yi /\ b < yi) \/ (b = yi /\ a < xi) \/ (a = yi /\ b < xi)) res)
      body2 (yi + 1) (Z.of_nat (yi * nx), Z.of_nat yi, res0)) as (((r', rt'), res') & E & Er & Et & P').
    + split; [f_equal; lia|]. split; [f_equal; lia|]. eapply painted_weaken; [|exact P]. cbn. intros; lia.
    + intros xi ((r1, rt1), res1) Lx (Er & Et & P1). subst r1 rt1. unfold body2.
      rewrite Hv by lia. cbn [obind].
      destruct (painted_set pos val nx nx result
        (fun a b => (a < yi /\ b < yi) \/ (b = yi /\ a < xi) \/ (a = yi /\ b < xi))
        (fun a b => (a < yi /\ b < yi) \/ (b = yi /\ a < xi + 1) \/ (a = yi /\ b < xi)) res1 xi yi (v xi yi)) as (E2 & P2); auto; try lia.
      { unfold val. now rewrite Nat.min_l, Nat.max_r by lia. }
      rewrite (zset_nat _ _ (pos xi yi)) by reflexivity. rewrite E2. cbn [obind].
      destruct (painted_set pos val nx nx result
        (fun a b => (a < yi /\ b < yi) \/ (b = yi /\ a < xi + 1) \/ (a = yi /\ b < xi))
        (fun a b => (a < yi /\ b < yi) \/ (b = yi /\ a < xi + 1) \/ (a = yi /\ b < xi + 1)) (upd res1 (pos xi yi) (v xi yi)) yi xi (v xi yi)) as (E3 & P3); auto; try lia.
      { unfold val. now rewrite Nat.min_r, Nat.max_l by lia. }
      rewrite (zset_nat _ _ (pos yi xi)) by reflexivity. rewrite E3. cbn [obind].
      eexists. split; [reflexivity|]. split; [lia|]. split; [lia|exact P3].
    + rewrite E. cbn [obind]. eexists. split; [reflexivity|]. split; [lia|]. split; [lia|].
      eapply painted_weaken; [|exact P']. cbn. intros; lia.
  - rewrite E. cbn [obind]. exists res. split; [reflexivity|].
    eapply painted_filled; [|exact P]. cbn. auto.
Qed.
End Pairs.
