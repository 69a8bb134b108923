(** Arrays filled or updated entry by entry, and matrices stored as arrays, shared by the
    later models.  Nothing here models a particular piece of /repo code. *)
From Coq Require Import List Arith Lia Bool Permutation.
From Verif Require Import Base Loop MserSort_Proofs.
Import ListNotations.

(** a new array of n entries, entry i set to f(i) *)
Definition build {A} (n : nat) (f : nat -> option A) : option (list A) :=
  iter n (fun i l => do x <- f i; Some (l ++ [x])) [].

(** a[p] = g(a[p]) *)
Definition modify {A} (p : nat) (g : A -> A) (a : list A) : option (list A) :=
  do z <- aget a p; aset a p (g z).

(** the iterations i of a loop in a given order *)
Fixpoint over {I S} (order : list I) (body : I -> S -> option S) (s : S) : option S :=
  match order with
  | [] => Some s
  | i :: order => do s <- body i s; over order body s
  end.

Lemma build_ok {A} n (f : nat -> option A) (g : nat -> A) :
  (forall i, i < n -> f i = Some (g i)) -> build n f = Some (map g (seq 0 n)).
Proof.
  intro H. unfold build.
  destruct (iter_inv (fun j l => l = map g (seq 0 j)) (fun i l => do x <- f i; Some (l ++ [x])) n []) as (l & E & ->).
  - reflexivity.
  - intros j l L ->. rewrite H by exact L. cbn [obind]. eexists; split; [reflexivity|].
    rewrite Nat.add_1_r, seq_S, map_app. reflexivity.
  - exact E.
Qed.

Lemma over_inv {I S} (P : list I -> S -> Prop) (body : I -> S -> option S) : forall order done s,
  P done s ->
  (forall done i s, In i order -> P done s -> exists s', body i s = Some s' /\ P (done ++ [i]) s') ->
  exists s', over order body s = Some s' /\ P (done ++ order) s'.
Proof.
  induction order as [|i order IH]; intros done s H B; cbn [over].
  - exists s. rewrite app_nil_r. auto.
  - destruct (B done i s (or_introl eq_refl) H) as (s1 & E1 & H1). rewrite E1. cbn [obind].
    destruct (IH (done ++ [i]) s1 H1) as (s2 & E2 & H2).
    + intros d j s' J. apply B. right. exact J.
    + exists s2. rewrite <- app_assoc in H2. auto.
Qed.

Section Arrays.
Context {A : Type} (a0 : A).

(** the array l has n entries f(0), ..., f(n-1) *)
Definition row (n : nat) (l : list A) (f : nat -> A) : Prop :=
  length l = n /\ forall i, i < n -> nth i l a0 = f i.
(** the array l is a matrix with K rows of D entries *)
Definition table (K D : nat) (l : list A) (F : nat -> nat -> A) : Prop :=
  length l = K * D /\ forall k d, k < K -> d < D -> nth (k * D + d) l a0 = F k d.

Lemma row_ext n l f g : row n l f -> (forall i, i < n -> f i = g i) -> row n l g.
Proof. intros [L H] E. split; [exact L|]. intros. rewrite H by auto. auto. Qed.
Lemma table_ext K D l F G : table K D l F -> (forall k d, k < K -> d < D -> F k d = G k d) -> table K D l G.
Proof. intros [L H] E. split; [exact L|]. intros. rewrite H by auto. auto. Qed.
Lemma row_get n l f i : row n l f -> i < n -> aget l i = Some (f i).
Proof. intros [L H] B. rewrite (aget_nth l i a0) by lia. now rewrite H. Qed.
Lemma cell_lt K D k d : k < K -> d < D -> k * D + d < K * D.
Proof. nia. Qed.
Lemma cell_inj D k d k' d' : d < D -> d' < D -> k * D + d = k' * D + d' -> k = k' /\ d = d'.
Proof. intros. assert (k = k') by nia. subst. lia. Qed.
Lemma table_get K D l F k d : table K D l F -> k < K -> d < D -> aget l (k * D + d) = Some (F k d).
Proof. intros [L H] Bk Bd. pose proof (cell_lt K D k d Bk Bd). rewrite (aget_nth l _ a0) by lia. now rewrite H. Qed.
Lemma row_map n g : row n (map g (seq 0 n)) g.
Proof.
  split; [rewrite map_length; apply seq_length|]. intros i L.
  rewrite (nth_indep _ a0 (g 0)) by (rewrite map_length, seq_length; exact L).
  rewrite map_nth, seq_nth by exact L. reflexivity.
Qed.
Lemma row_repeat n : row n (repeat a0 n) (fun _ => a0).
Proof. split; [apply repeat_length|]. intros. apply nth_repeat. Qed.
Lemma table_repeat K D : table K D (repeat a0 (K * D)) (fun _ _ => a0).
Proof. split; [apply repeat_length|]. intros. apply nth_repeat. Qed.
Lemma table_of K D l : length l = K * D -> table K D l (fun k d => nth (k * D + d) l a0).
Proof. intro L. split; auto. Qed.
Lemma row_of n l : length l = n -> row n l (fun i => nth i l a0).
Proof. intro L. split; auto. Qed.
Lemma row_eq n l l' f : row n l f -> row n l' f -> l = l'.
Proof. intros [L H] [L' H']. apply (nth_ext _ _ a0 a0); [lia|]. intros i B. rewrite H, H' by lia. reflexivity. Qed.
Lemma table_row K D l F : table K D l F -> 0 < D -> row (K * D) l (fun p => F (p / D) (p mod D)).
Proof.
  intros [L H] P. split; [exact L|]. intros i B.
  rewrite <- H; [|apply Nat.div_lt_upper_bound; lia|apply Nat.mod_upper_bound; lia].
  f_equal. rewrite Nat.mul_comm. apply Nat.div_mod. lia.
Qed.
Lemma table_eq K D l l' F : table K D l F -> table K D l' F -> l = l'.
Proof.
  intros T T'. destruct (Nat.eq_dec D 0) as [->|N].
  - destruct T as [L _], T' as [L' _]. rewrite Nat.mul_0_r in *. destruct l, l'; cbn in *; try lia. reflexivity.
  - apply (row_eq (K * D) _ _ (fun p => F (p / D) (p mod D))); apply table_row; auto; lia.
Qed.

Definition upd1 (f : nat -> A) (k : nat) (v : A) : nat -> A := fun i => if i =? k then v else f i.
Definition upd2 (F : nat -> nat -> A) (k d : nat) (v : A) : nat -> nat -> A :=
  fun k' d' => if (k' =? k) && (d' =? d) then v else F k' d'.

Lemma row_set n l f i v : row n l f -> i < n -> aset l i v = Some (upd l i v) /\ row n (upd l i v) (upd1 f i v).
Proof.
  intros [L H] B. split; [apply aset_lt; lia|]. split; [rewrite upd_length; exact L|].
  intros j Bj. rewrite nth_upd by lia. unfold upd1. destruct (j =? i); auto.
Qed.
Lemma table_set K D l F k d v : table K D l F -> k < K -> d < D ->
  aset l (k * D + d) v = Some (upd l (k * D + d) v) /\ table K D (upd l (k * D + d) v) (upd2 F k d v).
Proof.
  intros [L H] Bk Bd. pose proof (cell_lt K D k d Bk Bd) as P. split; [apply aset_lt; lia|].
  split; [rewrite upd_length; exact L|]. intros k' d' Bk' Bd'. rewrite nth_upd by lia. unfold upd2.
  destruct (Nat.eqb_spec (k' * D + d') (k * D + d)) as [E|E].
  - apply cell_inj in E as [-> ->]; auto. now rewrite !Nat.eqb_refl.
  - rewrite H by auto. destruct (Nat.eqb_spec k' k) as [->|]; [|reflexivity].
    destruct (Nat.eqb_spec d' d) as [->|]; [|reflexivity]. destruct (E eq_refl).
Qed.
Lemma row_modify n l f i g : row n l f -> i < n ->
  exists l', modify i g l = Some l' /\ row n l' (upd1 f i (g (f i))).
Proof.
  intros T B. unfold modify. rewrite (row_get n l f i T B). cbn [obind].
  destruct (row_set n l f i (g (f i)) T B) as [E R]. eauto.
Qed.
Lemma table_modify K D l F k d g : table K D l F -> k < K -> d < D ->
  exists l', modify (k * D + d) g l = Some l' /\ table K D l' (upd2 F k d (g (F k d))).
Proof.
  intros T Bk Bd. unfold modify. rewrite (table_get K D l F k d T Bk Bd). cbn [obind].
  destruct (table_set K D l F k d (g (F k d)) T Bk Bd) as [E R]. eauto.
Qed.

(** a loop over all entries *)
Lemma row_loop n body g l f : row n l f ->
  (forall i l f, i < n -> row n l f -> exists l', body i l = Some l' /\ row n l' (upd1 f i (g i (f i)))) ->
  exists l', iter n body l = Some l' /\ row n l' (fun i => g i (f i)).
Proof.
  intros Hf B.
  destruct (iter_inv (fun j l' => row n l' (fun i => if i <? j then g i (f i) else f i)) body n l) as (l' & E & H).
  - exact Hf.
  - intros j e Lj He. destruct (B j e _ Lj He) as (e' & E & He'). exists e'. split; [exact E|].
    apply (row_ext _ _ _ _ He'). intros i Li. unfold upd1. rewrite Nat.ltb_irrefl.
    destruct (Nat.eqb_spec i j) as [->|Nd].
    + destruct (Nat.ltb_spec j (j + 1)); [reflexivity|lia].
    + destruct (Nat.ltb_spec i j), (Nat.ltb_spec i (j + 1)); auto; lia.
  - exists l'. split; [exact E|]. apply (row_ext _ _ _ _ H). intros i Li. destruct (Nat.ltb_spec i n); [reflexivity|lia].
Qed.
(** a loop over one row of a matrix *)
Lemma line_loop K D body g cl l F : cl < K -> table K D l F ->
  (forall d l F, d < D -> table K D l F -> exists l', body d l = Some l' /\ table K D l' (upd2 F cl d (g d (F cl d)))) ->
  exists l', iter D body l = Some l' /\ table K D l' (fun k d => if k =? cl then g d (F cl d) else F k d).
Proof.
  intros Lc Hf B.
  destruct (iter_inv (fun j l' => table K D l' (fun k d => if (k =? cl) && (d <? j) then g d (F cl d) else F k d)) body D l) as (l' & E & Hf').
  - apply (table_ext _ _ _ _ _ Hf). intros. now rewrite andb_false_r.
  - intros j e Lj He. destruct (B j e _ Lj He) as (e' & E & He'). exists e'. split; [exact E|].
    apply (table_ext _ _ _ _ _ He'). intros k d Lk Ld. unfold upd2. rewrite Nat.eqb_refl, Nat.ltb_irrefl. cbn [andb].
    destruct (Nat.eqb_spec k cl) as [->|]; [|reflexivity]. cbn [andb].
    destruct (Nat.eqb_spec d j) as [->|Nd].
    + destruct (Nat.ltb_spec j (j + 1)); [reflexivity|lia].
    + destruct (Nat.ltb_spec d j), (Nat.ltb_spec d (j + 1)); auto; lia.
  - exists l'. split; [exact E|]. apply (table_ext _ _ _ _ _ Hf'). intros k d Lk Ld.
    destruct (Nat.ltb_spec d D); [|lia]. now rewrite andb_true_r.
Qed.
(** a loop over all rows of a matrix *)
Lemma lines_loop K D body (G : nat -> nat -> A -> A) l F : table K D l F ->
  (forall k l F, k < K -> table K D l F -> exists l', body k l = Some l' /\
     table K D l' (fun k' d => if k' =? k then G k d (F k d) else F k' d)) ->
  exists l', iter K body l = Some l' /\ table K D l' (fun k d => G k d (F k d)).
Proof.
  intros Hf B.
  destruct (iter_inv (fun j l' => table K D l' (fun k d => if k <? j then G k d (F k d) else F k d)) body K l) as (l' & E & Hf').
  - exact Hf.
  - intros j e Lj He. destruct (B j e _ Lj He) as (e' & E & He'). exists e'. split; [exact E|].
    apply (table_ext _ _ _ _ _ He'). intros k d Lk Ld. rewrite Nat.ltb_irrefl.
    destruct (Nat.eqb_spec k j) as [->|Nd].
    + destruct (Nat.ltb_spec j (j + 1)); [reflexivity|lia].
    + destruct (Nat.ltb_spec k j), (Nat.ltb_spec k (j + 1)); auto; lia.
  - exists l'. split; [exact E|]. apply (table_ext _ _ _ _ _ Hf'). intros k d Lk Ld.
    destruct (Nat.ltb_spec k K); [reflexivity|lia].
Qed.
(** loops over two matrices at once *)
Lemma line_loop2 K D body g h cl l m F G : cl < K -> table K D l F -> table K D m G ->
  (forall d l m F G, d < D -> table K D l F -> table K D m G -> exists l' m', body d (l, m) = Some (l', m') /\
     table K D l' (upd2 F cl d (g d (F cl d))) /\ table K D m' (upd2 G cl d (h d (G cl d)))) ->
  exists l' m', iter D body (l, m) = Some (l', m') /\
    table K D l' (fun k d => if k =? cl then g d (F cl d) else F k d) /\
    table K D m' (fun k d => if k =? cl then h d (G cl d) else G k d).
Proof.
  intros Lc Hf Hg B.
  set (part := fun j (F : nat -> nat -> A) g k d => if (k =? cl) && (d <? j) then (g d (F cl d) : A) else F k d).
  assert (St : forall j k d (F : nat -> nat -> A) g, k < K -> d < D -> upd2 (part j F g) cl j (g j (part j F g cl j)) k d = part (j + 1) F g k d).
  { intros j k d F0 g0 Lk Ld. unfold part, upd2. rewrite Nat.eqb_refl, Nat.ltb_irrefl. cbn [andb].
    destruct (Nat.eqb_spec k cl) as [->|]; [|reflexivity]. cbn [andb].
    destruct (Nat.eqb_spec d j) as [->|Nd].
    - destruct (Nat.ltb_spec j (j + 1)); [reflexivity|lia].
    - destruct (Nat.ltb_spec d j), (Nat.ltb_spec d (j + 1)); auto; lia. }
  destruct (iter_inv (fun j '(l', m') => table K D l' (part j F g) /\ table K D m' (part j G h)) body D (l, m)) as ([l' m'] & E & H1 & H2).
  - split; [apply (table_ext _ _ _ _ _ Hf)|apply (table_ext _ _ _ _ _ Hg)]; intros; unfold part; now rewrite andb_false_r.
  - intros j [e f] Lj [He Hf0]. destruct (B j e f _ _ Lj He Hf0) as (e' & f' & E & He' & Hf'). exists (e', f'). split; [exact E|].
    split; [apply (table_ext _ _ _ _ _ He')|apply (table_ext _ _ _ _ _ Hf')]; intros; apply St; auto.
  - exists l', m'. split; [exact E|]. split; [apply (table_ext _ _ _ _ _ H1)|apply (table_ext _ _ _ _ _ H2)]; intros k d Lk Ld; unfold part;
      (destruct (Nat.ltb_spec d D); [|lia]); now rewrite andb_true_r.
Qed.
Lemma lines_loop2 K D body (g h : nat -> nat -> A -> A) l m F G : table K D l F -> table K D m G ->
  (forall k l m F G, k < K -> table K D l F -> table K D m G -> exists l' m', body k (l, m) = Some (l', m') /\
     table K D l' (fun k' d => if k' =? k then g k d (F k d) else F k' d) /\
     table K D m' (fun k' d => if k' =? k then h k d (G k d) else G k' d)) ->
  exists l' m', iter K body (l, m) = Some (l', m') /\
    table K D l' (fun k d => g k d (F k d)) /\ table K D m' (fun k d => h k d (G k d)).
Proof.
  intros Hf Hg B.
  set (part := fun j (F : nat -> nat -> A) g k d => if k <? j then (g k d (F k d) : A) else F k d).
  assert (St : forall j k d (F : nat -> nat -> A) g, k < K -> d < D ->
    (if k =? j then g j d (part j F g j d) else part j F g k d) = part (j + 1) F g k d).
  { intros j k d F0 g0 Lk Ld. unfold part. rewrite Nat.ltb_irrefl.
    destruct (Nat.eqb_spec k j) as [->|Nd].
    - destruct (Nat.ltb_spec j (j + 1)); [reflexivity|lia].
    - destruct (Nat.ltb_spec k j), (Nat.ltb_spec k (j + 1)); auto; lia. }
  destruct (iter_inv (fun j '(l', m') => table K D l' (part j F g) /\ table K D m' (part j G h)) body K (l, m)) as ([l' m'] & E & H1 & H2).
  - split; [exact Hf|exact Hg].
  - intros j [e f] Lj [He Hf0]. destruct (B j e f _ _ Lj He Hf0) as (e' & f' & E & He' & Hf'). exists (e', f'). split; [exact E|].
    split; [apply (table_ext _ _ _ _ _ He')|apply (table_ext _ _ _ _ _ Hf')]; intros; apply St; auto.
  - exists l', m'. split; [exact E|]. split; [apply (table_ext _ _ _ _ _ H1)|apply (table_ext _ _ _ _ _ H2)]; intros k d Lk Ld; unfold part;
      (destruct (Nat.ltb_spec k K); [reflexivity|lia]).
Qed.
End Arrays.
