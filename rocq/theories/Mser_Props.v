(** C19, C20, C21, C64, C65: the MSER detector. *)
From Coq Require Import List Arith ZArith Lia Bool QArith.
From Verif Require Import Base Mser_Model Mser_Spec MserTree_Spec MserNbr_Proofs MserExtract_Proofs MserMain_Proofs MserMoments_Proofs.
Import ListNotations.
Local Open Scope nat_scope.

Section Statements.
  (** Any way of computing and comparing variations, any filters, any old
      contents of the buffers. *)
  Context {V : Type}.
  Variable variation : nat -> nat -> V.
  Variable vlt : V -> V -> bool.
  Variable too_variable : V -> bool.
  Variable too_big too_small : nat -> bool.
  Variable check_dups : bool.
  Variable too_similar : nat -> nat -> bool.
  Variable junk : @ereg V.

  (** An image of 8 bit pixels of any dimensions, and buffers of its size. *)
  Definition good_input (dims : list nat) (perm0 : list nat) (r0 : list reg) (im : list nat) : Prop :=
    Forall (fun d => 0 < d) dims /\ length im = fold_right Nat.mul 1 dims /\ Forall (fun x => x < 256) im /\
    length perm0 = length im /\ length r0 = length im.

  Notation process := (mser_process variation vlt too_variable too_big too_small check_dups too_similar junk).

  Lemma nel_prod dims : nel_of dims = fold_right Nat.mul 1 dims.
  Proof. induction dims; cbn; congruence. Qed.

  Lemma main dims delta perm0 r0 im : good_input dims perm0 r0 im -> exists res P val ner,
    process dims delta perm0 r0 im = Some res /\
    in_stable_order im (m_perm res) /\
    m_num_extremal res = length (m_er res) /\
    tree_ok junk dims im (m_er res) /\
    selection_ok variation vlt too_variable too_big too_small check_dups too_similar junk delta
      (m_er res) (m_num_unstable res) (m_stats res) (m_mer res) /\
    MserUnion_Proofs.Inv dims im (m_r res) P val (m_joins res) ner /\ MserUnion_Proofs.all_joined dims im P /\
    (forall p, P p <> None <-> p < length im) /\
    (forall k, k < length (m_er res) -> exb im P (e_index (nth k (m_er res) junk)) = true).
  Proof.
    intros (A & B & C & D & E). apply main_ok; auto.
  Qed.

  (** The detector runs to completion on every image and its pixel order is the
      sorted one, ties in raster order. *)
  Theorem C19_pixels_in_stable_intensity_order :
    forall dims delta perm0 r0 im, good_input dims perm0 r0 im ->
    exists res, process dims delta perm0 r0 im = Some res /\ in_stable_order im (m_perm res).
  Proof.
    intros dims delta perm0 r0 im G. destruct (main dims delta perm0 r0 im G) as (res & P & val & ner & E & S & _).
    exists res. auto.
  Qed.

  (** The extremal regions are the connected components of the level sets of the
      image, each found once, with the right size and the right parent. *)
  Theorem C20_extremal_regions_are_level_set_components :
    forall dims delta perm0 r0 im, good_input dims perm0 r0 im ->
    exists res, process dims delta perm0 r0 im = Some res /\
    let er := m_er res in
    let N := length er in
    let up k := e_parent (nth k er junk) in
    let idx k := e_index (nth k er junk) in
    let value k := e_value (nth k er junk) in
    let area k := e_area (nth k er junk) in
    m_num_extremal res = N /\
    (* region k is the component of its pixel at its level, and area is its size *)
    (forall k, k < N -> idx k < length im /\ value k = nth (idx k) im 0 /\
       exists l, component dims im (value k) (idx k) l /\ length l = area k) /\
    (* the component of any pixel at any level is exactly one region *)
    (forall p w, p < length im -> nth p im 0 <= w ->
       exists k, (k < N /\ value k <= w /\ forall q, connected dims im w p q <-> connected dims im (value k) (idx k) q) /\
         forall k', k' < N -> (forall q, connected dims im w p q <-> connected dims im (value k') (idx k') q) -> k' = k) /\
    (* the parent is the next larger component; only the whole image has none *)
    (forall k, k < N -> up k < N /\
       ((up k = k /\ forall q, q < length im -> connected dims im (value k) (idx k) q) \/
        (k < up k /\ value k < value (up k) /\ connected dims im (value (up k)) (idx (up k)) (idx k) /\
         forall w q, value k <= w -> w < value (up k) ->
           (connected dims im w (idx k) q <-> connected dims im (value k) (idx k) q)))).
  Proof.
    intros dims delta perm0 r0 im G. destruct (main dims delta perm0 r0 im G) as (res & P & val & ner & E & _ & S & T & _).
    exists res. split; [exact E|]. cbn zeta. split; [exact S|]. exact T.
  Qed.

  (** The regions returned are the maximally stable ones that pass the filters,
      in order; the statistics count the others by the reason of their removal. *)
  Theorem C21_selection_and_statistics :
    forall dims delta perm0 r0 im, good_input dims perm0 r0 im ->
    exists res, process dims delta perm0 r0 im = Some res /\
    let er := m_er res in
    let N := length er in
    let s := m_stats res in
    let up k := e_parent (nth k er junk) in
    let value k := e_value (nth k er junk) in
    let area k := e_area (nth k er junk) in
    let var k := e_variation (nth k er junk) in
    let sel k := e_stable (nth k er junk) = true in
    let st := stable N up value vlt var in
    let fate := has_fate up area var too_variable too_big too_small check_dups too_similar sel in
    (forall k, k < N -> (sel k <-> st k /\ fate k Kept)) /\
    m_mer res = map e_index (filter e_stable er) /\
    counts (fun k => k < N /\ ~ st k) (m_num_unstable res) /\
    counts (fun k => k < N /\ st k /\ fate k Unstable) (st_bad s) /\
    counts (fun k => k < N /\ st k /\ fate k TooBig) (st_big s) /\
    counts (fun k => k < N /\ st k /\ fate k TooSmall) (st_small s) /\
    counts (fun k => k < N /\ st k /\ fate k Duplicate) (st_dup s) /\
    m_num_extremal res =
      m_num_unstable res + st_bad s + st_big s + st_small s + st_dup s + length (m_mer res).
  Proof.
    intros dims delta perm0 r0 im G.
    destruct (main dims delta perm0 r0 im G) as (res & P & val & ner & E & _ & S & _ & (_ & T1 & T2 & T3 & T4 & T5 & T6 & T7 & T8) & _).
    exists res. split; [exact E|]. cbn zeta.
    split; [exact T1|]. split; [exact T2|]. split; [exact T3|]. split; [exact T4|]. split; [exact T5|].
    split; [exact T6|]. split; [exact T7|]. rewrite S. exact T8.
  Qed.

  (** The region of the whole image is never returned. *)
  Theorem C21_whole_image_never_selected :
    (forall x, vlt x x = false) ->
    forall dims delta perm0 r0 im res, good_input dims perm0 r0 im -> process dims delta perm0 r0 im = Some res ->
    forall k, k < length (m_er res) -> e_parent (nth k (m_er res) junk) = k -> e_stable (nth k (m_er res) junk) = false.
  Proof.
    intros IR dims delta perm0 r0 im res G E k Hk Hu.
    destruct (main dims delta perm0 r0 im G) as (res' & P & val & ner & E' & _ & _ & _ & (_ & T1 & _) & _).
    rewrite E in E'. injection E' as <-.
    destruct (e_stable (nth k (m_er res) junk)) eqn:F; [|reflexivity].
    apply T1 in F; [|exact Hk]. destruct F as [[F _] _]. rewrite Hu in F. rewrite IR in F. discriminate F. lia.
  Qed.

  (** The variation of a region compares it with the largest region that
      contains it within delta levels. *)
  Theorem C64_variation_uses_the_top_region :
    forall dims delta perm0 r0 im, good_input dims perm0 r0 im ->
    exists res, process dims delta perm0 r0 im = Some res /\
    let er := m_er res in
    let up k := e_parent (nth k er junk) in
    let value k := e_value (nth k er junk) in
    let area k := e_area (nth k er junk) in
    forall k, k < length er -> exists t, top_of up value delta k t /\ 
      e_variation (nth k er junk) = variation (area k) (area t).
  Proof.
    intros dims delta perm0 r0 im G.
    destruct (main dims delta perm0 r0 im G) as (res & P & val & ner & E & _ & _ & _ & (T & _) & _).
    exists res. split; [exact E|exact T].
  Qed.

  (** The ellipsoid of each returned region holds the mean and the covariance of
      the coordinates of its pixels. *)
  Theorem C65_ellipsoids_are_moments_of_the_regions :
    forall dims delta perm0 r0 im, good_input dims perm0 r0 im ->
    exists res ell, process dims delta perm0 r0 im = Some res /\
      ell_fit dims (m_r res) (m_joins res) (m_mer res) = Some ell /\
      Forall2 (fun p pt =>
        length pt = length dims * (length dims + 1) / 2 + length dims /\
        exists l, component dims im (nth p im 0) p l /\
          (forall i, i < length dims -> nth i pt 0%Q = mean_of (coord dims i) l) /\
          (forall i j, i <= j -> j < length dims ->
             nth (length dims + j * (j + 1) / 2 + i) pt 0%Q = covariance dims i j l)) (m_mer res) ell.
  Proof.
    intros dims delta perm0 r0 im G. pose proof G as (A & B & _).
    destruct (main dims delta perm0 r0 im G) as (res & P & val & ner & E & _ & _ & TO & (_ & _ & T2 & _) & I & AJ & HD & EX).
    assert (Hlen : length im = nel_of dims) by (now rewrite nel_prod).
    assert (HM : forall p, In p (m_mer res) -> exb im P p = true).
    { intros p Hp. rewrite T2 in Hp. apply in_map_iff in Hp. destruct Hp as (e & <- & He). apply filter_In in He.
      destruct He as [He _]. apply In_nth with (d := junk) in He. destruct He as (k & Hk & <-). apply EX. exact Hk. }
    destruct (ell_ok dims im A Hlen (m_r res) P val ner (m_joins res) I HD (m_mer res)) as (ell & E' & F).
    { apply Forall_forall. intros p Hp. apply HM in Hp. apply (exb_spec im P HD) in Hp. tauto. }
    exists res, ell. split; [exact E|]. split; [exact E'|].
    clear - F HM I AJ HD Hlen. revert HM. induction F as [|p pt mer ell (L & l & N & S & M & C) F IH]; intro HM; constructor.
    - split; [exact L|]. exists l. split; [|split; [exact M|exact C]]. split; [exact N|]. intro q. rewrite S.
      assert (X : exb im P p = true) by (apply HM; cbn; auto). apply (exb_spec im P HD) in X. destruct X as [Lp Tp].
      apply (desc_component dims im Hlen (m_r res) P val ner (m_joins res) I AJ HD); auto.
    - apply IH. intros; apply HM; cbn; auto.
  Qed.
End Statements.
Print Assumptions C19_pixels_in_stable_intensity_order.
Print Assumptions C20_extremal_regions_are_level_set_components.
Print Assumptions C21_selection_and_statistics.
Print Assumptions C21_whole_image_never_selected.
Print Assumptions C64_variation_uses_the_top_region.
Print Assumptions C65_ellipsoids_are_moments_of_the_regions.

(** A 4 x 3 image with two dark blobs; variations as exact fractions. *)
Definition ex_dims := [4; 3].
Definition ex_im := [9; 1; 9; 9;
                     9; 2; 9; 3;
                     9; 9; 9; 4].
Definition ex_var (a t : nat) : nat * nat := (t - a, a).
Definition ex_vlt (x y : nat * nat) : bool := fst x * snd y <? fst y * snd x.
Definition ex_junk : @ereg (nat * nat) := mk_ereg 7 7 7 7 7 (7, 7) false.
Definition ex_run := mser_process ex_var ex_vlt (fun x => 5 <? fst x) (fun a => 10 <? a) (fun a => a <? 2) true
  (fun a b => 5 * (b - a) <? b) ex_junk ex_dims 2 (repeat 0 12) (repeat (mk_reg (Some 3) 5 1%Z 8) 12) ex_im.
Example C19_ex_good : good_input ex_dims (repeat 0 12) (repeat (mk_reg (Some 3) 5 1%Z 8) 12) ex_im.
Proof.
  split; [repeat constructor|]. split; [reflexivity|]. split; [|split; reflexivity].
  unfold ex_im. repeat (constructor; [apply Nat.ltb_lt; reflexivity|]). constructor.
Qed.
Example C19_ex_order : option_map m_perm ex_run = Some [1; 5; 7; 11; 0; 2; 3; 4; 6; 8; 9; 10].
Proof. vm_compute. reflexivity. Qed.
Example C20_ex_regions :
  option_map (fun res => map (fun e => (e_index e, e_value e, e_area e, e_parent e)) (m_er res)) ex_run =
  Some [(1, 1, 1, 1); (5, 2, 2, 4); (7, 3, 1, 3); (11, 4, 2, 4); (0, 9, 12, 4)].
Proof. vm_compute. reflexivity. Qed.
Example C21_ex_counts :
  option_map (fun res => (m_num_extremal res, m_num_unstable res, m_stats res, m_mer res)) ex_run =
  Some (5, 3, mk_stats 0 0 0 0, [5; 11]).
Proof. vm_compute. reflexivity. Qed.
Example C64_ex_variations :
  option_map (fun res => map e_variation (m_er res)) ex_run = Some [(1, 1); (0, 2); (1, 1); (0, 2); (0, 12)].
Proof. vm_compute. reflexivity. Qed.
Example C65_ex_ellipsoids :
  option_map (map (map Qred)) (do res <- ex_run; ell_fit ex_dims (m_r res) (m_joins res) (m_mer res)) =
  Some [[1; 1 # 2; 0; 0; 1 # 4]; [3; 3 # 2; 0; 0; 1 # 4]]%Q.
Proof. vm_compute. reflexivity. Qed.
