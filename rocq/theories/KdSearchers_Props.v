(** C18: the searcher list of a forest. *)
From Coq Require Import List Arith.
From Verif Require Import Base KdSearchers_Model KdSearchers_Spec KdSearchers_Proofs.
Import ListNotations.

(** Any legal interleaving of creations and deletions runs without touching
    freed memory; afterwards get_searcher(pos) is the pos-th live searcher in
    creation order (NULL beyond the last), the count is right, and no other
    searcher object is allocated. *)
Theorem C18_searchers_are_the_live_ones :
  forall ops live, live_after [] ops live ->
  exists f, srun sforest_new ops = Some f /\
    (forall pos, get_searcher f pos = Some (nth_error live pos)) /\
    f_num f = length live /\
    (forall a, f_mem f a <> None <-> In a live).
Proof.
  intros ops live H. destruct (srun_ok _ _ _ _ sinv_new H) as (f & E & I).
  exists f. split; [exact E|]. split; [intro; now apply get_ok|].
  destruct I as (ND & Hh & Hn & HL & Hf). split; auto.
  intro a. split.
  - intro X. destruct (in_dec Nat.eq_dec a live) as [|N]; auto. now rewrite (Hf a N) in X.
  - intro X. apply in_split in X. destruct X as (l1 & l2 & ->).
    apply seg_app in HL. destruct HL as [_ [HL _]]. now rewrite HL.
Qed.
Print Assumptions C18_searchers_are_the_live_ones.

(** Deleting the forest releases every searcher, without touching freed memory. *)
Theorem C18_forest_delete_releases_all :
  forall ops live, live_after [] ops live ->
  exists f f', srun sforest_new ops = Some f /\
    delete_all (S (f_num f)) f = Some f' /\ forall a, f_mem f' a = None.
Proof.
  intros ops live H. destruct (srun_ok _ _ _ _ sinv_new H) as (f & E & I).
  destruct (delete_all_ok live f (S (f_num f)) I) as (f' & E' & (_ & _ & _ & _ & I')).
  { destruct I as (_ & _ & -> & _). auto. }
  exists f, f'. repeat split; auto.
Qed.
Print Assumptions C18_forest_delete_releases_all.

(** A concrete history: three searchers, the middle one deleted, its address
    reused, the head deleted. *)
Definition ex_sops := [SNew 10; SNew 20; SNew 30; SDelete 20; SNew 20; SDelete 10].
Example C18_ex_legal : live_after [] ex_sops [30; 20].
Proof.
  apply la_new; [intros []|]. apply la_new; [cbn; intuition discriminate|].
  apply la_new; [cbn; intuition discriminate|].
  apply (la_delete [10] 20 [30]). apply la_new; [cbn; intuition discriminate|].
  apply (la_delete [] 10 [30; 20]). apply la_nil.
Qed.
Example C18_ex_run :
  option_map (fun f => (get_searcher f 0, get_searcher f 1, get_searcher f 2, f_num f))
    (srun sforest_new ex_sops) = Some (Some (Some 30), Some (Some 20), Some None, 2).
Proof. vm_compute. reflexivity. Qed.
