(** Properties C14 and C60: option parsing. *)
From Coq Require Import List ZArith Arith Bool Lia Permutation.
From Verif Require Import Base Getopt_Model Getopt_Spec Getopt_Proofs.
Import ListNotations.
Local Open Scope Z_scope.

(** C14.  Whatever the command line means according to [parses], calling
    getopt_long until it returns -1 reports exactly that, moves the used
    arguments first and the free ones last, each group in order, and leaves
    optind at the first free argument; later calls return -1 again and change
    nothing.  No option value and no option character may itself be -1. *)
Theorem C14_getopt_reports_parse : forall optstring longs prog args evs used free,
  ~ In (-1) optstring -> Forall (fun o => lo_val o <> -1) longs ->
  parses (fst (split_colon optstring)) (snd (split_colon optstring)) longs args evs used free ->
  exists s', (forall fuel, getopt_run (length evs + 1 + fuel) (S (length args)) optstring longs
                 (getopt_init (prog :: args)) = Some (s', evs)) /\
    g_argv s' = map Some (prog :: used ++ free) ++ [None] /\ g_ind s' = S (length used) /\
    exists s'' e, getopt_long (S (length args)) optstring longs s' = Some (s'', e) /\
      ev_ret e = -1 /\ g_argv s'' = g_argv s' /\ g_ind s'' = g_ind s'.
Proof.
  intros optstring longs prog args evs used free HC HV HP.
  assert (HC' : ~ In (-1) (snd (split_colon optstring))).
  { unfold split_colon. destruct optstring as [|c o]; cbn; auto. destruct (c =? 58); cbn; cbn in HC; tauto. }
  assert (HR : ready (S (length args)) [Some prog] [] args (getopt_init (prog :: args))).
  { unfold ready, getopt_init. cbn. auto. }
  destruct (parse_ok optstring longs (S (length args)) HC' HV args evs used free HP [Some prog] []
    (getopt_init (prog :: args)) HR (Forall_nil _)) as (s' & Q1 & Q2 & Q3 & Q4).
  exists s'. split; [auto|]. split; [rewrite Q1; cbn; rewrite map_app, <- app_assoc; reflexivity|].
  split; [rewrite Q2; reflexivity|].
  destruct (finish optstring longs _ HC' _ _ s' Q3) as (s'' & G1 & G2 & G3 & _).
  { cbn [app]. clear - HP. induction HP; auto. }
  eexists _, _. split; [exact G1|]. auto.
Qed.
Print Assumptions C14_getopt_reports_parse.

(** Every command line in which neither "-" nor "--" appears has a meaning, in
    which each argument is used or free exactly once. *)
Theorem C14_getopt_parse_exists : forall colon optstring longs args,
  ~ In [45] args -> ~ In [45; 45] args ->
  exists evs used free, parses colon optstring longs args evs used free /\ Permutation args (used ++ free).
Proof.
  intros colon optstring longs args H1 H2.
  destruct (parses_total colon optstring longs args H1 H2) as (evs & used & free & H).
  exists evs, used, free. split; auto. clear H1 H2.
  induction H as [|a rest evs used free Ha H IH|body rest ev k evs used free HB HL H IH
      |body rest evs1 k evs used free HB HB2 HS H IH]; auto.
  - apply Permutation_cons_app. auto.
  - cbn [app]. constructor. rewrite <- app_assoc, <- (firstn_skipn k rest) at 1. apply Permutation_app_head. auto.
  - cbn [app]. constructor. rewrite <- app_assoc, <- (firstn_skipn k rest) at 1. apply Permutation_app_head. auto.
Qed.
Print Assumptions C14_getopt_parse_exists.

(** -ab x -o v --name=w y, with options a, b and o:, name requiring an argument *)
Example C14_example :
  let longs := [mk_longopt [110; 97] required_argument None 200] in
  let args := [[45; 97; 98]; [120]; [45; 111]; [118]; [45; 45; 110; 97; 61; 119]; [121]] in
  exists s', getopt_run 20 7 [97; 98; 111; 58] longs (getopt_init ([112] :: args)) =
    Some (s', [mk_event 97 None None None; mk_event 98 None None None; mk_event 111 (Some [118]) None None;
               mk_event 200 (Some [119]) (Some 0%nat) None]) /\
    g_argv s' = map Some [[112]; [45; 97; 98]; [45; 111]; [118]; [45; 45; 110; 97; 61; 119]; [120]; [121]] ++ [None]
    /\ g_ind s' = 5%nat /\ ~ In [45] args /\ ~ In [45; 45] args.
Proof.
  cbv zeta. eexists. split; [vm_compute; reflexivity|]. split; [reflexivity|]. split; [reflexivity|].
  split; cbn; intuition discriminate.
Qed.

(** C60 is false.  After "--" the next argument is overwritten in argv and
    skipped, whatever it is; with "--" last, the NULL entry ending argv is overwritten. *)
Theorem C60_double_dash_refuted : forall optstring longs prog x rest,
  exists s' e, getopt_long (S (S (S (length rest)))) optstring longs
     (getopt_init (prog :: [45; 45] :: x :: rest)) = Some (s', e) /\ ev_ret e = -1 /\
  g_ind s' = 3%nat /\ g_argv s' = map Some (prog :: [45; 45] :: [45; 45] :: rest) ++ [None].
Proof.
  intros. unfold getopt_long, getopt_init. destruct (split_colon optstring) as [hc os].
  cbn [g_reset g_place orb g_ind Nat.leb]. eexists _, _. split; [reflexivity|]. auto.
Qed.
Print Assumptions C60_double_dash_refuted.

Theorem C60_double_dash_last_refuted : forall optstring longs prog,
  exists s' e, getopt_long 2 optstring longs (getopt_init [prog; [45; 45]]) = Some (s', e) /\
  ev_ret e = -1 /\ g_ind s' = 3%nat /\ g_argv s' = [Some prog; Some [45; 45]; Some [45; 45]].
Proof.
  intros. unfold getopt_long, getopt_init. destruct (split_colon optstring) as [hc os].
  eexists _, _. split; [reflexivity|]. auto.
Qed.
Print Assumptions C60_double_dash_last_refuted.

(** The argument "-" makes the parser read past its strings. *)
Theorem C60_single_dash_refuted : forall optstring longs prog,
  getopt_long 2 optstring longs (getopt_init [prog; [45]]) = None.
Proof.
  intros. unfold getopt_long, getopt_init. destruct (split_colon optstring) as [hc os]. reflexivity.
Qed.
Print Assumptions C60_single_dash_refuted.
