(** C186: requests whose file cannot be read or written. *)

From Coq Require Import ZArith Reals List Bool Lia.
From Verif Require Import Outcome Arith TypesModel ScanModel GraphModel LaserModel MapperModel FileModel SpecMapper SpecMapper2 NdtProofs MapperSteps MapperInv2 MapperWitness2.
Import ListNotations.

Section IO.
Context {T : Type} {A : Arith T} (cf : config T).

(** The node after a request that failed at its file; the graph was free. *)
Definition after_failed_request (m : mapper T) (a : Z) (file : list (bag_msg T)) (m' : mapper T) : Prop :=
  exists m1, exec cf m [Deliver (EvConfigure a file); Spin] = Ok m1 /\ file_exception m1 = Some m'.

Lemma failed_request : forall m a file, sp_pc (mp_spin m) = SIdle -> sh_glock (mp_sh m) = None ->
  Z.testbit a 2 = true \/ Z.testbit a 3 = true ->
  exists s sp, after_failed_request m a file (mkMapper s sp (mp_loop m) (mp_pub m)) /\ sp = mp_spin m /\
    s = set_init (set_enable (mp_sh m) (after_mapping_bits a true false (sh_enable (mp_sh m)))) (after_mapping_bits a (sh_init (mp_sh m)) false (sh_init (mp_sh m))).
Proof.
  intros m a file I G B. destruct m as [s sp lp pb]. cbn [mp_sh mp_spin mp_loop mp_pub] in *. destruct sp as [pc a1 a2 a3 a4 a5 a6]. cbn [sp_pc] in I. subst pc.
  destruct s as [heap scans cons fl gk pk ro od ty en ini gm tr]. cbn [sh_glock] in G. subst gk.
  eexists _, _. split; [|split; reflexivity].
  unfold after_failed_request. cbn [exec step]. unfold deliver. cbn [sp_pc mp_spin mp_sh option_map]. rewrite configure_eq.
  destruct (Z.testbit a 2) eqn:B2; [eexists; split; reflexivity|].
  destruct (Z.testbit a 3) eqn:B3; [eexists; split; reflexivity|]. destruct B; discriminate.
Qed.
End IO.

(** Nothing changes: false if the request also turns mapping off.  Mapping is off and an
    initial pose is needed, though the request failed. *)
Theorem C186_nothing_changes_refuted : forall lm : libm, exists cf m a file m',
  reachable (A := BA (easy lm)) cf m /\ sp_pc (mp_spin m) = SIdle /\ sh_glock (mp_sh m) = None /\
  after_failed_request (A := BA (easy lm)) cf m a file m' /\
  sh_enable (mp_sh m) = true /\ sh_init (mp_sh m) = true /\ sh_enable (mp_sh m') = false /\ sh_init (mp_sh m') = false.
Proof.
  intro lm. set (cf := cf64 lm 10 1 0 None true None).
  destruct (ends64_in (run (A := BA (easy lm)) cf []) (fun m => idle64 m && (sh_enable (mp_sh m) && sh_init (mp_sh m) && negb (locked (sh_glock (mp_sh m)))))) as (m & E & H).
  { vm_compute. reflexivity. }
  apply andb_true_iff in H. destruct H as (H1 & H). apply andb_true_iff in H. destruct H as (H & H4). apply andb_true_iff in H. destruct H as (H2 & H3).
  assert (I : sp_pc (mp_spin m) = SIdle) by (unfold idle64 in H1; destruct (sp_pc (mp_spin m)); first [reflexivity|discriminate H1]).
  assert (G : sh_glock (mp_sh m) = None) by (destruct (sh_glock (mp_sh m)); [discriminate H4|reflexivity]).
  destruct (failed_request (A := BA (easy lm)) cf m 6 [] I G (or_introl eq_refl)) as (s & sp & F & _ & S).
  exists cf, m, 6%Z, [], (mkMapper s sp (mp_loop m) (mp_pub m)). split; [exists []; exact E|]. do 2 (split; [assumption|]). split; [exact F|].
  do 2 (split; [assumption|]). rewrite S. split; reflexivity.
Qed.
Print Assumptions C186_nothing_changes_refuted.

(** True for requests that only load or save: the node is left exactly as it was, so it goes
    on as if there had been no request. *)
Theorem C186_nothing_changes_partial : forall {T} {A : Arith T} (cf : config T) m a file,
  sp_pc (mp_spin m) = SIdle -> sh_glock (mp_sh m) = None -> Z.testbit a 2 = true \/ Z.testbit a 3 = true ->
  Z.testbit a 0 = false -> Z.testbit a 1 = false ->
  (exists m', after_failed_request cf m a file m') /\ forall m', after_failed_request cf m a file m' -> m' = m.
Proof.
  intros T A cf m a file I G B B0 B1. destruct (failed_request cf m a file I G B) as (s & sp & (m1 & E1 & F1) & Q & S).
  split; [eexists; exists m1; split; [exact E1|exact F1]|]. intros m' (m2 & E2 & F2).
  assert (m2 = m1) as -> by congruence. rewrite F1 in F2. injection F2 as <-. rewrite Q, S. unfold after_mapping_bits. rewrite B0, B1.
  destruct m as [s0 sp0 lp0 pb0]. destruct s0. reflexivity.
Qed.
Print Assumptions C186_nothing_changes_partial.

(** For every request: the graph, the poses, what is to be published, matchers, filter, the
    other threads are as before, and no mutex is left locked. *)
Theorem C186_map_kept : forall {T} {A : Arith T} (cf : config T) m a file m',
  sp_pc (mp_spin m) = SIdle -> sh_glock (mp_sh m) = None -> Z.testbit a 2 = true \/ Z.testbit a 3 = true ->
  after_failed_request cf m a file m' ->
  same_graph (mp_sh m) (mp_sh m') /\ same_poses (mp_sh m) (mp_sh m') /\ mutexes m' = mutexes m /\
  sh_flag (mp_sh m') = sh_flag (mp_sh m) /\ sh_typical (mp_sh m') = sh_typical (mp_sh m) /\ sh_global (mp_sh m') = sh_global (mp_sh m) /\
  sh_trace (mp_sh m') = sh_trace (mp_sh m) /\ mp_spin m' = mp_spin m /\ mp_loop m' = mp_loop m /\ mp_pub m' = mp_pub m.
Proof.
  intros T A cf m a file m' I G B (m2 & E2 & F2). destruct (failed_request cf m a file I G B) as (s & sp & (m1 & E1 & F1) & Q & S).
  assert (m2 = m1) as -> by congruence. rewrite F1 in F2. injection F2 as <-. subst s sp. repeat split.
Qed.
Print Assumptions C186_map_kept.

(** Whatever the other threads did meanwhile: the exception itself leaves graph, poses and
    everything else alone, and releases the graph. *)
Theorem C186_any_moment : forall {T} {A : Arith T} (m m' : mapper T), file_exception m = Some m' ->
  same_graph (mp_sh m) (mp_sh m') /\ same_poses (mp_sh m) (mp_sh m') /\ sh_flag (mp_sh m') = sh_flag (mp_sh m) /\
  sh_init (mp_sh m') = sh_init (mp_sh m) /\ sh_enable (mp_sh m') = sh_enable (mp_sh m) /\ sh_trace (mp_sh m') = sh_trace (mp_sh m) /\
  sh_glock (mp_sh m') = None /\ ~ busy (mp_spin m') /\ sp_filter (mp_spin m') = sp_filter (mp_spin m) /\ mp_loop m' = mp_loop m /\ mp_pub m' = mp_pub m.
Proof.
  intros T A m m' E. unfold file_exception in E. destruct (sp_pc (mp_spin m)); try discriminate E; injection E as <-;
    do 3 (split; [repeat split|]); do 4 (split; [reflexivity|]); (split; [intro H; apply H; reflexivity|repeat split]).
Qed.
Print Assumptions C186_any_moment.

Example C186_nonvacuous : forall lm : libm, exists m m',
  reachable (A := BA (easy lm)) (cf64 lm 10 1 0 None true (Some two_scans)) m /\ sp_pc (mp_spin m) = SIdle /\ sh_glock (mp_sh m) = None /\
  after_failed_request (A := BA (easy lm)) (cf64 lm 10 1 0 None true (Some two_scans)) m 4 [] m' /\ List.length (sh_scans (mp_sh m')) = 2%nat.
Proof.
  intro lm. set (cf := cf64 lm 10 1 0 None true (Some two_scans)).
  destruct (ends64_in (run (A := BA (easy lm)) cf []) (fun m => idle64 m && negb (locked (sh_glock (mp_sh m))) && (List.length (sh_scans (mp_sh m)) =? 2)%nat)) as (m & E & H).
  { vm_compute. reflexivity. }
  apply andb_true_iff in H. destruct H as (H & H3). apply andb_true_iff in H. destruct H as (H1 & H2).
  assert (I : sp_pc (mp_spin m) = SIdle) by (unfold idle64 in H1; destruct (sp_pc (mp_spin m)); first [reflexivity|discriminate H1]).
  assert (G : sh_glock (mp_sh m) = None) by (destruct (sh_glock (mp_sh m)); [discriminate H2|reflexivity]).
  destruct (C186_nothing_changes_partial (A := BA (easy lm)) cf m 4 [] I G (or_introl eq_refl) eq_refl eq_refl) as ((m' & F) & K).
  exists m, m'. split; [exists []; exact E|]. do 2 (split; [assumption|]). split; [exact F|]. rewrite (K m' F). apply Nat.eqb_eq. exact H3.
Qed.
