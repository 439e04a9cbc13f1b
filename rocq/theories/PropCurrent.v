(** C105: localization and the current map. *)

From Coq Require Import ZArith List Bool String Lia.
From Flocq Require Import Core BinarySingleNaN.
From Verif Require Import Outcome Arith NdtProofs TypesModel ScanModel NdtModel CellModel MatcherModel ConstraintModel
  SolverModel GraphModel OccGridModel MotionModel FilterModel LaserModel MapperModel SpecMapper SpecMapper2 SpecFreeze SpecCurrent
  MapperSteps MapperInv1 MapperInv2 MapperInv3 MapperInv5 MapperInv6 MapperWitness2 PropFreeze.
Import ListNotations.
Local Open Scope outcome_scope.

Section P.
Context {T : Type} {A : Arith T}.
Context (cf : config T).

(** ** The matcher never changes *)
Lemma matcher_step : forall l m m', localizing m -> sp_frame (mp_spin m) <> EmptyString -> no_enable l -> step_tr cf m l m' ->
  localizing m' /\ sp_frame (mp_spin m') = sp_frame (mp_spin m) /\ sh_global (mp_sh m') = sh_global (mp_sh m).
Proof.
  intros l m m' [E Sl] Fr Ne H. destruct H as [e s' sp' Id D|s' sp' D|s' l' D|s' p' D]; unfold localizing; cbn [mp_sh mp_spin mp_loop].
  - destruct D; try (split; [split; [exact E|exact Sl]|split; reflexivity]).
    + match goal with L : learns _ _ _ _ _ |- _ => destruct L as [E1 E2 E3|r k E1 E2 E3 E4] end; [|contradiction (Fr E1)].
      split; [split; [exact E|exact Sl]|]. split; [exact E2|exact E1].
    + match goal with L : learns _ _ _ _ _ |- _ => destruct L as [E1 E2 E3|r k E1 E2 E3 E4] end; [|contradiction (Fr E1)].
      split; [split; [exact E|exact Sl]|]. split; [exact E2|exact E1].
    + specialize (Ne a file eq_refl). rewrite configure_eq. unfold after_mapping_bits. rewrite Ne. cbn [fst snd].
      split; [split; [cbn [sh_enable set_init set_enable]; destruct (Z.testbit a 1); [reflexivity|exact E]|exact Sl]|]. split; reflexivity.
  - destruct D; try (split; [split; [exact E|exact Sl]|split; reflexivity]).
    destruct upd; (split; [split; [exact E|exact Sl]|split; reflexivity]).
  - destruct D; match goal with Q : lp_pc _ = _ |- _ => rewrite Sl in Q; try discriminate Q end.
    + split; [split; [exact E|exact Sl]|split; reflexivity].
    + congruence.
  - destruct D; (split; [split; [exact E|exact Sl]|split; reflexivity]).
Qed.

Lemma matcher_exec : forall ls m m', localizing m -> sp_frame (mp_spin m) <> EmptyString -> Forall no_enable ls -> exec cf m ls = Ok m' ->
  localizing m' /\ sh_global (mp_sh m') = sh_global (mp_sh m).
Proof.
  induction ls as [|l ls IH]; intros m m' L Fr F E; cbn [exec] in E; [injection E as <-; split; [exact L|reflexivity]|].
  inversion F as [|? ? F1 F2]; subst. destruct (step cf l m) as [o|] eqn:St; [|apply IH; assumption].
  apply bind_ok in E. destruct E as (m1 & -> & E). apply step_cases in St.
  destruct (matcher_step l m m1 L Fr F1 St) as (L1 & Fr1 & G1).
  destruct (IH m1 m' L1) as (L2 & G2); [rewrite Fr1; exact Fr|exact F2|exact E|]. split; [exact L2|]. rewrite G2. exact G1.
Qed.

(** ** Maps loaded before the first laser message *)
Lemma current_step : forall l m m', reachable cf m -> loads_first m l -> localizing m /\ whole_map cf m -> step_tr cf m l m' ->
  localizing m' /\ whole_map cf m'.
Proof.
  intros l m m' R [Ne Ld] [[E Sl] W] H. pose proof (heap_reachable cf m R) as [Hp Ap]. pose proof (off_reachable cf m R E) as Of.
  assert (keep : forall s' sp' l' p', graph_scans s' = graph_scans (mp_sh m) -> sh_global s' = sh_global (mp_sh m) -> whole_map cf (mkMapper s' sp' l' p')).
  { intros s' sp' l' p' E1 E2. unfold whole_map. cbn [mp_sh]. rewrite E1, E2. exact W. }
  assert (learn : forall sp' g s' l' p', learns cf (mp_sh m) (mp_spin m) g sp' -> graph_scans s' = graph_scans (mp_sh m) -> sh_global s' = g ->
     whole_map cf (mkMapper s' sp' l' p')).
  { intros sp' g s' l' p' L E1 E2. destruct L as [L1 L2 L3|r k L1 L2 L3 L4]; [apply keep; congruence|]. right.
    destruct L4 as [(_ & sc & G & M)|(Q & _)]; [|rewrite E in Q; cbn [negb] in Q; rewrite orb_true_r in Q; discriminate Q].
    exists r, sc, k. cbn [mp_sh]. split; [congruence|]. split; [exact M|congruence]. }
  destruct H as [e s' sp' Id D|s' sp' D|s' l' D|s' p' D]; unfold localizing; cbn [mp_sh mp_spin mp_loop mp_pub] in *.
  - destruct D.
    + split; [split; [exact E|exact Sl]|]. eapply learn; [eassumption|reflexivity|reflexivity].
    + split; [split; [exact E|exact Sl]|]. eapply learn; [eassumption| |reflexivity]. eapply (graph_scans_grow (mp_sh m)); [exact Hp|reflexivity|reflexivity].
    + split; [split; [exact E|exact Sl]|]. apply keep; reflexivity.
    + split; [split; [exact E|exact Sl]|]. apply keep; reflexivity.
    + congruence.
    + split; [split; [exact E|exact Sl]|]. apply keep; reflexivity.
    + specialize (Ne a file eq_refl). rewrite configure_eq. unfold after_mapping_bits. rewrite Ne. cbn [fst snd].
      split; [split; [cbn [sh_enable set_init set_enable]; destruct (Z.testbit a 1); [reflexivity|exact E]|exact Sl]|]. apply keep; reflexivity.
  - destruct D; match goal with Q : sp_pc (mp_spin m) = _ |- _ => rename Q into Pc; rewrite Pc in * end; cbn [adding apart] in *;
      try (contradiction Of; exact I);
      try (split; [split; [exact E|exact Sl]|]; apply keep; reflexivity).
    + split; [split; [exact E|exact Sl]|]. apply keep; [|reflexivity]. eapply (graph_scans_apart (mp_sh m)); [apply Ap|reflexivity|reflexivity].
    + split; [split; [exact E|exact Sl]|]. apply keep; [|reflexivity]. eapply (graph_scans_apart (mp_sh m)); [apply Ap|reflexivity|reflexivity].
    + destruct upd; (split; [split; [exact E|exact Sl]|]; apply keep; reflexivity).
    + split; [split; [exact E|exact Sl]|]. left. exact (Ld eq_refl file eq_refl).
  - destruct D; match goal with Q : lp_pc _ = _ |- _ => rewrite Sl in Q; try discriminate Q end.
    + split; [split; [exact E|exact Sl]|]. apply keep; reflexivity.
    + congruence.
  - destruct D; (split; [split; [exact E|exact Sl]|]; apply keep; reflexivity).
Qed.

Lemma current_reach : cf_enable cf = false -> forall m, reach_if cf loads_first m -> reachable cf m /\ localizing m /\ whole_map cf m.
Proof.
  intros En m R. induction R as [m Im|m l m' R (R0 & L) Lv S].
  - split; [exists []; unfold run; rewrite Im; reflexivity|]. apply init_cases in Im. destruct Im as (s & f & -> & _ & ->).
    unfold localizing, whole_map. cbn [mp_sh mp_loop lp_pc]. destruct (cf_file cf); (split; [split; [exact En|reflexivity]|left; reflexivity]).
  - split; [apply (reach_next cf l m); assumption|]. apply (current_step l m m' R0 Lv L). apply step_cases. exact S.
Qed.
End P.

(** C105: false as stated.  Once the laser is known, the matcher used for
    localization never changes while mapping is off, whatever maps are loaded. *)
Theorem C105_matcher_never_follows : forall {T} {A : Arith T} (cf : config T) m ls m',
  localizing m -> sp_frame (mp_spin m) <> EmptyString -> Forall no_enable ls -> exec cf m ls = Ok m' ->
  localizing m' /\ sh_global (mp_sh m') = sh_global (mp_sh m).
Proof. intros T A cf m ls m' L F N E. exact (matcher_exec cf ls m m' L F N E). Qed.
Print Assumptions C105_matcher_never_follows.

(** Localization node started with mapping off; then all is well as long as maps
    are loaded before the first laser message. *)
Theorem C105_current_map_partial : forall {T} {A : Arith T} (cf : config T), cf_enable cf = false ->
  forall m, reach_if cf loads_first m -> localizing m /\ whole_map cf m.
Proof. intros T A cf En m R. apply (current_reach cf En m R). Qed.
Print Assumptions C105_current_map_partial.

(** ** Witnesses *)
(** The node localizes in the map of one scan and is given a map of two scans. *)
Definition loc64 (lm : libm) (en : bool) (f : list (bag_msg b64)) : config b64 := cf64 lm 10 1 0 None en (Some f).
Definition other_map : list (label b64) := Deliver (beam64 [] 0 0) :: load64 two_scans.
(** The node maps, starting from two scans, and then mapping is switched off. *)
Definition switched_off : list (label b64) := [Deliver (beam64 [] 0 0); Deliver (EvConfigure 2 [])].

Definition localizing_b (m : mapper b64) : bool := negb (sh_enable (mp_sh m)) && match lp_pc (mp_loop m) with LSleep => true | _ => false end.
Lemma localizing_sound : forall m, localizing_b m = true -> localizing m.
Proof.
  intros m H. apply andb_prop in H. destruct H as [H1 H2]. split; [destruct (sh_enable (mp_sh m)); [discriminate H1|reflexivity]|].
  destruct (lp_pc (mp_loop m)); try discriminate H2. reflexivity.
Qed.
Lemma other_map_run : forall lm : libm, ends64 (run (A := BA (easy lm)) (loc64 lm false one_scan) other_map)
  (fun m => localizing_b m && partial_map (easy lm) (loc64 lm false one_scan) m) = true.
Proof. intro lm. vm_compute. reflexivity. Qed.
Lemma switched_off_run : forall lm : libm, ends64 (run (A := BA (easy lm)) (loc64 lm true two_scans) switched_off)
  (fun m => localizing_b m && partial_map (easy lm) (loc64 lm true two_scans) m) = true.
Proof. intro lm. vm_compute. reflexivity. Qed.

Theorem C105_current_map_refuted : forall lm : libm,
  (exists m, run (A := BA (easy lm)) (loc64 lm false one_scan) other_map = Ok m /\ localizing m /\ ~ whole_map (A := BA (easy lm)) (loc64 lm false one_scan) m) /\
  (exists m, run (A := BA (easy lm)) (loc64 lm true two_scans) switched_off = Ok m /\ localizing m /\ ~ whole_map (A := BA (easy lm)) (loc64 lm true two_scans) m).
Proof.
  intro lm. split.
  - destruct (ends64_in _ _ (other_map_run lm)) as (m & E & H). apply andb_prop in H. destruct H as [H1 H2]. exists m. split; [exact E|].
    split; [apply localizing_sound; exact H1|]. apply partial_sound; [reflexivity|exact H2].
  - destruct (ends64_in _ _ (switched_off_run lm)) as (m & E & H). apply andb_prop in H. destruct H as [H1 H2]. exists m. split; [exact E|].
    split; [apply localizing_sound; exact H1|]. apply partial_sound; [reflexivity|exact H2].
Qed.
Print Assumptions C105_current_map_refuted.

(** A map is loaded before the first laser message. *)
Definition first_loaded : list (label b64) := load64 two_scans ++ [Deliver (beam64 [] 0 0)].
Definition loads_first_b (m : mapper b64) (l : label b64) : bool :=
  match l with Deliver (EvConfigure a _) => negb (Z.testbit a 0) | _ => true end &&
  match sp_pc (mp_spin m) with SLoad _ => match sh_global (mp_sh m) with None => true | _ => false end | _ => true end.
Lemma loads_first_sound : forall m l, loads_first_b m l = true -> loads_first m l.
Proof.
  intros m l H. apply andb_prop in H. destruct H as [H1 H2]. split.
  - intros a file ->. destruct (Z.testbit a 0); [discriminate H1|reflexivity].
  - intros _ file E. rewrite E in H2. destruct (sh_global (mp_sh m)); [discriminate H2|reflexivity].
Qed.
Lemma first_loaded_run : forall lm : libm, ends64 (run (A := BA (easy lm)) (loc64 lm false one_scan) first_loaded)
  (fun m => match sh_global (mp_sh m) with Some k => six_points k | None => false end && (List.length (sh_scans (mp_sh m)) =? 2)%nat) = true.
Proof. intro lm. vm_compute. reflexivity. Qed.
Lemma first_loaded_ok : forall lm : libm, run_ok (easy lm) (loc64 lm false one_scan) loads_first_b first_loaded = true.
Proof. intro lm. vm_compute. reflexivity. Qed.
Lemma other_map_frame : forall lm : libm, ends64 (run (A := BA (easy lm)) (loc64 lm false one_scan) [Deliver (beam64 [] 0 0)])
  (fun m => localizing_b m && negb (String.eqb (sp_frame (mp_spin m)) EmptyString)) = true.
Proof. intro lm. vm_compute. reflexivity. Qed.

Example C105_nonvacuous : forall lm : libm,
  (exists m k, reach_if (A := BA (easy lm)) (loc64 lm false one_scan) loads_first m /\ sh_global (mp_sh m) = Some k /\ six_points k = true /\
     List.length (sh_scans (mp_sh m)) = 2%nat) /\
  (exists m, run (A := BA (easy lm)) (loc64 lm false one_scan) [Deliver (beam64 [] 0 0)] = Ok m /\ localizing m /\ sp_frame (mp_spin m) <> EmptyString).
Proof.
  intro lm. split.
  - destruct (ends64_in _ _ (first_loaded_run lm)) as (m & E & H). apply andb_prop in H. destruct H as [H1 H2]. apply Nat.eqb_eq in H2.
    destruct (sh_global (mp_sh m)) as [k|] eqn:K; [|discriminate H1]. exists m, k.
    split; [apply (run_reach (easy lm) _ loads_first_b) with (ls := first_loaded); [exact loads_first_sound|apply first_loaded_ok|exact E]|].
    split; [exact K|]. split; [exact H1|exact H2].
  - destruct (ends64_in _ _ (other_map_frame lm)) as (m & E & H). apply andb_prop in H. destruct H as [H1 H2]. exists m. split; [exact E|].
    split; [apply localizing_sound; exact H1|]. intro Q. rewrite Q in H2. discriminate H2.
Qed.
