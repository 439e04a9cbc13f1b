(** Property C178: a loop closure disturbs only the constraints of the scan it moves. *)

From Coq Require Import ZArith Reals List Bool Lia Lra.
From Flocq Require Import Core BinarySingleNaN.
From Verif Require Import Outcome Arith TypesModel ScanModel ConstraintModel GraphModel MatcherModel LaserModel MotionModel FilterModel MapperModel SpecPose SpecLaser SpecGraph
  SpecMapper SpecMapper2 SpecMapper4 SpecSolver SpecOptim SpecExact SpecClosed RTactics B64Tactics B64Lemmas NdtProofs PropConstraint PropResidual64 LaserB64
  MapperProofs MapperSteps MapperInv1 MapperInv2 MapperInv3 MapperInv9 MapperWitness2 PropMapper3 PropClosure PropExact ClosedProofs.
Import ListNotations.

(** C178: between runs of the optimizer, outside the moment in which a laser callback
    adds its scan, the motion of a constraint leads exactly from its one scan to the
    other, unless one of them was moved by a loop closure and is not among the first
    rolling_depth + 1 scans. *)
Theorem C178_closures_disturb_little (cf : config R) : (0 <= cf_depth cf)%Z -> search_in_range (en_search cf) -> fitting_start leads cf ->
  forall m, reach_if cf (unoptimized leads cf) m -> ~ half_added m ->
  exists g, the_graph cf (mp_sh m) = Ok g /\ Forall (says_unless_moved leads (cf_depth cf) (mp_sh m)) (gr_constraints g).
Proof.
  intros D S St m R N. destruct (closed_graph leads (fun f t c => proj1 (C28_constraint_reproduces_relative_pose f t c)) cf D S St m R N) as (g & G & _ & F).
  exists g. split; assumption.
Qed.
Print Assumptions C178_closures_disturb_little.

(** So the first scans stay as their constraints say. *)
Theorem C178_first_scans (cf : config R) : (0 <= cf_depth cf)%Z -> search_in_range (en_search cf) -> fitting_start leads cf ->
  forall m, reach_if cf (unoptimized leads cf) m -> ~ half_added m ->
  exists g, the_graph cf (mp_sh m) = Ok g /\
    Forall (fun c => (c_begin c <= cf_depth cf)%Z -> (c_end c <= cf_depth cf)%Z -> says leads (gr_scans g) c) (gr_constraints g).
Proof.
  intros D S St m R N. destruct (C178_closures_disturb_little cf D S St m R N) as (g & G & F). exists g. split; [exact G|].
  destruct (the_graph_length _ _ _ G) as (_ & _ & Gs).
  revert F. apply Forall_impl. intros c (B1 & B2 & p & q & a & b & H1 & H2 & H3 & H4 & H5) L1 L2. split; [exact B1|]. split; [exact B2|]. exists a, b.
  destruct (graph_scans_nth _ _ _ _ Gs H1) as (a' & A2 & A1). destruct (graph_scans_nth _ _ _ _ Gs H2) as (b' & B4 & B3).
  rewrite H3 in A1. injection A1 as <-. rewrite H4 in B3. injection B3 as <-. split; [exact A2|]. split; [exact B4|].
  destruct H5 as [H5|[[H5 _]|[H5 _]]]; [exact H5|lia|lia].
Qed.
Print Assumptions C178_first_scans.

(** In doubles: the residuals of such constraints are exactly zero. *)
Theorem C178_doubles (lm : libm) (cf : config b64) : trig_ok lm -> (0 <= cf_depth cf)%Z -> search_in_range (en_search cf) ->
  fitting_start (A := BA lm) (no_error64 lm) cf ->
  forall m, reach_if (A := BA lm) cf (unoptimized (A := BA lm) (no_error64 lm) cf) m -> ~ half_added m ->
  exists g, the_graph cf (mp_sh m) = Ok g /\ Forall (says_unless_moved (no_error64 lm) (cf_depth cf) (mp_sh m)) (gr_constraints g).
Proof.
  intros Tr D S St m R N. destruct (closed_graph (A := BA lm) (no_error64 lm)) with (cf := cf) (m := m) as (g & G & _ & F); try assumption; [|exists g; split; assumption].
  intros from to cov Ua Ub Fi. exact (C127_fresh_constraint_zero_residual lm from to cov Tr Ua Ub Fi).
Qed.
Print Assumptions C178_doubles.

(** Two scans with the constraint between them; a loop closure moves the second, then
    an initial pose adds a third. *)
Definition half_edge : bag_msg b64 :=
  BConstraint (mkConstraintMsg 0 1 (mkGpoint half64 half64 (z64 0)) [z64 1; z64 0; z64 0; z64 0; z64 1; z64 0; z64 0; z64 0; z64 1] false).
Definition closing_cf (lm : libm) : config b64 := cf64 (with_trig lm) 0 1 2 None true (Some (two_scans ++ [half_edge])).
Definition loop_moved (m : mapper b64) : bool := sizes m 3 3 && negb (half_b m) && existsb (fun o => match o with ObMove _ _ => true | _ => false end) (sh_trace (mp_sh m)).
Lemma half_edge_fits (lm : libm) : fits (no_error64 (easy (with_trig lm))) (graph_load (A := BA (easy (with_trig lm))) false (two_scans ++ [half_edge])).
Proof.
  constructor; [|constructor]. split; [vm_compute; discriminate|]. split; [vm_compute; discriminate|]. eexists. eexists. split; [reflexivity|]. split; [reflexivity|].
  intros _ _ _ r. assert (Q : is0 (v0 r) && is0 (v1 r) && is0 (v2 r) = true) by (vm_compute; reflexivity).
  apply andb_prop in Q. destruct Q as [Q Q3]. apply andb_prop in Q. destruct Q as [Q1 Q2].
  assert (Z0 : forall x : b64, is0 x = true -> is_zero x) by (intros [] E; try discriminate E; split; reflexivity).
  repeat split; apply Z0; assumption.
Qed.
Definition unoptimized_b (m : mapper b64) (l : label b64) : bool :=
  unloaded_b m l && match lp_pc (mp_loop m) with LOptRun => false | _ => true end.
Example C178_nonvacuous (lm : libm) : let em := easy (with_trig lm) in trig_ok em /\ fitting_start (A := BA em) (no_error64 em) (closing_cf lm) /\
  exists m, reach_if (A := BA em) (closing_cf lm) (unoptimized (A := BA em) (no_error64 em) (closing_cf lm)) m /\ ~ half_added m /\
    num_scans (mp_sh m) = 3%Z /\ List.length (sh_cons (mp_sh m)) = 3%nat /\ exists p, moved (sh_trace (mp_sh m)) p.
Proof.
  intro em. split; [apply (C177_doubles_nonvacuous lm)|]. split.
  - split; intros f E; injection E as <-; [apply spanning_sound; vm_compute; reflexivity|exact (half_edge_fits lm)].
  - destruct (ends64_in (run (A := BA em) (closing_cf lm) lost_schedule) loop_moved) as (m & E & H); [vm_compute; reflexivity|].
    apply andb_prop in H. destruct H as [H H3]. apply andb_prop in H. destruct H as [H H2].
    apply andb_prop in H. destruct H as [H H1]. apply Nat.eqb_eq in H. apply Nat.eqb_eq in H1. exists m.
    split; [apply (run_reach em _ unoptimized_b) with (ls := lost_schedule); [|vm_compute; reflexivity|exact E]|].
    + intros m0 l B. apply andb_prop in B. destruct B as [B1 B2]. apply unloaded_sound in B1. destruct B1 as [B N]. split; [|split].
      * split; [exact B|]. intros S file P. contradiction (N S file P).
      * intros _ Q. rewrite Q in B2. discriminate B2.
      * intros S file P. contradiction (N S file P).
    + split; [apply half_sound; destruct (half_b m); [discriminate H2|reflexivity]|]. split; [unfold num_scans; rewrite H; reflexivity|].
      split; [exact H1|]. apply existsb_exists in H3. destruct H3 as (o & I & O). destruct o; try discriminate O. exists p, q. exact I.
Qed.
