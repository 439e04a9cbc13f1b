(** C175: when no more messages arrive the node comes to rest. *)

From Coq Require Import ZArith List Bool String Lia.
From Flocq Require Import Core BinarySingleNaN.
From Verif Require Import Outcome Arith TypesModel ScanModel MatcherModel ConstraintModel
  SolverModel GraphModel OccGridModel MotionModel FilterModel LaserModel MapperModel SpecMapper SpecMapper2 SpecNode SpecRest
  MapperSteps MapperWitness2 NodeLive NodeFair NodeQuiet PropNode2 PropMapper2 RestProofs.
Import ListNotations.

Theorem C175_rest : forall {T} {A : Arith T} (cf : config T) st lb, mapper_init cf = Ok (st 0) -> lives cf st lb -> fair cf st lb ->
  (0 <= cf_depth cf)%Z -> (forall n, (num_scans (mp_sh (st n)) < 2 ^ 64)%Z) ->
  forall n0, silent_from lb n0 -> exists N, (n0 <= N)%nat /\ at_rest st N.
Proof. 
  intros T A cf st lb I L F D B n0 Q. destruct (comes_to_rest cf D st lb I L F B n0 Q) as (N & H1 & H2 & _). exists N. split; assumption.
Qed.
Print Assumptions C175_rest.

(** ... and what was published last is what there is, unless an initial pose was
    added to the graph since (C66). *)
Theorem C66_at_rest_partial : forall {T} {A : Arith T} (cf : config T) st lb, mapper_init cf = Ok (st 0) -> lives cf st lb -> fair cf st lb ->
  (0 <= cf_depth cf)%Z -> (forall n, (num_scans (mp_sh (st n)) < 2 ^ 64)%Z) ->
  forall n0, silent_from lb n0 -> exists N, (n0 <= N)%nat /\ at_rest st N /\ forall n, (N <= n)%nat ->
    (map_current (mp_sh (st n)) \/ pose_since_map (sh_trace (mp_sh (st n)))) /\
    (markers_current cf (mp_sh (st n)) \/ pose_since_markers (sh_trace (mp_sh (st n)))).
Proof.
  intros T A cf st lb I L F D B n0 Q. destruct (comes_to_rest cf D st lb I L F B n0 Q) as (N & H1 & H2 & H3). exists N. split; [exact H1|]. split; [exact H2|].
  destruct (C66_updates_published_partial cf (st N) (st_reachable cf st lb I L N) H3 (proj1 H2)) as [M1 M2].
  intros n Hn. apply (stays_shown cf st N H2 M1 M2 n Hn).
Qed.
Print Assumptions C66_at_rest_partial.

(** A map with two scans is loaded, one pass of loop closure is made, the map is
    published. *)
Example C175_nonvacuous : forall lm, let cf := apart_cf lm in exists st lb,
  mapper_init (A := BA (easy lm)) cf = Ok (st 0) /\ lives (A := BA (easy lm)) cf st lb /\ fair (A := BA (easy lm)) cf st lb /\
  (0 <= cf_depth cf)%Z /\ (forall n, (num_scans (mp_sh (st n)) < 2 ^ 64)%Z) /\ silent_from lb 0 /\ ~ at_rest st 0.
Proof.
  intros lm cf.
  destruct (witness lm cf apart_schedule) as (st & lb & I & L & F & B & P & P' & Q); [apply Z.le_refl|vm_compute; reflexivity|].
  exists st, lb. split; [exact I|]. split; [exact L|]. split; [exact F|]. split; [apply Z.le_refl|]. split; [exact B|]. split.
  - intros n e _ E. destruct (Nat.le_gt_cases (List.length apart_schedule) n) as [Hn|Hn].
    + destruct (Q n Hn) as ([E'|E'] & _); rewrite E' in E; discriminate E.
    + rewrite (P' n Hn) in E. revert E. cbn in Hn. do 20 (destruct n as [|n]; [discriminate|]). lia.
  - intros [Fl _].
    assert (C : start64 lm cf (fun m => sh_flag (mp_sh m)) = true) by (vm_compute; reflexivity).
    unfold start64 in C. rewrite I in C. cbn [ends64] in C. rewrite Fl in C. discriminate C.
Qed.
