(** Properties C53 - C56, C80: the pose graph optimizer.  C53 - C55 and C80 hold
    in every arithmetic. *)

From Coq Require Import ZArith Reals List.
From Verif Require Import Outcome Arith TypesModel ScanModel ConstraintModel SolverModel SpecSolver SolverProofs.
Import ListNotations.

Theorem C53_failed_optimization_changes_nothing : forall {T} {A : Arith T}
    (ceres : ceres_oracle T) st cs scans st' scans',
  optimize ceres st cs scans = Ok (false, st', scans') -> scans' = scans.
Proof. exact @optimize_failure. Qed.
Print Assumptions C53_failed_optimization_changes_nothing.

Theorem C53_result_reports_usability : forall {T} {A : Arith T}
    (ceres : ceres_oracle T) st cs scans b st' scans',
  optimize ceres st cs scans = Ok (b, st', scans') ->
  (b = true <-> scans <> [] /\ exists p, prepare st cs scans = Ok p /\
      fst (ceres (sv_blocks p) (sv_const p) (sv_nodes p)) = true).
Proof. exact @optimize_result. Qed.
Print Assumptions C53_result_reports_usability.

Theorem C53_only_poses_change : forall {T} {A : Arith T}
    (ceres : ceres_oracle T) st cs scans b st' scans',
  optimize ceres st cs scans = Ok (b, st', scans') ->
  map s_id scans' = map s_id scans /\ map s_pts scans' = map s_pts scans.
Proof. exact @optimize_keeps. Qed.
Print Assumptions C53_only_poses_change.

Example C53_nonvacuous :
  (exists st, optimize (keep_all false) solver_new map1_edges map1_scans = Ok (false, st, map1_scans)) /\
  (exists st sc, optimize (keep_all true) solver_new map1_edges map1_scans = Ok (true, st, sc)).
Proof. exact (conj demo_failure demo_success). Qed.

Theorem C54_first_scan_anchors : forall {T} {A : Arith T}
    (ceres : ceres_oracle T) st cs scans st' scans',
  keeps_constant ceres -> keeps_nodes ceres -> NoDup (int_ids scans) ->
  optimize ceres st cs scans = Ok (true, st', scans') ->
  exists p, prepare st cs scans = Ok p /\
    let sol := snd (ceres (sv_blocks p) (sv_const p) (sv_nodes p)) in
    (forall s, In s scans -> nodes_find (sv_nodes p) (to_int32 (s_id s)) = Some (pose_vec (s_pose s))) /\
    (forall i s, nth_error scans i = Some s ->
       exists v s', nodes_find sol (to_int32 (s_id s)) = Some v /\
         nth_error scans' i = Some s' /\ s_pose s' = vec_pose v) /\
    (forall s, nth_error scans 0 = Some s ->
       exists s', nth_error scans' 0 = Some s' /\ s_pose s' = s_pose s).
Proof. exact @optimize_success. Qed.
Print Assumptions C54_first_scan_anchors.

Example C54_nonvacuous : keeps_constant (keep_all true) /\ keeps_nodes (keep_all true) /\
  NoDup (int_ids map1_scans) /\
  (exists st sc, optimize (keep_all true) solver_new map1_edges map1_scans = Ok (true, st, sc)).
Proof. exact (conj (keep_all_constant true) (conj (keep_all_nodes true) (conj demo_nodup demo_success))). Qed.

Theorem C55_every_constraint_once : forall {T} {A : Arith T}
    (ceres : ceres_oracle T) calls cs scans st p,
  growing [] [] (calls ++ [(cs, scans)]) ->
  optimize_run ceres solver_new calls = Ok st -> prepare st cs scans = Ok p ->
  Forall2 (block_for (int_ids scans)) cs (sv_blocks p).
Proof. exact @problem_complete. Qed.
Print Assumptions C55_every_constraint_once.

Example C55_nonvacuous : growing [] [] ([(map1_edges, map1_scans)] ++
    [(map1_edges ++ [demo_edge 1 0 3], map1_scans)]) /\
  exists st p, optimize_run (keep_all true) solver_new [(map1_edges, map1_scans)] = Ok st /\
    prepare st (map1_edges ++ [demo_edge 1 0 3]) map1_scans = Ok p.
Proof. exact demo_growing. Qed.

(** C56 is false as stated: the solver keeps the old problem. *)
Theorem C56_loaded_map_refuted :
  ~ (forall (ceres : ceres_oracle R) cs1 scans1 b st sc cs2 scans2 p,
      optimize ceres solver_new cs1 scans1 = Ok (b, st, sc) ->
      prepare st cs2 scans2 = Ok p ->
      Forall2 (block_for (int_ids scans2)) cs2 (sv_blocks p)).
Proof. exact loaded_map_refuted. Qed.
Print Assumptions C56_loaded_map_refuted.

(** Exactly what is solved: the old blocks, and only those constraints whose
    index is beyond the number of constraints seen before; everything is right
    if the solver has not been used before loading. *)
Theorem C56_problem_of_any_call_partial : forall {T} {A : Arith T}
    (st : solver T) cs scans p, prepare st cs scans = Ok p ->
  exists bs, sv_blocks p = sv_blocks st ++ bs /\
    Forall2 (block_for (int_ids scans)) (skipn (sv_num st) cs) bs /\ sv_num p = length cs.
Proof. exact @problem_any_call. Qed.
Print Assumptions C56_problem_of_any_call_partial.

Theorem C56_fresh_solver_partial : forall {T} {A : Arith T} (cs : list (constraint T)) scans p,
  prepare solver_new cs scans = Ok p -> Forall2 (block_for (int_ids scans)) cs (sv_blocks p).
Proof.
  exact (fun T A cs scans p H => problem_complete (fun _ _ ns => (true, ns)) [] cs scans solver_new p
    (conj (ex_intro _ cs eq_refl) (conj (ex_intro _ (int_ids scans) eq_refl) I)) eq_refl H).
Qed.
Print Assumptions C56_fresh_solver_partial.

Example C56_nonvacuous : exists p, prepare solver_new map2_edges map2_scans = Ok p.
Proof. eexists. cbn. reflexivity. Qed.

(** C80: exactly when optimize does not abort or read out of bounds. *)
Theorem C80_optimize_defined_iff : forall {T} {A : Arith T}
    (ceres : ceres_oracle T) st cs scans, solver_ok cs (int_ids scans) st ->
  ((exists r, optimize ceres st cs scans = Ok r) <->
   scans = [] \/
   (Forall (good_constraint (int_ids scans)) (skipn (sv_num st) cs) /\
    exists k c, nth_error (int_ids scans) 0 = Some k /\ In c cs /\ touches (int_ids scans) k c)).
Proof. exact @optimize_defined. Qed.
Print Assumptions C80_optimize_defined_iff.

(** In particular a single scan without constraints makes Ceres abort. *)
Theorem C80_single_scan_aborts : forall {T} {A : Arith T} (ceres : ceres_oracle T) (s : scan T),
  optimize ceres solver_new [] [s] = Fault LibAbort.
Proof. exact (fun T A ceres s => eq_refl). Qed.
Print Assumptions C80_single_scan_aborts.

Example C80_nonvacuous : solver_ok map1_edges (int_ids map1_scans) solver_new /\
  Forall (good_constraint (int_ids map1_scans)) map1_edges.
Proof.
  split; [split; [apply le_S, le_n | constructor]|].
  repeat constructor; try (intro H; discriminate H).
  exists 0%Z, 1%Z. split; [reflexivity | split; [reflexivity | discriminate]].
Qed.
