(** Model of class CeresSolver: include/ndt_2d/ceres_solver.hpp:41-73,
    src/ceres_solver.cpp:35-167.

    Ceres itself is an oracle: given the residual blocks of the problem, the
    parameter blocks held constant and the current node values it reports
    whether the solution is usable and leaves new node values behind.  Nothing
    else is assumed about it except where a theorem states [solver_contract].

    Simplifications: [verbose_] printing (ceres_solver.cpp:103-106, 140-157) is
    omitted; the three scalar parameter blocks of a node (x, y, theta) are one
    key, since they are always added and frozen together. *)

From Coq Require Import ZArith List Bool.
From Verif Require Import Outcome Arith TypesModel ScanModel ConstraintModel.
Import ListNotations.
Local Open Scope outcome_scope.

(** nodes_ : unordered_map<int, Vector3d> (ceres_solver.hpp:67). *)
Definition nodes (T : Type) : Type := list (Z * vec3 T).

(** A residual block (ceres_solver.cpp:134-138, 159-166): measured transform,
    factor, and the keys of the two nodes. *)
Record block (T : Type) : Type := mkBlock {
  rb_transform : vec3 T;
  rb_factor : mat3 T;
  rb_begin : Z;
  rb_end : Z
}.
Arguments mkBlock {T} rb_transform rb_factor rb_begin rb_end.
Arguments rb_transform {T} b.
Arguments rb_factor {T} b.
Arguments rb_begin {T} b.
Arguments rb_end {T} b.

(** ceres_solver.hpp:61-70: the problem (residual blocks and constant
    parameter blocks), the nodes and the number of constraints added. *)
Record solver (T : Type) : Type := mkSolver {
  sv_blocks : list (block T);
  sv_const : list Z;
  sv_nodes : nodes T;
  sv_num : nat
}.
Arguments mkSolver {T} sv_blocks sv_const sv_nodes sv_num.
Arguments sv_blocks {T} s.
Arguments sv_const {T} s.
Arguments sv_nodes {T} s.
Arguments sv_num {T} s.

(** ceres::Solve (ceres_solver.cpp:96-98). *)
Definition ceres_oracle (T : Type) : Type :=
  list (block T) -> list Z -> nodes T -> bool * nodes T.

Section Solver.
Context {T : Type} {A : Arith T}.

(** ceres_solver.cpp:35-43. *)
Definition solver_new : solver T := mkSolver [] [] [] 0.

Fixpoint nodes_find (ns : nodes T) (k : Z) : option (vec3 T) :=
  match ns with
  | [] => None
  | (j, v) :: rest => if (j =? k)%Z then Some v else nodes_find rest k
  end.

(** ceres_solver.cpp:61-77: overwrite the value of an existing node, insert a
    new one otherwise. *)
Fixpoint nodes_put (ns : nodes T) (k : Z) (v : vec3 T) : nodes T :=
  match ns with
  | [] => [(k, v)]
  | (j, w) :: rest => if (j =? k)%Z then (j, v) :: rest else (j, w) :: nodes_put rest k v
  end.

(** The key of a scan: its size_t id converted to int (nodes_.find and
    std::pair<int, ...>, ceres_solver.cpp:61, 76). *)
Definition scan_key (s : scan T) : Z := to_int32 (s_id s).

(** ceres_solver.cpp:59-78. *)
Definition update_nodes (ns : nodes T) (scans : list (scan T)) : nodes T :=
  fold_left (fun ns s => nodes_put ns (scan_key s) (pose_vec (s_pose s))) scans ns.

(** ceres_solver.cpp:122-167 (addConstraint).  begin_node and end_node are
    dereferenced without comparing to end(): a missing node is undefined
    behaviour.  Ceres aborts on duplicate parameter blocks. *)
Definition add_constraint (ns : nodes T) (scans : list (scan T)) (blocks : list (block T))
    (c : constraint T) : outcome (list (block T)) :=
  b <- vec_get scans (c_begin c) ;;
  e <- vec_get scans (c_end c) ;;
  match nodes_find ns (scan_key b), nodes_find ns (scan_key e) with
  | Some _, Some _ =>
    if (scan_key b =? scan_key e)%Z then Fault LibAbort
    else Ok (blocks ++ [mkBlock (c_transform c) (llt_L (c_information c)) (scan_key b) (scan_key e)])
  | _, _ => Fault BadIterator
  end.

(** ceres_solver.cpp:58-92: everything before Solve.  SetParameterBlockConstant
    aborts for a parameter block no residual block uses. *)
Definition in_problem (blocks : list (block T)) (k : Z) : bool :=
  existsb (fun b => (rb_begin b =? k) || (rb_end b =? k))%Z blocks.

Definition prepare (st : solver T) (cs : list (constraint T)) (scans : list (scan T)) : outcome (solver T) :=
  let ns := update_nodes (sv_nodes st) scans in
  blocks <- foldM (add_constraint ns scans) (sv_blocks st) (skipn (sv_num st) cs) ;;
  first <- vec_get scans 0 ;;
  if in_problem blocks (scan_key first)
  then Ok (mkSolver blocks (scan_key first :: sv_const st) ns (length cs))
  else Fault LibAbort.

(** ceres_solver.cpp:109-118. *)
Definition write_back (ns : nodes T) (s : scan T) : scan T :=
  match nodes_find ns (scan_key s) with
  | Some v => scan_set_pose s (vec_pose v)
  | None => s
  end.

(** ceres_solver.cpp:50-120 (optimize): result, new solver state, scans.  The
    constraints are passed by const reference to shared pointers and never
    written through. *)
Definition optimize (ceres : ceres_oracle T) (st : solver T) (cs : list (constraint T))
    (scans : list (scan T)) : outcome (bool * solver T * list (scan T)) :=
  match scans with
  | [] => Ok (false, st, scans)
  | _ =>
    p <- prepare st cs scans ;;
    let '(usable, ns) := ceres (sv_blocks p) (sv_const p) (sv_nodes p) in
    let st' := mkSolver (sv_blocks p) (sv_const p) ns (sv_num p) in
    if usable then Ok (true, st', map (write_back ns) scans)
    else Ok (false, st', scans)
  end.

(** A sequence of optimize calls with the given constraints and scans. *)
Fixpoint optimize_run (ceres : ceres_oracle T) (st : solver T)
    (calls : list (list (constraint T) * list (scan T))) : outcome (solver T) :=
  match calls with
  | [] => Ok st
  | (cs, scans) :: rest =>
    '(_, st', _) <- optimize ceres st cs scans ;;
    optimize_run ceres st' rest
  end.

End Solver.
