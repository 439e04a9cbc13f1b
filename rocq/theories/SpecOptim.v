(** Specification vocabulary: how well a map agrees with its constraints. *)

From Coq Require Import ZArith Reals List.
From Verif Require Import Arith TypesModel ScanModel ConstraintModel SolverModel SpecPose SpecSolver.
Import ListNotations.
Local Open Scope R_scope.

(** The sum of the squared errors of the constraints at the poses of the scans
    they join; a constraint counts with the error the program gives it
    ([constraint_residual], characterised by C29 - C32). *)
Definition edge_error (scans : list (scan R)) (c : constraint R) : R :=
  match nth_error scans (Z.to_nat (c_begin c)), nth_error scans (Z.to_nat (c_end c)) with
  | Some a, Some b => sqnorm3 (constraint_residual c (s_pose a) (s_pose b))
  | _, _ => 0
  end.
Definition map_error (cs : list (constraint R)) (scans : list (scan R)) : R :=
  fold_right Rplus 0 (map (edge_error scans) cs).

(** The cost of Ceres' problem at the values of the nodes, and what is assumed
    about a solution Ceres calls usable: its cost is not above the initial one. *)
Definition block_cost (ns : nodes R) (b : block R) : R :=
  match nodes_find ns (rb_begin b), nodes_find ns (rb_end b) with
  | Some x, Some y => sqnorm3 (residual (rb_transform b) (rb_factor b) x y)
  | _, _ => 0
  end.
Definition problem_cost (blocks : list (block R)) (ns : nodes R) : R :=
  fold_right Rplus 0 (map (block_cost ns) blocks).
Definition never_worse (ceres : ceres_oracle R) : Prop :=
  forall blocks const ns, fst (ceres blocks const ns) = true ->
    problem_cost blocks (snd (ceres blocks const ns)) <= problem_cost blocks ns.

(** The second scan of a constraint is where the constraint says, seen from the
    first one (headings up to whole turns). *)
Definition as_measured (c : constraint R) (a b : pose R) : Prop :=
  let q := compose a (mkPose (v0 (c_transform c)) (v1 (c_transform c)) (v2 (c_transform c))) in
  pox b = pox q /\ poy b = poy q /\ same_heading (poth b) (poth q).
Definition agrees (cs : list (constraint R)) (scans : list (scan R)) : Prop :=
  Forall (fun c => pos_def3 (c_information c) /\
    forall a b, nth_error scans (Z.to_nat (c_begin c)) = Some a -> nth_error scans (Z.to_nat (c_end c)) = Some b ->
      as_measured c (s_pose a) (s_pose b)) cs.
