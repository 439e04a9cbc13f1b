(** Specification vocabulary for the weights of constraints. *)

From Coq Require Import Reals List.
From Flocq Require Import BinarySingleNaN.
From Verif Require Import Arith TypesModel ConstraintModel SolverModel.
Import ListNotations.
Local Open Scope R_scope.

(** The scoring ([w] negative) candidates are not all on one plane through the
    origin: every direction is seen by one of them. *)
Definition all_directions (w : pose R -> R) (l : list (pose R)) : Prop :=
  forall v : vec3 R, v <> mkVec3 0 0 0 ->
  exists c, In c l /\ w c < 0 /\ v0 v * pox c + v1 v * poy c + v2 v * poth c <> 0.

(** The optimizer is handed a finite error for the constraint at some poses. *)
Definition finite_vec (v : vec3 b64) : Prop :=
  is_finite (v0 v) = true /\ is_finite (v1 v) = true /\ is_finite (v2 v) = true.
Definition weighable (lm : libm) (c : constraint b64) : Prop :=
  exists a b : pose b64, finite_vec (constraint_residual (A := BA lm) c a b).

(** A residual block whose error is not finite whatever the poses of its nodes,
    and what Ceres' documentation says it does with one: the evaluation fails,
    and the solution is not usable. *)
Definition unusable (lm : libm) (b : block b64) : Prop :=
  forall x y : vec3 b64, ~ finite_vec (residual (A := BA lm) (rb_transform b) (rb_factor b) x y).
Definition rejects_unusable (lm : libm) (ceres : ceres_oracle b64) : Prop :=
  forall blocks const nodes, Exists (unusable lm) blocks -> fst (ceres blocks const nodes) = false.
