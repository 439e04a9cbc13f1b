(** Specification vocabulary for the optimizer. *)

From Coq Require Import ZArith List.
From Verif Require Import Outcome Arith TypesModel ScanModel ConstraintModel SolverModel.
Import ListNotations.

Section Spec.
Context {T : Type} {A : Arith T}.

(** What is assumed about Ceres: it does not change the parameter blocks that
    were set constant. *)
Definition keeps_constant (ceres : ceres_oracle T) : Prop :=
  forall blocks const ns k, In k const ->
    nodes_find (snd (ceres blocks const ns)) k = nodes_find ns k.
(** ... and it does not make nodes disappear. *)
Definition keeps_nodes (ceres : ceres_oracle T) : Prop :=
  forall blocks const ns k, nodes_find ns k <> None ->
    nodes_find (snd (ceres blocks const ns)) k <> None.

(** The keys of the scans as the optimizer identifies them (int). *)
Definition int_ids (scans : list (scan T)) : list Z := map (fun s => to_int32 (s_id s)) scans.

(** The residual block that belongs to a constraint, given the ids of the scans:
    its transform and factor, attached to the nodes of its two scans. *)
Definition block_for (ids : list Z) (c : constraint T) (b : block T) : Prop :=
  rb_transform b = c_transform c /\
  rb_factor b = llt_L (c_information c) /\
  (0 <= c_begin c)%Z /\ nth_error ids (Z.to_nat (c_begin c)) = Some (rb_begin b) /\
  (0 <= c_end c)%Z /\ nth_error ids (Z.to_nat (c_end c)) = Some (rb_end b).

(** A sequence of calls in which constraints are only appended and scans are
    only appended (their poses and points may change). *)
Fixpoint growing (cs0 : list (constraint T)) (ids0 : list Z)
    (calls : list (list (constraint T) * list (scan T))) : Prop :=
  match calls with
  | [] => True
  | (cs, scans) :: rest =>
    (exists new, cs = cs0 ++ new) /\ (exists more, int_ids scans = ids0 ++ more) /\
    growing cs (int_ids scans) rest
  end.

(** A solver whose problem consists of the first [sv_num] constraints of the
    graph. *)
Definition solver_ok (cs : list (constraint T)) (ids : list Z) (st : solver T) : Prop :=
  sv_num st <= length cs /\ Forall2 (block_for ids) (firstn (sv_num st) cs) (sv_blocks st).

(** A constraint between two different existing scans. *)
Definition good_constraint (ids : list Z) (c : constraint T) : Prop :=
  (0 <= c_begin c)%Z /\ (0 <= c_end c)%Z /\
  exists kb ke, nth_error ids (Z.to_nat (c_begin c)) = Some kb /\
    nth_error ids (Z.to_nat (c_end c)) = Some ke /\ kb <> ke.

(** A constraint has the node with key [k] as one of its ends. *)
Definition touches (ids : list Z) (k : Z) (c : constraint T) : Prop :=
  nth_error ids (Z.to_nat (c_begin c)) = Some k \/ nth_error ids (Z.to_nat (c_end c)) = Some k.

End Spec.
