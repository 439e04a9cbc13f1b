(** Specification vocabulary for derivatives. *)

From Coq Require Import ZArith Reals.
From Verif Require Import TypesModel.
Local Open Scope R_scope.

(** [v] moved by [h] times [d]. *)
Definition along (v d : vec3 R) (h : R) : vec3 R := mkVec3 (v0 v + h * v0 d) (v1 v + h * v1 d) (v2 v + h * v2 d).

(** The curve [f] has the speed [d] at zero, coordinate by coordinate. *)
Definition speed (f : R -> vec3 R) (d : vec3 R) : Prop :=
  derivable_pt_lim (fun h => v0 (f h)) 0 (v0 d) /\
  derivable_pt_lim (fun h => v1 (f h)) 0 (v1 d) /\
  derivable_pt_lim (fun h => v2 (f h)) 0 (v2 d).

(** An angle that is not an odd multiple of a half turn. *)
Definition no_half_turn (e : R) : Prop := forall k : Z, e <> (2 * IZR k + 1) * PI.
