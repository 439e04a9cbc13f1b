(** Specification vocabulary: where maps start. *)

From Verif Require Import Arith TypesModel.

(** Position (0, 0), heading 0. *)
Definition origin {T : Type} {A : Arith T} : pose T := mkPose nzero nzero nzero.
