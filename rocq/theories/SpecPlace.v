(** Specification vocabulary: where the node takes the robot to be. *)

From Coq Require Import ZArith List Bool String.
From Verif Require Import Outcome Arith SpecOrigin TypesModel LaserModel MapperModel.
Import ListNotations.

Section Spec.
Context {T : Type} {A : Arith T}.

(** The robot and odometry poses that were stored last, by a laser message or an
    initial pose. *)
Fixpoint last_stored (tr : list (obs T)) : pose T * pose T :=
  match tr with
  | [] => (origin, origin)
  | ObPoses r o :: _ | ObInit r o :: _ => (r, o)
  | _ :: tr => last_stored tr
  end.

(** Since the map was loaded the robot was localized in it. *)
Fixpoint placed (tr : list (obs T)) : Prop :=
  match tr with
  | [] => False
  | ObLoad :: _ => False
  | ObPoses _ _ :: _ | ObInit _ _ :: _ => True
  | _ :: tr => placed tr
  end.
(** Transforms are published only then. *)
Definition tf_placed (tr : list (obs T)) : Prop :=
  forall newer r o tf older, tr = newer ++ ObTf r o tf :: older -> placed older.

(** A laser callback has added its scan and not yet stored the poses. *)
Definition between (m : mapper T) : Prop :=
  (exists p o, sp_pc (mp_spin m) = SPoseLock p o true) \/ (exists p o, sp_pc (mp_spin m) = SPoseWrite p o true).
(** The publisher has found scans and will publish a transform. *)
Definition sending (m : mapper T) : Prop :=
  match pb_pc (mp_pub m) with PPoseLock | PReadRobot | PReadOdom _ | PSend _ _ => True | _ => False end.
(** The publisher looks for scans only while the robot is localized and no
    callback is between adding a scan and storing the poses; maps are not loaded
    while it sends. *)
Definition tf_calm (m : mapper T) (l : label T) : Prop :=
  (l = Pub -> pb_pc (mp_pub m) = PTf -> sh_init (mp_sh m) = true /\ ~ between m) /\
  (l = Spin -> forall file, sp_pc (mp_spin m) = SLoad file -> ~ sending m).
End Spec.
