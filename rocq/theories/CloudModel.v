(** The particle clouds the node publishes (ndt_mapper.cpp:224-229 and 480-486), which
    the trace of MapperModel.v leaves out.  Both publications follow the calls on the
    filter in the same callback, on the same thread; the step of the model that
    makes these calls is the one that publishes. *)

From Coq Require Import ZArith List Bool String.
From Verif Require Import Outcome Arith TypesModel FilterModel LaserModel MapperModel.
Import ListNotations.

Section Cloud.
Context {T : Type} {A : Arith T}.

(** What getMsg returns for the filter of the node (particle_filter.cpp:149-161). *)
Definition cloud_of (m : mapper T) : option (list (pose_msg T)) := option_map filter_msg (sp_filter (mp_spin m)).

(** The message published in the step from [m] to [m'], if any: lines 188-229 for an
    initial pose (not ignored, in the map frame, with odometry, filter in use), lines
    455-486 for a laser message.  Header and stamp are left out. *)
Definition cloud_published (m : mapper T) (l : label T) (m' : mapper T) : option (list (pose_msg T)) :=
  match l with
  | Deliver (EvPose e) =>
    if sh_enable (mp_sh m) && sh_init (mp_sh m) then None
    else if negb (pe_frame e =? "map")%string then None
    else match pe_odom e with None => None | Some _ => cloud_of m' end
  | Spin => match sp_pc (mp_spin m) with SFilter _ _ _ _ => cloud_of m' | _ => None end
  | _ => None
  end.
End Cloud.
