(** Specification vocabulary: the same inputs with another odometry frame. *)

From Coq Require Import ZArith Reals List String.
From Verif Require Import Outcome Arith TypesModel ScanModel LaserModel FilterModel MapperModel SpecPose SpecLaser.
Import ListNotations.

Section Frame.
Context {T : Type} {A : Arith.Arith T}.
(** How poses in one odometry frame relate to poses in the other. *)
Local Open Scope num_scope.
Context (rel : pose T -> pose T -> Prop).

(** The answers of tf2: both unavailable, or related. *)
Definition answers (a a' : option (pose_msg T)) : Prop :=
  match a, a' with
  | None, None => True
  | Some t, Some t' => rel (from_msg t) (from_msg t')
  | _, _ => False
  end.

(** The same message, laser mounting and random numbers; the odometry is related. *)
Definition same_laser (e e' : laser_ev T) : Prop :=
  le_msg e' = le_msg e /\ le_frame e' = le_frame e /\ le_laser e' = le_laser e /\ le_time_inc e' = le_time_inc e /\
  le_normal e' = le_normal e /\ le_draws e' = le_draws e /\ answers (le_start e) (le_start e') /\
  (forall ns, answers (le_end e ns) (le_end e' ns)).

Definition same_request (e e' : pose_ev T) : Prop :=
  pe_frame e' = pe_frame e /\ pe_pose e' = pe_pose e /\ pe_c0 e' = pe_c0 e /\ pe_c7 e' = pe_c7 e /\ pe_c35 e' = pe_c35 e /\
  pe_normal e' = pe_normal e /\ answers (pe_odom e) (pe_odom e').

(** The same schedule with the same inputs, up to odometry. *)
Definition same_label (l l' : label T) : Prop :=
  match l, l' with
  | Deliver (EvLaser e), Deliver (EvLaser e') => same_laser e e'
  | Deliver (EvPose e), Deliver (EvPose e') => same_request e e'
  | Deliver (EvConfigure a f), Deliver (EvConfigure a' f') => a' = a /\ f' = f
  | Spin, Spin | Loop, Loop | Pub, Pub => True
  | _, _ => False
  end.

(** The robot's displacement during every sweep is the same in coordinates of the
    two odometry frames: it stood still, or the frames have parallel axes. *)
Definition same_sweep (l l' : label T) : Prop :=
  match l, l' with
  | Deliver (EvLaser e), Deliver (EvLaser e') => forall ns a b a' b',
      le_start e = Some a -> le_end e ns = Some b -> le_start e' = Some a' -> le_end e' ns = Some b' ->
      ps_x b' - ps_x a' = ps_x b - ps_x a /\ ps_y b' - ps_y a' = ps_y b - ps_y a /\
      poth (from_msg b') - poth (from_msg a') = poth (from_msg b) - poth (from_msg a)
  | _, _ => True
  end.

(** The same thing observed, up to odometry; [tf] relates published transforms.
    What is published before an odometry pose was recorded comes from the zero
    pose the node starts with. *)
Definition same_obs (tf : iso T -> iso T -> Prop) (o o' : obs T) : Prop :=
  match o, o' with
  | ObPoses r p, ObPoses r' p' => r' = r /\ rel p p'
  | ObInit r p, ObInit r' p' => r' = r /\ rel p p'
  | ObTf r p t, ObTf r' p' t' => r' = r /\ (rel p p' /\ tf t t' \/ p = pose0 /\ p' = pose0 /\ t' = t)
  | _, _ => o' = o
  end.

(** The same outcome: the same fault, or the same scans (points and poses), the
    same constraints and robot pose, and the same observations up to odometry. *)
Definition same_result (tf : iso T -> iso T -> Prop) (a a' : outcome (mapper T)) : Prop :=
  match a, a' with
  | Ok m, Ok m' =>
    sh_heap (mp_sh m') = sh_heap (mp_sh m) /\ sh_scans (mp_sh m') = sh_scans (mp_sh m) /\ sh_cons (mp_sh m') = sh_cons (mp_sh m) /\
    sh_robot (mp_sh m') = sh_robot (mp_sh m) /\ Forall2 (same_obs tf) (sh_trace (mp_sh m)) (sh_trace (mp_sh m'))
  | Fault f, Fault f' => f' = f
  | _, _ => False
  end.
End Frame.

(** The odometry frame moved by [g]. *)
Definition seen_from (g p p' : pose R) : Prop := same_pose p' (compose g p).
(** The transform to a frame moved by [g]. *)
Definition via (g : pose R) (t t' : iso R) : Prop := forall q, iso_act t' (act g q) = iso_act t q.
(** The odometry frame moved by [dx], [dy] without turning it. *)
Definition shifted_by (dx dy : R) (p p' : pose R) : Prop := p' = mkPose (pox p + dx)%R (poy p + dy)%R (poth p).
