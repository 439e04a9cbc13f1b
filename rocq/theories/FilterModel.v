(** Model of class ParticleFilter: src/particle_filter.cpp:36-218,
    include/ndt_2d/particle_filter.hpp:45-115.  Random numbers come from
    explicit oracles; reserve calls have no effect in the model. *)

From Coq Require Import ZArith List Bool.
From Verif Require Import Outcome Arith TypesModel KdModel MotionModel.
Import ListNotations.
Local Open Scope outcome_scope.

(** particle_filter.hpp:103-114; the KD-tree is cleared before every use and is
    not part of the state. *)
Record pfilter (T : Type) : Type := mkFilter {
  pf_min : Z; pf_max : Z; pf_motion : motion_params T;
  pf_parts : list (vec3 T); pf_wts : list T;
  pf_mean : vec3 T; pf_cov : mat3 T
}.
Arguments mkFilter {T} pf_min pf_max pf_motion pf_parts pf_wts pf_mean pf_cov.
Arguments pf_min {T} p.
Arguments pf_max {T} p.
Arguments pf_motion {T} p.
Arguments pf_parts {T} p.
Arguments pf_wts {T} p.
Arguments pf_mean {T} p.
Arguments pf_cov {T} p.

(** geometry_msgs/Pose: position and orientation (x and y stay 0). *)
Record pose_msg (T : Type) : Type := mkPoseMsg {
  ps_x : T; ps_y : T; ps_z : T; ps_qx : T; ps_qy : T; ps_qz : T; ps_qw : T
}.
Arguments mkPoseMsg {T} ps_x ps_y ps_z ps_qx ps_qy ps_qz ps_qw.
Arguments ps_x {T} p.
Arguments ps_y {T} p.
Arguments ps_z {T} p.
Arguments ps_qx {T} p.
Arguments ps_qy {T} p.
Arguments ps_qz {T} p.
Arguments ps_qw {T} p.

Section Filter.
Context {T : Type} {A : Arith T}.
Local Open Scope num_scope.

(** particle_filter.cpp:178-195: the sums over the particles. *)
Record sums : Type := mkSums { su_mean : vec3 T; su_cos : T; su_sin : T; su_xx : T; su_xy : T; su_yy : T }.
Definition sums0 : sums := mkSums vec3_zero nzero nzero nzero nzero nzero.
Definition sums_add (s : sums) (p : vec3 T) (w : T) : sums :=
  mkSums (mkVec3 (v0 (su_mean s) + w * v0 p) (v1 (su_mean s) + w * v1 p) (v2 (su_mean s) + w * v2 p))
    (su_cos s + w * ncos (v2 p)) (su_sin s + w * nsin (v2 p))
    (su_xx s + (w * v0 p) * v0 p) (su_xy s + (w * v0 p) * v1 p) (su_yy s + (w * v1 p) * v1 p).

(** The loops index weights_ with the indices of particles_: reading a missing
    weight is undefined behaviour. *)
Fixpoint with_weights (ps : list (vec3 T)) (ws : list T) : outcome (list (vec3 T * T)) :=
  match ps, ws with
  | [], _ => Ok []
  | _ :: _, [] => Fault OutOfBounds
  | p :: ps', w :: ws' => rest <- with_weights ps' ws' ;; Ok ((p, w) :: rest)
  end.

(** particle_filter.cpp:163-218 (updateStatistics). *)
Definition update_stats (f : pfilter T) : outcome (pfilter T) :=
  let sum := fold_left nadd (pf_wts f) nzero in
  let ws := map (fun w => w / sum) (pf_wts f) in
  pw <- with_weights (pf_parts f) ws ;;
  let s := fold_left (fun s q => sums_add s (fst q) (snd q)) pw sums0 in
  let mx := v0 (su_mean s) in
  let my := v1 (su_mean s) in
  let mth := natan2 (su_sin s) (su_cos s) in
  let c := pf_cov f in
  let cxy := su_xy s - mx * my in
  let var := fold_left (fun acc q =>
      let d := angle_diff (v2 (fst q)) mth in acc + snd q * d * d) pw (a22 c) in
  Ok (mkFilter (pf_min f) (pf_max f) (pf_motion f) (pf_parts f) ws
        (mkVec3 mx my mth)
        (mkMat3 (su_xx s - mx * mx) cxy (a02 c)
                cxy (su_yy s - my * my) (a12 c)
                (a20 c) (a21 c) var)).

Definition with_parts (f : pfilter T) (ps : list (vec3 T)) (ws : list T) : pfilter T :=
  mkFilter (pf_min f) (pf_max f) (pf_motion f) ps ws (pf_mean f) (pf_cov f).

(** particle_filter.cpp:36-51 (constructor). *)
Definition filter_new (mn mx : Z) (m : motion_params T) : outcome (pfilter T) :=
  update_stats (mkFilter mn mx m
    (repeat vec3_zero (Z.to_nat mn)) (repeat (none_ / nofZ mn) (Z.to_nat mn)) vec3_zero mat3_zero).

(** particle_filter.cpp:53-69 (init). *)
Definition filter_init (normal : @normal_source T) (x y th sx sy sth : T) (f : pfilter T) : outcome (pfilter T) :=
  let ps := map_i (fun i _ =>
      mkVec3 (normal (3 * i)%nat (nsingle x) (nsingle sx))
             (normal (3 * i + 1)%nat (nsingle y) (nsingle sy))
             (normalize_angle (normal (3 * i + 2)%nat (nsingle th) (nsingle sth)))) 0 (pf_parts f) in
  let n := length ps in
  update_stats (with_parts f ps (repeat (none_ / nofZ (Z.of_nat n)) n)).

(** particle_filter.cpp:71-76 (update). *)
Definition filter_update (normal : @normal_source T) (dx dy dth : T) (f : pfilter T) : outcome (pfilter T) :=
  update_stats (with_parts f (motion_sample normal (pf_motion f) dx dy dth (pf_parts f)) (pf_wts f)).

(** particle_filter.cpp:78-89 (measure).  [score] is the call to
    scorePoints(scan->getPoints(), pose).  The assignment to weights_[i] is
    undefined if there are fewer weights than particles; further weights keep
    their value. *)
Definition filter_measure (score : pose T -> outcome T) (f : pfilter T) : outcome (pfilter T) :=
  if (length (pf_wts f) <? length (pf_parts f))%nat then Fault OutOfBounds
  else
    ws <- mapM (fun p => score (mkPose (v0 p) (v1 p) (v2 p))) (pf_parts f) ;;
    update_stats (with_parts f (pf_parts f) (ws ++ skipn (length (pf_parts f)) (pf_wts f))).

(** particle_filter.cpp:94: std::discrete_distribution requires finite
    non-negative weights with a positive sum (an empty sequence is allowed). *)
Definition dist_ok (ws : list T) : bool :=
  match ws with
  | [] => true
  | _ => forallb (fun w => (nzero <=? w) && nfinite w) ws && (nzero <? fold_left nadd ws nzero)
  end.

(** particle_filter.cpp:44: the bin sizes. *)
Definition bin_size : vec3 T := mkVec3 (nlit 1 2) (nlit 1 2) (nlit 2671 10000).

(** particle_filter.cpp:116-124: the number of particles asked for by the KLD
    bound for k > 1 occupied bins. *)
Definition kld_bound (err z : T) (k : nat) : outcome Z :=
  let k1 := nofZ (Z.of_nat k - 1) in
  let a := k1 / (nofZ 2 * err) in
  let b := nofZ 2 / (nofZ 9 * k1) in
  let c := none_ - b + nsqrt b * z in
  cast_unsigned 64 (a * c * c * c).

(** particle_filter.cpp:108-131.  [draws] are the indices returned by the
    distribution, one per iteration; running out of them is reported as
    OutOfFuel. *)
Fixpoint resample_loop (draws : list Z) (ps : list (vec3 T)) (ws : list T) (mn mx : Z) (err z : T)
    (acc : list (vec3 T * T)) (tree : kd) (m : Z) : outcome (list (vec3 T * T)) :=
  if (Z.of_nat (length acc) <? Z.max mn m)%Z
  then
    match draws with
    | [] => Fault OutOfFuel
    | i :: draws' =>
      p <- vec_get ps i ;;
      w <- vec_get ws i ;;
      tree' <- kd_add bin_size tree p w ;;
      let acc' := acc ++ [(p, w)] in
      let k := kd_leaf_count tree' in
      m' <- (if (1 <? k)%nat then kld_bound err z k else Ok m) ;;
      if (mx <=? Z.of_nat (length acc'))%Z then Ok acc'
      else resample_loop draws' ps ws mn mx err z acc' tree' m'
    end
  else Ok acc.

(** particle_filter.cpp:91-137 (resample). *)
Definition filter_resample (draws : list Z) (err z : T) (f : pfilter T) : outcome (pfilter T) :=
  if dist_ok (pf_wts f)
  then
    acc <- resample_loop draws (pf_parts f) (pf_wts f) (pf_min f) (pf_max f) err z [] kd_empty (pf_max f) ;;
    update_stats (with_parts f (map fst acc) (map snd acc))
  else Fault BadDistribution.

(** particle_filter.cpp:149-161 (getMsg). *)
Definition filter_msg (f : pfilter T) : list (pose_msg T) :=
  map (fun p => mkPoseMsg (v0 p) (v1 p) nzero nzero nzero
                  (nsin (v2 p / nofZ 2)) (ncos (v2 p / nofZ 2))) (pf_parts f).

(** tf2::getYaw (tf2/impl/utils.h, library contract, as published). *)
Definition get_yaw (x y z w : T) : T :=
  let sqx := x * x in let sqy := y * y in let sqz := z * z in let sqw := w * w in
  let sarg := nofZ (-2) * (x * z - w * y) / (sqx + sqy + sqz + sqw) in
  if sarg <=? nlit (-99999) 100000 then nofZ (-2) * natan2 y x
  else if nlit 99999 100000 <=? sarg then nofZ 2 * natan2 y x
  else natan2 (nofZ 2 * (x * y + w * z)) (sqw + sqx - sqy - sqz).

(** conversions.hpp:40-45 (fromMsg). *)
Definition from_msg (m : pose_msg T) : pose T :=
  mkPose (ps_x m) (ps_y m) (get_yaw (ps_qx m) (ps_qy m) (ps_qz m) (ps_qw m)).

(** Calls on one filter. *)
Inductive filter_op : Type :=
| FInit (normal : @normal_source T) (x y th sx sy sth : T)
| FUpdate (normal : @normal_source T) (dx dy dth : T)
| FMeasure (score : pose T -> outcome T)
| FResample (draws : list Z) (err z : T).

Definition filter_step (f : pfilter T) (o : filter_op) : outcome (pfilter T) :=
  match o with
  | FInit n x y th sx sy sth => filter_init n x y th sx sy sth f
  | FUpdate n dx dy dth => filter_update n dx dy dth f
  | FMeasure s => filter_measure s f
  | FResample d e z => filter_resample d e z f
  end.

Definition filter_run (f : pfilter T) (ops : list filter_op) : outcome (pfilter T) := foldM filter_step f ops.

End Filter.
Arguments filter_op T : clear implicits.
Arguments normal_source T : clear implicits.
