(** Model of class ScanMatcherNDT: include/ndt_2d/scan_matcher_ndt.hpp,
    src/scan_matcher_ndt.cpp:35-190. *)

From Coq Require Import ZArith List Bool.
From Verif Require Import Outcome Arith TypesModel CellModel ScanModel NdtModel.
Import ListNotations.

(** scan_matcher_ndt.hpp:91-102.  laser_max_beams_ is a size_t. *)
Record matcher (T : Type) : Type := mkMatcher {
  k_ndt : option (ndt T);
  k_resolution : T;
  k_ang_res : T;
  k_ang_size : T;
  k_lin_res : T;
  k_lin_size : T;
  k_beams : Z;
  k_range : T
}.
Arguments mkMatcher {T} k_ndt k_resolution k_ang_res k_ang_size k_lin_res k_lin_size k_beams k_range.
Arguments k_ndt {T} m.
Arguments k_resolution {T} m.
Arguments k_ang_res {T} m.
Arguments k_ang_size {T} m.
Arguments k_lin_res {T} m.
Arguments k_lin_size {T} m.
Arguments k_beams {T} m.
Arguments k_range {T} m.

Section Matcher.
Context {T : Type} {A : Arith T}.
Local Open Scope num_scope.
Local Open Scope outcome_scope.

(** scan_matcher_ndt.cpp:35-47 with the default parameters. *)
Definition matcher_default (range_max : T) : matcher T :=
  mkMatcher None (nlit 1 4) (nlit 25 10000) (nlit 1 10) (nlit 5 1000) (nlit 5 100) 100 range_max.

Definition with_ndt (m : matcher T) (g : option (ndt T)) : matcher T :=
  mkMatcher g (k_resolution m) (k_ang_res m) (k_ang_size m) (k_lin_res m) (k_lin_size m)
            (k_beams m) (k_range m).

(** scan_matcher_ndt.cpp:53-64: running bounding box of the poses. *)
Record box : Type := mkBox { b_minx : T; b_maxx : T; b_miny : T; b_maxy : T }.
Definition box_init : box := mkBox nmaxval nminpos nmaxval nminpos.
Definition box_step (range : T) (b : box) (s : scan T) : box :=
  let p := s_pose s in
  mkBox (nmin (pox p - range) (b_minx b)) (nmax (pox p + range) (b_maxx b))
        (nmin (poy p - range) (b_miny b)) (nmax (poy p + range) (b_maxy b)).
Definition scans_box (range : T) (scans : list (scan T)) : box :=
  fold_left (box_step range) scans box_init.

(** scan_matcher_ndt.cpp:49-74.  The iterator range is the list of its scans. *)
Definition add_scans (eig : mat2 T -> T * T) (m : matcher T) (scans : list (scan T)) : outcome (matcher T) :=
  let b := scans_box (k_range m) scans in
  g0 <- ndt_new (k_resolution m) (b_maxx b - b_minx b) (b_maxy b - b_miny b) (b_minx b) (b_miny b) ;;
  g1 <- foldM ndt_add_scan g0 scans ;;
  Ok (with_ndt m (Some (ndt_compute eig g1))).

(** scan_matcher_ndt.cpp:183-186. *)
Definition matcher_reset (m : matcher T) : matcher T := with_ndt m None.

(** std::min(laser_max_beams_, points.size()) (lines 96, 169). *)
Definition beams_used (m : matcher T) (pts : list (point T)) : Z :=
  Z.min (k_beams m) (Z.of_nat (length pts)).

(** Lines 97, 170. *)
Definition scan_step_size (m : matcher T) (pts : list (point T)) : T :=
  nofZ (Z.of_nat (length pts)) / nofZ (beams_used m pts).

(** static_cast<size_t>(i * scan_step) (lines 111, 175). *)
Definition beam_index (step : T) (i : Z) : outcome Z := cast_unsigned 64 (nofZ i * step).

(** The points the loops read: points[scan_idx] for i = 0 .. use-1. *)
Definition beam_points (m : matcher T) (pts : list (point T)) : outcome (list (point T)) :=
  mapM (fun i => idx <- beam_index (scan_step_size m pts) i ;; vec_get pts idx)
       (map Z.of_nat (seq 0 (Z.to_nat (beams_used m pts)))).

(** for (double d = start; d < size; d += res): the values d takes.
    [fuel] bounds the number of iterations; running out is a fault of the model,
    standing for a loop that goes on. *)
Fixpoint loop_values (fuel : nat) (d size res : T) : outcome (list T) :=
  match fuel with
  | O => Fault OutOfFuel
  | S f => if d <? size then ds <- loop_values f (d + res) size res ;; Ok (d :: ds) else Ok []
  end.

(** Working values of matchScan (lines 83-88 and the output pose). *)
Record mstate : Type := mkMstate {
  w_best : T;
  w_pose : pose T;
  w_k : mat3 T;
  w_u : vec3 T;
  w_s : T
}.

(** Lines 104-118: rotate and translate the selected points. *)
Definition outer_points (sp : pose T) (dth : T) (bp : list (point T)) : list (point T) :=
  let c := ncos (poth sp + dth) in
  let sn := nsin (poth sp + dth) in
  map (fun p => mkPoint (px p * c - py p * sn + pox sp) (px p * sn + py p * c + poy sp)) bp.

(** Lines 124-128. *)
Definition inner_points (dx dy : T) (op : list (point T)) : list (point T) :=
  map (fun p => mkPoint (px p + dx) (py p + dy)) op.

(** Lines 122-143: one candidate. *)
Definition match_step (g : ndt T) (outer : list (point T)) (dth dx : T) (w : mstate) (dy : T) : outcome mstate :=
  l <- ndt_likelihood_points g (inner_points dx dy outer) ;;
  let score := - l in
  let better := score <? w_best w in
  let best := if better then score else w_best w in
  let p := if better then mkPose dx dy dth else w_pose w in
  let x := mkVec3 dx dy dth in
  Ok (mkMstate best p
        (mat3_add (w_k w) (mat3_scale (outer3 x x) score))
        (vec3_add (w_u w) (vec3_scale x score))
        (w_s w + score)).

(** Line 147: (1 / s) * k + (1 / (s * s) * u * u^T). *)
Definition match_covariance (w : mstate) : mat3 T :=
  let s := w_s w in
  mat3_add (mat3_scale (w_k w) (none_ / s))
           (outer3 (vec3_scale (w_u w) (none_ / (s * s))) (w_u w)).

(** scan_matcher_ndt.cpp:76-150: (return value, pose, covariance) after the call.
    The three loop-value lists do not depend on the loop bodies and are computed
    up front; within one dth the selected beams are read before the dx loop, as
    in the source. *)
Definition match_scan (fuel : nat) (m : matcher T) (s : scan T) (p : pose T) (cov : mat3 T)
  : outcome (T * pose T * mat3 T) :=
  match k_ndt m with
  | None => Ok (nzero, p, cov)
  | Some g =>
    let pts := s_pts s in
    dths <- loop_values fuel (- k_ang_size m) (k_ang_size m) (k_ang_res m) ;;
    ds <- loop_values fuel (- k_lin_size m) (k_lin_size m) (k_lin_res m) ;;
    w <- foldM (fun w dth =>
           bp <- beam_points m pts ;;
           let outer := outer_points (s_pose s) dth bp in
           foldM (fun w dx => foldM (match_step g outer dth dx) w ds) w ds)
         (mkMstate nzero p mat3_zero vec3_zero nzero) dths ;;
    Ok (w_best w / nofZ (beams_used m pts), w_pose w, match_covariance w)
  end.

(** scan_matcher_ndt.cpp:157-181. *)
Definition score_points (m : matcher T) (pts : list (point T)) (p : pose T) : outcome T :=
  match k_ndt m with
  | None => Ok nzero
  | Some g =>
    let step := scan_step_size m pts in
    score <- foldM (fun score i =>
        idx <- beam_index step i ;;
        q <- vec_get pts idx ;;
        l <- ndt_likelihood g (iso_apply p q) ;;
        Ok (score + (- l)))
      nzero (map Z.of_nat (seq 0 (Z.to_nat (beams_used m pts)))) ;;
    Ok (score / nofZ (beams_used m pts))
  end.

(** scan_matcher_ndt.cpp:152-155. *)
Definition score_scan (m : matcher T) (s : scan T) : outcome T :=
  score_points m (s_pts s) (s_pose s).

End Matcher.

Arguments box T : clear implicits.
Arguments mstate T : clear implicits.
