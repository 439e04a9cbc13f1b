(** Model of class OccupancyGrid: include/ndt_2d/occupancy_grid.hpp:39-66,
    src/occupancy_grid.cpp:36-185. *)

From Coq Require Import ZArith List Bool.
From Verif Require Import Outcome Arith TypesModel ScanModel.
Import ListNotations.
Local Open Scope outcome_scope.

Definition gcell : Type := (Z * Z)%type.

(** occupancy_grid.cpp:102-131: the loop of the simplified Bresenham.  Returns
    the cells counted as empty, in order, and the cell counted as hit.  [index]
    is computed at the top of the iteration, so an early break counts the hit in
    the cell of the top of the iteration.  Integers are unbounded here; see
    [trace_ray] for the range check. *)
Fixpoint ray_loop (fuel : nat) (ex ey dx dy sx sy x y e : Z) : outcome (list gcell * gcell) :=
  match fuel with
  | O => Fault OutOfFuel
  | S f =>
    if ((x =? ex) && (y =? ey))%Z then Ok ([], (x, y))
    else if ((dy <=? 2 * e) && (x =? ex))%Z then Ok ([(x, y)], (x, y))
    else
      let '(x1, e1) := if (dy <=? 2 * e)%Z then ((x + sx)%Z, (e + dy)%Z) else (x, e) in
      if ((2 * e1 <=? dx) && (y =? ey))%Z then Ok ([(x, y)], (x, y))
      else
        let '(y1, e2) := if (2 * e1 <=? dx)%Z then ((y + sy)%Z, (e1 + dx)%Z) else (y, e1) in
        '(es, h) <- ray_loop f ex ey dx dy sx sy x1 y1 e2 ;;
        Ok ((x, y) :: es, h)
  end.

(** occupancy_grid.cpp:93-131.  The fuel is the number of iterations proved to
    be enough (C37).  The int computations of the loop stay within
    2 * (|dx| + |dy|); a ray for which this does not fit an int is reported as
    overflow (the source may overflow there; this is conservative). *)
Definition trace_ray (start endc : gcell) : outcome (list gcell * gcell) :=
  let '(x0, y0) := start in
  let '(ex, ey) := endc in
  let dx := Z.abs (ex - x0) in
  let sx := if (x0 <? ex)%Z then 1%Z else (-1)%Z in
  let dy := (- Z.abs (ey - y0))%Z in
  let sy := if (y0 <? ey)%Z then 1%Z else (-1)%Z in
  if (2 * (dx - dy) <? 2 ^ 31)%Z
  then ray_loop (S (S (Z.to_nat (dx - dy)))) ex ey dx dy sx sy x0 y0 (dx + dy)
  else Fault IntOverflow.

(** Lines 104: int + int * uint32 is computed modulo 2^32 and converted to int. *)
Definition cell_index (width : Z) (c : gcell) : Z := to_int32 (fst c + snd c * width).

(** occupancy_grid.hpp:61-65. *)
Record occ (T : Type) : Type := mkOcc {
  og_res : T; og_thresh : T;
  og_minx : T; og_maxx : T; og_miny : T; og_maxy : T;
  og_num : nat
}.
Arguments mkOcc {T} og_res og_thresh og_minx og_maxx og_miny og_maxy og_num.
Arguments og_res {T} o.
Arguments og_thresh {T} o.
Arguments og_minx {T} o.
Arguments og_maxx {T} o.
Arguments og_miny {T} o.
Arguments og_maxy {T} o.
Arguments og_num {T} o.

(** The fields of nav_msgs/OccupancyGrid that are filled (lines 60-66). *)
Record occ_msg (T : Type) : Type := mkOccMsg {
  om_resolution : T; om_width : Z; om_height : Z; om_ox : T; om_oy : T; om_data : list Z
}.
Arguments mkOccMsg {T} om_resolution om_width om_height om_ox om_oy om_data.
Arguments om_resolution {T} o.
Arguments om_width {T} o.
Arguments om_height {T} o.
Arguments om_ox {T} o.
Arguments om_oy {T} o.
Arguments om_data {T} o.

Section Occ.
Context {T : Type} {A : Arith T}.
Local Open Scope num_scope.

(** occupancy_grid.cpp:36-45. *)
Definition occ_new (res thresh : T) : occ T := mkOcc res thresh nzero nzero nzero nzero 0.

(** Lines 168-177: one point. *)
Definition bound_point (o : occ T) (p : point T) : occ T :=
  mkOcc (og_res o) (og_thresh o)
    (nmin (px p) (og_minx o)) (nmax (px p) (og_maxx o))
    (nmin (py p) (og_miny o)) (nmax (py p) (og_maxy o)) (og_num o).

(** Lines 160-178: one scan. *)
Definition bound_scan (o : occ T) (s : scan T) : occ T :=
  fold_left (fun o q => bound_point o (place (s_pose s) q)) (s_pts s) o.

(** Lines 180-184. *)
Definition snap (o : occ T) : occ T :=
  mkOcc (og_res o) (og_thresh o)
    (nfloor (og_minx o / og_res o) * og_res o) (nceil (og_maxx o / og_res o) * og_res o)
    (nfloor (og_miny o / og_res o) * og_res o) (nceil (og_maxy o / og_res o) * og_res o) (og_num o).

(** Lines 154-185 (updateBounds). *)
Definition update_bounds (o : occ T) (scans : list (scan T)) : occ T :=
  let o1 := fold_left bound_scan (skipn (og_num o) scans) o in
  let o2 := mkOcc (og_res o1) (og_thresh o1) (og_minx o1) (og_maxx o1) (og_miny o1) (og_maxy o1) (length scans) in
  snap o2.

(** Lines 50-54. *)
Definition refresh (o : occ T) (scans : list (scan T)) : occ T :=
  if (length scans =? og_num o)%nat then o else update_bounds o scans.

(** Lines 81-82, 89-90: the cell of a position. *)
Definition pos_cell (ox oy res x y : T) : outcome gcell :=
  cx <- cast_int32 ((x - ox) / res) ;;
  cy <- cast_int32 ((y - oy) / res) ;;
  Ok (cx, cy).

(** Lines 73-91: the rays of one scan: start cell and end cell of each point.
    The start cell is computed even if the scan has no points. *)
Definition scan_rays (ox oy res : T) (s : scan T) : outcome (list (gcell * gcell)) :=
  start <- pos_cell ox oy res (pox (s_pose s)) (poy (s_pose s)) ;;
  let c := ncos (poth (s_pose s)) in
  let sn := nsin (poth (s_pose s)) in
  mapM (fun q =>
      endc <- pos_cell ox oy res ((px q * c - py q * sn) + pox (s_pose s))
                                 ((px q * sn + py q * c) + poy (s_pose s)) ;;
      Ok (start, endc)) (s_pts s).

(** The counters: number of hits and of empty touches per cell (lines 69-70). *)
Definition counters : Type := (list Z * list Z)%type.

(** Lines 102-131: the effect of one ray on the counters.  Writing outside the
    vectors is undefined behaviour.  (Overflow of the int counters is not
    modelled: fewer than 2^31 rays per cell.) *)
Definition render_ray (width : Z) (ct : counters) (r : gcell * gcell) : outcome counters :=
  '(es, h) <- trace_ray (fst r) (snd r) ;;
  empty <- foldM (fun v c => vec_update v (cell_index width c) (fun n => (n + 1)%Z)) (snd ct) es ;;
  hit <- vec_update (fst ct) (cell_index width h) (fun n => (n + 1)%Z) ;;
  Ok (hit, empty).

(** Lines 136-151: the value of a cell. *)
Definition cell_value (thresh : T) (hit empty : Z) : Z :=
  let touches : T := nofZ (hit + empty)%Z in
  if nlit 1 2 <? touches
  then (if thresh <? nofZ hit / touches then 100%Z else 0%Z)
  else (-1)%Z.

(** Lines 56-152. *)
Definition render (o : occ T) (scans : list (scan T)) : outcome (occ_msg T) :=
  let pad := nofZ 5 * og_res o in
  w <- cast_unsigned 32 ((og_maxx o - og_minx o + nofZ 2 * pad) / og_res o) ;;
  h <- cast_unsigned 32 ((og_maxy o - og_miny o + nofZ 2 * pad) / og_res o) ;;
  let ox := og_minx o - pad in
  let oy := og_miny o - pad in
  let n := Z.to_nat (wrap32 (w * h)) in
  ct <- foldM (fun ct s =>
          rays <- scan_rays ox oy (og_res o) s ;;
          foldM (render_ray w) ct rays) (repeat 0%Z n, repeat 0%Z n) scans ;;
  Ok (mkOccMsg (nsingle (og_res o)) w h ox oy
        (map (fun he => cell_value (og_thresh o) (fst he) (snd he)) (combine (fst ct) (snd ct)))).

(** Lines 47-152 (getMsg): the message and the new state. *)
Definition occ_get_msg (o : occ T) (scans : list (scan T)) : outcome (occ T * occ_msg T) :=
  let o' := refresh o scans in
  m <- render o' scans ;;
  Ok (o', m).

(** A history of renders on one OccupancyGrid object, with the scans present at
    each call. *)
Fixpoint occ_run (o : occ T) (calls : list (list (scan T))) : outcome (occ T) :=
  match calls with
  | [] => Ok o
  | scans :: rest => '(o', _) <- occ_get_msg o scans ;; occ_run o' rest
  end.

End Occ.
