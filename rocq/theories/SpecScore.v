(** Specification vocabulary: what the likelihood of a point is, given the points
    a map was built from.  Independent of the model. *)

From Coq Require Import ZArith Reals List.
From Verif Require Import TypesModel SpecStats SpecGrid.
Local Open Scope R_scope.

(** The axes of a point cloud with covariance [m]: variance [s] along the unit
    vector (vx, vy) and variance [l] along the unit vector (-vy, vx), s <= l. *)
Definition axes (m : mat2 R) (s l vx vy : R) : Prop :=
  vx * vx + vy * vy = 1 /\ s <= l /\ 0 < l /\
  m00 m = s * (vx * vx) + l * (vy * vy) /\ m11 m = s * (vy * vy) + l * (vx * vx) /\
  m01 m = (s - l) * (vx * vy) /\ m10 m = (s - l) * (vx * vy).

(** The likelihood of [q] under the cloud: the Gaussian of the cloud when its
    variances are within a factor 1000.  Otherwise s is taken to be l / 1000
    across the cloud, and along it 1 / l is replaced by s / (l / 1000 * l), which
    is smaller. *)
Definition cloud_likelihood (pts : list (point R)) (q : point R) (v : R) : Prop :=
  exists s l vx vy, axes (cov_matrix pts) s l vx vy /\
  let d := psub q (mean_point pts) in
  let across := px d * vx + py d * vy in
  let along := py d * vx - px d * vy in
  (l / 1000 <= s /\ v = exp (- (1 / 2) * (across * across / s + along * along / l)) \/
   s < l / 1000 /\ v = exp (- (1 / 2) * (across * across / (l / 1000) + along * along * (s / (l / 1000 * l))))).

(** Clouds of fewer than five points count for nothing; five or more points that
    all coincide are left open here (C07). *)
Definition likelihood_in (pts : list (point R)) (q : point R) (v : R) : Prop :=
  ((length pts < 5)%nat -> v = 0) /\
  ((5 <= length pts)%nat -> not_all_equal pts -> cloud_likelihood pts q v).

(** A map of nx by ny squares of side w anchored at (ox, oy), built from [pts]:
    only the points in the square of [q] matter; outside the map it is 0. *)
Definition map_likelihood (ox oy w : R) (nx ny : Z) (pts : list (point R)) (q : point R) (v : R) : Prop :=
  (forall a b, (0 <= a < nx)%Z -> (0 <= b < ny)%Z -> in_square ox oy w a b q ->
     likelihood_in (filter (in_square_b ox oy w a b) pts) q v) /\
  ((forall a b, (0 <= a < nx)%Z -> (0 <= b < ny)%Z -> ~ in_square ox oy w a b q) -> v = 0).

(** Which points of a scan of n points are looked at when k are: number
    floor (i n / k) for i = 0 .. k - 1. *)
Definition evenly (n k : nat) (idxs : list nat) : Prop :=
  length idxs = k /\
  forall i j, nth_error idxs i = Some j -> INR j <= INR i * INR n / INR k < INR j + 1.

(** The score of [pts] at pose [q] with at most [k] beams: minus the mean
    likelihood of the beams looked at, moved to the pose. *)
Definition score_is (ox oy w : R) (nx ny : Z) (built_from : list (point R)) (k : nat)
    (pts : list (point R)) (q : pose R) (v : R) : Prop :=
  exists idxs beams ls,
    evenly (length pts) (Nat.min k (length pts)) idxs /\
    Forall2 (fun i p => nth_error pts i = Some p) idxs beams /\
    Forall2 (fun p x => map_likelihood ox oy w nx ny built_from (move q p) x) beams ls /\
    v = - average (fun x => x) ls.
