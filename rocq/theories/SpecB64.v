(** Specification vocabulary for the statistics of a cell in double arithmetic:
    what the doubles stand for, and what is assumed of Eigen and of libm. *)

From Coq Require Import ZArith Reals List.
From Flocq Require Import Core BinarySingleNaN.
From Verif Require Import Outcome Arith TypesModel ScanModel NdtModel SpecStats.
Import ListNotations.
Local Open Scope R_scope.

(** The real point a pair of doubles stands for. *)
Definition real_point (p : point b64) : point R := mkPoint (B2R (px p)) (B2R (py p)).
Definition real_points (pts : list (point b64)) : list (point R) := map real_point pts.

(** Finite coordinates, none larger than [M]. *)
Definition coordinates_within (M : R) (p : point b64) : Prop :=
  (is_finite (px p) = true /\ is_finite (py p) = true) /\ Rabs (B2R (px p)) <= M /\ Rabs (B2R (py p)) <= M.

(** A finite double within [e] of the real number [r]. *)
Definition close_to (e : R) (x : b64) (r : R) : Prop := is_finite x = true /\ Rabs (B2R x - r) <= e.

(** Half the distance from 1 to the next double. *)
Definition unit_roundoff : R := bpow radix2 (-53).

(** The variance of the points in every direction is at least [v]. *)
Definition spread_at_least (v : R) (pts : list (point R)) : Prop :=
  forall w, v * norm2 w <= quad2 (cov_matrix pts) w.

(** Eigen::EigenSolver on a symmetric positive definite matrix of doubles: two
    finite numbers, the larger one of the size of the trace. *)
Definition sane_eigenvalues (eig : mat2 b64 -> b64 * b64) : Prop :=
  forall m : mat2 b64, is_finite (m00 m) = true -> is_finite (m01 m) = true -> is_finite (m11 m) = true -> m10 m = m01 m ->
    0 < B2R (m00 m) -> 0 < B2R (m11 m) -> B2R (m01 m) * B2R (m01 m) < B2R (m00 m) * B2R (m11 m) ->
    is_finite (fst (eig m)) = true /\ is_finite (snd (eig m)) = true /\
    (B2R (m00 m) + B2R (m11 m)) / 4 <= Rmax (B2R (fst (eig m))) (B2R (snd (eig m))) <= 2 * (B2R (m00 m) + B2R (m11 m)).

(** Eigen::EigenSolver on a diagonal matrix: the diagonal, in either order. *)
Definition diagonal_eigenvalues (eig : mat2 b64 -> b64 * b64) : Prop :=
  forall a d : b64, eig (mkMat2 a (b64_of 0 0) (b64_of 0 0) d) = (a, d) \/ eig (mkMat2 a (b64_of 0 0) (b64_of 0 0) d) = (d, a).

(** exp in libm: at most 1 up to 2^-60 (where it rounds to 1); more than 1 from 1/2 on;
    infinite from 1000 on. *)
Definition exp_unit (lm : libm) : Prop :=
  forall x : b64, is_finite x = true -> B2R x <= bpow radix2 (-60) -> is_finite (lm_exp lm x) = true /\ 0 <= B2R (lm_exp lm x) <= 1.
Definition exp_grows (lm : libm) : Prop :=
  forall x : b64, is_finite x = true -> / 2 <= B2R x -> Bltb (b64_of 1 0) (lm_exp lm x) = true.
Definition exp_saturates (lm : libm) : Prop :=
  forall x : b64, is_finite x = true -> 1000 <= B2R x -> lm_exp lm x = b64_inf.

(** The points a grid receives from scans: each moved by the pose of its scan
    (ndt_model.cpp:134-142, [place] of ScanModel). *)
Definition moved64 (lm : libm) (scans : list (scan b64)) : list (point b64) :=
  flat_map (fun s => map (place (A := BA lm) (s_pose s)) (s_pts s)) scans.

(** Those that fall into cell [k] of the grid. *)
Definition members64 (lm : libm) (g : ndt b64) (k : nat) (pts : list (point b64)) : list (point b64) :=
  filter (fun p => match ndt_index (A := BA lm) g (px p) (py p) with Ok i => (i =? Z.of_nat k)%Z | Fault _ => false end) pts.

(** Every cell has fewer than five points, or its points are spread in every
    direction by more than the rounding noise. *)
Definition spread_in_cells (lm : libm) (M : R) (g : ndt b64) (pts : list (point b64)) : Prop :=
  forall k, (length (members64 lm g k pts) < 5)%nat \/
    exists v, spread_at_least v (real_points (members64 lm g k pts)) /\
              4096 * unit_roundoff * (M * M) * (INR (length (members64 lm g k pts)) + 1) <= v.

(** Cell size and origin of moderate magnitude. *)
Definition moderate_grid (g : ndt b64) : Prop :=
  is_finite (g_cs g) = true /\ bpow radix2 (-60) <= B2R (g_cs g) <= bpow radix2 60 /\
  is_finite (g_ox g) = true /\ Rabs (B2R (g_ox g)) <= bpow radix2 60 /\
  is_finite (g_oy g) = true /\ Rabs (B2R (g_oy g)) <= bpow radix2 60.

(** A finite double in [-1, 0]. *)
Definition normalised64 (v : b64) : Prop := is_finite v = true /\ -1 <= B2R v <= 0.
