(** Specification vocabulary: sums, means, sample covariance, 2x2 matrices.
    Independent of the model; this is what the English properties talk about. *)

From Coq Require Import Reals List.
From Verif Require Import TypesModel.
Import ListNotations.
Local Open Scope R_scope.

(** Sum of [f x] over a list. *)
Fixpoint sumf {X : Type} (f : X -> R) (l : list X) : R :=
  match l with
  | [] => 0
  | x :: rest => f x + sumf f rest
  end.

(** Arithmetic mean of [f x] over a (non-empty) list. *)
Definition average {X : Type} (f : X -> R) (l : list X) : R :=
  sumf f l / INR (length l).

(** Unbiased sample covariance (divisor n - 1) of two coordinates. *)
Definition sample_cov {X : Type} (f g : X -> R) (l : list X) : R :=
  sumf (fun x => (f x - average f l) * (g x - average g l)) l / (INR (length l) - 1).

(** Sample covariance matrix of a list of points. *)
Definition cov_matrix (pts : list (point R)) : mat2 R :=
  mkMat2 (sample_cov px px pts) (sample_cov px py pts)
         (sample_cov py px pts) (sample_cov py py pts).

Definition mean_point (pts : list (point R)) : point R :=
  mkPoint (average px pts) (average py pts).

(** 2x2 matrix vocabulary. *)
Definition symmetric2 (m : mat2 R) : Prop := m01 m = m10 m.
Definition quad2 (m : mat2 R) (q : point R) : R :=
  px q * (m00 m * px q + m01 m * py q) + py q * (m10 m * px q + m11 m * py q).
Definition psd2 (m : mat2 R) : Prop := symmetric2 m /\ forall q, 0 <= quad2 m q.
Definition trace2 (m : mat2 R) : R := m00 m + m11 m.
Definition det2 (m : mat2 R) : R := m00 m * m11 m - m01 m * m10 m.
Definition mul2 (m n : mat2 R) : mat2 R :=
  mkMat2 (m00 m * m00 n + m01 m * m10 n) (m00 m * m01 n + m01 m * m11 n)
         (m10 m * m00 n + m11 m * m10 n) (m10 m * m01 n + m11 m * m11 n).
Definition id2 : mat2 R := mkMat2 1 0 0 1.
Definition is_inverse2 (m n : mat2 R) : Prop := mul2 m n = id2 /\ mul2 n m = id2.
Definition psub (p q : point R) : point R := mkPoint (px p - px q) (py p - py q).
Definition norm2 (q : point R) : R := px q * px q + py q * py q.

(** (s, l) are the eigenvalues of the symmetric matrix [m], in any order: the
    two roots of its characteristic polynomial. *)
Definition eigenvalues2 (m : mat2 R) (e : R * R) : Prop :=
  fst e + snd e = trace2 m /\ fst e * snd e = det2 m.

(** What is assumed about Eigen::EigenSolver (real parts, exact arithmetic):
    on a symmetric matrix it returns its two eigenvalues, in any order. *)
Definition eigen_contract (eig : mat2 R -> R * R) : Prop :=
  forall m, symmetric2 m -> eigenvalues2 m (eig m).

(** Not all points of the list coincide. *)
Definition not_all_equal (pts : list (point R)) : Prop :=
  exists p q, In p pts /\ In q pts /\ p <> q.

(** Gaussian score of displacement [q] for inverse covariance [w]. *)
Definition gauss (w : mat2 R) (q : point R) : R := exp (- (1 / 2) * quad2 w q).

(** [m'] is the symmetric matrix [m] with its eigenvalue [s], of unit
    eigenvector (vx, vy), raised to [s']. *)
Definition eigenvalue_raised (m : mat2 R) (s s' : R) (m' : mat2 R) : Prop :=
  exists vx vy,
    vx * vx + vy * vy = 1 /\
    m00 m * vx + m01 m * vy = s * vx /\
    m10 m * vx + m11 m * vy = s * vy /\
    m' = mkMat2 (m00 m + (s' - s) * vx * vx) (m01 m + (s' - s) * vx * vy)
                (m10 m + (s' - s) * vy * vx) (m11 m + (s' - s) * vy * vy).
