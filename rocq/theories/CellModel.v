(** Model of struct Cell: include/ndt_2d/ndt_model.hpp:43-65,
    src/ndt_model.cpp:40-116. *)

From Coq Require Import ZArith List Bool.
From Verif Require Import Outcome Arith TypesModel.
Import ListNotations.

Section Cell.
Context {T : Type} {A : Arith T}.
Local Open Scope num_scope.

(** ndt_model.hpp:43-65.  [n] is a double in the source, too. *)
Record cell : Type := mkCell {
  c_valid : bool;
  c_n : T;
  c_mean : point T;
  c_cov : mat2 T;
  c_corr : mat2 T;
  c_info : mat2 T
}.

(** ndt_model.cpp:40-48. *)
Definition cell_new : cell :=
  mkCell false nzero (mkPoint nzero nzero) mat2_zero mat2_zero mat2_zero.

(** ndt_model.cpp:50-63.  The loops over i, j >= i are unrolled: only the upper
    triangle of [correlation] is updated. *)
Definition cell_add_point (c : cell) (p : point T) : cell :=
  let n := c_n c in
  let avg old new := (old * n + new) / (n + none_) in
  let mean := mkPoint (avg (px (c_mean c)) (px p)) (avg (py (c_mean c)) (py p)) in
  let corr := mkMat2 (avg (m00 (c_corr c)) (px p * px p))
                     (avg (m01 (c_corr c)) (px p * py p))
                     (m10 (c_corr c))
                     (avg (m11 (c_corr c)) (py p * py p)) in
  mkCell false (n + none_) mean (c_cov c) corr (c_info c).

(** ndt_model.cpp:83-100: eigenvalue test and information matrix.
    [eig] stands for the real parts of the eigenvalues reported by
    Eigen::EigenSolver (line 84-85), in the order Eigen reports them. *)
Definition info_of_cov (eig : mat2 T -> T * T) (cov : mat2 T) : mat2 T :=
  let ev := eig cov in
  let '(small, large) :=
    if snd ev <? fst ev then (snd ev, fst ev) else (fst ev, snd ev) in
  if small <? nlit 1 1000 * large then
    let determinant := (nlit 1 1000 * large) * large in
    mkMat2 (m11 cov / determinant) ((- m10 cov) / determinant)
           ((- m01 cov) / determinant) (m00 cov / determinant)
  else mat2_inverse cov.

(** ndt_model.cpp:65-103. *)
Definition cell_compute (eig : mat2 T -> T * T) (c : cell) : cell :=
  if c_valid c || (c_n c <? nofZ 3) then c
  else
    let scale := c_n c / (c_n c - none_) in
    let mx := px (c_mean c) in
    let my := py (c_mean c) in
    let c00 := (m00 (c_corr c) - mx * mx) * scale in
    let c01 := (m01 (c_corr c) - mx * my) * scale in
    let c11 := (m11 (c_corr c) - my * my) * scale in
    let cov := mkMat2 c00 c01 c01 c11 in
    mkCell true (c_n c) (c_mean c) cov (c_corr c) (info_of_cov eig cov).

(** ndt_model.cpp:105-116.  Eigen evaluates
    ((-0.5 * q^T) * information) * q from left to right. *)
Definition cell_score (c : cell) (p : point T) : T :=
  if c_n c <? nofZ 5 then nzero
  else
    let q0 := px p - px (c_mean c) in
    let q1 := py p - py (c_mean c) in
    let h := - (nlit 1 2) in
    let r0 := (h * q0) * m00 (c_info c) + (h * q1) * m10 (c_info c) in
    let r1 := (h * q0) * m01 (c_info c) + (h * q1) * m11 (c_info c) in
    nexp (r0 * q0 + r1 * q1).

(** The public interface of a cell as an operation history. *)
Inductive cell_op : Type :=
| CAdd (p : point T)     (* addPoint *)
| CCompute.              (* compute *)

Definition cell_step (eig : mat2 T -> T * T) (c : cell) (o : cell_op) : cell :=
  match o with
  | CAdd p => cell_add_point c p
  | CCompute => cell_compute eig c
  end.

Definition cell_run (eig : mat2 T -> T * T) (ops : list cell_op) : cell :=
  fold_left (cell_step eig) ops cell_new.

Definition op_points (ops : list cell_op) : list (point T) :=
  flat_map (fun o => match o with CAdd p => [p] | CCompute => [] end) ops.

End Cell.

Arguments cell T : clear implicits.
Arguments cell_op T : clear implicits.
