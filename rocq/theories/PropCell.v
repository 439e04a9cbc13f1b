(** Properties C01 - C08: the NDT cell.  Statements only; proofs in CellProofs*.v. *)

From Coq Require Import ZArith Reals List Permutation.
From Flocq Require Import Core BinarySingleNaN.
From Verif Require Import Outcome Arith TypesModel CellModel SpecStats CellProofs CellProofs2.
Import ListNotations.
Local Open Scope R_scope.

(** C01: any interleaving of addPoint / compute ending in compute. *)
Theorem C01_cell_batch_statistics : forall (eig : mat2 R -> R * R) (ops : list (cell_op R)),
  (3 <= length (op_points ops))%nat ->
  let c := cell_run eig (ops ++ [CCompute]) in
  c_n c = INR (length (op_points ops)) /\
  c_mean c = mean_point (op_points ops) /\
  c_cov c = cov_matrix (op_points ops).
Proof.
  exact (fun eig ops H =>
    let s := run_compute_stats eig ops H in conj (proj1 s) (conj (proj1 (proj2 s)) (proj1 (proj2 (proj2 s))))).
Qed.
Print Assumptions C01_cell_batch_statistics.

Example C01_nonvacuous : (3 <= length (op_points square_ops))%nat.
Proof. rewrite square_ops_points. cbn. repeat constructor. Qed.

(** C02 *)
Theorem C02_cell_order_independent : forall (eig : mat2 R -> R * R) (ops1 ops2 : list (cell_op R)),
  Permutation (op_points ops1) (op_points ops2) ->
  let c1 := cell_run eig (ops1 ++ [CCompute]) in
  let c2 := cell_run eig (ops2 ++ [CCompute]) in
  c_n c1 = c_n c2 /\ c_mean c1 = c_mean c2 /\ c_cov c1 = c_cov c2 /\ c_info c1 = c_info c2 /\
  forall q, cell_score c1 q = cell_score c2 q.
Proof. exact order_independent. Qed.
Print Assumptions C02_cell_order_independent.

Example C02_nonvacuous : Permutation (op_points square_ops) (op_points (rev square_ops))
                         /\ op_points square_ops <> op_points (rev square_ops).
Proof. exact square_reversed. Qed.

(** C03 *)
Theorem C03_cell_covariance_psd : forall (eig : mat2 R -> R * R) (ops : list (cell_op R)),
  (3 <= length (op_points ops))%nat ->
  psd2 (c_cov (cell_run eig (ops ++ [CCompute]))).
Proof.
  exact (fun eig ops H => eq_ind_r psd2 (cov_matrix_psd (op_points ops) H)
                            (proj1 (proj2 (proj2 (run_compute_stats eig ops H))))).
Qed.
Print Assumptions C03_cell_covariance_psd.

Theorem C03_cell_information_psd : forall (eig : mat2 R -> R * R) (ops : list (cell_op R)),
  eigen_contract eig -> (3 <= length (op_points ops))%nat -> not_all_equal (op_points ops) ->
  psd2 (c_info (cell_run eig (ops ++ [CCompute]))).
Proof.
  exact (fun eig ops He H Hn => eq_ind_r psd2 (info_psd eig (op_points ops) He H Hn)
                            (proj1 (proj2 (proj2 (proj2 (run_compute_stats eig ops H)))))).
Qed.
Print Assumptions C03_cell_information_psd.

Example C03_nonvacuous : eigen_contract eig_exact /\ (3 <= length (op_points square_ops))%nat /\
                         not_all_equal (op_points square_ops).
Proof.
  split; [exact eig_exact_contract|]. split; [exact C01_nonvacuous|].
  rewrite square_ops_points. exact square_not_equal.
Qed.

(** C04 *)
Theorem C04_cell_score_range : forall (eig : mat2 R -> R * R) (ops : list (cell_op R)) (q : point R),
  eigen_contract eig -> (5 <= length (op_points ops))%nat -> not_all_equal (op_points ops) ->
  0 < cell_score (cell_run eig (ops ++ [CCompute])) q <= 1.
Proof. exact score_range. Qed.
Print Assumptions C04_cell_score_range.

Theorem C04_cell_score_at_mean : forall (eig : mat2 R -> R * R) (ops : list (cell_op R)),
  (5 <= length (op_points ops))%nat ->
  cell_score (cell_run eig (ops ++ [CCompute])) (mean_point (op_points ops)) = 1.
Proof. exact score_at_mean. Qed.
Print Assumptions C04_cell_score_at_mean.

Theorem C04_cell_few_points_zero : forall (eig : mat2 R -> R * R) (ops : list (cell_op R)) (q : point R),
  (length (op_points ops) < 5)%nat -> cell_score (cell_run eig ops) q = 0.
Proof. exact run_few_score. Qed.
Print Assumptions C04_cell_few_points_zero.

Example C04_nonvacuous : eigen_contract eig_exact /\ (5 <= length (op_points square_ops))%nat /\
                         not_all_equal (op_points square_ops).
Proof.
  split; [exact eig_exact_contract|]. rewrite square_ops_points.
  split; [cbn; repeat constructor|exact square_not_equal].
Qed.

(** C05 *)
Theorem C05_cell_gaussian_score : forall (eig : mat2 R -> R * R) (ops : list (cell_op R)) (s l : R) (w : mat2 R) (q : point R),
  eigen_contract eig -> (5 <= length (op_points ops))%nat ->
  eigenvalues2 (cov_matrix (op_points ops)) (s, l) -> 0 < s -> s <= l -> 1 / 1000 * l <= s ->
  is_inverse2 (cov_matrix (op_points ops)) w ->
  cell_score (cell_run eig (ops ++ [CCompute])) q = gauss w (psub q (mean_point (op_points ops))).
Proof. exact well_conditioned_score. Qed.
Print Assumptions C05_cell_gaussian_score.

Example C05_nonvacuous :
  eigenvalues2 (cov_matrix (op_points square_ops)) (1, 1) /\
  is_inverse2 (cov_matrix (op_points square_ops)) id2.
Proof. exact square_well_conditioned. Qed.

(** C06: false as stated.  Five points on a line, query point on that line, one
    unit from the mean: whatever eigenvalue routine meets the contract, the score
    differs from the one of the covariance with its smaller eigenvalue raised. *)
Theorem C06_regularised_score_refuted :
  exists (ops : list (cell_op R)) (s l : R) (m' w : mat2 R) (q : point R),
    (5 <= length (op_points ops))%nat /\
    eigenvalues2 (cov_matrix (op_points ops)) (s, l) /\ 0 <= s /\ s < 1 / 1000 * l /\
    eigenvalue_raised (cov_matrix (op_points ops)) s (1 / 1000 * l) m' /\ is_inverse2 m' w /\
    forall eig, eigen_contract eig ->
      cell_score (cell_run eig (ops ++ [CCompute])) q <> gauss w (psub q (mean_point (op_points ops))).
Proof. exact line_refutes_full. Qed.
Print Assumptions C06_regularised_score_refuted.

(** What does hold: the score is at least the regularised one, equal to it for
    displacements along the raised eigenvector, and never sharper than 1000/l.
    Missing for the full claim: equality for every query point. *)
Theorem C06_regularised_score_partial :
  forall (eig : mat2 R -> R * R) (ops : list (cell_op R)) (s l : R) (m' w : mat2 R) (q : point R),
  eigen_contract eig -> (5 <= length (op_points ops))%nat ->
  eigenvalues2 (cov_matrix (op_points ops)) (s, l) -> 0 <= s -> s < 1 / 1000 * l ->
  eigenvalue_raised (cov_matrix (op_points ops)) s (1 / 1000 * l) m' -> is_inverse2 m' w ->
  let d := psub q (mean_point (op_points ops)) in
  let score := cell_score (cell_run eig (ops ++ [CCompute])) q in
  gauss w d <= score /\
  ((exists t, m00 (cov_matrix (op_points ops)) * (t * px d) + m01 (cov_matrix (op_points ops)) * (t * py d) = s * (t * px d) /\
              m10 (cov_matrix (op_points ops)) * (t * px d) + m11 (cov_matrix (op_points ops)) * (t * py d) = s * (t * py d) /\ t <> 0) ->
   score = gauss w d) /\
  exp (- (1 / 2) * (1000 / l * norm2 d)) <= score.
Proof. exact ill_conditioned_score. Qed.
Print Assumptions C06_regularised_score_partial.

(** C07: false as stated.  Five copies of the point (1, 1): NaN, in binary64, for
    every library [lm] whose exp maps NaN to NaN and every eigenvalue routine
    that returns (0, 0) for the zero matrix. *)
Theorem C07_score_is_number_refuted :
  exists (ops : list (cell_op b64)) (q : point b64),
    forall (lm : libm) (eig : mat2 b64 -> b64 * b64),
      eig (mkMat2 (b64_of 0 0) (b64_of 0 0) (b64_of 0 0) (b64_of 0 0)) = (b64_of 0 0, b64_of 0 0) ->
      lm_exp lm b64_nan = b64_nan ->
      cell_score (A := BA lm) (cell_run (A := BA lm) eig (ops ++ [CCompute])) q = b64_nan.
Proof. exact (ex_intro _ same_point_ops (ex_intro _ (mkPoint b64_one b64_one) coincident_points_nan)). Qed.
Print Assumptions C07_score_is_number_refuted.

(** What does hold, in every arithmetic including binary64: a cell whose count is
    below five scores zero.  Missing: every cell with five or more points. *)
Theorem C07_score_is_number_partial : forall {T} {A : Arith T} (c : cell T) (q : point T),
  nlt (c_n c) (nofZ 5) = true -> cell_score c q = nzero.
Proof. exact @score_few_generic. Qed.
Print Assumptions C07_score_is_number_partial.

(** C08: in every arithmetic, hence also in binary64. *)
Theorem C08_compute_idempotent : forall {T} {A : Arith T} (eig : mat2 T -> T * T) (ops : list (cell_op T)),
  cell_run eig (ops ++ [CCompute; CCompute]) = cell_run eig (ops ++ [CCompute]).
Proof. exact @run_app_compute_twice. Qed.
Print Assumptions C08_compute_idempotent.

Theorem C08_compute_up_to_date : forall {T} {A : Arith T} (eig : mat2 T -> T * T) (ops1 ops2 : list (cell_op T)),
  op_points ops1 = op_points ops2 ->
  nlt (c_n (cell_run eig ops1)) (nofZ 3) = false ->
  cell_run eig (ops1 ++ [CCompute]) = cell_run eig (ops2 ++ [CCompute]).
Proof. exact @canonical_generic. Qed.
Print Assumptions C08_compute_up_to_date.

Example C08_nonvacuous :
  op_points square_ops = op_points (map CAdd square_points) /\
  nlt (c_n (cell_run eig_exact square_ops)) (nofZ 3) = false.
Proof. exact square_up_to_date. Qed.
