(** Properties C09 - C12: the NDT grid. *)

From Coq Require Import ZArith Reals List Permutation.
From Flocq Require Import Core BinarySingleNaN.
From Verif Require Import Outcome Arith TypesModel CellModel ScanModel NdtModel
  SpecStats SpecGrid CellProofs CellProofs2 NdtProofs NdtProofs2.
Import ListNotations.
Local Open Scope R_scope.

(** C09: in every arithmetic. *)
Theorem C09_ndt_index_in_bounds :
  forall {T} {A : Arith T} (cs sx sy ox oy : T) (g : ndt T) (x y : T) (i : Z),
  ndt_new cs sx sy ox oy = Ok g -> (g_sx g * g_sy g < 2 ^ 31)%Z ->
  ndt_index g x y = Ok i -> i = (-1)%Z \/ (0 <= i < Z.of_nat (length (g_cells g)))%Z.
Proof.
  exact (fun T A cs sx sy ox oy g x y i Hnew Hn =>
           ndt_index_bounds g x y i (ndt_new_wf cs sx sy ox oy g Hnew Hn)).
Qed.
Print Assumptions C09_ndt_index_in_bounds.

Theorem C09_ndt_only_conversion_undefined :
  forall {T} {A : Arith T} (eig : mat2 T -> T * T) (cs sx sy ox oy : T) (g : ndt T) (ops : list (ndt_op T)) (f : fault),
  ndt_new cs sx sy ox oy = Ok g -> (g_sx g * g_sy g < 2 ^ 31)%Z ->
  (ndt_run eig g ops = Fault f -> f = BadCast) /\
  (forall h, ndt_run eig g ops = Ok h ->
    (forall p, ndt_likelihood h p = Fault f -> f = BadCast) /\
    (forall pts, ndt_likelihood_points h pts = Fault f -> f = BadCast) /\
    (forall s, ndt_likelihood_scan h s = Fault f -> f = BadCast)).
Proof.
  exact (fun T A eig cs sx sy ox oy g ops f Hnew Hn =>
    let Hw := ndt_new_wf cs sx sy ox oy g Hnew Hn in
    conj (ndt_run_fault eig g ops f Hw)
         (fun h Hh => let Hw' := same_geom_wf g h (ndt_run_geom eig g h ops Hh) Hw in
            conj (fun p => ndt_likelihood_fault h p f Hw')
              (conj (fun pts => ndt_likelihood_points_fault h pts f Hw')
                    (fun s => ndt_likelihood_scan_fault h s f Hw')))).
Qed.
Print Assumptions C09_ndt_only_conversion_undefined.

Theorem C09_ndt_index_defined_iff : forall {T} {A : Arith T} (g : ndt T) (x y : T),
  (exists i, ndt_index g x y = Ok i) <->
  (nlt x (g_ox g) = true \/ nlt y (g_oy g) = true \/
   ((exists z, ntrunc (ndiv (nsub x (g_ox g)) (g_cs g)) = Some z /\ (0 <= z < 2 ^ 32)%Z) /\
    (exists z, ntrunc (ndiv (nsub y (g_oy g)) (g_cs g)) = Some z /\ (0 <= z < 2 ^ 32)%Z))).
Proof. exact @ndt_index_defined. Qed.
Print Assumptions C09_ndt_index_defined_iff.

(** The undefined case is real: a not-a-number coordinate, in binary64. *)
Theorem C09_ndt_nan_coordinate_undefined : forall (lm : libm) (g : ndt b64) (y : b64),
  Bltb y (g_oy g) = false -> ndt_index (A := BA lm) g b64_nan y = Fault BadCast.
Proof. exact ndt_index_nan. Qed.
Print Assumptions C09_ndt_nan_coordinate_undefined.

Example C09_nonvacuous : ndt_new 1 3 3 0 0 = Ok demo_grid /\ (g_sx demo_grid * g_sy demo_grid < 2 ^ 31)%Z.
Proof. exact (conj demo_new eq_refl). Qed.

(** C10: exact arithmetic. *)
Theorem C10_ndt_covers_rectangle : forall (cs sx sy ox oy : R) (g : ndt R) (p : point R),
  0 < cs -> ndt_new cs sx sy ox oy = Ok g -> (g_sx g * g_sy g < 2 ^ 31)%Z ->
  ox <= px p <= ox + sx -> oy <= py p <= oy + sy ->
  exists i, ndt_index g (px p) (py p) = Ok i /\ (0 <= i < Z.of_nat (length (g_cells g)))%Z.
Proof. exact ndt_covers. Qed.
Print Assumptions C10_ndt_covers_rectangle.

Theorem C10_ndt_separates_squares : forall (cs sx sy ox oy : R) (g : ndt R) (p q : point R) (i j : Z),
  0 < cs -> ndt_new cs sx sy ox oy = Ok g -> (g_sx g * g_sy g < 2 ^ 31)%Z ->
  ndt_index g (px p) (py p) = Ok i -> ndt_index g (px q) (py q) = Ok j -> (0 <= i)%Z -> (0 <= j)%Z ->
  (i = j <-> exists a b, in_square ox oy cs a b p /\ in_square ox oy cs a b q).
Proof. exact ndt_same_cell_new. Qed.
Print Assumptions C10_ndt_separates_squares.

Theorem C10_ndt_left_below_outside : forall (cs sx sy ox oy : R) (g : ndt R) (p : point R),
  ndt_new cs sx sy ox oy = Ok g -> px p < ox \/ py p < oy -> ndt_index g (px p) (py p) = Ok (-1)%Z.
Proof. exact ndt_left_below_new. Qed.
Print Assumptions C10_ndt_left_below_outside.

Example C10_nonvacuous : exists i j,
  ndt_index demo_grid 0 0 = Ok i /\ ndt_index demo_grid 2 1 = Ok j /\ (0 <= i)%Z /\ (0 <= j)%Z /\ i <> j.
Proof. exact demo_indices. Qed.

(** C11: exact arithmetic; any history of addScan / compute ending in compute. *)
Theorem C11_ndt_cell_contents :
  forall (eig : mat2 R -> R * R) (cs sx sy ox oy : R) (g h : ndt R) (ops : list (ndt_op R)) (a b : Z),
  0 < cs -> ndt_new cs sx sy ox oy = Ok g -> (g_sx g * g_sy g < 2 ^ 31)%Z ->
  ndt_run eig g (ops ++ [NCompute]) = Ok h -> (0 <= a < g_sx g)%Z -> (0 <= b < g_sy g)%Z ->
  let pts := filter (in_square_b ox oy cs a b) (moved_points (added_scans ops)) in
  exists c, vec_get (g_cells h) (b * g_sx g + a) = Ok c /\
    c_n c = INR (length pts) /\
    (pts <> [] -> c_mean c = mean_point pts) /\
    ((3 <= length pts)%nat -> c_cov c = cov_matrix pts) /\
    (forall q, cell_score c q = cell_score (cell_run eig (map CAdd pts ++ [CCompute])) q).
Proof. exact ndt_cell_contents. Qed.
Print Assumptions C11_ndt_cell_contents.

(** In every arithmetic: the cell sees exactly its own points, in order. *)
Theorem C11_ndt_cell_history :
  forall {T} {A : Arith T} (eig : mat2 T -> T * T) (ops : list (ndt_op T)) (g h : ndt T) (k : nat) (c : cell T),
  ndt_wf g -> ndt_run eig g ops = Ok h -> nth_error (g_cells g) k = Some c ->
  nth_error (g_cells h) k = Some (fold_left (cell_step eig) (cell_history g k ops) c) /\
  op_points (cell_history g k ops) = filter (in_cell g k) (history_points ops).
Proof.
  exact (fun T A eig ops g h k c Hw Hr Hk =>
           conj (ndt_run_cell eig ops g h k c Hw Hr Hk) (cell_history_points g k ops)).
Qed.
Print Assumptions C11_ndt_cell_history.

Example C11_nonvacuous : forall eig,
  exists h, ndt_run eig demo_grid ([NAddScan demo_scan] ++ [NCompute]) = Ok h.
Proof. exact demo_run. Qed.

(** C12: exact arithmetic. *)
Theorem C12_ndt_likelihoods :
  forall (eig : mat2 R -> R * R) (cs sx sy ox oy : R) (g h : ndt R) (ops : list (ndt_op R)),
  eigen_contract eig -> 0 < cs -> ndt_new cs sx sy ox oy = Ok g -> (g_sx g * g_sy g < 2 ^ 31)%Z ->
  ndt_run eig g (ops ++ [NCompute]) = Ok h ->
  spread_in_squares ox oy cs (moved_points (added_scans ops)) ->
  (forall p v, ndt_likelihood h p = Ok v -> 0 <= v <= 1) /\
  (forall pts v, ndt_likelihood_points h pts = Ok v ->
    (exists vs, Forall2 (fun p x => ndt_likelihood h p = Ok x) pts vs /\ v = sumf (fun x => x) vs) /\
    0 <= v <= INR (length pts)) /\
  (forall p pts, ndt_index h (px p) (py p) = Ok (-1)%Z ->
    ndt_likelihood_points h (p :: pts) = ndt_likelihood_points h pts) /\
  (forall pts pts' v, Permutation pts pts' -> ndt_likelihood_points h pts = Ok v ->
    ndt_likelihood_points h pts' = Ok v) /\
  (forall s, ndt_likelihood_scan h s = ndt_likelihood_points h (map (move (s_pose s)) (s_pts s))).
Proof. exact ndt_likelihood_summary. Qed.
Print Assumptions C12_ndt_likelihoods.

Example C12_nonvacuous :
  eigen_contract eig_exact /\ ndt_new 1 3 3 0 0 = Ok demo_grid /\
  (exists h, ndt_run eig_exact demo_grid ([NAddScan demo_scan] ++ [NCompute]) = Ok h) /\
  spread_in_squares 0 0 1 (moved_points (added_scans [NAddScan demo_scan])).
Proof. exact (conj eig_exact_contract (conj demo_new (conj (demo_run eig_exact) demo_spread))). Qed.
