(** Instances of the hypotheses of theorems of PropCell, PropMatcher and PropFilter. *)

From Coq Require Import ZArith Reals List Permutation Lra Lia.
From Flocq Require Import Core BinarySingleNaN.
From Verif Require Import Outcome Arith TypesModel CellModel SpecStats CellProofs CellProofs2 PropCell PropMatcher PropFilter
  ScanModel NdtModel MatcherModel SpecGrid SpecSearch NdtProofs NdtProofs2 MatcherProofs MatcherProofs2
  B64Lemmas MatcherB64 MatcherB64b MatcherWitness SpecPose RTactics ConstraintProofs KdModel MotionModel FilterModel SpecFilter
  AngleProofs KdProofs MotionProofs FilterProofs FilterProofs2 FilterWitness SafeProofs.
Import ListNotations.
Local Open Scope R_scope.

(** Eigenvalues that meet the contract exist, and five points on a line meet the
    other hypotheses. *)
Example C06_nonvacuous : exists (eig : mat2 R -> R * R) (ops : list (cell_op R)) (s l : R) (m' w : mat2 R),
  eigen_contract eig /\ (5 <= length (op_points ops))%nat /\
  eigenvalues2 (cov_matrix (op_points ops)) (s, l) /\ 0 <= s /\ s < 1 / 1000 * l /\
  eigenvalue_raised (cov_matrix (op_points ops)) s (1 / 1000 * l) m' /\ is_inverse2 m' w.
Proof.
  destruct C06_regularised_score_refuted as (ops & s & l & m' & w & q & H1 & H2 & H3 & H4 & H5 & H6 & _).
  exists eig_exact, ops, s, l, m', w. split; [exact eig_exact_contract|]. tauto.
Qed.

(** A new cell. *)
Example C07_nonvacuous (lm : libm) : nlt (Arith := BA lm) (c_n (cell_new (A := BA lm))) (nofZ (Arith := BA lm) 5) = true.
Proof. vm_compute. reflexivity. Qed.

(** A scan at (100, 100) seen with a range of ten. *)
Example C14_nonvacuous (eig : mat2 R -> R * R) : exists m g,
  add_scans eig sizing [lone_scan 100] = Ok m /\ k_ndt m = Some g /\ g_sx g = 21%Z /\
  bpow radix2 (-1022) <= pox (s_pose (lone_scan 100)) + k_range sizing /\
  pox (s_pose (lone_scan 100)) - k_range sizing < bpow radix2 1024 - bpow radix2 971.
Proof.
  destruct (C14_map_size_refuted eig) as (m & _ & g & _ & H1 & H2 & H3 & _). exists m, g. repeat split; try assumption.
  - cbn [s_pose lone_scan pox k_range sizing]. assert (bpow radix2 (-1022) <= bpow radix2 0) by (apply bpow_le; lia). change (bpow radix2 0) with 1 in H. lra.
  - cbn [s_pose lone_scan pox k_range sizing]. assert (bpow radix2 7 <= bpow radix2 971) by (apply bpow_le; lia). change (bpow radix2 7) with 128 in H.
    replace (bpow radix2 1024) with (bpow radix2 971 * bpow radix2 53) by (rewrite <- bpow_plus; reflexivity).
    assert (4 <= bpow radix2 53) by (change 4 with (bpow radix2 2); apply bpow_le; lia). nra.
Qed.

(** The search of C21_covariance_refuted. *)
Example C21_nonvacuous : exists m g r p' cov' (w : pose R -> R),
  k_ndt m = Some g /\ 0 < k_ang_res m /\ 0 < k_lin_res m /\ (1 <= k_beams m)%Z /\ s_pts probe <> [] /\
  match_scan 2 m probe pose0 mat3_zero = Ok (r, p', cov') /\
  (forall c, In c (offsets m) -> score_points m (s_pts probe) (pose_plus (s_pose probe) c) = Ok (w c)) /\ wtotal w (offsets m) <> 0.
Proof.
  destruct C21_covariance_refuted as (m & r & p' & cov' & c & v & HA & HM & HO & HS & Hv & _).
  destruct (k_ndt m) as [g|] eqn:G.
  - exists m, g, r, p', cov', (fun _ => v). split; [exact G|].
    assert (K : k_ang_res m = k_ang_res (wm 4 1 4 1) /\ k_lin_res m = k_lin_res (wm 4 1 4 1) /\ k_beams m = k_beams (wm 4 1 4 1)).
    { unfold add_scans in HA. repeat (apply bind_ok in HA; destruct HA as (? & _ & HA)). injection HA as <-. auto. }
    destruct K as (-> & -> & ->). cbn [wm k_ang_res k_lin_res k_beams]. split; [lra|]. split; [lra|]. split; [lia|]. split; [discriminate|]. split; [exact HM|].
    rewrite HO. split; [intros d [<-|[]]; exact HS|]. unfold wtotal. cbn. lra.
  - exfalso. unfold score_points in HS. rewrite G in HS. injection HS as HS. ra_in HS. lra.
Qed.

(** Two of three points. *)
Example C23_nonvacuous (lm : libm) (p1 p2 p3 : point b64) :
  let m := mkMatcher None (b64_of 1 0) (b64_of 1 0) (b64_of 1 0) (b64_of 1 0) (b64_of 1 0) 2 (b64_of 1 0) in
  exists bp, beam_points (A := BA lm) m [p1; p2; p3] = Ok bp /\ length bp = 2%nat /\ hd_error bp = Some p1.
Proof.
  intro m. destruct (C23_beam_subsampling lm m [p1; p2; p3]) as (idxs & bp & E & F & L & H & _); [cbn; lia|discriminate|cbn; lia|].
  exists bp. split; [exact E|]. assert (LF : length idxs = length bp) by (clear -F; induction F; cbn; congruence). cbn in L. split; [lia|].
  destruct F as [|i p idxs bp Hi F]; [discriminate H|]. injection H as ->. cbn in Hi. exact (eq_sym Hi).
Qed.

(** The default matcher; a step of a sixteenth of the size. *)
Example C25_nonvacuous : 0 < k_ang_res (matcher_default 10) /\ 0 < k_lin_res (matcher_default 10) /\
  is_finite (b64_of 1 0) = true /\ is_finite (b64_of 1 (-4)) = true /\ 0 < B2R (b64_of 1 (-4)) /\ B2R (b64_of 1 0) * bpow radix2 (-51) <= B2R (b64_of 1 (-4)).
Proof.
  unfold matcher_default. cbn [k_ang_res k_lin_res]. ra. repeat split; try lra; try reflexivity.
  - vm_compute. lra.
  - vm_compute. lra.
Qed.

(** An update of the filter of C48. *)
Example C47_nonvacuous : exists (f f' : pfilter R) (o : filter_op R),
  distribution f /\ (1 <= pf_min f)%Z /\ op_ok f o /\ filter_step f o = Ok f'.
Proof.
  exists lopsided. destruct (filter_update no_noise 0 0 0 lopsided) as [f'|] eqn:E.
  - exists f', (FUpdate no_noise 0 0 0). split; [exact lopsided_distribution|]. split; [cbn; lia|]. split; [exact I|]. exact E.
  - exfalso. destruct (SafeProofs.filter_update_ok no_noise 0 0 0 lopsided) as (f' & E' & _); [repeat split; cbn; lia|]. congruence.
Qed.

(** Equal weights, every particle drawn twice. *)
Example C48_nonvacuous : let even := mkFilter 4 4 still [mkVec3 0 0 0; mkVec3 4 0 0] [1 / 2; 1 / 2] (mkVec3 2 0 0) (mkMat3 0 0 0 0 0 0 0 0 0) in
  distribution even /\ (0 <= pf_min even <= pf_max even)%Z /\ proportional (pf_wts even) [0; 1; 0; 1]%Z /\
  Forall (fun v => v = 1 / 2) (pf_wts even) /\
  exists f', filter_resample [0; 1; 0; 1]%Z (1 / 100) 0 even = Ok f' /\ length (pf_parts f') = 4%nat.
Proof.
  set (even := mkFilter 4 4 still [mkVec3 0 0 0; mkVec3 4 0 0] [1 / 2; 1 / 2] (mkVec3 2 0 0) (mkMat3 0 0 0 0 0 0 0 0 0)). cbv zeta.
  assert (D : distribution even).
  { unfold distribution, even. cbn [pf_parts pf_wts]. split; [reflexivity|]. split; [repeat constructor; lra|]. unfold total. cbn. lra. }
  split; [exact D|]. split; [cbn; lia|]. split; [|split; [repeat constructor|]].
  - split; [cbn [even pf_wts length]; repeat constructor; lia|].
    intros i w H. apply vec_get_inv in H. destruct H as (Hi & H). cbn [even pf_wts] in *.
    destruct (Z.to_nat i) as [|[|n]] eqn:E; cbn in H.
    + injection H as <-. replace i with 0%Z by lia. cbn. lra.
    + injection H as <-. replace i with 1%Z by lia. cbn. lra.
    + destruct n; discriminate.
  - destruct (resample_total [0; 1; 0; 1]%Z (1 / 100) 0 even D) as (f' & H).
    + cbn; lia.
    + cbn; lia.
    + cbn [even pf_parts length]. repeat constructor; lia.
    + cbn; lia.
    + lra.
    + lra.
    + cbn [even pf_max]. apply Rlt_le_trans with (IZR 1000); [lra|apply IZR_le; lia].
    + pose proof PI_RGT_0. pose proof (IZR_le 4 (2 ^ 28) ltac:(lia)).
      constructor; [|constructor; [|constructor]]; cbn [v0 v1 v2]; (split; [apply Rabs_le; lra|split; [apply Rabs_le; lra|lra]]).
    + exists f'. split; [exact H|]. pose proof (resample_spec [0; 1; 0; 1]%Z (1 / 100) 0 even) as S. rewrite H in S.
      destruct S as (S & _); cbn; try lia.
      * repeat constructor; lia.
      * cbn [even pf_min pf_max] in S. lia.
Qed.

(** A measurement that scores every particle -1. *)
Example C49_nonvacuous (lm : libm) (f : pfilter b64) : pf_parts f <> [] -> length (pf_wts f) = length (pf_parts f) ->
  let score := fun _ : pose b64 => Ok (b64_of (-1) 0) in
  (forall p s, In p (pf_parts f) -> score (mkPose (v0 p) (v1 p) (v2 p)) = Ok s -> is_finite s = true /\ -1 <= B2R s <= 0) /\
  (exists p s, In p (pf_parts f) /\ score (mkPose (v0 p) (v1 p) (v2 p)) = Ok s /\ B2R s <> 0) /\
  exists f', filter_measure (A := BA lm) score f = Ok f'.
Proof.
  intros N L score. destruct (b64_ofZ (-1) ltac:(lia)) as [B F]. split; [|split].
  - intros p s _ E. assert (Es : s = b64_of (-1) 0) by (symmetry; exact (f_equal (fun o => match o with Ok x => x | Fault _ => s end) E)). rewrite Es, B. split; [exact F|lra].
  - destruct (pf_parts f) as [|p ps]; [contradiction|]. exists p, (b64_of (-1) 0). split; [left; reflexivity|]. split; [reflexivity|]. rewrite B. lra.
  - unfold filter_measure. rewrite L, Nat.ltb_irrefl.
    assert (M : mapM (fun p => score (mkPose (v0 p) (v1 p) (v2 p))) (pf_parts f) = Ok (map (fun _ => b64_of (-1) 0) (pf_parts f))).
    { generalize (pf_parts f). intro l. induction l as [|p l IH]; [reflexivity|]. cbn [mapM map]. rewrite IH. reflexivity. }
    rewrite M. cbn [bind]. rewrite <- L, skipn_all, app_nil_r.
    match goal with |- context [update_stats ?x] => destruct (SafeProofs.update_stats_ok (A := BA lm) x) as (f' & E & _) end;
      [cbn [pf_wts pf_parts with_parts]; apply map_length|]. exists f'. exact E.
Qed.
