(** Properties C118, C119: the statistics and the likelihood of a cell in double
    arithmetic. *)

From Coq Require Import ZArith Reals List Bool Lia Lra Psatz Permutation.
From Flocq Require Import Core BinarySingleNaN.
From Verif Require Import Outcome Arith TypesModel CellModel SpecStats SumLemmas CellProofs B64Tactics B64Lemmas SpecB64 CellB64 ScoreB64 InfoB64.
Import ListNotations.
Local Open Scope R_scope.

Lemma average_real (f : point R -> R) (pts : list (point b64)) :
  average f (real_points pts) = average (fun p => f (real_point p)) pts.
Proof. unfold average, real_points. rewrite map_length. f_equal. induction pts as [|p l IH]; cbn; [reflexivity|]. rewrite IH. reflexivity. Qed.

Lemma sample_cov_real (f g : point R -> R) (pts : list (point b64)) :
  sample_cov f g (real_points pts) = sample_cov (fun p => f (real_point p)) (fun p => g (real_point p)) pts.
Proof.
  unfold sample_cov. rewrite !average_real. unfold real_points. rewrite map_length. f_equal.
  generalize (average (fun p => f (real_point p)) pts) as mf, (average (fun p => g (real_point p)) pts) as mg.
  intros mf mg. induction pts as [|p l IH]; cbn; [reflexivity|]. rewrite IH. reflexivity.
Qed.

(** C118: the mean and the covariance are those of the points up to an explicit
    bound, for every history of addPoint and compute. *)
Theorem C118_statistics_in_doubles :
  forall (lm : libm) (eig : mat2 b64 -> b64 * b64) (M : R) (ops : list (cell_op b64)),
  let pts := op_points ops in
  let n := INR (length pts) in
  bpow radix2 (-400) <= M <= bpow radix2 400 ->
  (3 <= length pts)%nat -> n <= 2 ^ 40 -> Forall (coordinates_within M) pts ->
  let c := cell_run (A := BA lm) eig (ops ++ [CCompute]) in
  let e := 4 * unit_roundoff * M * (n + 1) in
  let e2 := 32 * unit_roundoff * (M * M) * (n + 1) in
  close_to 0 (c_n c) n /\
  close_to e (px (c_mean c)) (px (mean_point (real_points pts))) /\
  close_to e (py (c_mean c)) (py (mean_point (real_points pts))) /\
  close_to e2 (m00 (c_cov c)) (m00 (cov_matrix (real_points pts))) /\
  close_to e2 (m01 (c_cov c)) (m01 (cov_matrix (real_points pts))) /\
  close_to e2 (m10 (c_cov c)) (m10 (cov_matrix (real_points pts))) /\
  close_to e2 (m11 (c_cov c)) (m11 (cov_matrix (real_points pts))) /\
  m01 (c_cov c) = m10 (c_cov c).
Proof.
  intros lm eig M ops pts n HM H3 Hn Hw c e e2.
  assert (Hl : (Z.of_nat (length pts) <= 2 ^ 40)%Z).
  { apply le_IZR. rewrite <- INR_IZR_INZ. fold n. eapply Rle_trans; [exact Hn|]. rewrite pow_IZR. apply IZR_le. cbn. lia. }
  destruct (cell_b64 lm eig M ops HM H3 Hl Hw) as (K0 & K1 & K2 & K3 & K4 & K5 & K6 & _ & K8).
  cbn [mean_point cov_matrix px py m00 m01 m10 m11]. rewrite !average_real, !sample_cov_real.
  repeat split; [apply K0|apply K0|apply K1|apply K1|apply K2|apply K2|apply K3|apply K3|apply K4|apply K4|apply K5|apply K5|apply K6|apply K6|exact K8].
Qed.
Print Assumptions C118_statistics_in_doubles.

(** The order of insertion matters by at most twice the bound. *)
Theorem C118_order_in_doubles :
  forall (lm : libm) (eig : mat2 b64 -> b64 * b64) (M : R) (ops ops' : list (cell_op b64)),
  let pts := op_points ops in
  let n := INR (length pts) in
  bpow radix2 (-400) <= M <= bpow radix2 400 ->
  (3 <= length pts)%nat -> n <= 2 ^ 40 -> Forall (coordinates_within M) pts -> Permutation pts (op_points ops') ->
  let c := cell_run (A := BA lm) eig (ops ++ [CCompute]) in
  let c' := cell_run (A := BA lm) eig (ops' ++ [CCompute]) in
  let e := 8 * unit_roundoff * M * (n + 1) in
  let e2 := 64 * unit_roundoff * (M * M) * (n + 1) in
  B2R (c_n c) = B2R (c_n c') /\
  Rabs (B2R (px (c_mean c)) - B2R (px (c_mean c'))) <= e /\ Rabs (B2R (py (c_mean c)) - B2R (py (c_mean c'))) <= e /\
  Rabs (B2R (m00 (c_cov c)) - B2R (m00 (c_cov c'))) <= e2 /\ Rabs (B2R (m01 (c_cov c)) - B2R (m01 (c_cov c'))) <= e2 /\
  Rabs (B2R (m10 (c_cov c)) - B2R (m10 (c_cov c'))) <= e2 /\ Rabs (B2R (m11 (c_cov c)) - B2R (m11 (c_cov c'))) <= e2.
Proof.
  intros lm eig M ops ops' pts n HM H3 Hn Hw HP c c' e e2.
  pose proof (Permutation_length HP) as HL.
  assert (Hw' : Forall (coordinates_within M) (op_points ops')).
  { rewrite Forall_forall in *. intros p Hp. apply Hw. apply (Permutation_in p (Permutation_sym HP)). exact Hp. }
  pose proof (C118_statistics_in_doubles lm eig M ops HM H3 Hn Hw) as K. cbv zeta in K. fold pts c n in K.
  pose proof (C118_statistics_in_doubles lm eig M ops' HM ltac:(rewrite <- HL; exact H3) ltac:(rewrite <- HL; exact Hn) Hw') as K'. cbv zeta in K'. fold c' in K'.
  rewrite <- HL in K'. fold n in K'.
  assert (PR : Permutation (real_points pts) (real_points (op_points ops'))) by (apply Permutation_map, HP).
  cbn [mean_point cov_matrix px py m00 m01 m10 m11] in K, K'.
  rewrite <- !(average_perm _ _ _ PR), <- !(sample_cov_perm _ _ _ _ PR) in K'.
  assert (T : forall d x y r, close_to d x r -> close_to d y r -> Rabs (B2R x - B2R y) <= 2 * d).
  { intros d x y r [_ A] [_ B]. apply Rabs_le_inv in A. apply Rabs_le_inv in B. apply Rabs_le. lra. }
  destruct K as (K0 & K1 & K2 & K3 & K4 & K5 & K6 & _). destruct K' as (L0 & L1 & L2 & L3 & L4 & L5 & L6 & _).
  pose proof (T _ _ _ _ K0 L0) as T0. apply Rabs_le_inv in T0.
  pose proof (T _ _ _ _ K1 L1). pose proof (T _ _ _ _ K2 L2). pose proof (T _ _ _ _ K3 L3).
  pose proof (T _ _ _ _ K4 L4). pose proof (T _ _ _ _ K5 L5). pose proof (T _ _ _ _ K6 L6).
  unfold e, e2. repeat split; lra.
Qed.
Print Assumptions C118_order_in_doubles.

(** Five points of a wall (metres, as doubles), and five points nanometres apart. *)
Lemma Rle_bool_iff x y : Rle_bool x y = true -> x <= y.
Proof. destruct (Rle_bool_spec x y); [trivial|discriminate]. Qed.

Definition d64 (m e : Z) : b64 := b64_of m e.
Definition wall_x : b64 := d64 8120553078102426 (-46).                 (* 115.4 *)
Definition wall : list (point b64) := map (mkPoint wall_x)
  [d64 8538824893494460 (-54); d64 8556839292003942 (-54); d64 8502796096475496 (-54);
   d64 8412724103928087 (-54); d64 8502796096475496 (-54)].             (* 0.474 0.475 0.472 0.467 0.472 *)
Definition wall_query : point b64 := mkPoint wall_x (d64 6503197861922996 (-53)).  (* 0.722 *)
Definition speck_x : b64 := d64 5798384520239514 (-49).                (* 10.3 *)
Definition speck : list (point b64) := map (mkPoint speck_x)
  [d64 4897664597580164 (-48); d64 4897664603209663 (-48); d64 4897664594765414 (-48);
   d64 4897664589135914 (-48); d64 4897664594765414 (-48)].             (* 17.4 and up to 30 nm around *)
Definition speck_query : point b64 := mkPoint (d64 5804014019773726 (-49)) (d64 4897664594765414 (-48)).   (* 10.31, 17.4 *)

Example C118_nonvacuous :
  (3 <= length (op_points (map CAdd wall)))%nat /\ INR (length (op_points (map CAdd wall))) <= 2 ^ 40 /\
  Forall (coordinates_within 128) (op_points (map CAdd wall)) /\ bpow radix2 (-400) <= 128 <= bpow radix2 400.
Proof.
  split; [cbn; lia|]. split; [cbn; lra|]. split.
  - apply Forall_forall. intros p Hp.
    assert (T : forallb (fun p => is_finite (px p) && is_finite (py p) && Bleb (Babs (px p)) (b64_of 128 0) && Bleb (Babs (py p)) (b64_of 128 0))
                  (op_points (map CAdd wall)) = true) by (vm_compute; reflexivity).
    rewrite forallb_forall in T. specialize (T p Hp). rewrite !andb_true_iff in T. destruct T as (((F1 & F2) & B1) & B2).
    destruct (b64_ofZ 128 ltac:(lia)) as [V128 F128]. rewrite Bleb_correct in B1, B2 by (try rewrite is_finite_Babs; assumption).
    rewrite V128, B2R_Babs in B1, B2. apply Rle_bool_iff in B1, B2. split; [split; assumption|]. split; assumption.
  - split; [apply Rle_trans with (bpow radix2 7); [apply bpow_le; lia|cbn; lra]|].
    apply Rle_trans with (bpow radix2 7); [cbn; lra|apply bpow_le; lia].
Qed.

(** The exponent of the likelihood (ndt_model.cpp:112-115). *)
Definition exponent_of (c : cell b64) (p : point b64) : b64 :=
  exponent64 (m00 (c_info c)) (m01 (c_info c)) (m10 (c_info c)) (m11 (c_info c))
    (Bminus mode_NE (px p) (px (c_mean c))) (Bminus mode_NE (py p) (py (c_mean c))).

Lemma score_exponent (lm : libm) (c : cell b64) (p : point b64) :
  Bltb (c_n c) (b64_of 5 0) = false -> cell_score (A := BA lm) c p = lm_exp lm (exponent_of c p).
Proof. intros H. unfold cell_score. cbn [nlt BA nofZ]. rewrite H. reflexivity. Qed.

(** The eigenvalues enter through the covariance only. *)
Lemma compute_eig_ext (lm : libm) (eig eig' : mat2 b64 -> b64 * b64) (c : cell b64) :
  eig (c_cov (cell_compute (A := BA lm) eig' c)) = eig' (c_cov (cell_compute (A := BA lm) eig' c)) ->
  cell_compute (A := BA lm) eig c = cell_compute (A := BA lm) eig' c.
Proof.
  unfold cell_compute. destruct (_ || _); [reflexivity|]. cbn [c_cov]. intros H. f_equal.
  unfold info_of_cov. rewrite H. reflexivity.
Qed.

Lemma run_adds (lm : libm) (eig : mat2 b64 -> b64 * b64) (pts : list (point b64)) :
  cell_run (A := BA lm) eig (map CAdd pts ++ [CCompute]) = cell_compute (A := BA lm) eig (accumulate (A := BA lm) pts).
Proof.
  unfold cell_run. rewrite fold_left_app. cbn [fold_left cell_step]. f_equal. unfold accumulate.
  generalize (cell_new (A := BA lm)). induction pts as [|p l IH]; intros c; cbn; [reflexivity|]. apply IH.
Qed.

Definition eig_ad (m : mat2 b64) : b64 * b64 := (m00 m, m11 m).
Definition eig_da (m : mat2 b64) : b64 * b64 := (m11 m, m00 m).

Lemma diagonal_run (lm : libm) (eig : mat2 b64 -> b64 * b64) (pts : list (point b64)) :
  diagonal_eigenvalues eig ->
  (forall e, B2SF (m01 (c_cov (cell_run (A := BA lm) e (map CAdd pts ++ [CCompute])))) = B2SF (b64_of 0 0) /\
             B2SF (m10 (c_cov (cell_run (A := BA lm) e (map CAdd pts ++ [CCompute])))) = B2SF (b64_of 0 0)) ->
  cell_run (A := BA lm) eig (map CAdd pts ++ [CCompute]) = cell_run (A := BA lm) eig_ad (map CAdd pts ++ [CCompute]) \/
  cell_run (A := BA lm) eig (map CAdd pts ++ [CCompute]) = cell_run (A := BA lm) eig_da (map CAdd pts ++ [CCompute]).
Proof.
  intros He Hd. rewrite !run_adds.
  assert (D : forall e, c_cov (cell_compute (A := BA lm) e (accumulate (A := BA lm) pts)) =
     mkMat2 (m00 (c_cov (cell_compute (A := BA lm) e (accumulate (A := BA lm) pts)))) (b64_of 0 0) (b64_of 0 0)
            (m11 (c_cov (cell_compute (A := BA lm) e (accumulate (A := BA lm) pts))))).
  { intros e. destruct (Hd e) as [H1 H2]. rewrite run_adds in H1, H2. apply mat2_eq; cbn [m00 m01 m10 m11]; try reflexivity; apply b64_eq; assumption. }
  pose proof (D eig_ad) as Da. pose proof (D eig_da) as Dd.
  destruct (He (m00 (c_cov (cell_compute (A := BA lm) eig_ad (accumulate (A := BA lm) pts))))
               (m11 (c_cov (cell_compute (A := BA lm) eig_ad (accumulate (A := BA lm) pts))))) as [E|E].
  - left. apply compute_eig_ext. rewrite Da. rewrite E. reflexivity.
  - right. apply compute_eig_ext.
    assert (S : c_cov (cell_compute (A := BA lm) eig_da (accumulate (A := BA lm) pts)) = c_cov (cell_compute (A := BA lm) eig_ad (accumulate (A := BA lm) pts))).
    { unfold cell_compute. destruct (_ || _); reflexivity. }
    rewrite S, Da. rewrite E. reflexivity.
Qed.

Definition exponent_at_least (lm : libm) (b : b64) (eig : mat2 b64 -> b64 * b64) (pts : list (point b64)) (q : point b64) : bool :=
  let c := cell_run (A := BA lm) eig (map CAdd pts ++ [CCompute]) in
  negb (Bltb (c_n c) (b64_of 5 0)) && is_finite (exponent_of c q) && Bleb b (exponent_of c q).

Lemma exponent_sound (lm : libm) (eig : mat2 b64 -> b64 * b64) (pts : list (point b64)) (q : point b64) (b : b64) :
  is_finite b = true -> exponent_at_least lm b eig pts q = true ->
  exists x, cell_score (A := BA lm) (cell_run (A := BA lm) eig (map CAdd pts ++ [CCompute])) q = lm_exp lm x /\ is_finite x = true /\ B2R b <= B2R x.
Proof.
  intros Fb H. unfold exponent_at_least in H. apply andb_prop in H. destruct H as [H H3]. apply andb_prop in H. destruct H as [H1 H2].
  apply negb_true_iff in H1. eexists. split; [apply score_exponent; exact H1|]. split; [exact H2|].
  rewrite Bleb_correct in H3 by assumption. destruct (Rle_bool_spec (B2R b) (B2R (exponent_of (cell_run (A := BA lm) eig (map CAdd pts ++ [CCompute])) q))); [assumption|discriminate H3].
Qed.

Lemma wall_ad (lm : libm) : exponent_at_least lm (b64_of 1 (-1)) eig_ad wall wall_query = true.
Proof. vm_compute. reflexivity. Qed.
Lemma wall_da (lm : libm) : exponent_at_least lm (b64_of 1 (-1)) eig_da wall wall_query = true.
Proof. vm_compute. reflexivity. Qed.
Lemma speck_ad (lm : libm) : exponent_at_least lm (b64_of 1000 0) eig_ad speck speck_query = true.
Proof. vm_compute. reflexivity. Qed.
Lemma speck_da (lm : libm) : exponent_at_least lm (b64_of 1000 0) eig_da speck speck_query = true.
Proof. vm_compute. reflexivity. Qed.
Lemma wall_diagonal (lm : libm) e : B2SF (m01 (c_cov (cell_run (A := BA lm) e (map CAdd wall ++ [CCompute])))) = B2SF (b64_of 0 0) /\
             B2SF (m10 (c_cov (cell_run (A := BA lm) e (map CAdd wall ++ [CCompute])))) = B2SF (b64_of 0 0).
Proof. split; vm_compute; reflexivity. Qed.
Lemma speck_diagonal (lm : libm) e : B2SF (m01 (c_cov (cell_run (A := BA lm) e (map CAdd speck ++ [CCompute])))) = B2SF (b64_of 0 0) /\
             B2SF (m10 (c_cov (cell_run (A := BA lm) e (map CAdd speck ++ [CCompute])))) = B2SF (b64_of 0 0).
Proof. split; vm_compute; reflexivity. Qed.

Lemma half_val : B2R (b64_of 1 (-1)) = / 2.
Proof. vm_compute. lra. Qed.

Lemma not_all_equal_real (pts : list (point b64)) (p q : point b64) :
  In p pts -> In q pts -> is_finite (py p) = true -> is_finite (py q) = true -> Beqb (py p) (py q) = false -> not_all_equal (real_points pts).
Proof.
  intros Hp Hq Fp Fq H. exists (real_point p), (real_point q). split; [apply in_map, Hp|]. split; [apply in_map, Hq|].
  intros E. apply (f_equal py) in E. cbn in E. rewrite Beqb_correct, E in H by assumption. rewrite Req_bool_true in H by reflexivity. discriminate H.
Qed.

(** C119: false as stated.  Five points of a wall 115.4 m from the origin, 8 mm
    between the outermost: 25 cm away the likelihood exceeds 1.  Five points
    within 50 nm of each other: one centimetre away it is infinite. *)
Theorem C119_likelihood_refuted : forall (lm : libm) (eig : mat2 b64 -> b64 * b64), diagonal_eigenvalues eig ->
  (exp_grows lm ->
   length wall = 5%nat /\ not_all_equal (real_points wall) /\
   Bltb (b64_of 1 0) (cell_score (A := BA lm) (cell_run (A := BA lm) eig (map CAdd wall ++ [CCompute])) wall_query) = true) /\
  (exp_saturates lm ->
   length speck = 5%nat /\ not_all_equal (real_points speck) /\
   cell_score (A := BA lm) (cell_run (A := BA lm) eig (map CAdd speck ++ [CCompute])) speck_query = b64_inf).
Proof.
  intros lm eig He. split.
  - intros Hg. split; [reflexivity|]. split.
    + eapply (not_all_equal_real wall (nth 0 wall wall_query) (nth 1 wall wall_query)); [apply nth_In; apply Nat.ltb_lt; reflexivity|apply nth_In; apply Nat.ltb_lt; reflexivity|..]; vm_compute; reflexivity.
    + assert (X : exists x, cell_score (A := BA lm) (cell_run (A := BA lm) eig (map CAdd wall ++ [CCompute])) wall_query = lm_exp lm x /\
                            is_finite x = true /\ / 2 <= B2R x).
      { rewrite <- half_val. destruct (diagonal_run lm eig wall He (wall_diagonal lm)) as [-> | ->]; (apply exponent_sound; [reflexivity|]); [apply wall_ad|apply wall_da]. }
      destruct X as (x & -> & F & B). apply Hg; assumption.
  - intros Hs. split; [reflexivity|]. split.
    + eapply (not_all_equal_real speck (nth 0 speck speck_query) (nth 1 speck speck_query)); [apply nth_In; apply Nat.ltb_lt; reflexivity|apply nth_In; apply Nat.ltb_lt; reflexivity|..]; vm_compute; reflexivity.
    + assert (X : exists x, cell_score (A := BA lm) (cell_run (A := BA lm) eig (map CAdd speck ++ [CCompute])) speck_query = lm_exp lm x /\
                            is_finite x = true /\ 1000 <= B2R x).
      { rewrite <- (proj1 (b64_ofZ 1000 ltac:(lia))).
        destruct (diagonal_run lm eig speck He (speck_diagonal lm)) as [-> | ->]; (apply exponent_sound; [reflexivity|]); [apply speck_ad|apply speck_da]. }
      destruct X as (x & -> & F & B). apply Hs; assumption.
Qed.
Print Assumptions C119_likelihood_refuted.

Lemma sample_cov_bound {X} (f g : X -> R) (M : R) (l : list X) :
  0 <= M -> (3 <= length l)%nat -> (forall x, In x l -> Rabs (f x) <= M) -> (forall x, In x l -> Rabs (g x) <= M) ->
  Rabs (sample_cov f g l) <= 6 * (M * M).
Proof.
  intros M0 H3 Hf Hg. pose proof (INR_ge_3 _ H3) as N3.
  assert (Hne : l <> []) by (destruct l; [cbn in H3; lia|discriminate]).
  assert (AV : forall h : X -> R, (forall x, In x l -> Rabs (h x) <= M) -> Rabs (average h l) <= M).
  { intros h Hh. pose proof (sumf_abs h M l Hh) as S. unfold average, Rdiv.
    assert (I : 0 < / INR (length l)) by (apply Rinv_0_lt_compat; lra).
    rewrite Rabs_mult, (Rabs_pos_eq (/ _)) by lra.
    apply Rmult_le_reg_r with (INR (length l)); [lra|]. rewrite Rmult_assoc, Rinv_l by lra. lra. }
  pose proof (AV f Hf) as Af. pose proof (AV g Hg) as Ag.
  assert (S : Rabs (sumf (fun x => (f x - average f l) * (g x - average g l)) l) <= 4 * (M * M) * INR (length l)).
  { apply sumf_abs. intros x Hx. rewrite Rabs_mult.
    replace (4 * (M * M)) with ((2 * M) * (2 * M)) by ring.
    apply Rmult_le_compat; try apply Rabs_pos;
      (unfold Rminus; eapply Rle_trans; [apply Rabs_triang|]; rewrite Rabs_Ropp).
    - pose proof (Hf x Hx). lra.
    - pose proof (Hg x Hx). lra. }
  unfold sample_cov, Rdiv. set (n := INR (length l)) in *.
  assert (I : 0 < / (n - 1)) by (apply Rinv_0_lt_compat; lra).
  rewrite Rabs_mult, (Rabs_pos_eq (/ (n - 1))) by lra.
  apply Rmult_le_reg_r with (n - 1); [lra|]. rewrite Rmult_assoc, Rinv_l by lra.
  assert (0 <= M * M) by (apply Rmult_le_pos; lra). nra.
Qed.

(** What holds: points whose spread in every direction exceeds the rounding noise. *)
Theorem C119_spread_partial :
  forall (lm : libm) (eig : mat2 b64 -> b64 * b64) (M v : R) (ops : list (cell_op b64)) (q : point b64),
  let pts := op_points ops in
  let n := INR (length pts) in
  sane_eigenvalues eig -> exp_unit lm ->
  bpow radix2 (-80) <= M <= bpow radix2 80 -> (3 <= length pts)%nat -> n <= 2 ^ 40 ->
  Forall (coordinates_within M) pts -> spread_at_least v (real_points pts) ->
  4096 * unit_roundoff * (M * M) * (n + 1) <= v ->
  coordinates_within (bpow radix2 100) q ->
  let s := cell_score (A := BA lm) (cell_run (A := BA lm) eig (ops ++ [CCompute])) q in
  is_finite s = true /\ 0 <= B2R s <= 1.
Proof.
  intros lm eig M v ops q pts n Heig Hexp HM H3 Hn Hw Hsp Hv Hq s.
  assert (HM' : scale_ok M).
  { split; [apply Rle_trans with (bpow radix2 (-80))|apply Rle_trans with (bpow radix2 80)]; try apply HM; apply bpow_le; lia. }
  assert (Hl : (Z.of_nat (length pts) <= 2 ^ 40)%Z).
  { apply le_IZR. rewrite <- INR_IZR_INZ. fold n. eapply Rle_trans; [exact Hn|]. rewrite pow_IZR. apply IZR_le. cbn. lia. }
  assert (Hn' : n <= 1099511627776) by (unfold n; apply (INR_bound _ _ Hl)).
  destruct (cell_b64 lm eig M ops HM' H3 Hl Hw) as ((Fn & Dn) & (Fx & Dx) & (Fy & Dy) & (F00 & D00) & (F01 & D01) & (F10 & D10) & (F11 & D11) & Ei & Sy).
  fold pts in Dn, Dx, Dy, D00, D01, D10, D11. fold n in Dn, Dx, Dy, D00, D01, D10, D11.
  unfold s. set (c := cell_run (A := BA lm) eig (ops ++ [CCompute])) in *. clearbody c. clear s.
  pose proof (INR_ge_3 _ H3) as N3. fold n in N3.
  assert (Vn : B2R (c_n c) = n).
  { apply Rabs_le_inv in Dn. lra. }
  destruct (Bltb (c_n c) (b64_of 5 0)) eqn:C5.
  { unfold cell_score. cbn [nlt BA nofZ]. rewrite C5. change nzero with (b64_of 0 0). destruct b64_zero as [Z0 Zf]. rewrite Z0. split; [exact Zf|lra]. }
  rewrite (score_exponent lm c q C5).
  assert (EX : is_finite (exponent_of c q) = true /\ B2R (exponent_of c q) <= bpow radix2 (-60)); [|destruct EX as [EF EB]; apply Hexp; assumption].
  (* the numbers *)
  pose proof u64_pos as U0. pose proof u64_small as U1. pose proof (scale_pos M HM') as M0.
  assert (Q0 : 0 < M * M) by (apply Rmult_lt_0_compat; lra). set (Q := M * M) in *.
  change unit_roundoff with u64 in Hv. set (E := 32 * u64 * Q * (n + 1)) in *.
  assert (Ev : 128 * E <= v) by (unfold E; lra).
  assert (UQ : 0 < u64 * Q) by (apply Rmult_lt_0_compat; lra).
  assert (E1 : 128 * (u64 * Q) <= E).
  { unfold E. assert (u64 * Q * 4 <= u64 * Q * (n + 1)) by (apply Rmult_le_compat_l; lra). lra. }
  assert (E2 : E <= Q).
  { unfold E. assert (UN : u64 * (n + 1) <= / 4000) by (rewrite u64_val; lra).
    assert (Q * (u64 * (n + 1)) <= Q * / 4000) by (apply Rmult_le_compat_l; lra). lra. }
  rewrite Forall_forall in Hw.
  assert (WX : forall p, In p pts -> Rabs (B2R (px p)) <= M) by (intros p Hp; apply (Hw p Hp)).
  assert (WY : forall p, In p pts -> Rabs (B2R (py p)) <= M) by (intros p Hp; apply (Hw p Hp)).
  set (sxx := sample_cov (fun p => B2R (px p)) (fun p => B2R (px p)) pts) in *.
  set (sxy := sample_cov (fun p => B2R (px p)) (fun p => B2R (py p)) pts) in *.
  set (syy := sample_cov (fun p => B2R (py p)) (fun p => B2R (py p)) pts) in *.
  assert (Bxx : Rabs sxx <= 6 * Q) by (apply sample_cov_bound; assumption || lra).
  assert (Byy : Rabs syy <= 6 * Q) by (apply sample_cov_bound; assumption || lra).
  set (a := B2R (m00 (c_cov c))) in *. set (b := B2R (m01 (c_cov c))) in *. set (d := B2R (m11 (c_cov c))) in *.
  assert (Hbb : bounded_below (v - 2 * E) a b d).
  { intros w0 w1. pose proof (Hsp (mkPoint w0 w1)) as K. unfold norm2, quad2, cov_matrix in K. cbn [px py m00 m01 m10 m11] in K.
    rewrite !sample_cov_real in K. cbn [real_point px py] in K.
    rewrite (sample_cov_sym (fun p : point b64 => B2R (py p)) (fun p : point b64 => B2R (px p))) in K. 
    change (v * (w0 * w0 + w1 * w1) <= w0 * (sxx * w0 + sxy * w1) + w1 * (sxy * w0 + syy * w1)) in K.
    apply Rabs_le_inv in D00. apply Rabs_le_inv in D01. apply Rabs_le_inv in D11.
    assert (S0 : 0 <= w0 * w0) by apply Rle_0_sqr. assert (S1 : 0 <= w1 * w1) by apply Rle_0_sqr.
    assert (X0 : (sxx - E) * (w0 * w0) <= a * (w0 * w0)) by (apply Rmult_le_compat_r; lra).
    assert (X1 : (syy - E) * (w1 * w1) <= d * (w1 * w1)) by (apply Rmult_le_compat_r; lra).
    assert (X2 : 2 * sxy * (w0 * w1) - E * (w0 * w0 + w1 * w1) <= 2 * b * (w0 * w1)).
    { assert (AB : Rabs (2 * (b - sxy) * (w0 * w1)) <= E * (w0 * w0 + w1 * w1)).
      { rewrite !Rabs_mult, (Rabs_pos_eq 2) by lra.
        assert (Y : 2 * (Rabs w0 * Rabs w1) <= w0 * w0 + w1 * w1).
        { pose proof (Rle_0_sqr (Rabs w0 - Rabs w1)) as Sq. unfold Rsqr in Sq.
          assert (Rabs w0 * Rabs w0 = w0 * w0) by (rewrite <- Rabs_mult; apply Rabs_pos_eq, S0).
          assert (Rabs w1 * Rabs w1 = w1 * w1) by (rewrite <- Rabs_mult; apply Rabs_pos_eq, S1). lra. }
        assert (Z : Rabs (b - sxy) <= E) by (apply Rabs_le; lra).
        replace (2 * Rabs (b - sxy) * (Rabs w0 * Rabs w1)) with (Rabs (b - sxy) * (2 * (Rabs w0 * Rabs w1))) by ring.
        apply Rmult_le_compat; [apply Rabs_pos| |exact Z|exact Y].
        pose proof (Rabs_pos w0). pose proof (Rabs_pos w1). apply Rmult_le_pos; [lra|]. apply Rmult_le_pos; lra. }
      apply Rabs_le_inv in AB. lra. }
    lra. }
  set (v' := v - 2 * E) in *. assert (V0 : 0 < v') by (unfold v'; lra).
  destruct (bounded_below_det v' a b d V0 Hbb) as (Ha & Hd & Hb & Hdet).
  set (tr := a + d) in *.
  assert (T1 : tr <= 14 * Q).
  { apply Rabs_le_inv in D00. apply Rabs_le_inv in D11. apply Rabs_le_inv in Bxx. apply Rabs_le_inv in Byy. unfold tr. lra. }
  assert (T2 : 16384 * (u64 * Q) <= tr) by (unfold tr, v' in *; lra).
  assert (Vtr : 32 * u64 * tr <= v').
  { assert (u64 * tr <= u64 * (14 * Q)) by (apply Rmult_le_compat_l; lra). unfold v'. lra. }
  assert (QL : bpow radix2 (-160) <= Q).
  { replace (-160)%Z with (-80 + -80)%Z by lia. rewrite bpow_plus. unfold Q. pose proof (bpow_gt_0 radix2 (-80)). apply Rmult_le_compat; lra. }
  assert (QU : Q <= bpow radix2 160).
  { replace 160%Z with (80 + 80)%Z by lia. rewrite bpow_plus. unfold Q. apply Rmult_le_compat; lra. }
  assert (Tr : bpow radix2 (-200) <= tr <= bpow radix2 200).
  { split.
    - apply Rle_trans with (16384 * (u64 * bpow radix2 (-160))).
      + replace 16384 with (bpow radix2 14) by (cbn; lra). unfold u64. rewrite <- !bpow_plus. apply bpow_le. lia.
      + assert (u64 * bpow radix2 (-160) <= u64 * Q) by (apply Rmult_le_compat_l; lra). lra.
    - apply Rle_trans with (bpow radix2 4 * bpow radix2 160).
      + change (bpow radix2 4) with 16. lra.
      + rewrite <- bpow_plus. apply bpow_le. lia. }
  assert (Pd : b * b < a * d).
  { assert (0 < v' * tr) by (apply Rmult_lt_0_compat; unfold tr; lra). lra. }
  destruct (Heig (c_cov c) F00 F01 F11 (eq_sym Sy) ltac:(change (0 < a); lra) ltac:(change (0 < d); lra) ltac:(change (b * b < a * d); lra)) as (Fe1 & Fe2 & Be).
  change (tr / 4 <= Rmax (B2R (fst (eig (c_cov c)))) (B2R (snd (eig (c_cov c)))) <= 2 * tr) in Be.
  destruct (info_apx lm eig (c_cov c) v' F00 F01 F11 (eq_sym Sy) V0 Hbb Vtr Tr (conj Fe1 Fe2) Be) as (th & Th & Ts & I00 & I01 & I10 & I11).
  rewrite <- Ei in I00, I01, I10, I11. fold a b d in I00, I01, I10, I11. fold tr in Ts, I00, I01, I10, I11.
  (* the offset from the mean *)
  assert (OFF : forall (x m : b64) (avg : R), is_finite x = true -> is_finite m = true -> Rabs (B2R x) <= bpow radix2 100 ->
     Rabs (B2R m - avg) <= 4 * u64 * M * (n + 1) -> Rabs avg <= M ->
     is_finite (Bminus mode_NE x m) = true /\ Rabs (B2R (Bminus mode_NE x m)) <= bpow radix2 110).
  { intros x m avg Fx' Fm Bx Dm Ba.
    assert (Bm : Rabs (B2R m) <= bpow radix2 100).
    { replace (B2R m) with ((B2R m - avg) + avg) by ring. eapply Rle_trans; [apply Rabs_triang|].
      assert (UN : u64 * (n + 1) <= / 4000) by (rewrite u64_val; lra).
      assert (M * (u64 * (n + 1)) <= M * / 4000) by (apply Rmult_le_compat_l; lra).
      apply Rle_trans with (bpow radix2 1 * bpow radix2 80); [change (bpow radix2 1) with 2; lra|]. rewrite <- bpow_plus. apply bpow_le. lia. }
    assert (BB : Rabs (B2R x - B2R m) <= bpow radix2 101).
    { unfold Rminus. eapply Rle_trans; [apply Rabs_triang|]. rewrite Rabs_Ropp.
      replace 101%Z with (1 + 100)%Z by lia. rewrite bpow_plus. change (bpow radix2 1) with 2. lra. }
    destruct (b64_sub_ok x m Fx' Fm) as [V F]; [eapply Rle_trans; [exact BB|apply bpow_le; lia]|].
    split; [exact F|]. rewrite V. apply Rabs_le_inv in BB.
    assert (B110 : bpow radix2 101 <= bpow radix2 110) by (apply bpow_le; lia).
    apply Rabs_le. split; [apply rnd_lb|apply rnd_ub]; try lra; [apply fmt_opp|]; apply fmt_bpow; lia. }
  assert (Hne : pts <> []) by (destruct pts; [cbn in H3; lia|discriminate]).
  assert (AVG : forall h : point b64 -> R, (forall p, In p pts -> Rabs (h p) <= M) -> Rabs (average h pts) <= M).
  { intros h Hh. replace (average h pts) with (average h pts - average (fun _ => 0) pts).
    - apply average_diff; [exact Hne|]. intros p Hp. rewrite Rminus_0_r. apply Hh, Hp.
    - unfold average at 2. rewrite sumf_const. fold n. field. lra. }
  destruct Hq as ((Fqx & Fqy) & Bqx & Bqy).
  destruct (OFF (px q) (px (c_mean c)) _ Fqx Fx Bqx Dx (AVG _ WX)) as [O1 O2].
  destruct (OFF (py q) (py (c_mean c)) _ Fqy Fy Bqy Dy (AVG _ WY)) as [O3 O4].
  exact (exponent_bound th tr v' a b d _ _ _ _ _ _ Th Ts Hbb Vtr I00 I01 I10 I11 O1 O3 O2 O4).
Qed.
Print Assumptions C119_spread_partial.

(** So the score of a cell is a number between 0 and 1 when it has fewer than five
    points or its points spread more than the rounding noise. *)
Lemma few_points (lm : libm) (pts : list (point b64)) : (length pts < 5)%nat ->
  Bltb (c_n (accumulate (A := BA lm) pts)) (b64_of 5 0) = true.
Proof.
  intro H. do 5 (destruct pts as [|? pts]; [vm_compute; reflexivity|]). cbn in H. lia.
Qed.

Theorem C07_spread_partial :
  forall (lm : libm) (eig : mat2 b64 -> b64 * b64) (ops : list (cell_op b64)) (q : point b64),
  let pts := op_points ops in
  let n := INR (length pts) in
  sane_eigenvalues eig -> exp_unit lm -> coordinates_within (bpow radix2 100) q ->
  (length pts < 5)%nat \/
  (exists M v, bpow radix2 (-80) <= M <= bpow radix2 80 /\ n <= 2 ^ 40 /\ Forall (coordinates_within M) pts /\
     spread_at_least v (real_points pts) /\ 4096 * unit_roundoff * (M * M) * (n + 1) <= v) ->
  let s := cell_score (A := BA lm) (cell_run (A := BA lm) eig (ops ++ [CCompute])) q in
  is_finite s = true /\ 0 <= B2R s <= 1.
Proof.
  intros lm eig ops q pts n He Hx Hq C s.
  assert (few : (length pts < 5)%nat -> is_finite s = true /\ 0 <= B2R s <= 1).
  { intro Hn. assert (E : s = b64_of 0 0).
    { unfold s, cell_score. destruct (run_same_stats (A := BA lm) eig (ops ++ [CCompute])) as (-> & _).
      rewrite op_points_app, app_nil_r. fold pts.
      change (nlt (Arith := BA lm)) with (@Bltb 53 1024). change (nofZ (Arith := BA lm) 5) with (b64_of 5 0).
      rewrite (few_points lm pts Hn). reflexivity. }
    destruct (b64_ofZ 0 ltac:(lia)) as [V F]. rewrite E, V. split; [exact F|lra]. }
  destruct (Nat.lt_ge_cases (length pts) 5) as [Hn|Hn]; [exact (few Hn)|].
  destruct C as [C|(M & v & H1 & H2 & H3 & H4 & H5)]; [exact (few C)|].
  apply (C119_spread_partial lm eig M v ops q); try assumption. fold pts. lia.
Qed.
Print Assumptions C07_spread_partial.

(** An exp that satisfies all three contracts, and the points of a cross. *)
Definition step_libm (lm : libm) : libm :=
  {| lm_cos := lm_cos lm; lm_sin := lm_sin lm;
     lm_exp := fun x => if Bleb x (b64_of 1 (-60)) then b64_of 1 0 else b64_inf;
     lm_atan2 := lm_atan2 lm; lm_hypot := lm_hypot lm; lm_fmod := lm_fmod lm |}.

Lemma step_val : B2R (b64_of 1 (-60)) = bpow radix2 (-60).
Proof.
  assert (E : b64_of 1 (-60) = @B754_finite 53 1024 false 4503599627370496 (-112) eq_refl) by (apply b64_eq; vm_compute; reflexivity).
  rewrite E. cbn [B2R]. unfold F2R. cbn [Fnum Fexp SpecFloat.cond_Zopp].
  change (IZR 4503599627370496) with (bpow radix2 52). rewrite <- bpow_plus. reflexivity.
Qed.

Lemma step_unit (lm : libm) : exp_unit (step_libm lm).
Proof.
  intros x F H. cbn [lm_exp step_libm]. rewrite Bleb_correct by (assumption || reflexivity). rewrite step_val, Rle_bool_true by exact H.
  destruct (b64_ofZ 1 ltac:(lia)) as [E1 F1]. rewrite E1. split; [exact F1|lra].
Qed.

Lemma step_above (lm : libm) (x : b64) : is_finite x = true -> / 2 <= B2R x -> lm_exp (step_libm lm) x = b64_inf.
Proof.
  intros F H. cbn [lm_exp step_libm]. rewrite Bleb_correct by (assumption || reflexivity). rewrite step_val, Rle_bool_false; [reflexivity|].
  apply Rlt_le_trans with (bpow radix2 (-1)); [apply bpow_lt; lia|]. change (bpow radix2 (-1)) with (/ 2). exact H.
Qed.

Lemma step_grows (lm : libm) : exp_grows (step_libm lm).
Proof. intros x F H. rewrite step_above by assumption. reflexivity. Qed.
Lemma step_saturates (lm : libm) : exp_saturates (step_libm lm).
Proof. intros x F H. apply step_above; [exact F|lra]. Qed.

Lemma eig_ad_sane : sane_eigenvalues eig_ad.
Proof.
  intros m F0 F1 F2 _ H0 H1 _. cbn [eig_ad fst snd]. split; [exact F0|]. split; [exact F2|].
  unfold Rmax. destruct (Rle_dec _ _); lra.
Qed.

Lemma eig_ad_diagonal : diagonal_eigenvalues eig_ad.
Proof. intros a d. left. reflexivity. Qed.

Definition cross64 : list (point b64) :=
  [mkPoint (b64_of 1 0) (b64_of 0 0); mkPoint (b64_of (-1) 0) (b64_of 0 0); mkPoint (b64_of 0 0) (b64_of 1 0);
   mkPoint (b64_of 0 0) (b64_of (-1) 0); mkPoint (b64_of 0 0) (b64_of 0 0)].

Lemma cross_real : real_points cross64 = [mkPoint 1 0; mkPoint (-1) 0; mkPoint 0 1; mkPoint 0 (-1); mkPoint 0 0].
Proof.
  unfold cross64, real_points, real_point. cbn [map px py].
  rewrite (proj1 (b64_ofZ 1 ltac:(lia))), (proj1 (b64_ofZ 0 ltac:(lia))), (proj1 (b64_ofZ (-1) ltac:(lia))). reflexivity.
Qed.

Lemma cross_spread : spread_at_least (1 / 2) (real_points cross64).
Proof.
  rewrite cross_real. intros [w0 w1]. unfold norm2, quad2, cov_matrix, sample_cov, average. cbn -[Rplus Rmult Rminus Rdiv Rinv IZR Ropp Rle]. nra.
Qed.

Lemma cross_within : Forall (coordinates_within 1) cross64.
Proof.
  unfold cross64. destruct (b64_ofZ 1 ltac:(lia)) as [E1 F1], (b64_ofZ 0 ltac:(lia)) as [E0 F0], (b64_ofZ (-1) ltac:(lia)) as [E2 F2].
  repeat (apply Forall_cons; [unfold coordinates_within; cbn [px py]; rewrite ?E1, ?E0, ?E2;
    split; [split; assumption|split; apply Rabs_le; lra]|]). apply Forall_nil.
Qed.

Lemma cross_guard : 4096 * unit_roundoff * (1 * 1) * (INR 5 + 1) <= 1 / 2.
Proof. change unit_roundoff with u64. rewrite u64_val. cbn [INR]. lra. Qed.

Example C119_nonvacuous (lm : libm) :
  sane_eigenvalues eig_ad /\ diagonal_eigenvalues eig_ad /\
  exp_unit (step_libm lm) /\ exp_grows (step_libm lm) /\ exp_saturates (step_libm lm) /\
  op_points (map CAdd cross64) = cross64 /\ Forall (coordinates_within 1) cross64 /\ length cross64 = 5%nat /\
  spread_at_least (1 / 2) (real_points cross64) /\ 4096 * unit_roundoff * (1 * 1) * (INR (length cross64) + 1) <= 1 / 2.
Proof.
  split; [apply eig_ad_sane|]. split; [apply eig_ad_diagonal|]. split; [apply step_unit|]. split; [apply step_grows|].
  split; [apply step_saturates|]. split; [reflexivity|]. split; [apply cross_within|]. split; [reflexivity|].
  split; [apply cross_spread|]. apply cross_guard.
Qed.
