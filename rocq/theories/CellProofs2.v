(** Order independence, the regularisation branch and the binary64 witness. *)

From Coq Require Import ZArith Reals List Bool Lia Lra Psatz Permutation.
From Flocq Require Import Core BinarySingleNaN.
From Verif Require Import Outcome Arith TypesModel CellModel SpecStats SumLemmas RTactics B64Tactics CellProofs.
Import ListNotations.
Local Open Scope R_scope.

(** * Same points in every arithmetic *)
Lemma canonical_generic {T} {A : Arith T} (eig : mat2 T -> T * T) (ops1 ops2 : list (cell_op T)) :
  op_points ops1 = op_points ops2 ->
  nlt (c_n (cell_run eig ops1)) (nofZ 3) = false ->
  cell_run eig (ops1 ++ [CCompute]) = cell_run eig (ops2 ++ [CCompute]).
Proof.
  intros Hp Hn. destruct (run_same_stats eig ops1) as (En & _). rewrite En in Hn.
  rewrite (run_compute_canonical eig ops1 Hn).
  rewrite Hp in *. rewrite (run_compute_canonical eig ops2 Hn). reflexivity.
Qed.

Lemma run_app_compute_twice {T} {A : Arith T} (eig : mat2 T -> T * T) (ops : list (cell_op T)) :
  cell_run eig (ops ++ [CCompute; CCompute]) = cell_run eig (ops ++ [CCompute]).
Proof.
  unfold cell_run. rewrite !fold_left_app. cbn [fold_left cell_step].
  apply compute_idempotent.
Qed.

Lemma score_few_generic {T} {A : Arith T} (c : cell T) (q : point T) :
  nlt (c_n c) (nofZ 5) = true -> cell_score c q = nzero.
Proof. intros H. unfold cell_score. rewrite H. reflexivity. Qed.

Section Exact.
Variable eig : mat2 R -> R * R.

Lemma cov_matrix_perm (a b : list (point R)) : Permutation a b -> cov_matrix a = cov_matrix b.
Proof.
  intros H. unfold cov_matrix.
  rewrite (sample_cov_perm px px a b H), (sample_cov_perm px py a b H),
          (sample_cov_perm py px a b H), (sample_cov_perm py py a b H). reflexivity.
Qed.

Lemma mean_point_perm (a b : list (point R)) : Permutation a b -> mean_point a = mean_point b.
Proof.
  intros H. unfold mean_point. rewrite (average_perm px a b H), (average_perm py a b H). reflexivity.
Qed.

(** Below three points compute never runs. *)
Lemma run_small (ops : list (cell_op R)) :
  (length (op_points ops) < 3)%nat ->
  c_valid (cell_run eig ops) = false /\ c_cov (cell_run eig ops) = mat2_zero /\
  c_info (cell_run eig ops) = mat2_zero.
Proof.
  induction ops as [|o ops IH] using rev_ind; [intros _; repeat split|].
  rewrite op_points_app, app_length. intros Hl.
  destruct IH as (Hv & Hc & Hi); [lia|].
  destruct (run_same_stats eig ops) as (En & _).
  destruct (accumulate_stats (op_points ops)) as (Hn & _).
  unfold cell_run in *. rewrite fold_left_app. cbn [fold_left].
  destruct o as [p|]; cbn [cell_step].
  - cbn [cell_add_point c_valid c_cov c_info]. auto.
  - unfold cell_compute. rewrite Hv. cbn [orb]. ra. rewrite En, Hn.
    rewrite Rlt_bool_true; [auto|].
    replace 3 with (INR 3) by (cbn; lra). apply lt_INR. lia.
Qed.

Lemma mean_of_run (ops : list (cell_op R)) :
  op_points ops <> [] -> c_mean (cell_run eig ops) = mean_point (op_points ops).
Proof.
  intros Hne. destruct (run_same_stats eig ops) as (_ & Em & _). rewrite Em.
  destruct (accumulate_stats (op_points ops)) as (_ & Hx & Hy & _).
  assert (1 <= length (op_points ops))%nat by (destruct (op_points ops); [congruence|cbn; lia]).
  unfold mean_point. rewrite <- (average_of_inv _ _ _ H Hx), <- (average_of_inv _ _ _ H Hy).
  destruct (c_mean (accumulate (op_points ops))); reflexivity.
Qed.

Lemma mean_of_run_nil (ops : list (cell_op R)) :
  op_points ops = [] -> c_mean (cell_run eig ops) = mkPoint 0 0.
Proof.
  intros He. destruct (run_same_stats eig ops) as (_ & Em & _). rewrite Em, He. reflexivity.
Qed.

Lemma count_of_run (ops : list (cell_op R)) : c_n (cell_run eig ops) = INR (length (op_points ops)).
Proof.
  destruct (run_same_stats eig ops) as (En & _). rewrite En.
  destruct (accumulate_stats (op_points ops)) as (Hn & _). exact Hn.
Qed.

Lemma op_points_compute (ops : list (cell_op R)) : op_points (ops ++ [CCompute]) = op_points ops.
Proof. rewrite op_points_app. cbn. apply app_nil_r. Qed.

Lemma order_independent (ops1 ops2 : list (cell_op R)) :
  Permutation (op_points ops1) (op_points ops2) ->
  let c1 := cell_run eig (ops1 ++ [CCompute]) in
  let c2 := cell_run eig (ops2 ++ [CCompute]) in
  c_n c1 = c_n c2 /\ c_mean c1 = c_mean c2 /\ c_cov c1 = c_cov c2 /\ c_info c1 = c_info c2 /\
  forall q, cell_score c1 q = cell_score c2 q.
Proof.
  intros Hp c1 c2.
  pose proof (Permutation_length Hp) as Hlen.
  assert (Hn : c_n c1 = c_n c2).
  { unfold c1, c2. rewrite !count_of_run, !op_points_compute, Hlen. reflexivity. }
  assert (Hm : c_mean c1 = c_mean c2).
  { unfold c1, c2.
    destruct (op_points ops1) as [|p l1] eqn:E1.
    - apply Permutation_nil in Hp.
      rewrite !mean_of_run_nil by (rewrite op_points_compute; assumption). reflexivity.
    - assert (E2 : op_points ops2 <> []) by (intros E; rewrite E in Hlen; discriminate Hlen).
      rewrite !mean_of_run by (rewrite op_points_compute; congruence).
      rewrite !op_points_compute, E1. apply mean_point_perm. exact Hp. }
  assert (Hc : c_cov c1 = c_cov c2 /\ c_info c1 = c_info c2).
  { destruct (Nat.lt_ge_cases (length (op_points ops1)) 3) as [Hs|Hs].
    - destruct (run_small (ops1 ++ [CCompute])) as (_ & A1 & A2);
        [rewrite op_points_compute; exact Hs|].
      destruct (run_small (ops2 ++ [CCompute])) as (_ & B1 & B2);
        [rewrite op_points_compute, <- Hlen; exact Hs|].
      unfold c1, c2. rewrite A1, A2, B1, B2. split; reflexivity.
    - destruct (run_compute_stats eig ops1 Hs) as (_ & _ & A1 & A2 & _).
      destruct (run_compute_stats eig ops2) as (_ & _ & B1 & B2 & _); [rewrite <- Hlen; exact Hs|].
      unfold c1, c2. rewrite A1, A2, B1, B2, (cov_matrix_perm _ _ Hp). split; reflexivity. }
  destruct Hc as [Hc Hi]. repeat split; try assumption.
  intros q. unfold cell_score. rewrite Hn, Hm, Hi. reflexivity.
Qed.

(** * Scores *)
Lemma score_range (ops : list (cell_op R)) (q : point R) :
  eigen_contract eig -> (5 <= length (op_points ops))%nat -> not_all_equal (op_points ops) ->
  0 < cell_score (cell_run eig (ops ++ [CCompute])) q <= 1.
Proof.
  intros He Hl Hne. rewrite run_score by exact Hl. apply gauss_range.
  apply info_psd; [exact He|lia|exact Hne].
Qed.

Lemma score_at_mean (ops : list (cell_op R)) :
  (5 <= length (op_points ops))%nat ->
  cell_score (cell_run eig (ops ++ [CCompute])) (mean_point (op_points ops)) = 1.
Proof.
  intros Hl. rewrite run_score by exact Hl.
  replace (psub (mean_point (op_points ops)) (mean_point (op_points ops))) with (mkPoint 0 0).
  - apply gauss_zero.
  - unfold psub. f_equal; ring.
Qed.

(** Every matrix satisfying the inverse equations is Eigen's inverse. *)
Lemma inverse2_unique (m w : mat2 R) : det2 m <> 0 -> is_inverse2 m w -> w = mat2_inverse m.
Proof.
  intros Hd [H1 _]. unfold mul2, id2 in H1. injection H1 as E1 E2 E3 E4.
  unfold det2 in Hd. destruct m as [a b c d], w as [x y z t].
  cbn [m00 m01 m10 m11] in *. unfold mat2_inverse, mat2_det. ra. cbn [m00 m01 m10 m11].
  assert (X : x * (a * d - b * c) = d).
  { replace (x * (a * d - b * c)) with (d * (a * x + b * z) - b * (c * x + d * z)) by ring.
    rewrite E1, E3. ring. }
  assert (Y : y * (a * d - b * c) = - b).
  { replace (y * (a * d - b * c)) with (d * (a * y + b * t) - b * (c * y + d * t)) by ring.
    rewrite E2, E4. ring. }
  assert (Z : z * (a * d - b * c) = - c).
  { replace (z * (a * d - b * c)) with (a * (c * x + d * z) - c * (a * x + b * z)) by ring.
    rewrite E1, E3. ring. }
  assert (W : t * (a * d - b * c) = a).
  { replace (t * (a * d - b * c)) with (a * (c * y + d * t) - c * (a * y + b * t)) by ring.
    rewrite E2, E4. ring. }
  rewrite (Rmult_comm c b).
  f_equal; [ apply (Rmult_eq_reg_r (a * d - b * c)); [|exact Hd]; rewrite X; field; exact Hd
           | apply (Rmult_eq_reg_r (a * d - b * c)); [|exact Hd]; rewrite Y; field; exact Hd
           | apply (Rmult_eq_reg_r (a * d - b * c)); [|exact Hd]; rewrite Z; field; exact Hd
           | apply (Rmult_eq_reg_r (a * d - b * c)); [|exact Hd]; rewrite W; field; exact Hd ].
Qed.

(** C05 *)
Lemma well_conditioned_score (ops : list (cell_op R)) (s l : R) (w : mat2 R) (q : point R) :
  eigen_contract eig -> (5 <= length (op_points ops))%nat ->
  eigenvalues2 (cov_matrix (op_points ops)) (s, l) -> 0 < s -> s <= l -> 1 / 1000 * l <= s ->
  is_inverse2 (cov_matrix (op_points ops)) w ->
  cell_score (cell_run eig (ops ++ [CCompute])) q = gauss w (psub q (mean_point (op_points ops))).
Proof.
  intros He Hl [Hs1 Hs2] Hs Hsl Hc Hw. cbn [fst snd] in *.
  rewrite run_score by exact Hl.
  set (m := cov_matrix (op_points ops)) in *.
  assert (Hsym : symmetric2 m) by (unfold symmetric2, m, cov_matrix; cbn; apply sample_cov_sym).
  destruct (sorted_eig_spec m (eig m) (He m Hsym)) as [Ho [Ht Hd]].
  assert (Es : fst (sorted_eig (eig m)) = s /\ snd (sorted_eig (eig m)) = l).
  { set (x := fst (sorted_eig (eig m))) in *. set (y := snd (sorted_eig (eig m))) in *.
    clearbody x y. assert ((x - s) * (x - l) = 0).
    { replace ((x - s) * (x - l)) with (x * x - x * (s + l) + s * l) by ring.
      rewrite Hs1, Hs2, <- Ht, <- Hd. ring. }
    apply Rmult_integral in H. destruct H; split; lra. }
  destruct Es as [E1 E2].
  assert (Ei : info_of_cov eig m = w).
  { rewrite info_of_cov_eq, E1, E2, Rlt_bool_false by exact Hc.
    symmetry. apply inverse2_unique; [|exact Hw]. rewrite <- Hs2.
    assert (0 < s * l) by (apply Rmult_lt_0_compat; lra). lra. }
  rewrite Ei. reflexivity.
Qed.

(** C06, the part that holds. *)
Lemma raised_decomposition (m : mat2 R) (s l vx vy : R) :
  symmetric2 m -> eigenvalues2 m (s, l) -> vx * vx + vy * vy = 1 ->
  m00 m * vx + m01 m * vy = s * vx -> m10 m * vx + m11 m * vy = s * vy ->
  m00 m = s * (vx * vx) + l * (vy * vy) /\ m01 m = (s - l) * (vx * vy) /\
  m10 m = (s - l) * (vx * vy) /\ m11 m = s * (vy * vy) + l * (vx * vx).
Proof.
  intros Hsym [Ht _] Hv H1 H2. unfold symmetric2 in Hsym. unfold trace2 in Ht. cbn [fst snd] in Ht.
  rewrite <- Hsym in *. set (a := m00 m) in *. set (b := m01 m) in *. set (d := m11 m) in *.
  clearbody a b d. assert (El : l = a + d - s) by lra. subst l.
  assert (A1 : s * (vx * vx) = a * (vx * vx) + b * (vx * vy)).
  { replace (s * (vx * vx)) with (s * vx * vx) by ring. rewrite <- H1. ring. }
  assert (A2 : s * (vy * vy) = b * (vx * vy) + d * (vy * vy)).
  { replace (s * (vy * vy)) with (s * vy * vy) by ring. rewrite <- H2. ring. }
  assert (A3 : s * (vx * vy) = a * (vx * vy) + b * (vy * vy)).
  { replace (s * (vx * vy)) with (s * vx * vy) by ring. rewrite <- H1. ring. }
  assert (A4 : s * (vx * vy) = b * (vx * vx) + d * (vx * vy)).
  { replace (s * (vx * vy)) with (s * vy * vx) by ring. rewrite <- H2. ring. }
  assert (B1 : a * (vx * vx) + a * (vy * vy) = a).
  { rewrite <- Rmult_plus_distr_l, Hv. ring. }
  assert (B2 : b * (vx * vx) + b * (vy * vy) = b).
  { rewrite <- Rmult_plus_distr_l, Hv. ring. }
  assert (B3 : d * (vx * vx) + d * (vy * vy) = d).
  { rewrite <- Rmult_plus_distr_l, Hv. ring. }
  repeat split; lra.
Qed.

Lemma ill_conditioned_score (ops : list (cell_op R)) (s l : R) (m' w : mat2 R) (q : point R) :
  eigen_contract eig -> (5 <= length (op_points ops))%nat ->
  eigenvalues2 (cov_matrix (op_points ops)) (s, l) -> 0 <= s -> s < 1 / 1000 * l ->
  eigenvalue_raised (cov_matrix (op_points ops)) s (1 / 1000 * l) m' -> is_inverse2 m' w ->
  let d := psub q (mean_point (op_points ops)) in
  let score := cell_score (cell_run eig (ops ++ [CCompute])) q in
  gauss w d <= score /\
  (* across the line the regularised score is met exactly *)
  ((exists t, m00 (cov_matrix (op_points ops)) * (t * px d) + m01 (cov_matrix (op_points ops)) * (t * py d) = s * (t * px d) /\
              m10 (cov_matrix (op_points ops)) * (t * px d) + m11 (cov_matrix (op_points ops)) * (t * py d) = s * (t * py d) /\ t <> 0) ->
   score = gauss w d) /\
  (* and the score never falls faster than the regularisation allows *)
  exp (- (1 / 2) * (1000 / l * norm2 d)) <= score.
Proof.
  intros He Hl Hev Hs Hc (vx & vy & Hv & V1 & V2 & Hm') Hw d score.
  assert (Hlp : 0 < l) by lra.
  set (m := cov_matrix (op_points ops)) in *.
  assert (Hsym : symmetric2 m) by (unfold symmetric2, m, cov_matrix; cbn; apply sample_cov_sym).
  destruct (raised_decomposition m s l vx vy Hsym Hev Hv V1 V2) as (D00 & D01 & D10 & D11).
  destruct Hev as [Hs1 Hs2]. cbn [fst snd] in *.
  destruct (sorted_eig_spec m (eig m) (He m Hsym)) as [Ho [Ht Hd]].
  assert (Es : fst (sorted_eig (eig m)) = s /\ snd (sorted_eig (eig m)) = l).
  { set (x := fst (sorted_eig (eig m))) in *. set (y := snd (sorted_eig (eig m))) in *.
    clearbody x y. assert ((x - s) * (x - l) = 0).
    { replace ((x - s) * (x - l)) with (x * x - x * (s + l) + s * l) by ring.
      rewrite Hs1, Hs2, <- Ht, <- Hd. ring. }
    apply Rmult_integral in H. destruct H; split; lra. }
  destruct Es as [E1 E2].
  assert (Hscore : score = gauss (info_of_cov eig m) d).
  { unfold score. rewrite run_score by exact Hl. reflexivity. }
  clearbody score.
  set (g := px d * vx + py d * vy). set (h := - px d * vy + py d * vx).
  assert (Qi : quad2 (info_of_cov eig m) d = g * g * (1000 / l) + h * h * (1000 * s / (l * l))).
  { rewrite info_of_cov_eq, E1, E2, Rlt_bool_true by exact Hc. unfold quad2. cbn [m00 m01 m10 m11].
    rewrite D00, D01, D10, D11. unfold g, h. field. lra. }
  assert (Em' : m' = mkMat2 (1 / 1000 * l * (vx * vx) + l * (vy * vy)) ((1 / 1000 * l - l) * (vx * vy))
                      ((1 / 1000 * l - l) * (vx * vy)) (1 / 1000 * l * (vy * vy) + l * (vx * vx))).
  { rewrite Hm', D00, D01, D10, D11. f_equal; ring. }
  assert (Hdet : det2 m' = 1 / 1000 * l * l).
  { rewrite Em'. unfold det2; cbn [m00 m01 m10 m11].
    replace ((1 / 1000 * l * (vx * vx) + l * (vy * vy)) * (1 / 1000 * l * (vy * vy) + l * (vx * vx)) -
             (1 / 1000 * l - l) * (vx * vy) * ((1 / 1000 * l - l) * (vx * vy)))
      with (1 / 1000 * l * l * ((vx * vx + vy * vy) * (vx * vx + vy * vy))) by field.
    rewrite Hv. ring. }
  assert (Hll : 0 < l * l) by (apply Rmult_lt_0_compat; lra).
  assert (Qw : quad2 w d = g * g * (1000 / l) + h * h * (1 / l)).
  { rewrite (inverse2_unique m' w) by (try exact Hw; rewrite Hdet; lra).
    unfold quad2, mat2_inverse, mat2_det; ra. cbn [m00 m01 m10 m11].
    replace (m00 m' * m11 m' - m10 m' * m01 m') with (1 / 1000 * l * l)
      by (rewrite <- Hdet; unfold det2; ring).
    rewrite Em'. cbn [m00 m01 m10 m11]. unfold g, h. field. lra. }
  assert (Hil : 0 < / l) by (apply Rinv_0_lt_compat; exact Hlp).
  assert (Hgg : 0 <= g * g) by apply Rle_0_sqr. assert (Hhh : 0 <= h * h) by apply Rle_0_sqr.
  assert (Hcmp : 1000 * s / (l * l) <= 1 / l).
  { apply (Rmult_le_reg_r (l * l)); [exact Hll|].
    replace (1000 * s / (l * l) * (l * l)) with (1000 * s) by (field; lra).
    replace (1 / l * (l * l)) with l by (field; lra). lra. }
  assert (Hnn : 0 <= 1000 * s / (l * l)).
  { unfold Rdiv. apply Rmult_le_pos; [lra|]. left. apply Rinv_0_lt_compat. exact Hll. }
  assert (Hmono : forall x y, x <= y -> exp (- (1 / 2) * y) <= exp (- (1 / 2) * x)).
  { intros x y Hxy. destruct (Req_dec x y) as [E|E]; [subst; lra|].
    left. apply exp_increasing. lra. }
  rewrite Hscore. unfold gauss. rewrite Qi, Qw. split; [|split].
  - apply Hmono. apply Rplus_le_compat_l. apply Rmult_le_compat_l; assumption.
  - intros (t & T1 & T2 & T3).
    (* q is in the s-eigenspace, which is spanned by v since s <> l *)
    assert (Hh0 : h = 0).
    { rewrite D00, D01 in T1. rewrite D10, D11 in T2.
      assert (X : t * ((l - s) * h) = 0).
      { unfold h.
        replace (t * ((l - s) * (- px d * vy + py d * vx)))
          with ((l - s) * (vx * (t * py d) - vy * (t * px d)) ) by ring.
        assert (P1 : (s * (vx * vx) + l * (vy * vy)) * (t * px d) + (s - l) * (vx * vy) * (t * py d) - s * (t * px d)
                     = - ((l - s) * vy * (vx * (t * py d) - vy * (t * px d))) + s * (t * px d) * (vx * vx + vy * vy - 1)) by ring.
        assert (P2 : (s - l) * (vx * vy) * (t * px d) + (s * (vy * vy) + l * (vx * vx)) * (t * py d) - s * (t * py d)
                     = (l - s) * vx * (vx * (t * py d) - vy * (t * px d)) + s * (t * py d) * (vx * vx + vy * vy - 1)) by ring.
        rewrite Hv in P1, P2. rewrite T1 in P1. rewrite T2 in P2.
        set (k := (l - s) * (vx * (t * py d) - vy * (t * px d))) in *.
        assert (K1 : k * vy = 0) by (unfold k; lra). assert (K2 : k * vx = 0) by (unfold k; lra).
        replace k with (k * (vx * vx + vy * vy)) by (rewrite Hv; ring).
        replace (k * (vx * vx + vy * vy)) with (k * vx * vx + k * vy * vy) by ring.
        rewrite K1, K2. ring. }
      apply Rmult_integral in X. destruct X as [X|X]; [congruence|].
      apply Rmult_integral in X. destruct X as [X|X]; [lra|exact X]. }
    rewrite Hh0. f_equal. ring.
  - apply Hmono. unfold norm2.
    replace (px d * px d + py d * py d) with (g * g + h * h).
    + replace (1000 / l * (g * g + h * h)) with (g * g * (1000 / l) + h * h * (1000 / l)) by (unfold Rdiv; ring).
      apply Rplus_le_compat_l. apply Rmult_le_compat_l; [exact Hhh|].
      unfold Rdiv in *. lra.
    + unfold g, h.
      replace ((px d * vx + py d * vy) * (px d * vx + py d * vy) + (- px d * vy + py d * vx) * (- px d * vy + py d * vx))
        with ((px d * px d + py d * py d) * (vx * vx + vy * vy)) by ring.
      rewrite Hv. ring.
Qed.

(** C06, the witness: five points on the x axis. *)
Definition line_points : list (point R) :=
  [mkPoint 0 0; mkPoint 1 0; mkPoint 2 0; mkPoint 3 0; mkPoint 4 0].
Definition line_ops : list (cell_op R) := map CAdd line_points.

Lemma line_ops_points : op_points line_ops = line_points.
Proof. reflexivity. Qed.

Lemma line_cov : cov_matrix line_points = mkMat2 (5 / 2) 0 0 0.
Proof.
  unfold cov_matrix, sample_cov, average, line_points. cbn [sumf length px py INR].
  f_equal; field.
Qed.

Lemma line_mean : mean_point line_points = mkPoint 2 0.
Proof. unfold mean_point, average, line_points. cbn [sumf length px py INR]. f_equal; field. Qed.

Lemma line_refutes :
  eigenvalues2 (cov_matrix line_points) (0, 5 / 2) /\
  exists m' w, eigenvalue_raised (cov_matrix line_points) 0 (1 / 1000 * (5 / 2)) m' /\ is_inverse2 m' w /\
    forall e, eigen_contract e ->
      cell_score (cell_run e (line_ops ++ [CCompute])) (mkPoint 3 0)
      <> gauss w (psub (mkPoint 3 0) (mean_point line_points)).
Proof.
  split.
  - rewrite line_cov. split; unfold trace2, det2; cbn; lra.
  - exists (mkMat2 (5 / 2) 0 0 (1 / 1000 * (5 / 2))), (mkMat2 (2 / 5) 0 0 400).
    split; [|split].
    + exists 0, 1. rewrite line_cov. cbn. repeat split; try lra. f_equal; lra.
    + split; unfold mul2, id2; cbn; f_equal; lra.
    + intros e He. rewrite run_score by (cbn; lia).
      rewrite line_ops_points, line_mean, line_cov.
      assert (Hs : symmetric2 (mkMat2 (5 / 2) 0 0 0)) by reflexivity.
      destruct (sorted_eig_spec _ _ (He _ Hs)) as [Ho [Ht Hd]].
      unfold trace2, det2 in Ht, Hd. cbn [m00 m01 m10 m11] in Ht, Hd.
      assert (Es : fst (sorted_eig (e (mkMat2 (5 / 2) 0 0 0))) = 0 /\ snd (sorted_eig (e (mkMat2 (5 / 2) 0 0 0))) = 5 / 2).
      { set (x := fst (sorted_eig (e (mkMat2 (5 / 2) 0 0 0)))) in *.
        set (y := snd (sorted_eig (e (mkMat2 (5 / 2) 0 0 0)))) in *. clearbody x y.
        assert (Hz : x * y = 0) by lra. apply Rmult_integral in Hz. destruct Hz; split; lra. }
      rewrite info_of_cov_eq, (proj1 Es), (proj2 Es), Rlt_bool_true by lra.
      unfold gauss, quad2, psub; cbn [m00 m01 m10 m11 px py].
      intros E. apply exp_inv in E. lra.
Qed.

End Exact.

(** * C07: the witness in binary64 *)

Definition b64_one : b64 := b64_of 1 0.
Definition same_point_ops : list (cell_op b64) :=
  [CAdd (mkPoint b64_one b64_one); CAdd (mkPoint b64_one b64_one); CAdd (mkPoint b64_one b64_one);
   CAdd (mkPoint b64_one b64_one); CAdd (mkPoint b64_one b64_one)].

Lemma coincident_points_nan (lm : libm) (eig : mat2 b64 -> b64 * b64) :
  eig (mkMat2 (b64_of 0 0) (b64_of 0 0) (b64_of 0 0) (b64_of 0 0)) = (b64_of 0 0, b64_of 0 0) ->
  lm_exp lm b64_nan = b64_nan ->
  cell_score (A := BA lm) (cell_run (A := BA lm) eig (same_point_ops ++ [CCompute])) (mkPoint b64_one b64_one) = b64_nan.
Proof.
  intros He Hx.
  rewrite (run_compute_canonical (A := BA lm) eig same_point_ops) by reflexivity.
  set (c := mkCell _ _ _ _ _ _). 
  assert (Hcell : c = mkCell false (b64_of 5 0) (mkPoint b64_one b64_one)
     (mkMat2 (b64_of 0 0) (b64_of 0 0) (b64_of 0 0) (b64_of 0 0))
     (mkMat2 b64_one b64_one (b64_of 0 0) b64_one) (mkMat2 (b64_of 0 0) (b64_of 0 0) (b64_of 0 0) (b64_of 0 0))).
  { unfold c. f_equal; b64_struct. }
  rewrite Hcell. clear Hcell c.
  unfold cell_compute.
  match goal with |- context [if ?b then _ else _] => replace b with false by (vm_compute; reflexivity) end.
  cbv zeta. cbn [c_n c_mean c_corr px py m00 m01 m11].
  set (cov := mkMat2 _ _ _ _).
  assert (Hcov : cov = mkMat2 (b64_of 0 0) (b64_of 0 0) (b64_of 0 0) (b64_of 0 0)).
  { unfold cov. f_equal; b64_compute. }
  rewrite Hcov. unfold info_of_cov at 1. rewrite He. cbn [fst snd].
  unfold cell_score. cbn [c_n c_mean c_info px py].
  match goal with |- (if ?b then _ else _) = _ => replace b with false by (vm_compute; reflexivity) end.
  cbn [nexp BA].
  match goal with |- lm_exp lm ?x = _ => replace x with b64_nan by b64_compute end.
  exact Hx.
Qed.

(** * Witnesses that the hypotheses can be met *)

(** The textbook eigenvalues meet the contract. *)
Definition eig_exact (m : mat2 R) : R * R :=
  let t := trace2 m in
  let r := sqrt (t * t - 4 * det2 m) in
  ((t - r) / 2, (t + r) / 2).

Lemma eig_exact_contract : eigen_contract eig_exact.
Proof.
  intros m Hs. unfold symmetric2 in Hs. unfold eig_exact, eigenvalues2. cbn [fst snd].
  assert (Hd : 0 <= trace2 m * trace2 m - 4 * det2 m).
  { unfold trace2, det2. rewrite <- Hs.
    replace ((m00 m + m11 m) * (m00 m + m11 m) - 4 * (m00 m * m11 m - m01 m * m01 m))
      with ((m00 m - m11 m) * (m00 m - m11 m) + 4 * (m01 m * m01 m)) by ring.
    pose proof (Rle_0_sqr (m00 m - m11 m)) as A1. pose proof (Rle_0_sqr (m01 m)) as A2.
    unfold Rsqr in *. lra. }
  split; [lra|].
  replace ((trace2 m - sqrt (trace2 m * trace2 m - 4 * det2 m)) / 2 *
           ((trace2 m + sqrt (trace2 m * trace2 m - 4 * det2 m)) / 2))
    with ((trace2 m * trace2 m - sqrt (trace2 m * trace2 m - 4 * det2 m) * sqrt (trace2 m * trace2 m - 4 * det2 m)) / 4) by field.
  rewrite sqrt_sqrt by exact Hd. field.
Qed.

Definition square_points : list (point R) :=
  [mkPoint 0 0; mkPoint 2 0; mkPoint 0 2; mkPoint 2 2; mkPoint 1 1].
Definition square_ops : list (cell_op R) :=
  [CAdd (mkPoint 0 0); CAdd (mkPoint 2 0); CCompute; CAdd (mkPoint 0 2); CAdd (mkPoint 2 2);
   CCompute; CAdd (mkPoint 1 1)].
Lemma square_ops_points : op_points square_ops = square_points.
Proof. reflexivity. Qed.
Lemma square_cov : cov_matrix square_points = id2.
Proof.
  unfold cov_matrix, sample_cov, average, square_points, id2. cbn [sumf length px py INR].
  f_equal; field.
Qed.
Lemma square_not_equal : not_all_equal square_points.
Proof.
  exists (mkPoint 0 0), (mkPoint 2 0). split; [cbn; auto|]. split; [cbn; auto|].
  intros E. injection E. lra.
Qed.
Lemma square_well_conditioned :
  eigenvalues2 (cov_matrix square_points) (1, 1) /\ is_inverse2 (cov_matrix square_points) id2.
Proof.
  rewrite square_cov. split; split; unfold trace2, det2, mul2, id2; cbn; try lra; f_equal; lra.
Qed.
Lemma line_not_equal : not_all_equal line_points.
Proof.
  exists (mkPoint 0 0), (mkPoint 1 0). split; [cbn; auto|]. split; [cbn; auto|].
  intros E. injection E. lra.
Qed.
Lemma line_refutes_full :
  exists (ops : list (cell_op R)) (s l : R) (m' w : mat2 R) (q : point R),
    (5 <= length (op_points ops))%nat /\
    eigenvalues2 (cov_matrix (op_points ops)) (s, l) /\ 0 <= s /\ s < 1 / 1000 * l /\
    eigenvalue_raised (cov_matrix (op_points ops)) s (1 / 1000 * l) m' /\ is_inverse2 m' w /\
    forall eig, eigen_contract eig ->
      cell_score (cell_run eig (ops ++ [CCompute])) q <> gauss w (psub q (mean_point (op_points ops))).
Proof.
  destruct line_refutes as [He (m' & w & Hr & Hi & Hs)].
  exists line_ops, 0, (5 / 2), m', w, (mkPoint 3 0). rewrite line_ops_points.
  repeat split; try assumption; try lra; try (apply Hr); try apply He; try apply Hi. cbn; lia.
Qed.
Lemma square_up_to_date :
  op_points square_ops = op_points (map CAdd square_points) /\
  nlt (c_n (cell_run eig_exact square_ops)) (nofZ 3) = false.
Proof.
  split; [reflexivity|]. rewrite count_of_run. cbn [length op_points flat_map square_ops app].
  ra. apply Rlt_bool_false. cbn. lra.
Qed.
Lemma square_reversed :
  Permutation (op_points square_ops) (op_points (rev square_ops)) /\
  op_points square_ops <> op_points (rev square_ops).
Proof.
  split; [cbn; apply (Permutation_rev square_points)|].
  cbn. intros E. injection E. intros. lra.
Qed.
