(** Proofs about the NDT cell (exact reals unless stated otherwise). *)

From Coq Require Import ZArith Reals List Bool Lia Lra Psatz Permutation.
From Flocq Require Import Core.
From Verif Require Import Outcome Arith TypesModel CellModel SpecStats SumLemmas RTactics.
Import ListNotations.
Local Open Scope R_scope.

(** * History independence, in every arithmetic *)
Section Generic.
Context {T : Type} {A : Arith T}.
Variable eig : mat2 T -> T * T.

Lemma compute_idempotent (c : cell T) :
  cell_compute eig (cell_compute eig c) = cell_compute eig c.
Proof.
  unfold cell_compute at 2 3.
  destruct (c_valid c || nlt (c_n c) (nofZ 3)) eqn:E.
  - unfold cell_compute. rewrite E. reflexivity.
  - unfold cell_compute. cbn. reflexivity.
Qed.

(** The accumulated statistics depend on the points only. *)
Definition same_stats (c d : cell T) : Prop :=
  c_n c = c_n d /\ c_mean c = c_mean d /\ c_corr c = c_corr d.

Lemma compute_same_stats (c : cell T) : same_stats (cell_compute eig c) c.
Proof.
  unfold cell_compute. destruct (c_valid c || nlt (c_n c) (nofZ 3)); repeat split.
Qed.

Lemma add_same_stats (c d : cell T) (p : point T) :
  same_stats c d -> same_stats (cell_add_point c p) (cell_add_point d p).
Proof.
  intros (Hn & Hm & Hc). unfold cell_add_point, same_stats; cbn. rewrite Hn, Hm, Hc. repeat split.
Qed.

Definition accumulate (pts : list (point T)) : cell T :=
  fold_left cell_add_point pts cell_new.

Lemma op_points_app (a b : list (cell_op T)) :
  op_points (a ++ b) = op_points a ++ op_points b.
Proof. unfold op_points. apply flat_map_app. Qed.

Lemma run_same_stats (ops : list (cell_op T)) :
  same_stats (cell_run eig ops) (accumulate (op_points ops)).
Proof.
  unfold cell_run, accumulate.
  induction ops as [|o ops IH] using rev_ind; [repeat split|].
  rewrite fold_left_app, op_points_app, fold_left_app. cbn [fold_left cell_step].
  destruct o as [p|]; cbn [op_points flat_map app fold_left].
  - apply add_same_stats. exact IH.
  - destruct (compute_same_stats (fold_left (cell_step eig) ops cell_new)) as (Hn & Hm & Hc).
    destruct IH as (Hn' & Hm' & Hc').
    unfold same_stats. cbn [cell_step]. repeat split; congruence.
Qed.

(** A valid cell holds the matrices of its own statistics. *)
Definition cov_of_stats (c : cell T) : mat2 T :=
  c_cov (cell_compute eig (mkCell false (c_n c) (c_mean c) mat2_zero (c_corr c) mat2_zero)).
Definition fresh (c : cell T) : Prop :=
  c_valid c = true ->
  nlt (c_n c) (nofZ 3) = false /\
  c = cell_compute eig (mkCell false (c_n c) (c_mean c) mat2_zero (c_corr c) mat2_zero).

Lemma compute_fresh (c : cell T) : fresh c -> fresh (cell_compute eig c).
Proof.
  intros H. unfold cell_compute at 1.
  destruct (c_valid c || nlt (c_n c) (nofZ 3)) eqn:E; [exact H|].
  apply orb_false_elim in E. destruct E as [_ E].
  intros _. cbn [c_n c_mean c_corr]. split; [exact E|].
  unfold cell_compute. cbn [c_valid orb c_n]. rewrite E. cbn. reflexivity.
Qed.

Lemma run_fresh (ops : list (cell_op T)) : fresh (cell_run eig ops).
Proof.
  unfold cell_run.
  induction ops as [|o ops IH] using rev_ind; [intros H; discriminate H|].
  rewrite fold_left_app. cbn [fold_left cell_step]. destruct o as [p|]; cbn [cell_step].
  - intros H; discriminate H.
  - apply compute_fresh. exact IH.
Qed.

(** After compute, a cell whose count has reached three is a function of the
    sequence of points alone, whatever the calls in between. *)
Lemma run_compute_canonical (ops : list (cell_op T)) :
  nlt (c_n (accumulate (op_points ops))) (nofZ 3) = false ->
  cell_run eig (ops ++ [CCompute]) =
  cell_compute eig
    (mkCell false (c_n (accumulate (op_points ops))) (c_mean (accumulate (op_points ops)))
            mat2_zero (c_corr (accumulate (op_points ops))) mat2_zero).
Proof.
  intros Hn.
  destruct (run_same_stats ops) as (En & Em & Ec).
  pose proof (run_fresh ops) as Hf.
  unfold cell_run. rewrite fold_left_app. cbn [fold_left cell_step].
  fold (cell_run eig ops). rewrite <- En, <- Em, <- Ec in *.
  destruct (c_valid (cell_run eig ops)) eqn:Ev.
  - destruct (Hf Ev) as [_ Heq].
    transitivity (cell_run eig ops); [|exact Heq].
    unfold cell_compute. rewrite Ev. reflexivity.
  - unfold cell_compute. rewrite Ev. cbn [orb c_valid c_n]. rewrite Hn. reflexivity.
Qed.

End Generic.

(** * Exact statistics *)

Section Exact.
Variable eig : mat2 R -> R * R.

Definition stats_inv (pts : list (point R)) (c : cell R) : Prop :=
  c_n c = INR (length pts) /\
  px (c_mean c) * INR (length pts) = sumf px pts /\
  py (c_mean c) * INR (length pts) = sumf py pts /\
  m00 (c_corr c) * INR (length pts) = sumf (fun p => px p * px p) pts /\
  m01 (c_corr c) * INR (length pts) = sumf (fun p => px p * py p) pts /\
  m11 (c_corr c) * INR (length pts) = sumf (fun p => py p * py p) pts /\
  m10 (c_corr c) = 0.

Lemma stats_inv_new : stats_inv [] cell_new.
Proof. unfold stats_inv; cbn. ra. repeat split; cbn; lra. Qed.

Lemma avg_step (old n new s : R) :
  0 <= n -> old * n = s -> (old * n + new) / (n + 1) * (n + 1) = s + new.
Proof. intros Hn H. rewrite H. field. lra. Qed.

Lemma stats_inv_add (pts : list (point R)) (c : cell R) (p : point R) :
  stats_inv pts c -> stats_inv (pts ++ [p]) (cell_add_point c p).
Proof.
  intros (Hn & Hx & Hy & H00 & H01 & H11 & H10).
  assert (Hlen : INR (length (pts ++ [p])) = INR (length pts) + 1).
  { rewrite app_length. cbn [length]. rewrite plus_INR. cbn. lra. }
  pose proof (pos_INR (length pts)) as Hpos.
  unfold stats_inv. rewrite Hlen, !sumf_app. cbn [sumf].
  unfold cell_add_point; cbn [c_n c_mean c_corr px py m00 m01 m10 m11]. ra.
  rewrite Hn. repeat split; try lra;
    (erewrite avg_step; [|lra|eassumption]); ring.
Qed.

Lemma accumulate_stats (pts : list (point R)) : stats_inv pts (accumulate pts).
Proof.
  unfold accumulate. induction pts as [|p pts IH] using rev_ind.
  - exact stats_inv_new.
  - rewrite fold_left_app. cbn [fold_left]. apply stats_inv_add. exact IH.
Qed.

Lemma length_pos {X} (l : list X) : (1 <= length l)%nat -> l <> [].
Proof. destruct l; cbn; [lia|discriminate]. Qed.

Lemma average_of_inv (m : R) (pts : list (point R)) (f : point R -> R) :
  (1 <= length pts)%nat -> m * INR (length pts) = sumf f pts -> m = average f pts.
Proof.
  intros Hl H. unfold average. rewrite <- H. field.
  apply not_0_INR. lia.
Qed.

Lemma cov_entry (f g : point R -> R) (pts : list (point R)) (corr : R) :
  (3 <= length pts)%nat ->
  corr * INR (length pts) = sumf (fun p => f p * g p) pts ->
  (corr - average f pts * average g pts) * (INR (length pts) / (INR (length pts) - 1))
  = sample_cov f g pts.
Proof.
  intros Hl H. unfold sample_cov.
  rewrite centred_sum by (apply length_pos; lia). rewrite <- H.
  assert (3 <= INR (length pts)) by (replace 3 with (INR 3) by (cbn; lra); apply le_INR; exact Hl).
  field. lra.
Qed.

Lemma sample_cov_sym {X} (f g : X -> R) (l : list X) : sample_cov f g l = sample_cov g f l.
Proof.
  unfold sample_cov. f_equal. apply sumf_ext. intros x _. ring.
Qed.

Lemma INR_ge_3 (k : nat) : (3 <= k)%nat -> 3 <= INR k.
Proof. intros H. replace 3 with (INR 3) by (cbn; lra). apply le_INR. exact H. Qed.

Lemma compute_stats (pts : list (point R)) (c : cell R) :
  (3 <= length pts)%nat -> stats_inv pts c -> c_valid c = false ->
  c_n (cell_compute eig c) = INR (length pts) /\
  c_mean (cell_compute eig c) = mean_point pts /\
  c_cov (cell_compute eig c) = cov_matrix pts /\
  c_info (cell_compute eig c) = info_of_cov eig (cov_matrix pts) /\
  c_valid (cell_compute eig c) = true.
Proof.
  intros Hl (Hn & Hx & Hy & H00 & H01 & H11 & H10) Hv.
  pose proof (INR_ge_3 _ Hl) as H3.
  unfold cell_compute. rewrite Hv. cbn [orb]. ra.
  rewrite Hn, Rlt_bool_false by lra.
  assert (Ex : px (c_mean c) = average px pts) by (apply average_of_inv; [lia|exact Hx]).
  assert (Ey : py (c_mean c) = average py pts) by (apply average_of_inv; [lia|exact Hy]).
  cbn [c_n c_mean c_cov c_info c_valid].
  assert (Em : c_mean c = mean_point pts).
  { unfold mean_point. rewrite <- Ex, <- Ey. destruct (c_mean c); reflexivity. }
  assert (Ec : mkMat2 ((m00 (c_corr c) - px (c_mean c) * px (c_mean c)) * (INR (length pts) / (INR (length pts) - 1)))
                ((m01 (c_corr c) - px (c_mean c) * py (c_mean c)) * (INR (length pts) / (INR (length pts) - 1)))
                ((m01 (c_corr c) - px (c_mean c) * py (c_mean c)) * (INR (length pts) / (INR (length pts) - 1)))
                ((m11 (c_corr c) - py (c_mean c) * py (c_mean c)) * (INR (length pts) / (INR (length pts) - 1)))
              = cov_matrix pts).
  { rewrite Ex, Ey. unfold cov_matrix.
    rewrite (cov_entry px px pts _ Hl H00), (cov_entry py py pts _ Hl H11),
            (cov_entry px py pts _ Hl H01), (sample_cov_sym py px). reflexivity. }
  rewrite Ec. repeat split. exact Em.
Qed.

(** C01 / C08 for the exact arithmetic. *)
Lemma run_compute_stats (ops : list (cell_op R)) :
  (3 <= length (op_points ops))%nat ->
  c_n (cell_run eig (ops ++ [CCompute])) = INR (length (op_points ops)) /\
  c_mean (cell_run eig (ops ++ [CCompute])) = mean_point (op_points ops) /\
  c_cov (cell_run eig (ops ++ [CCompute])) = cov_matrix (op_points ops) /\
  c_info (cell_run eig (ops ++ [CCompute])) = info_of_cov eig (cov_matrix (op_points ops)) /\
  c_valid (cell_run eig (ops ++ [CCompute])) = true.
Proof.
  intros Hl. pose proof (accumulate_stats (op_points ops)) as Hs.
  pose proof (INR_ge_3 _ Hl) as H3.
  rewrite run_compute_canonical.
  - apply compute_stats; [exact Hl| |reflexivity]. exact Hs.
  - destruct Hs as (Hn & _). ra. rewrite Hn, Rlt_bool_false by lra. reflexivity.
Qed.

(** * Covariance is positive semi-definite *)

Lemma sample_cov_psd (pts : list (point R)) :
  (3 <= length pts)%nat ->
  let a := sample_cov px px pts in
  let b := sample_cov px py pts in
  let d := sample_cov py py pts in
  0 <= a /\ 0 <= d /\ b * b <= a * d.
Proof.
  intros Hl a b d. pose proof (INR_ge_3 _ Hl) as H3.
  set (n1 := INR (length pts) - 1). assert (Hn1 : 0 < n1) by (unfold n1; lra).
  set (u := fun p : point R => px p - average px pts).
  set (v := fun p : point R => py p - average py pts).
  set (uu := sumf (fun p => 1 * (u p * u p)) pts).
  set (vv := sumf (fun p => 1 * (v p * v p)) pts).
  set (uv := sumf (fun p => 1 * (u p * v p)) pts).
  assert (Ea : a = uu / n1).
  { unfold a, sample_cov, uu, n1. f_equal. apply sumf_ext. intros p _. unfold u. ring. }
  assert (Ed : d = vv / n1).
  { unfold d, sample_cov, vv, n1. f_equal. apply sumf_ext. intros p _. unfold v. ring. }
  assert (Eb : b = uv / n1).
  { unfold b, sample_cov, uv, n1. f_equal. apply sumf_ext. intros p _. unfold u, v. ring. }
  assert (Hcs : uv * uv <= uu * vv) by (apply weighted_cs; intros; lra).
  assert (Huu : 0 <= uu) by (apply sumf_nonneg; intros p _; nra).
  assert (Hvv : 0 <= vv) by (apply sumf_nonneg; intros p _; nra).
  assert (Hi : 0 < / n1) by (apply Rinv_0_lt_compat; exact Hn1).
  rewrite Ea, Eb, Ed. unfold Rdiv. split; [nra|]. split; [nra|].
  assert (0 <= / n1 * / n1) by nra.
  assert (uv * uv * (/ n1 * / n1) <= uu * vv * (/ n1 * / n1)) by (apply Rmult_le_compat_r; assumption).
  lra.
Qed.

Lemma quad2_psd (a b d q0 q1 : R) :
  0 <= a -> 0 <= d -> b * b <= a * d -> 0 <= a * (q0 * q0) + 2 * b * (q0 * q1) + d * (q1 * q1).
Proof.
  intros Ha Hd Hb.
  destruct (Req_dec a 0) as [E|E].
  - subst a. assert (b = 0) by nra. subst b. nra.
  - assert (Hap : 0 < a) by lra.
    assert (H : 0 <= a * (a * (q0 * q0) + 2 * b * (q0 * q1) + d * (q1 * q1))).
    { replace (a * (a * (q0 * q0) + 2 * b * (q0 * q1) + d * (q1 * q1)))
        with ((a * q0 + b * q1) * (a * q0 + b * q1) + (a * d - b * b) * (q1 * q1)) by ring.
      assert (0 <= q1 * q1) by nra. assert (0 <= (a * q0 + b * q1) * (a * q0 + b * q1)) by apply Rle_0_sqr.
      assert (0 <= (a * d - b * b) * (q1 * q1)) by (apply Rmult_le_pos; lra). lra. }
    destruct (Rle_lt_dec 0 (a * (q0 * q0) + 2 * b * (q0 * q1) + d * (q1 * q1))) as [?|Hneg]; [assumption|].
    exfalso. assert (a * (a * (q0 * q0) + 2 * b * (q0 * q1) + d * (q1 * q1)) < 0) by nra. lra.
Qed.

Lemma cov_matrix_psd (pts : list (point R)) :
  (3 <= length pts)%nat -> psd2 (cov_matrix pts).
Proof.
  intros Hl. destruct (sample_cov_psd pts Hl) as (Ha & Hd & Hb).
  split.
  - unfold symmetric2, cov_matrix; cbn. apply sample_cov_sym.
  - intros q. unfold quad2, cov_matrix; cbn. rewrite (sample_cov_sym py px).
    pose proof (quad2_psd _ _ _ (px q) (py q) Ha Hd Hb). lra.
Qed.

Lemma not_all_equal_trace (pts : list (point R)) :
  (3 <= length pts)%nat -> not_all_equal pts ->
  0 < sample_cov px px pts + sample_cov py py pts.
Proof.
  intros Hl (p & q & Hp & Hq & Hne). pose proof (INR_ge_3 _ Hl) as H3.
  destruct (sample_cov_psd pts Hl) as (Ha & Hd & _).
  destruct (Req_dec (sample_cov px px pts + sample_cov py py pts) 0) as [E|E]; [|lra].
  exfalso. apply Hne.
  assert (Ex : sample_cov px px pts = 0) by lra.
  assert (Ey : sample_cov py py pts = 0) by lra.
  assert (Z : forall f : point R -> R, sample_cov f f pts = 0 -> forall r, In r pts -> f r = average f pts).
  { intros f Hf r Hr. unfold sample_cov in Hf.
    assert (Hs : sumf (fun x => (f x - average f pts) * (f x - average f pts)) pts = 0).
    { replace (sumf (fun x => (f x - average f pts) * (f x - average f pts)) pts)
        with (sumf (fun x => (f x - average f pts) * (f x - average f pts)) pts / (INR (length pts) - 1)
              * (INR (length pts) - 1)) by (field; lra). rewrite Hf. ring. }
    assert (Hz := sumf_zero_inv _ pts (fun x _ => Rle_0_sqr (f x - average f pts)) Hs r Hr).
    cbn beta in Hz. apply Rmult_integral in Hz. lra. }
  destruct p as [p0 p1], q as [q0 q1].
  pose proof (Z px Ex _ Hp) as A1. pose proof (Z px Ex _ Hq) as A2.
  pose proof (Z py Ey _ Hp) as A3. pose proof (Z py Ey _ Hq) as A4.
  cbn [px py] in *. congruence.
Qed.

(** * The information matrix *)

(** Sorted eigenvalues as the code sorts them. *)
Definition sorted_eig (e : R * R) : R * R :=
  if Rlt_bool (snd e) (fst e) then (snd e, fst e) else (fst e, snd e).

Lemma sorted_eig_spec (m : mat2 R) (e : R * R) :
  eigenvalues2 m e ->
  fst (sorted_eig e) <= snd (sorted_eig e) /\ eigenvalues2 m (sorted_eig e).
Proof.
  intros [H1 H2]. unfold sorted_eig. rlt (snd e) (fst e); cbn [fst snd]; split; try lra; split; cbn [fst snd]; lra.
Qed.

Lemma info_of_cov_eq (m : mat2 R) :
  info_of_cov eig m =
  if Rlt_bool (fst (sorted_eig (eig m))) (1 / 1000 * snd (sorted_eig (eig m))) then
    let det := (1 / 1000 * snd (sorted_eig (eig m))) * snd (sorted_eig (eig m)) in
    mkMat2 (m11 m / det) (- m10 m / det) (- m01 m / det) (m00 m / det)
  else mat2_inverse m.
Proof.
  unfold info_of_cov. ra. unfold sorted_eig.
  destruct (Rlt_bool (snd (eig m)) (fst (eig m))); reflexivity.
Qed.

(** Facts about the eigenvalues of a PSD matrix with positive trace. *)
Lemma eig_facts (a b d s l : R) :
  0 <= a -> 0 <= d -> b * b <= a * d -> 0 < a + d ->
  s <= l -> s + l = a + d -> s * l = a * d - b * b ->
  0 <= s /\ 0 < l /\ a <= l /\ d <= l.
Proof.
  intros Ha Hd Hb Ht Hsl Hsum Hprod.
  assert (Hl : 0 < l) by lra.
  assert (Hs : 0 <= s).
  { destruct (Rle_lt_dec 0 s) as [?|Hneg]; [assumption|exfalso].
    assert (s * l < 0) by nra. lra. }
  assert (E : (l - a) * (l - d) = b * b).
  { replace ((l - a) * (l - d)) with (l * l - l * (a + d) + a * d) by ring.
    rewrite <- Hsum. replace (l * l - l * (s + l) + a * d) with (a * d - s * l) by ring. lra. }
  assert (Hnn : 0 <= (l - a) * (l - d)) by (rewrite E; nra).
  assert (Hsum2 : 0 <= (l - a) + (l - d)) by lra.
  repeat split; try assumption; nra.
Qed.

Lemma adj_form_bounds (a b d s l q0 q1 : R) :
  0 <= a -> 0 <= d -> b * b <= a * d -> 0 < a + d ->
  s <= l -> s + l = a + d -> s * l = a * d - b * b ->
  0 <= d * (q0 * q0) - 2 * b * (q0 * q1) + a * (q1 * q1) <= l * (q0 * q0 + q1 * q1).
Proof.
  intros Ha Hd Hb Ht Hsl Hsum Hprod.
  destruct (eig_facts a b d s l) as (Hs & Hl & Hal & Hdl); try assumption.
  split.
  - pose proof (quad2_psd d (- b) a q0 q1 Hd Ha) as H.
    assert ((- b) * (- b) <= d * a) by nra. specialize (H H0). lra.
  - assert (E : (l - a) * (l - d) = b * b).
    { replace ((l - a) * (l - d)) with (l * l - l * (a + d) + a * d) by ring.
      rewrite <- Hsum. replace (l * l - l * (s + l) + a * d) with (a * d - s * l) by ring. lra. }
    assert (H1 : b * b <= (l - d) * (l - a)) by lra.
    pose proof (quad2_psd (l - d) b (l - a) q0 q1) as H. 
    assert (0 <= l - d) by lra. assert (0 <= l - a) by lra. specialize (H H0 H2 H1). lra.
Qed.

(** Everything the scoring proofs need about the information matrix. *)
Lemma info_cases (pts : list (point R)) :
  eigen_contract eig -> (3 <= length pts)%nat -> not_all_equal pts ->
  let m := cov_matrix pts in
  let s := fst (sorted_eig (eig m)) in
  let l := snd (sorted_eig (eig m)) in
  let w := info_of_cov eig m in
  0 <= s <= l /\ 0 < l /\ eigenvalues2 m (s, l) /\ symmetric2 w /\
  ((s < 1 / 1000 * l /\
    forall q, quad2 w q = (m11 m * (px q * px q) - 2 * m01 m * (px q * py q) + m00 m * (py q * py q))
                          / (1 / 1000 * l * l))
   \/ (1 / 1000 * l <= s /\ 0 < det2 m /\ w = mat2_inverse m /\ is_inverse2 m w)).
Proof.
  intros He Hl Hne m s l w.
  destruct (sample_cov_psd pts Hl) as (Ha & Hd & Hb).
  pose proof (not_all_equal_trace pts Hl Hne) as Ht.
  assert (Hsym : symmetric2 m) by (unfold symmetric2, m, cov_matrix; cbn; apply sample_cov_sym).
  destruct (sorted_eig_spec m (eig m) (He m Hsym)) as [Hsl [Hsum Hprod]].
  fold s in Hsl, Hsum, Hprod. fold l in Hsl, Hsum, Hprod.
  unfold trace2, det2 in Hsum, Hprod.
  assert (Em : m = mkMat2 (sample_cov px px pts) (sample_cov px py pts) (sample_cov px py pts) (sample_cov py py pts)).
  { unfold m, cov_matrix. rewrite (sample_cov_sym py px). reflexivity. }
  set (a := sample_cov px px pts) in *. set (b := sample_cov px py pts) in *.
  set (d := sample_cov py py pts) in *.
  assert (E00 : m00 m = a) by (rewrite Em; reflexivity).
  assert (E01 : m01 m = b) by (rewrite Em; reflexivity).
  assert (E10 : m10 m = b) by (rewrite Em; reflexivity).
  assert (E11 : m11 m = d) by (rewrite Em; reflexivity).
  rewrite E00, E11 in Hsum. rewrite E00, E11, E01, E10 in Hprod.
  destruct (eig_facts a b d s l) as (Hs & Hlp & Hal & Hdl); try assumption; try lra.
  assert (Ew : w = if Rlt_bool s (1 / 1000 * l) then
      mkMat2 (m11 m / (1 / 1000 * l * l)) (- m10 m / (1 / 1000 * l * l))
             (- m01 m / (1 / 1000 * l * l)) (m00 m / (1 / 1000 * l * l))
    else mat2_inverse m) by (apply info_of_cov_eq).
  clear Em. clearbody w s l m a b d. clear He.
  assert (Hev : eigenvalues2 m (s, l)).
  { split; cbn [fst snd]; unfold trace2, det2; rewrite ?E00, ?E01, ?E10, ?E11; lra. }
  destruct (Rlt_bool_spec s (1 / 1000 * l)) as [Hc|Hc]; subst w.
  - repeat split; try assumption; try lra; try (apply Hev).
    + unfold symmetric2. cbn [m01 m10]. rewrite E10, E01. reflexivity.
    + left. split; [exact Hc|]. intros q. unfold quad2; cbn [m00 m01 m10 m11].
      rewrite E00, E01, E10, E11. field. lra.
  - assert (Hdet : 0 < det2 m).
    { unfold det2. rewrite E00, E01, E10, E11. assert (0 < s) by lra.
      assert (0 < s * l) by (apply Rmult_lt_0_compat; lra). lra. }
    repeat split; try assumption; try lra; try (apply Hev).
    + unfold symmetric2, mat2_inverse. cbn [m01 m10]. rewrite E10, E01. reflexivity.
    + right. repeat split; try assumption; unfold is_inverse2, mul2, id2, mat2_inverse, mat2_det; ra;
        cbn [m00 m01 m10 m11]; unfold det2 in Hdet; rewrite E00, E01, E10, E11 in *; f_equal; field; lra.
Qed.

Lemma info_psd (pts : list (point R)) :
  eigen_contract eig -> (3 <= length pts)%nat -> not_all_equal pts ->
  psd2 (info_of_cov eig (cov_matrix pts)).
Proof.
  intros He Hl Hne.
  destruct (sample_cov_psd pts Hl) as (Ha & Hd & Hb).
  destruct (info_cases pts He Hl Hne) as (Hsl & Hlp & Hev & Hsym & Hcase).
  split; [exact Hsym|]. intros q.
  set (s := fst (sorted_eig (eig (cov_matrix pts)))) in *.
  set (l := snd (sorted_eig (eig (cov_matrix pts)))) in *.
  clearbody s l.
  pose proof (not_all_equal_trace pts Hl Hne) as Ht.
  destruct Hev as [Hsum Hprod]; cbn [fst snd] in Hsum, Hprod.
  unfold trace2, det2, cov_matrix in Hsum, Hprod; cbn [m00 m01 m10 m11] in Hsum, Hprod.
  rewrite (sample_cov_sym py px) in Hprod.
  pose proof (adj_form_bounds _ _ _ _ _ (px q) (py q) Ha Hd Hb Ht (proj2 Hsl) Hsum Hprod) as Hq.
  destruct Hcase as [[Hc Hq2]|(Hc & Hdet & Hw & _)].
  - rewrite Hq2. unfold cov_matrix at 1 2 3; cbn [m00 m01 m11].
    apply Rmult_le_pos; [lra|]. left. apply Rinv_0_lt_compat.
    apply Rmult_lt_0_compat; lra.
  - rewrite Hw. unfold quad2, mat2_inverse, mat2_det; ra; cbn [m00 m01 m10 m11 cov_matrix].
    unfold det2, cov_matrix in Hdet; cbn [m00 m01 m10 m11] in Hdet.
    rewrite (sample_cov_sym py px) in *.
    set (a := sample_cov px px pts) in *. set (b := sample_cov px py pts) in *.
    set (d := sample_cov py py pts) in *.
    replace (px q * (d * (1 / (a * d - b * b)) * px q + - b * (1 / (a * d - b * b)) * py q) +
             py q * (- b * (1 / (a * d - b * b)) * px q + a * (1 / (a * d - b * b)) * py q))
      with ((d * (px q * px q) - 2 * b * (px q * py q) + a * (py q * py q)) * / (a * d - b * b))
      by (field; lra).
    apply Rmult_le_pos; [lra|]. left. apply Rinv_0_lt_compat. lra.
Qed.

(** * Scoring *)

Lemma score_formula (c : cell R) (p : point R) :
  5 <= c_n c -> cell_score c p = gauss (c_info c) (psub p (c_mean c)).
Proof.
  intros Hn. unfold cell_score. ra. rewrite Rlt_bool_false by lra.
  unfold gauss, quad2, psub; cbn [px py]. f_equal. field.
Qed.

Lemma score_few (c : cell R) (p : point R) : c_n c < 5 -> cell_score c p = 0.
Proof. intros Hn. unfold cell_score. ra. rewrite Rlt_bool_true by lra. reflexivity. Qed.

Lemma INR_ge_5 (k : nat) : (5 <= k)%nat -> 5 <= INR k.
Proof. intros H. replace 5 with (INR 5) by (cbn; lra). apply le_INR. exact H. Qed.

Lemma run_score (ops : list (cell_op R)) (q : point R) :
  (5 <= length (op_points ops))%nat ->
  cell_score (cell_run eig (ops ++ [CCompute])) q =
  gauss (info_of_cov eig (cov_matrix (op_points ops))) (psub q (mean_point (op_points ops))).
Proof.
  intros Hl. destruct (run_compute_stats ops) as (Hn & Hm & _ & Hi & _); [lia|].
  rewrite score_formula by (rewrite Hn; apply INR_ge_5; exact Hl).
  rewrite Hi, Hm. reflexivity.
Qed.

Lemma gauss_range (w : mat2 R) (q : point R) : psd2 w -> 0 < gauss w q <= 1.
Proof.
  intros [_ H]. unfold gauss. split; [apply exp_pos|].
  pose proof exp_0 as E0. specialize (H q).
  destruct (Req_dec (quad2 w q) 0) as [E|E].
  - rewrite E. replace (- (1 / 2) * 0) with 0 by ring. lra.
  - left. rewrite <- E0 at 2. apply exp_increasing. lra.
Qed.

Lemma gauss_zero (w : mat2 R) : gauss w (mkPoint 0 0) = 1.
Proof.
  unfold gauss, quad2; cbn. replace (- (1 / 2) * _) with 0 by ring. apply exp_0.
Qed.

Lemma run_few_score (ops : list (cell_op R)) (q : point R) :
  (length (op_points ops) < 5)%nat ->
  cell_score (cell_run eig ops) q = 0.
Proof.
  intros Hl. apply score_few.
  destruct (run_same_stats eig ops) as (En & _). rewrite En.
  destruct (accumulate_stats (op_points ops)) as (Hn & _). rewrite Hn.
  replace 5 with (INR 5) by (cbn; lra). apply lt_INR. exact Hl.
Qed.

End Exact.
