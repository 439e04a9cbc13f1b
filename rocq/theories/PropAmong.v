(** C169: the filter's estimate lies among its particles. *)

From Coq Require Import ZArith Reals List Bool Lra Lia Psatz.
From Verif Require Import Outcome Arith TypesModel SpecPose SpecAmong RTactics ConstraintProofs NdtProofs MotionModel FilterModel SpecFilter
  AngleProofs MotionProofs FilterProofs FilterProofs2 FilterWitness.
Import ListNotations.
Local Open Scope R_scope.

Lemma wsum_pos : forall g ps ws, Forall (fun w => 0 <= w) ws -> (forall p w, In (p, w) (combine ps ws) -> 0 < w -> 0 <= g p) -> 0 <= wsum g ps ws.
Proof.
  intros g. induction ps as [|p ps IH]; intros [|w ws] F H; cbn [wsum]; try lra. inversion F as [|? ? W F']; subst.
  assert (0 <= wsum g ps ws) by (apply IH; [exact F'|]; intros q u I; apply H; right; exact I).
  destruct W as [W|<-]; [|lra]. pose proof (H p w (or_introl eq_refl) W). nra.
Qed.
Lemma wsum_upper : forall g c f, distribution f -> (forall p, counts f p -> g p <= c) -> wsum g (pf_parts f) (pf_wts f) <= c.
Proof.
  intros g c f (L & F & Tt) H.
  pose proof (wsum_pos (fun p => c + (-1) * g p) (pf_parts f) (pf_wts f) F) as P. rewrite wsum_plus, wsum_scal, wsum_const, Tt in P by (symmetry; exact L).
  assert (0 <= c * 1 + -1 * wsum g (pf_parts f) (pf_wts f)); [|lra]. apply P. intros p w I W.
  assert (g p <= c); [|lra]. apply H. exists w. split; [exact W|exact I].
Qed.

(** The position. *)
Theorem mean_in_hull : forall f, distribution f -> weighted_stats f -> in_hull (counts f) (pf_mean f).
Proof.
  intros f D (Mx & My & _) a b c H. rewrite Mx, My, <- !wsum_scal, <- wsum_plus. apply wsum_upper; assumption.
Qed.

(** The heading. *)
Lemma turned_sin : forall h a e, same_heading h (a + e) -> forall x, sin (x - (h - a)) = sin (x - e).
Proof. intros h a e (k & ->) x. replace (x - (a + e + 2 * PI * IZR k - a)) with (x - e + 2 * PI * IZR (- k)) by (rewrite opp_IZR; ring). apply sin_turn. Qed.
Lemma turned_cos : forall h a e, same_heading h (a + e) -> cos (h - a) = cos e.
Proof. intros h a e (k & ->). replace (a + e + 2 * PI * IZR k - a) with (e + 2 * PI * IZR k) by ring. apply cos_turn. Qed.
Theorem mean_within : forall f a d, distribution f -> weighted_stats f -> 0 <= d < PI / 2 ->
  (forall p, counts f p -> heading_within a d (v2 p)) -> heading_within a d (v2 (pf_mean f)).
Proof.
  intros f a d D S Hd H. destruct S as (_ & _ & _ & (r & Hr & C & S) & _). set (m := v2 (pf_mean f)) in *. pose proof PI_RGT_0.
  destruct D as (L & F & Tt). set (ps := pf_parts f) in *. set (ws := pf_wts f) in *.
  assert (Lin : forall u v, wsum (fun p => u * cos (v2 p) + v * sin (v2 p)) ps ws = r * (u * cos m + v * sin m)).
  { intros u v. rewrite wsum_plus, !wsum_scal, C, S. ring. }
  assert (P1 : 0 < r * cos (m - a)).
  { assert (Q : 0 <= wsum (fun p => (cos a * cos (v2 p) + sin a * sin (v2 p)) + - cos d) ps ws).
    { apply wsum_pos; [exact F|]. intros p w I W. destruct (H p (ex_intro _ w (conj W I))) as (e & He & E).
      pose proof (turned_cos _ _ _ E) as Q. rewrite cos_minus in Q.
      assert (cos d <= cos e); [|lra]. destruct (Rle_or_lt 0 e) as [G|G]; [apply cos_decr_1; lra|]. rewrite <- (cos_neg e). apply cos_decr_1; lra. }
    rewrite wsum_plus, Lin, wsum_const, Tt in Q by (symmetry; exact L). rewrite cos_minus.
    assert (0 < cos d) by (apply cos_gt_0; lra). lra. }
  assert (P2 : 0 <= r * sin (d - (m - a))).
  { assert (Q : 0 <= wsum (fun p => sin (d + a) * cos (v2 p) + - cos (d + a) * sin (v2 p)) ps ws).
    { apply wsum_pos; [exact F|]. intros p w I W. destruct (H p (ex_intro _ w (conj W I))) as (e & He & E).
      replace (sin (d + a) * cos (v2 p) + - cos (d + a) * sin (v2 p)) with (sin (d + a - v2 p)) by (rewrite sin_minus; ring).
      replace (d + a - v2 p) with (d - (v2 p - a)) by ring. rewrite (turned_sin _ _ _ E). apply sin_ge_0; lra. }
    rewrite Lin in Q. replace (d - (m - a)) with (d + a - m) by ring. rewrite sin_minus. lra. }
  assert (P3 : 0 <= r * sin (d + (m - a))).
  { assert (Q : 0 <= wsum (fun p => sin (d - a) * cos (v2 p) + cos (d - a) * sin (v2 p)) ps ws).
    { apply wsum_pos; [exact F|]. intros p w I W. destruct (H p (ex_intro _ w (conj W I))) as (e & He & E).
      replace (sin (d - a) * cos (v2 p) + cos (d - a) * sin (v2 p)) with (- sin (- d - (v2 p - a))) by (rewrite <- sin_neg; replace (- (- d - (v2 p - a))) with (d - a + v2 p) by ring; rewrite sin_plus; ring).
      rewrite (turned_sin _ _ _ E), <- sin_neg. apply sin_ge_0; lra. }
    rewrite Lin in Q. replace (d + (m - a)) with (d - a + m) by ring. rewrite sin_plus. lra. }
  assert (R0 : 0 < r) by (destruct Hr as [|<-]; [assumption|lra]).
  assert (Q1 : 0 < cos (m - a)) by (apply (Rmult_lt_reg_l r); lra).
  assert (Q2 : 0 <= sin (d - (m - a))) by (apply (Rmult_le_reg_l r); lra).
  assert (Q3 : 0 <= sin (d + (m - a))) by (apply (Rmult_le_reg_l r); lra).
  destruct (normalize_angle_spec (m - a)) as ([B1 B2] & (k & Ek)). set (e := normalize_angle (m - a)) in *.
  exists e. assert (Em : m - a = e + 2 * PI * IZR (- k)) by (rewrite Ek, opp_IZR; ring).
  split; [|exists (- k)%Z; lra].
  assert (Ce : cos (m - a) = cos e) by (rewrite Em; apply cos_turn). rewrite Ce in Q1.
  assert (S1 : sin (d - (m - a)) = sin (d - e)) by (rewrite Em; replace (d - (e + 2 * PI * IZR (- k))) with (d - e + 2 * PI * IZR k) by (rewrite opp_IZR; ring); apply sin_turn). rewrite S1 in Q2.
  assert (S2 : sin (d + (m - a)) = sin (d + e)) by (rewrite Em; replace (d + (e + 2 * PI * IZR (- k))) with (d + e + 2 * PI * IZR (- k)) by ring; apply sin_turn). rewrite S2 in Q3.
  assert (He : - (PI / 2) < e < PI / 2).
  { split; apply Rnot_le_lt; intro G.
    - assert (cos e <= 0); [|lra]. rewrite <- cos_neg. apply cos_le_0; lra.
    - assert (cos e <= 0); [|lra]. apply cos_le_0; lra. }
  split; apply Rnot_lt_le; intro G.
  - assert (sin (d + e) < 0); [|lra]. apply sin_lt_0_var; lra.
  - assert (sin (d - e) < 0); [|lra]. apply sin_lt_0_var; lra.
Qed.

(** Every history of calls. *)
Theorem C169_position : forall (mn mx : Z) (m : motion_params R) (ops : list (filter_op R)) (f0 f : pfilter R),
  (1 <= mn)%Z -> filter_new mn mx m = Ok f0 -> ops_ok f0 ops -> filter_run f0 ops = Ok f -> in_hull (counts f) (pf_mean f).
Proof.
  intros mn mx m ops f0 f M N O Rn. apply mean_in_hull; [exact (weights_distribution mn mx m ops f0 f M N O Rn)|exact (proj1 (statistics_correct mn mx m ops f0 f M N O Rn))].
Qed.
Theorem C169_heading : forall (mn mx : Z) (m : motion_params R) (ops : list (filter_op R)) (f0 f : pfilter R) a d,
  (1 <= mn)%Z -> filter_new mn mx m = Ok f0 -> ops_ok f0 ops -> filter_run f0 ops = Ok f -> 0 <= d < PI / 2 ->
  (forall p, counts f p -> heading_within a d (v2 p)) -> heading_within a d (v2 (pf_mean f)).
Proof.
  intros mn mx m ops f0 f a d M N O Rn. apply mean_within; [exact (weights_distribution mn mx m ops f0 f M N O Rn)|exact (proj1 (statistics_correct mn mx m ops f0 f M N O Rn))].
Qed.

(** Two particles at headings [h] and [- h]. *)
Definition ways (h : R) : normal_source R := fun i _ _ => if Nat.eqb i 2 then h else if Nat.eqb i 5 then - h else 0.
Lemma ways_run : forall h, 0 < h < PI -> exists f0 f, filter_new 2 2 still = Ok f0 /\ ops_ok f0 [FInit (ways h) 0 0 0 0 0 0] /\
  filter_run f0 [FInit (ways h) 0 0 0 0 0 0] = Ok f /\ pf_parts f = [mkVec3 0 0 h; mkVec3 0 0 (- h)] /\ pf_wts f = [1 / 2; 1 / 2].
Proof.
  intros h Hh. destruct (filter_new_total R RA 2 2 still) as (f0 & H0). exists f0.
  destruct (update_stats_parts _ _ _ _ H0) as (P0 & E1 & E2 & _). cbn [pf_parts pf_min pf_max] in P0, E1, E2.
  assert (S1 : exists f1, filter_step f0 (FInit (ways h) 0 0 0 0 0 0) = Ok f1).
  { cbn [filter_step]. unfold filter_init. apply update_stats_total. cbn [with_parts pf_parts pf_wts]. rewrite repeat_length. apply le_n. }
  destruct S1 as (f1 & H1). exists f1. split; [exact H0|]. split; [cbn [ops_ok op_ok]; repeat split|].
  split; [unfold filter_run; cbn [foldM]; rewrite H1; reflexivity|].
  cbn [filter_step] in H1. unfold filter_init in H1. rewrite P0 in H1.
  assert (N1 : normalize_angle (h : R) = h) by (apply normalize_angle_id; lra).
  assert (N2 : normalize_angle (- h : R) = - h) by (apply normalize_angle_id; lra).
  change (Z.to_nat 2) with 2%nat in H1. cbn [repeat map_i length] in H1. unfold ways in H1. cbn [Nat.mul Nat.add Nat.eqb] in H1. rewrite N1, N2 in H1.
  pose proof (update_stats_parts _ _ _ _ H1) as (Q1 & _). cbn [with_parts pf_parts] in Q1. split; [exact Q1|].
  assert (T1 : total [1 / 2; 1 / 2] <> 0) by (unfold total; simpl; lra).
  destruct (update_stats_R _ _ H1) as (W1 & _); [reflexivity|exact T1|].
  cbn [with_parts pf_wts] in W1. ra_in W1. rewrite W1. unfold total. cbn. f_equal; [|f_equal]; field.
Qed.
Lemma ways_within : forall h f, 0 <= h -> pf_parts f = [mkVec3 0 0 h; mkVec3 0 0 (- h)] -> pf_wts f = [1 / 2; 1 / 2] -> forall p, counts f p -> heading_within 0 h (v2 p).
Proof.
  intros h f Hh P W p (w & _ & I). rewrite P, W in I. cbn [combine In] in I. destruct I as [E|[E|[]]]; injection E as <- _; cbn [v2].
  - exists h. split; [lra|]. exists 0%Z. lra.
  - exists (- h). split; [lra|]. exists 0%Z. lra.
Qed.
Example C169_nonvacuous : exists f0 f, filter_new 2 2 still = Ok f0 /\ ops_ok f0 [FInit (ways (PI / 4)) 0 0 0 0 0 0] /\
  filter_run f0 [FInit (ways (PI / 4)) 0 0 0 0 0 0] = Ok f /\ (forall p, counts f p -> heading_within 0 (PI / 4) (v2 p)) /\ exists p, counts f p.
Proof.
  pose proof PI_RGT_0. destruct (ways_run (PI / 4) ltac:(lra)) as (f0 & f & A & B & C & P & W). exists f0, f. repeat (split; [assumption|]).
  split; [apply ways_within; [lra|assumption..]|]. exists (mkVec3 0 0 (PI / 4)), (1 / 2). split; [lra|]. rewrite P, W. left. reflexivity.
Qed.

(** The condition on the headings is needed: three quarters to the left and to the right, the
    estimate looks backwards. *)
Example C169_half_circle_needed : exists f0 f, filter_new 2 2 still = Ok f0 /\ ops_ok f0 [FInit (ways (3 * (PI / 4))) 0 0 0 0 0 0] /\
  filter_run f0 [FInit (ways (3 * (PI / 4))) 0 0 0 0 0 0] = Ok f /\ (forall p, counts f p -> heading_within 0 (3 * (PI / 4)) (v2 p)) /\
  ~ heading_within 0 (3 * (PI / 4)) (v2 (pf_mean f)).
Proof.
  pose proof PI_RGT_0 as PP. set (h := 3 * (PI / 4)). assert (Hh : 0 < h < PI) by (unfold h; lra).
  destruct (ways_run h Hh) as (f0 & f & A & B & C & P & W). exists f0, f. repeat (split; [assumption|]).
  split; [apply ways_within; [lra|assumption..]|]. destruct (statistics_correct 2 2 still _ f0 f ltac:(lia) A B C) as ((_ & _ & Bm & (r & Hr & Ec & Es) & _) & _).
  rewrite P, W in Ec, Es. cbn [wsum v2] in Ec, Es. rewrite cos_neg in Ec. rewrite sin_neg in Es.
  assert (Ch : cos h < 0) by (apply cos_lt_0; unfold h; lra). set (m := v2 (pf_mean f)) in *.
  assert (R0 : 0 < r) by (destruct Hr as [|Hr]; [assumption|rewrite <- Hr in Ec; lra]).
  assert (Cm : cos m < 0) by (apply (Rmult_lt_reg_l r); lra). assert (Sm : sin m = 0) by (apply (Rmult_eq_reg_l r); lra).
  assert (Em : m = PI).
  { destruct (Rlt_or_le m 0) as [G|G].
    - exfalso. destruct (Rlt_or_le m (- PI)) as [G'|G']; [lra|]. assert (sin m < 0); [|lra]. apply sin_lt_0_var; lra.
    - destruct (Rlt_or_le m PI) as [G'|G']; [|lra]. destruct (Req_dec m 0) as [Z0|NZ]; [rewrite Z0, cos_0 in Cm; lra|]. assert (0 < sin m); [|lra]. apply sin_gt_0; lra. }
  intros (e & He & (k & Ek)). rewrite Em in Ek. unfold h in He.
  destruct (Z.lt_trichotomy k 0) as [L|[L|L]].
  - assert (IZR k <= -1) by (apply IZR_le; lia). nra.
  - rewrite L in Ek. lra.
  - assert (1 <= IZR k) by (apply IZR_le; lia). nra.
Qed.
