(** Property C122: matchScan in doubles returns the best of the corrections it tries. *)

From Coq Require Import ZArith Reals List Bool Lia Lra.
From Flocq Require Import Core BinarySingleNaN.
From Verif Require Import Outcome Arith TypesModel CellModel ScanModel NdtModel MatcherModel
  NdtProofs MatcherProofs B64Lemmas MatcherB64 MatcherB64b MapperWitness2 SpecB64 PropCell64 PropScore64 SpecBest.
Import ListNotations.

Section Generic.
Context {T : Type} {A : Arith T}.
Local Open Scope num_scope.

Definition keep (w : T * pose T) (cs : pose T * T) : T * pose T :=
  if snd cs <? fst w then (snd cs, fst cs) else w.

Lemma points_with (sp : pose T) (dth dx dy : T) (bp : list (point T)) :
  inner_points dx dy (outer_points sp dth bp) = map (seen_with sp (mkPose dx dy dth)) bp.
Proof. unfold inner_points, outer_points. rewrite map_map. reflexivity. Qed.

Definition scored (g : ndt T) (sp : pose T) (bp : list (point T)) (cs : pose T * T) : Prop := scores_as g sp bp (fst cs) (snd cs).

Lemma keep_inner (g : ndt T) (sp : pose T) (bp : list (point T)) (dth dx : T) (dys : list T) :
  forall w w', foldM (match_step g (outer_points sp dth bp) dth dx) w dys = Ok w' ->
  exists l, map fst l = map (fun dy => mkPose dx dy dth) dys /\ Forall (scored g sp bp) l /\
    (w_best w', w_pose w') = fold_left keep l (w_best w, w_pose w).
Proof.
  induction dys as [|dy dys IH]; cbn [foldM map]; intros w w' H.
  - injection H as <-. exists []. repeat split. constructor.
  - apply bind_ok in H. destruct H as (w1 & H1 & H2).
    unfold match_step in H1. apply bind_ok in H1. destruct H1 as (lk & Hlk & H1).
    rewrite points_with in Hlk. destruct (IH _ _ H2) as (l & Hm & Hf & E).
    exists ((mkPose dx dy dth, - lk) :: l). cbn [map fst fold_left]. split; [congruence|]. split.
    + constructor; [|exact Hf]. exists lk. split; [exact Hlk|reflexivity].
    + rewrite E. f_equal. injection H1 as <-. unfold keep. cbn [fst snd w_best w_pose]. destruct (- lk <? w_best w); reflexivity.
Qed.

Lemma keep_middle (g : ndt T) (sp : pose T) (bp : list (point T)) (dth : T) (dys dxs : list T) :
  forall w w', foldM (fun w dx => foldM (match_step g (outer_points sp dth bp) dth dx) w dys) w dxs = Ok w' ->
  exists l, map fst l = flat_map (fun dx => map (fun dy => mkPose dx dy dth) dys) dxs /\
    Forall (scored g sp bp) l /\ (w_best w', w_pose w') = fold_left keep l (w_best w, w_pose w).
Proof.
  induction dxs as [|dx dxs IH]; cbn [foldM flat_map]; intros w w' H.
  - injection H as <-. exists []. repeat split. constructor.
  - apply bind_ok in H. destruct H as (w1 & H1 & H2).
    destruct (keep_inner _ _ _ _ _ _ _ _ H1) as (l1 & M1 & F1 & E1).
    destruct (IH _ _ H2) as (l2 & M2 & F2 & E2).
    exists (l1 ++ l2). rewrite map_app, M1, M2, fold_left_app, <- E1. split; [reflexivity|]. split; [|exact E2].
    apply Forall_app. split; assumption.
Qed.

Lemma keep_outer (B : outcome (list (point T))) (g : ndt T) (sp : pose T) (ds dths : list T) :
  forall w w',
  foldM (fun w dth => bind B (fun bp => let outer := outer_points sp dth bp in
           foldM (fun w dx => foldM (match_step g outer dth dx) w ds) w ds)) w dths = Ok w' ->
  exists l, map fst l = tried dths ds /\
    (dths = [] \/ exists bp, B = Ok bp /\ Forall (scored g sp bp) l) /\ (w_best w', w_pose w') = fold_left keep l (w_best w, w_pose w).
Proof.
  induction dths as [|dth dths IH]; cbn [foldM]; intros w w' H.
  - injection H as <-. exists []. repeat split. left; reflexivity.
  - apply bind_ok in H. destruct H as (w1 & H1 & H2).
    apply bind_ok in H1. destruct H1 as (bp & HB & H1). cbv zeta in H1.
    destruct (keep_middle _ _ _ _ _ _ _ _ H1) as (l1 & M1 & F1 & E1).
    destruct (IH _ _ H2) as (l2 & M2 & F2 & E2).
    exists (l1 ++ l2). rewrite map_app, M1, M2, fold_left_app, <- E1. split; [reflexivity|]. split; [|exact E2].
    right. exists bp. split; [exact HB|]. apply Forall_app. split; [exact F1|].
    destruct F2 as [E|(bp' & HB' & F2)].
    + subst dths. cbn in M2. destruct l2; [constructor|discriminate].
    + rewrite HB in HB'. injection HB' as <-. exact F2.
Qed.

Lemma loop_counted (fuel : nat) : forall d size res l, loop_values fuel d size res = Ok l -> counted size res d l.
Proof.
  induction fuel as [|f IH]; intros d size res l H; [discriminate H|]. cbn [loop_values] in H.
  destruct (d <? size) eqn:E.
  - apply bind_ok in H. destruct H as (ds & H & E2). injection E2 as <-. apply counted_more; [exact E|apply IH; exact H].
  - injection H as <-. apply counted_end. exact E.
Qed.

Lemma keep_best (C : @comparable T A) (l : list (pose T * T)) : forall w, let w' := fold_left keep l w in
  (w' = w /\ forall c sc, In (c, sc) l -> (sc <? fst w) = false) \/
  (exists pre post, l = pre ++ (snd w', fst w') :: post /\ (fst w' <? fst w) = true /\
     (forall c sc, In (c, sc) l -> (sc <? fst w') = false) /\
     (forall c sc, In (c, sc) pre -> (sc <=? fst w') = false)).
Proof.
  destruct C as (IR & LT & LE).
  induction l as [|[c sc] l IH]; intros w; cbn [fold_left]; cbv zeta.
  - left. split; [reflexivity|cbn; tauto].
  - specialize (IH (keep w (c, sc))). cbv zeta in IH. set (w' := fold_left keep l (keep w (c, sc))) in *. clearbody w'.
    unfold keep in IH. cbn [fst snd] in IH. destruct (sc <? fst w) eqn:Hb; cbn [fst snd] in IH.
    + right. destruct IH as [(E & H0)|(pre & post & El & Hlt & Hall & Hpre)].
      * subst w'. cbn [fst snd]. exists [], l. split; [reflexivity|]. split; [exact Hb|]. split; [|cbn; tauto].
        intros c' sc' [[= <- <-]|Hi]; [apply IR|exact (H0 _ _ Hi)].
      * exists ((c, sc) :: pre), post. split; [rewrite El; reflexivity|]. split; [eapply LT; eassumption|]. split.
        { intros c' sc' [[= <- <-]|Hi]; [|exact (Hall _ _ Hi)].
          destruct (sc <? fst w') eqn:E; [|reflexivity]. pose proof (LT _ _ _ Hlt E) as F. rewrite IR in F. discriminate F. }
        intros c' sc' [[= <- <-]|Hi]; [|exact (Hpre _ _ Hi)].
        destruct (sc <=? fst w') eqn:E; [|reflexivity]. pose proof (LE _ _ _ E Hlt) as F. rewrite IR in F. discriminate F.
    + destruct IH as [(E & H0)|(pre & post & El & Hlt & Hall & Hpre)].
      * left. split; [exact E|]. intros c' sc' [[= <- <-]|Hi]; [exact Hb|exact (H0 _ _ Hi)].
      * right. exists ((c, sc) :: pre), post. split; [rewrite El; reflexivity|]. split; [exact Hlt|]. split.
        { intros c' sc' [[= <- <-]|Hi]; [|exact (Hall _ _ Hi)].
          destruct (sc <? fst w') eqn:E; [|reflexivity]. pose proof (LT _ _ _ E Hlt) as F. rewrite Hb in F. discriminate F. }
        intros c' sc' [[= <- <-]|Hi]; [|exact (Hpre _ _ Hi)].
        destruct (sc <=? fst w') eqn:E; [|reflexivity]. pose proof (LE _ _ _ E Hlt) as F. rewrite Hb in F. discriminate F.
Qed.

Lemma beams_from_scan (m : matcher T) (pts bp : list (point T)) :
  beam_points m pts = Ok bp -> forall q, In q bp -> In q pts.
Proof.
  unfold beam_points. generalize (map Z.of_nat (seq 0 (Z.to_nat (beams_used m pts)))). intros l. revert bp.
  induction l as [|i l IH]; cbn [mapM]; intros bp H q Hq.
  - injection H as <-. destruct Hq.
  - apply bind_ok in H. destruct H as (x & Hx & H). apply bind_ok in H. destruct H as (ys & Hys & H). injection H as <-.
    destruct Hq as [<-|Hq]; [|eapply IH; eassumption].
    apply bind_ok in Hx. destruct Hx as (j & _ & Hx). apply vec_get_inv in Hx. destruct Hx as [_ Hx]. eapply nth_error_In, Hx.
Qed.

Theorem C122_best_any_arithmetic (C : @comparable T A) (fuel : nat) (m : matcher T) (g : ndt T) (s : scan T)
    (p p' : pose T) (cov cov' : mat3 T) (r : T) :
  k_ndt m = Some g -> match_scan fuel m s p cov = Ok (r, p', cov') ->
  exists ths ds l best,
    counted (k_ang_size m) (k_ang_res m) (- k_ang_size m) ths /\ counted (k_lin_size m) (k_lin_res m) (- k_lin_size m) ds /\
    map fst l = tried ths ds /\
    (l = [] \/ exists beams, length beams = Z.to_nat (Z.min (k_beams m) (Z.of_nat (length (s_pts s)))) /\
       (forall q, In q beams -> In q (s_pts s)) /\
       forall c v, In (c, v) l -> scores_as g (s_pose s) beams c v) /\
    best_of l p best p' /\
    r = best / nofZ (Z.min (k_beams m) (Z.of_nat (length (s_pts s)))).
Proof.
  intros Hg H. unfold match_scan in H. rewrite Hg in H.
  apply bind_ok in H. destruct H as (dths & Hth & H).
  apply bind_ok in H. destruct H as (ds & Hds & H).
  apply bind_ok in H. destruct H as (w & Hw & H). injection H as <- <- <-.
  destruct (keep_outer _ _ _ _ _ _ _ Hw) as (l & Hl & Hs & E). cbn [w_best w_pose] in E.
  exists dths, ds, l, (w_best w). split; [eapply loop_counted, Hth|]. split; [eapply loop_counted, Hds|]. split; [exact Hl|].
  split; [|split; [|reflexivity]].
  - destruct Hs as [->|(bp & Hbp & F)].
    + left. destruct l; [reflexivity|discriminate Hl].
    + right. exists bp. split; [exact (beam_points_length _ _ _ Hbp)|]. split; [eapply beams_from_scan, Hbp|].
      intros c v Hi. rewrite Forall_forall in F. exact (F _ Hi).
  - pose proof (keep_best C l (nzero, p)) as K. cbv zeta in K. rewrite <- E in K. cbn [fst snd] in K.
    destruct K as [([= K1 K2] & K3)|K]; [left; auto|right; exact K].
Qed.
End Generic.

(** Doubles. *)
Lemma b64_comparable (lm : libm) : @comparable b64 (BA lm).
Proof.
  split; [|split].
  - intros a. cbn [nlt BA]. unfold Bltb, SpecFloat.SFltb. destruct (SpecFloat.SFcompare (B2SF a) (B2SF a)) as [[]|] eqn:E; try reflexivity.
    exfalso. destruct a as [sa|sa| |sa ma ea Ha]; cbn in E; try (destruct sa; discriminate E); try discriminate E.
    destruct sa; rewrite Z.compare_refl, Pos.compare_refl in E; discriminate E.
  - intros a b c. cbn [nlt BA]. intros H1 H2.
    destruct (is_finite a) eqn:Fa, (is_finite b) eqn:Fb, (is_finite c) eqn:Fc.
    1: rewrite Bltb_correct in * by assumption; apply Rlt_bool_true; apply (Rlt_trans _ (B2R b)); [revert H1|revert H2]; case Rlt_bool_spec; easy.
    all: destruct a as [sa|[]| |[] ma ea Ha], b as [sb|[]| |[] mb eb Hb], c as [sc|[]| |[] mc ec Hc]; try discriminate; try reflexivity.
  - intros a b c. cbn [nlt nle BA]. intros H1 H2.
    destruct (is_finite a) eqn:Fa, (is_finite b) eqn:Fb, (is_finite c) eqn:Fc.
    1: rewrite Bltb_correct in * by assumption; rewrite Bleb_correct in H1 by assumption;
       apply Rlt_bool_true; apply (Rle_lt_trans _ (B2R b)); [revert H1; case Rle_bool_spec|revert H2; case Rlt_bool_spec]; easy.
    all: destruct a as [sa|[]| |[] ma ea Ha], b as [sb|[]| |[] mb eb Hb], c as [sc|[]| |[] mc ec Hc]; try discriminate; try reflexivity.
Qed.

Theorem C122_best_candidate (lm : libm) (fuel : nat) (m : matcher b64) (g : ndt b64) (s : scan b64)
    (p p' : pose b64) (cov cov' : mat3 b64) (r : b64) :
  k_ndt m = Some g -> match_scan (A := BA lm) fuel m s p cov = Ok (r, p', cov') ->
  exists ths ds l best,
    counted (A := BA lm) (k_ang_size m) (k_ang_res m) (Bopp (k_ang_size m)) ths /\
    counted (A := BA lm) (k_lin_size m) (k_lin_res m) (Bopp (k_lin_size m)) ds /\
    map fst l = tried ths ds /\
    (l = [] \/ exists beams, length beams = Z.to_nat (Z.min (k_beams m) (Z.of_nat (length (s_pts s)))) /\
       (forall q, In q beams -> In q (s_pts s)) /\
       forall c v, In (c, v) l -> scores_as (A := BA lm) g (s_pose s) beams c v) /\
    best_of (A := BA lm) l p best p' /\
    r = Bdiv mode_NE best (b64_of (Z.min (k_beams m) (Z.of_nat (length (s_pts s)))) 0).
Proof. intros Hg H. exact (C122_best_any_arithmetic (A := BA lm) (b64_comparable lm) fuel m g s p p' cov cov' r Hg H). Qed.

Local Open Scope R_scope.

(** No correction leaves the declared window. *)
Lemma counted_window (lm : libm) (size res d : b64) (l : list b64) :
  is_finite size = true -> is_finite res = true -> 0 <= B2R res -> counted (A := BA lm) size res d l ->
  is_finite d = true -> - B2R size <= B2R d ->
  forall v, In v l -> is_finite v = true /\ - B2R size <= B2R v < B2R size.
Proof.
  intros Fs Fr Hr HC. induction HC as [d E|d l E HC IH]; intros Fd Hd v Hv; [destruct Hv|].
  cbn [nlt BA] in E. assert (Hlt : B2R d < B2R size).
  { rewrite Bltb_correct in E by assumption. revert E. case Rlt_bool_spec; easy. }
  destruct Hv as [<-|Hv]; [split; [exact Fd|split; assumption]|].
  cbn [nadd BA] in IH, HC.
  pose proof (Bplus_correct 53 1024 _ _ mode_NE d res Fd Fr) as P.
  destruct (Rlt_bool_spec (Rabs (round radix2 (SpecFloat.fexp 53 1024) (round_mode mode_NE) (B2R d + B2R res))) (bpow radix2 1024)) as [_|Hov].
  - destruct P as (Ep & Fp & _). apply IH; [exact Fp| |exact Hv]. rewrite Ep.
    apply Rle_trans with (B2R d); [exact Hd|]. apply round_ge_generic; try typeclasses eauto; [apply generic_format_B2R|lra].
  - exfalso. destruct P as (Ep & Es).
    inversion HC as [d' Ex|d' l' Ex HC']; subst; [destruct Hv|].
    cbn [nlt BA] in Ex. destruct (Bsign res) eqn:Sr.
    + assert (B2R res = 0).
      { destruct res as [ | | |[] mr er Hb]; try reflexivity; try discriminate. apply Rle_antisym; [|exact Hr].
        cbn. apply F2R_le_0. cbn. lia. }
      rewrite H, Rplus_0_r, round_generic in Hov by (try typeclasses eauto; apply generic_format_B2R).
      pose proof (abs_B2R_lt_emax _ _ d). lra.
    + rewrite Es in Ep. cbn in Ep.
      unfold Bltb in Ex. rewrite Ep in Ex. unfold SpecFloat.SFltb in Ex. destruct size as [ | | |[]]; try discriminate Fs; discriminate Ex.
Qed.

Theorem C122_window (lm : libm) (size res : b64) (l : list b64) :
  is_finite size = true -> is_finite res = true -> 0 <= B2R res ->
  counted (A := BA lm) size res (Bopp size) l ->
  forall v, In v l -> is_finite v = true /\ - B2R size <= B2R v < B2R size.
Proof.
  intros Fs Fr Hr HC. apply (counted_window lm size res (Bopp size) l Fs Fr Hr HC).
  - rewrite is_finite_Bopp. exact Fs.
  - rewrite B2R_Bopp. apply Rle_refl.
Qed.

Theorem C122_stays_in_window (lm : libm) (fuel : nat) (m : matcher b64) (s : scan b64)
    (p p' : pose b64) (cov cov' : mat3 b64) (r : b64) :
  is_finite (k_ang_size m) = true -> is_finite (k_ang_res m) = true -> 0 <= B2R (k_ang_res m) ->
  is_finite (k_lin_size m) = true -> is_finite (k_lin_res m) = true -> 0 <= B2R (k_lin_res m) ->
  match_scan (A := BA lm) fuel m s p cov = Ok (r, p', cov') ->
  p' = p \/
  (is_finite (pox p') = true /\ - B2R (k_lin_size m) <= B2R (pox p') < B2R (k_lin_size m)) /\
  (is_finite (poy p') = true /\ - B2R (k_lin_size m) <= B2R (poy p') < B2R (k_lin_size m)) /\
  (is_finite (poth p') = true /\ - B2R (k_ang_size m) <= B2R (poth p') < B2R (k_ang_size m)).
Proof.
  intros F1 F2 H1 F3 F4 H2 H. destruct (k_ndt m) as [g|] eqn:Hg.
  2:{ unfold match_scan in H. rewrite Hg in H. injection H as _ <- _. left; reflexivity. }
  destruct (C122_best_candidate lm fuel m g s p p' cov cov' r Hg H) as (ths & ds & l & best & Ct & Cd & El & _ & B & _).
  destruct B as [(_ & -> & _)|(pre & post & E & _)]; [left; reflexivity|right].
  assert (Hi : In p' (tried ths ds)) by (rewrite <- El, E, map_app; apply in_or_app; right; left; reflexivity).
  unfold tried in Hi. apply in_flat_map in Hi. destruct Hi as (th & Ht & Hi). apply in_flat_map in Hi. destruct Hi as (dx & Hx & Hi).
  apply in_map_iff in Hi. destruct Hi as (dy & <- & Hy). cbn [pox poy poth].
  split; [|split].
  - exact (C122_window lm _ _ _ F3 F4 H2 Cd dx Hx).
  - exact (C122_window lm _ _ _ F3 F4 H2 Cd dy Hy).
  - exact (C122_window lm _ _ _ F1 F2 H1 Ct th Ht).
Qed.

(** A search over four corrections that ends at another pose than it started from. *)
Definition picky : matcher b64 := mkMatcher None (z64 4) (z64 1) half64 half64 half64 100 (z64 2).
Definition turned_cross : scan b64 := mkScan 0 false (mkPose (z64 0) (z64 0) half64) (mkPose (z64 0) (z64 0) (z64 0)) cross64.
Definition moved_pose : pose b64 := mkPose (z64 7) (z64 7) (z64 7).
Definition search_moves (lm : libm) : bool :=
  match add_scans (A := BA lm) eig_ad picky [cross_scan] with
  | Ok m => match k_ndt m, match_scan (A := BA lm) 10 m turned_cross moved_pose (mat3_zero (A := BA lm)) with
            | Some _, Ok (r, p', _) => Bltb r (z64 0) && negb (Bltb (z64 6) (pox p'))
            | _, _ => false
            end
  | Fault _ => false
  end.
Lemma search_moves_true (lm : libm) : search_moves (easy (step_libm lm)) = true.
Proof. vm_compute. reflexivity. Qed.

Example C122_nonvacuous (lm : libm) :
  let lm := easy (step_libm lm) in
  exists m g r p' cov', k_ndt m = Some g /\ match_scan (A := BA lm) 10 m turned_cross moved_pose (mat3_zero (A := BA lm)) = Ok (r, p', cov') /\
    Bltb r (z64 0) = true /\ p' <> moved_pose /\
    is_finite (k_ang_size m) = true /\ is_finite (k_ang_res m) = true /\ 0 <= B2R (k_ang_res m) /\
    is_finite (k_lin_size m) = true /\ is_finite (k_lin_res m) = true /\ 0 <= B2R (k_lin_res m).
Proof.
  intros lm'. pose proof (search_moves_true lm) as H. fold lm' in H. clearbody lm'. unfold search_moves in H.
  destruct (add_scans (A := BA lm') eig_ad picky [cross_scan]) as [m|] eqn:Ad; [|discriminate H].
  destruct (k_ndt m) as [g|] eqn:Hg; [|discriminate H].
  destruct (match_scan (A := BA lm') 10 m turned_cross moved_pose (mat3_zero (A := BA lm'))) as [[[r p'] cov']|] eqn:Hm; [|discriminate H].
  apply andb_true_iff in H. destruct H as [H1 H2].
  assert (K : k_ang_size m = half64 /\ k_ang_res m = z64 1 /\ k_lin_size m = half64 /\ k_lin_res m = half64).
  { unfold add_scans in Ad. apply bind_ok in Ad. destruct Ad as (g0 & _ & Ad). cbv zeta in Ad.
    repeat (apply bind_ok in Ad; destruct Ad as (? & _ & Ad)). injection Ad as <-. repeat split. }
  exists m, g, r, p', cov'. destruct K as (-> & -> & -> & ->). split; [exact Hg|]. split; [exact Hm|]. split; [exact H1|]. split.
  { intros ->. vm_compute in H2. discriminate H2. }
  assert (Z1 : 0 <= B2R (z64 1)) by (unfold z64; rewrite (proj1 (b64_ofZ 1 ltac:(lia))); lra).
  assert (Zh : 0 <= B2R half64) by (cbn; apply F2R_ge_0; cbn; lia).
  repeat split; assumption || reflexivity.
Qed.
Print Assumptions C122_best_candidate.
Print Assumptions C122_stays_in_window.
