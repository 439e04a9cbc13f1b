(** Runs with the steps of the publisher left out. *)

From Coq Require Import ZArith List Bool Lia String.
From Verif Require Import Outcome Arith TypesModel ScanModel NdtModel MatcherModel ConstraintModel SolverModel GraphModel OccGridModel
  MotionModel FilterModel LaserModel MapperModel NdtProofs MapperSteps MapperInv1 SpecMapper SpecPublish.
Import ListNotations.
Local Open Scope outcome_scope.

Section Hush.
Context {T : Type} {A : Arith T}.
Context (cf : config T).

(** The shared data with another flag, other mutexes, another global matcher and
    another trace. *)
Definition hush (s : shared T) (fl : bool) (gl pl : option tid) (gm : option (matcher T)) (tr : list (obs T)) : shared T :=
  mkShared (sh_heap s) (sh_scans s) (sh_cons s) fl gl pl (sh_odom s) (sh_robot s) (sh_typical s) (sh_enable s) (sh_init s) gm tr.

(** A mutex was left alone in both runs, or thread [t] took or released it in both. *)
Definition lock_next (t : tid) (a a' b b' : option tid) : Prop := b = a /\ b' = a' \/ b' = b /\ (b = None \/ b = Some t).

(** Likewise for the global matcher. *)
Definition glob_next (a a' b b' : option (matcher T)) : Prop := b = a /\ b' = a' \/ b' = b.

(** Callbacks in progress that use the global matcher. *)
Definition asks_global (pc : spin_pc T) : bool := match pc with SFilter _ _ _ _ | STrack _ _ => true | _ => false end.

Definition follows {X : Type} (t : tid) (s : shared T) (gl pl : option tid) (gm : option (matcher T)) (tr : list (obs T)) (a b : option (outcome (shared T * X))) : Prop :=
  match a with
  | Some (Ok (s1, x)) => exists fl1 gl1 pl1 gm1 new, b = Some (Ok (hush s1 fl1 gl1 pl1 gm1 (new ++ tr), x)) /\
      sh_trace s1 = new ++ sh_trace s /\ Forall (fun o => published o = false) new /\ lock_next t (sh_glock s) gl (sh_glock s1) gl1 /\ lock_next t (sh_plock s) pl (sh_plock s1) pl1 /\ glob_next (sh_global s) gm (sh_global s1) gm1
  | _ => True
  end.
Ltac ln := first [left; split; reflexivity|right; split; [reflexivity|first [left; reflexivity|right; reflexivity]]].
Ltac gn := first [left; split; reflexivity|right; reflexivity].
Ltac fw new := eexists _, _, _, _, new; split; [reflexivity|split; [reflexivity|split; [repeat (constructor; [reflexivity|]); constructor|split; [ln|split; [ln|gn]]]]].

Lemma put_all_hush : forall ps vs (s : shared T) fl gl pl gm tr, put_all (hush s fl gl pl gm tr) ps vs = hush (put_all s ps vs) fl gl pl gm tr.
Proof.
  unfold put_all. intros ps vs. generalize (combine ps vs) as l. induction l as [|x l IH]; intros s fl gl pl gm tr; [reflexivity|].
  cbn [fold_left]. rewrite <- IH. reflexivity.
Qed.
Lemma free_locked : forall a a' : option tid, (a = None -> a' = None) -> locked a = false -> locked a' = false.
Proof. intros [t|] a' H L; [discriminate L|]. rewrite (H eq_refl). reflexivity. Qed.

Lemma loop_follows : forall s l fl gl pl gm tr, (sh_glock s = None -> gl = None) -> (sh_plock s = None -> pl = None) -> gm = sh_global s ->
  follows TLoop s gl pl gm tr (loop_step cf s l) (loop_step cf (hush s fl gl pl gm tr) l).
Proof.
  intros s l fl gl pl gm tr Fg Fp Gm. pose proof (free_locked _ _ Fg) as Lg.
  unfold loop_step. destruct (lp_pc l) as [| | |num new|num new|num new|c|c i|c i cand|c i cand corr cov|c i cand cov|c k|c k|c|num new| |] eqn:Pc;
    unfold lock_g; cbn [sh_glock hush sh_enable];
    change (graph_scans (hush s fl gl pl gm tr)) with (graph_scans s); change (the_graph cf (hush s fl gl pl gm tr)) with (the_graph cf s);
    change (num_scans (hush s fl gl pl gm tr)) with (num_scans s).
  all: try (destruct (locked (sh_glock s)) eqn:Lk; [exact I|rewrite (Lg eq_refl)]).
  all: try (fw (@nil (obs T))).
  all: subst gm; cbn [sh_scans sh_heap sh_global sh_typical sh_cons hush].
  - (* LFetch *) destruct (vec_get (sh_scans s) (lp_done l)) as [p|]; [|exact I]. cbn [bind].
    destruct (deref (sh_heap s) p) as [sc|]; [|exact I]. cbn [bind]. destruct (the_graph cf s) as [g|]; [|exact I]. cbn [bind].
    destruct (find_nearest _ _ _ _ _) as [near|]; [|exact I]. cbn [bind]. fw (@nil (obs T)).
  - (* LCand *) destruct (lc_rest c) as [|i rest]; [fw (@nil (obs T))|].
    destruct (locked (sh_glock s)) eqn:Lk; [exact I|rewrite (Lg eq_refl)]. fw (@nil (obs T)).
  - (* LRegion *) destruct (graph_scans s) as [scans|]; [|exact I]. cbn [bind].
    destruct (vec_get (sh_scans s) (Z.of_nat i)) as [cand|]; [|exact I]. cbn [bind]. destruct (deref (sh_heap s) cand) as [cd|]; [|exact I]. cbn [bind].
    destruct (s_pts cd) as [|q qs]; [fw (@nil (obs T))|].
    destruct (region i (rolling_start cf l) scans) as [reg|]; [|exact I]. cbn [bind]. destruct (sh_global s) as [g|]; [|exact I].
    destruct (add_scans _ _ _) as [g'|]; [|exact I]. cbn [bind]. fw (@nil (obs T)).
  - (* LMatch *) destruct (deref (sh_heap s) (lc_scan c)) as [sc|]; [|exact I]. cbn [bind].
    destruct (sh_global s) as [g|]; [|exact I]. destruct (match_scan _ _ _ _ _) as [[[score corr] cov]|]; [|exact I]. cbn [bind].
    destruct (nfinite score && nlt score (sh_typical s))%bool.
    + fw [ObMatch (lp_done l) (Z.of_nat i) score (sh_typical s) true].
    + fw [ObMatch (lp_done l) (Z.of_nat i) score (sh_typical s) false].
  - (* LCorrect *) destruct (deref (sh_heap s) (lc_scan c)) as [sc|]; [|exact I]. cbn [bind].
    fw [ObMove (lc_scan c) (add_correction (s_pose sc) corr)].
  - (* LMake *) destruct (deref (sh_heap s) cand) as [cd|]; [|exact I]. cbn [bind].
    destruct (deref (sh_heap s) (lc_scan c)) as [sc|]; [|exact I]. cbn [bind]. fw (@nil (obs T)).
  - (* LPush *) fw [ObConstraint ALoop k].
  - (* LOptRun *) destruct (graph_scans s) as [scans|]; [|exact I]. cbn [bind].
    destruct (optimize _ _ _ _) as [[[u sv] scans']|]; [|exact I]. cbn [bind]. rewrite put_all_hush. destruct (put_all_frame (sh_scans s) scans' s) as (h & E). rewrite E.
    fw [ObOptimize (T := T) (List.length scans)].
Qed.

Lemma spin_follows : forall s sp fl gl pl gm tr, (sh_glock s = None -> gl = None) -> (sh_plock s = None -> pl = None) -> (asks_global (sp_pc sp) = true -> gm = sh_global s) ->
  follows TSpin s gl pl gm tr (spin_step cf s sp) (spin_step cf (hush s fl gl pl gm tr) sp).
Proof.
  intros s sp fl gl pl gm tr Fg Fp Gm. pose proof (free_locked _ _ Fg) as Lg. pose proof (free_locked _ _ Fp) as Lp. unfold spin_step.
  destruct (sp_pc sp) as [|p o n d|p o|p o c|p o c|p o c|p o|p o|p o|p o u|p o u|e o|e o|r o|r o|r o|f|f| |] eqn:Psp;
    unfold lock_g, lock_p; cbn [sh_glock sh_plock hush].
  all: try exact I.
  all: try (destruct (locked (sh_glock s)) eqn:Lk; [exact I|rewrite (Lg eq_refl)]).
  all: try (destruct (locked (sh_plock s)) eqn:Lk; [exact I|rewrite (Lp eq_refl)]).
  all: try (fw (@nil (obs T))).
  all: cbn [sh_scans sh_heap sh_global sh_typical sh_cons sh_robot hush].
  - (* SFilter *) rewrite (Gm eq_refl). unfold filter_callback. cbn [sh_heap sh_robot sh_global hush].
    destruct (deref (sh_heap s) p) as [sc|]; [|exact I]. cbn [bind]. destruct (sp_filter sp) as [f0|]; [|exact I].
    destruct (filter_update _ _ _ _ _) as [f1|]; [|exact I]. cbn [bind]. destruct (sh_global s) as [g|]; [|exact I].
    destruct (filter_measure _ _) as [f2|]; [|exact I]. cbn [bind]. destruct (filter_resample _ _ _ _) as [f3|]; [|exact I]. cbn [bind]. fw (@nil (obs T)).
  - (* SMatch *) destruct (sh_scans s) as [|b bs]; [fw (@nil (obs T))|].
    unfold local_match. change (graph_scans (hush s fl gl pl gm tr)) with (graph_scans s). cbn [sh_heap sh_typical hush].
    destruct (graph_scans s) as [scans|]; [|exact I]. cbn [bind]. destruct (rolling_window _ _) as [window|]; [|exact I]. cbn [bind].
    destruct (sp_local sp) as [m|]; [|exact I]. destruct (add_scans _ _ _) as [m'|]; [|exact I]. cbn [bind].
    destruct (deref (sh_heap s) p) as [sc|]; [|exact I]. cbn [bind]. destruct (score_scan _ _) as [v|]; [|exact I]. cbn [bind].
    destruct (match_scan _ _ _ _ _) as [[[score corr] cov]|]; [|exact I]. cbn [bind]. fw (@nil (obs T)).
  - (* SMake *) destruct (match rev (sh_scans s) with [] => Fault OutOfBounds | b :: _ => deref (sh_heap s) b end) as [back|]; [|exact I]. cbn [bind].
    destruct (deref (sh_heap s) p) as [sc|]; [|exact I]. cbn [bind]. fw (@nil (obs T)).
  - (* SConsPush *) fw [ObConstraint ALaser c].
  - (* SScanPush *) fw [ObScan (T := T) ALaser p].
  - (* STrack *) rewrite (Gm eq_refl). unfold track_match. cbn [sh_heap sh_global hush]. destruct (deref (sh_heap s) p) as [sc|]; [|exact I]. cbn [bind].
    destruct (sh_global s) as [g|]; [|exact I]. destruct (score_scan _ _) as [v|]; [|exact I]. cbn [bind].
    destruct (match_scan _ _ _ _ _) as [[[score corr] cov]|]; [|exact I]. cbn [bind]. fw (@nil (obs T)).
  - (* SPoseWrite *) destruct (deref (sh_heap s) p) as [sc|]; [|exact I]. cbn [bind]. destruct u; fw [ObPoses (s_pose sc) o].
  - (* SGraph *) unfold pose_graph. change (the_graph cf (hush s fl gl pl gm tr)) with (the_graph cf s). change (num_scans (hush s fl gl pl gm tr)) with (num_scans s).
    destruct (the_graph cf s) as [g|]; [|exact I]. cbn [bind]. destruct (find_nearest _ _ _ _ _) as [[|i l]|]; [| |exact I]; cbn [bind]; [fw (@nil (obs T))|].
    unfold alloc. destruct (vec_get _ (Z.of_nat i)) as [from|]; [|exact I]. cbn [bind]. eexists _, _, _, _, [_; _]. split; [reflexivity|]. split; [reflexivity|]. split; [repeat (constructor; [reflexivity|]); constructor|split; [ln|split; [ln|gn]]].
  - (* SInitDone *) fw [ObInit r o].
  - (* SLoad *) fw [@ObLoad T].
  - (* SSave *) change (the_graph cf (hush s fl gl pl gm tr)) with (the_graph cf s). destruct (the_graph cf s) as [g|]; [|exact I]. cbn [bind]. fw [ObSave (graph_save g)].
Qed.

Lemma deliver_follows : forall s sp e fl gl pl gm tr, follows TSpin s gl pl gm tr (deliver cf s sp e) (deliver cf (hush s fl gl pl gm tr) sp e).
Proof.
  intros s sp e fl gl pl gm tr. unfold deliver. destruct (sp_pc sp) eqn:Psp; try exact I.
  assert (G0 : forall x b, guess_pose cf (set_global (hush s fl gl pl gm tr) x) b = guess_pose cf (set_global s x) b) by reflexivity. destruct e as [e|e|a f].
  - unfold laser_begin, learn_laser. destruct (sp_frame (learn_range sp (le_msg e)) =? "")%string.
    + destruct (le_laser e) as [t|]; [|cbn [bind]; fw (@nil (obs T))]. cbn [sh_enable hush]. change (graph_scans (hush s fl gl pl gm tr)) with (graph_scans s).
      destruct (use_filter cf || negb (sh_enable s))%bool.
      * destruct (graph_scans s) as [scans|]; [|exact I]. cbn [bind]. destruct (add_scans _ _ _) as [g'|]; [|exact I]. cbn [bind sh_init set_global hush].
        destruct (sh_init s); [|fw (@nil (obs T))]. destruct (le_start e) as [start|]; [|fw (@nil (obs T))].
        rewrite G0. match goal with |- context [guess_pose cf ?a ?b] => destruct (guess_pose cf a b) as [guess|]; [|fw (@nil (obs T))] end.
        destruct (sweep_ns _ _) as [ns|]; [|exact I]. cbn [bind]. destruct (le_end e ns) as [end_|]; [|fw (@nil (obs T))].
        destruct (scan_points _ _ _ _ _ _) as [pts|]; [|exact I]. cbn [bind]. unfold alloc. fw (@nil (obs T)).
      * cbn [bind sh_init set_global hush]. destruct (sh_init s); [|fw (@nil (obs T))]. destruct (le_start e) as [start|]; [|fw (@nil (obs T))].
        rewrite G0. match goal with |- context [guess_pose cf ?a ?b] => destruct (guess_pose cf a b) as [guess|]; [|fw (@nil (obs T))] end.
        destruct (sweep_ns _ _) as [ns|]; [|exact I]. cbn [bind]. destruct (le_end e ns) as [end_|]; [|fw (@nil (obs T))].
        destruct (scan_points _ _ _ _ _ _) as [pts|]; [|exact I]. cbn [bind]. unfold alloc. fw (@nil (obs T)).
    + cbn [bind sh_init hush]. destruct (sh_init s); [|fw (@nil (obs T))]. destruct (le_start e) as [start|]; [|fw (@nil (obs T))].
      change (guess_pose cf (hush s fl gl pl gm tr) (from_msg start)) with (guess_pose cf s (from_msg start)). destruct (guess_pose cf s (from_msg start)) as [guess|]; [|fw (@nil (obs T))].
      destruct (sweep_ns _ _) as [ns|]; [|exact I]. cbn [bind]. destruct (le_end e ns) as [end_|]; [|fw (@nil (obs T))].
      destruct (scan_points _ _ _ _ _ _) as [pts|]; [|exact I]. cbn [bind]. unfold alloc. fw (@nil (obs T)).
  - unfold pose_begin. cbn [sh_enable sh_init hush]. destruct (sh_enable s && sh_init s)%bool; [fw (@nil (obs T))|]. destruct (negb _); [fw (@nil (obs T))|].
    destruct (pe_odom e) as [t|]; [|fw (@nil (obs T))]. destruct (sp_filter sp) as [f0|].
    + destruct (filter_init _ _ _ _ _ _ _ _) as [f'|]; [|exact I]. cbn [bind]. fw (@nil (obs T)).
    + destruct (sh_enable s); fw (@nil (obs T)).
  - unfold configure_begin. destruct (has_bit a ENABLE_MAPPING); [fw (@nil (obs T))|]. destruct (has_bit a DISABLE_MAPPING); fw (@nil (obs T)).
Qed.

(** The state of a run without the publisher. *)
Definition lock_ok (a a' : option tid) : Prop := a' <> Some TPub /\ (a' = a \/ a = Some TPub /\ a' = None).
Definition hushed (m m' : mapper T) : Prop :=
  mp_spin m' = mp_spin m /\ mp_loop m' = mp_loop m /\
  exists fl gl pl tr, mp_sh m' = hush (mp_sh m) fl gl pl (sh_global (mp_sh m)) tr /\ lock_ok (sh_glock (mp_sh m)) gl /\ lock_ok (sh_plock (mp_sh m)) pl /\
    filter (fun o => negb (published o)) tr = filter (fun o => negb (published o)) (sh_trace (mp_sh m)).
Lemma lock_ok_free : forall a a', lock_ok a a' -> a = None -> a' = None.
Proof. intros a a' (_ & [->|[_ ->]]) E; [exact E|reflexivity]. Qed.
Lemma lock_ok_next : forall t a a' b b', t <> TPub -> lock_ok a a' -> lock_next t a a' b b' -> lock_ok b b'.
Proof.
  intros t a a' b b' Nt (N & H) [[-> ->]|[-> N']]; [split; assumption|split; [|left; reflexivity]].
  destruct N' as [->| ->]; [discriminate|]. intro Q. injection Q as Q. exact (Nt Q).
Qed.
Lemma quiet_trace : forall (new tr old : list (obs T)), filter (fun o => negb (published o)) tr = filter (fun o => negb (published o)) old ->
  filter (fun o => negb (published o)) (new ++ tr) = filter (fun o => negb (published o)) (new ++ old).
Proof. intros new tr old H. rewrite !filter_app, H. reflexivity. Qed.

Lemma follows_hushed : forall {X} t s gl pl gm tr (a b : option (outcome (shared T * X))) s1 x, t <> TPub -> follows t s gl pl gm tr a b -> a = Some (Ok (s1, x)) ->
  lock_ok (sh_glock s) gl -> lock_ok (sh_plock s) pl -> filter (fun o => negb (published o)) tr = filter (fun o => negb (published o)) (sh_trace s) ->
  exists fl1 gl1 pl1 gm1 tr1, b = Some (Ok (hush s1 fl1 gl1 pl1 gm1 tr1, x)) /\ glob_next (sh_global s) gm (sh_global s1) gm1 /\ lock_ok (sh_glock s1) gl1 /\ lock_ok (sh_plock s1) pl1 /\
    filter (fun o => negb (published o)) tr1 = filter (fun o => negb (published o)) (sh_trace s1).
Proof.
  intros X t s gl pl gm tr a b s1 x Nt F E Lg Lp Tr. rewrite E in F. destruct F as (fl1 & gl1 & pl1 & gm1 & new & -> & Et & _ & Ng & Np & Nm).
  exists fl1, gl1, pl1, gm1, (new ++ tr). split; [reflexivity|]. split; [exact Nm|]. split; [exact (lock_ok_next t _ _ _ _ Nt Lg Ng)|]. split; [exact (lock_ok_next t _ _ _ _ Nt Lp Np)|].
  rewrite Et. apply quiet_trace. exact Tr.
Qed.

Lemma hushed_step : forall l m m1 m', l <> Pub -> hushed m m' -> step cf l m = Some (Ok m1) -> exists m1', step cf l m' = Some (Ok m1') /\ hushed m1 m1'.
Proof.
  intros l m m1 m' Np (Es & El & fl & gl & pl & tr & Eh & Lg & Lp & Tr) St. destruct m as [s sp lo pb], m' as [s' sp' lo' pb']. cbn [mp_sh mp_spin mp_loop mp_pub] in *. subst sp' lo' s'.
  pose proof (lock_ok_free _ _ Lg) as Fg. pose proof (lock_ok_free _ _ Lp) as Fp.
  destruct l as [e| | |]; [| | |contradiction Np; reflexivity]; cbn [step mp_sh mp_spin mp_loop mp_pub] in *.
  - pose proof (deliver_follows s sp e fl gl pl (sh_global s) tr) as F. destruct (deliver cf s sp e) as [[[s1 x]|]|] eqn:D; try discriminate St. cbn in St. injection St as <-.
    destruct (follows_hushed TSpin s gl pl (sh_global s) tr _ _ s1 x (fun Q : TSpin = TPub => ltac:(discriminate Q)) F eq_refl Lg Lp Tr) as (fl1 & gl1 & pl1 & gm1 & tr1 & -> & Nm & H1 & H2 & H3).
    assert (gm1 = sh_global s1) as -> by (destruct Nm as [[-> ->]| ->]; reflexivity).
    eexists. split; [reflexivity|]. split; [reflexivity|]. split; [reflexivity|]. exists fl1, gl1, pl1, tr1. auto.
  - pose proof (spin_follows s sp fl gl pl (sh_global s) tr Fg Fp (fun _ => eq_refl)) as F. destruct (spin_step cf s sp) as [[[s1 x]|]|] eqn:D; try discriminate St. cbn in St. injection St as <-.
    destruct (follows_hushed TSpin s gl pl (sh_global s) tr _ _ s1 x (fun Q : TSpin = TPub => ltac:(discriminate Q)) F eq_refl Lg Lp Tr) as (fl1 & gl1 & pl1 & gm1 & tr1 & -> & Nm & H1 & H2 & H3).
    assert (gm1 = sh_global s1) as -> by (destruct Nm as [[-> ->]| ->]; reflexivity).
    eexists. split; [reflexivity|]. split; [reflexivity|]. split; [reflexivity|]. exists fl1, gl1, pl1, tr1. auto.
  - pose proof (loop_follows s lo fl gl pl (sh_global s) tr Fg Fp eq_refl) as F. destruct (loop_step cf s lo) as [[[s1 x]|]|] eqn:D; try discriminate St. cbn in St. injection St as <-.
    destruct (follows_hushed TLoop s gl pl (sh_global s) tr _ _ s1 x (fun Q : TLoop = TPub => ltac:(discriminate Q)) F eq_refl Lg Lp Tr) as (fl1 & gl1 & pl1 & gm1 & tr1 & -> & Nm & H1 & H2 & H3).
    assert (gm1 = sh_global s1) as -> by (destruct Nm as [[-> ->]| ->]; reflexivity).
    eexists. split; [reflexivity|]. split; [reflexivity|]. split; [reflexivity|]. exists fl1, gl1, pl1, tr1. auto.
Qed.

Lemma hushed_pub : forall m m1 m', lock_inv m -> hushed m m' -> step cf Pub m = Some (Ok m1) -> hushed m1 m'.
Proof.
  intros m m1 m' (_ & _ & Ig & _ & _ & Ip) (Es & El & fl & gl & pl & tr & Eh & Lg & Lp & Tr) St. destruct m as [s sp lo pb]. cbn [mp_sh mp_spin mp_loop mp_pub] in *.
  cbn [step mp_sh mp_spin mp_loop mp_pub] in St. unfold pub_step, lock_g, lock_p in St.
  assert (Take : forall a, locked a = false -> forall a', lock_ok a a' -> lock_ok (Some TPub) a').
  { intros a La a' [N H]. split; [exact N|]. right. split; [reflexivity|]. destruct H as [->|[-> _]]; [|discriminate La]. destruct a; [discriminate La|reflexivity]. }
  assert (Give : forall a, is_some TPub a = true -> forall a', lock_ok a a' -> lock_ok None a').
  { intros a La a' [N H]. split; [exact N|]. left. destruct H as [->|[_ ->]]; [|reflexivity]. exfalso. destruct a as [[]|]; try discriminate La. apply N. reflexivity. }
  destruct (pb_pc pb) as [| | | | | | | | |r|r o] eqn:Pc; cbn [pub_g pub_p] in Ig, Ip.
  all: try (destruct (locked (sh_glock s)) eqn:Lk; [discriminate St|]). 
  all: try (destruct (locked (sh_plock s)) eqn:Lk; [discriminate St|]).
  all: cbn [option_map bind] in St.
  - injection St as <-. split; [exact Es|]. split; [exact El|]. exists fl, gl, pl, tr. auto.
  - injection St as <-. split; [exact Es|]. split; [exact El|]. exists fl, gl, pl, tr. auto.
  - injection St as <-. split; [exact Es|]. split; [exact El|]. exists fl, gl, pl, tr. split; [exact Eh|]. split; [exact (Take _ Lk _ Lg)|auto].
  - destruct (graph_scans s) as [scans|]; [|discriminate St]. cbn [bind] in St. destruct (occ_get_msg _ _) as [[grid msg]|]; [|discriminate St]. cbn [bind] in St. injection St as <-.
    split; [exact Es|]. split; [exact El|]. exists fl, gl, pl, tr. split; [exact Eh|]. split; [exact (Give _ Ig _ Lg)|auto].
  - injection St as <-. split; [exact Es|]. split; [exact El|]. exists fl, gl, pl, tr. split; [exact Eh|]. split; [exact (Take _ Lk _ Lg)|auto].
  - destruct (the_graph cf s) as [g|]; [|discriminate St]. cbn [bind] in St. destruct (graph_get_msg _ _) as [msg|]; [|discriminate St]. cbn [bind] in St. injection St as <-.
    split; [exact Es|]. split; [exact El|]. exists fl, gl, pl, tr. split; [exact Eh|]. split; [exact (Give _ Ig _ Lg)|auto].
  - injection St as <-. split; [exact Es|]. split; [exact El|]. exists fl, gl, pl, tr. auto.
  - injection St as <-. split; [exact Es|]. split; [exact El|]. exists fl, gl, pl, tr. split; [exact Eh|]. split; [exact Lg|]. split; [exact (Take _ Lk _ Lp)|auto].
  - injection St as <-. split; [exact Es|]. split; [exact El|]. exists fl, gl, pl, tr. auto.
  - injection St as <-. split; [exact Es|]. split; [exact El|]. exists fl, gl, pl, tr. split; [exact Eh|]. split; [exact Lg|]. split; [exact (Give _ Ip _ Lp)|auto].
  - injection St as <-. split; [exact Es|]. split; [exact El|]. exists fl, gl, pl, tr. auto.
Qed.
End Hush.
