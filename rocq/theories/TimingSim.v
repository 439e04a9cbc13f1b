(** Runs with the steps of the background threads left out. *)

From Coq Require Import ZArith List Bool Lia String.
From Verif Require Import Outcome Arith TypesModel ScanModel NdtModel MatcherModel ConstraintModel SolverModel GraphModel OccGridModel
  MotionModel FilterModel LaserModel MapperModel NdtProofs MapperSteps MapperInv1 MapperInv2 SpecMapper SpecPublish HushSim SpecTiming.
Import ListNotations.
Local Open Scope outcome_scope.

Section Timing.
Context {T : Type} {A : Arith T}.
Context (cf : config T).

(** ** Traces only grow *)
Lemma step_grows : forall l m m1, step cf l m = Some (Ok m1) -> exists new, sh_trace (mp_sh m1) = new ++ sh_trace (mp_sh m).
Proof.
  intros l m m1 St. destruct m as [s sp lo pb]. destruct l as [e| | |]; cbn [step mp_sh mp_spin mp_loop mp_pub] in *.
  - pose proof (deliver_follows cf s sp e (sh_flag s) (sh_glock s) (sh_plock s) (sh_global s) []) as F.
    destruct (deliver cf s sp e) as [[[s1 x]|]|] eqn:D; try discriminate St. cbn in St. injection St as <-.
    destruct F as (fl1 & gl1 & pl1 & gm1 & new & _ & Et & _). exists new. exact Et.
  - pose proof (spin_follows cf s sp (sh_flag s) (sh_glock s) (sh_plock s) (sh_global s) [] (fun H => H) (fun H => H) (fun _ => eq_refl)) as F.
    destruct (spin_step cf s sp) as [[[s1 x]|]|] eqn:D; try discriminate St. cbn in St. injection St as <-.
    destruct F as (fl1 & gl1 & pl1 & gm1 & new & _ & Et & _). exists new. exact Et.
  - pose proof (loop_follows cf s lo (sh_flag s) (sh_glock s) (sh_plock s) (sh_global s) [] (fun H => H) (fun H => H) eq_refl) as F.
    destruct (loop_step cf s lo) as [[[s1 x]|]|] eqn:D; try discriminate St. cbn in St. injection St as <-.
    destruct F as (fl1 & gl1 & pl1 & gm1 & new & _ & Et & _). exists new. exact Et.
  - unfold pub_step, lock_g, lock_p in St. destruct (pb_pc pb) as [| | | | | | | | |r|r o] eqn:Pc.
    all: try (destruct (locked (sh_glock s)) eqn:Lk; [discriminate St|]).
    all: try (destruct (locked (sh_plock s)) eqn:Lk; [discriminate St|]).
    all: cbn [option_map bind] in St.
    all: try (injection St as <-; first [exists []; reflexivity|exists [ObTf r o (map_to_odom r o)]; reflexivity]).
    + destruct (graph_scans s) as [scans|]; [|discriminate St]. cbn [bind] in St. destruct (occ_get_msg _ _) as [[grid msg]|]; [|discriminate St]. cbn [bind] in St.
      injection St as <-. exists [ObMap scans msg]. reflexivity.
    + destruct (the_graph cf s) as [g|]; [|discriminate St]. cbn [bind] in St. destruct (graph_get_msg _ _) as [msg|]; [|discriminate St]. cbn [bind] in St.
      injection St as <-. exists [ObMarkers g msg]. reflexivity.
Qed.
Lemma exec_grows : forall ls m mf, exec cf m ls = Ok mf -> exists new, sh_trace (mp_sh mf) = new ++ sh_trace (mp_sh m).
Proof.
  induction ls as [|l ls IH]; intros m mf E; cbn [exec] in E; [injection E as <-; exists []; reflexivity|].
  destruct (step cf l m) as [[m1|]|] eqn:St; cbn [bind] in E; [|discriminate E|exact (IH m mf E)].
  destruct (IH _ _ E) as (n2 & ->). destruct (step_grows _ _ _ St) as (n1 & ->). exists (n2 ++ n1). rewrite app_assoc. reflexivity.
Qed.
Lemma no_closure_back : forall ls m mf, exec cf m ls = Ok mf -> no_closure mf -> no_closure m.
Proof.
  intros ls m mf E N i j sc t I. destruct (exec_grows _ _ _ E) as (n & En). apply (N i j sc t). rewrite En. apply in_or_app. right. exact I.
Qed.

(** ** The loop closure thread before its first accepted match *)
Definition loop_calm (pc : loop_pc T) : Prop :=
  match pc with
  | LSleep | LCountLock | LCount => True
  | LNext _ new | LFetchLock _ new | LFetch _ new | LOpt _ new => new = false
  | LCand c | LRegion c _ | LMatch c _ _ => lc_new c = false
  | _ => False
  end.

(** Only what the callbacks themselves hold. *)
Definition own (a : option tid) : option tid := match a with Some TSpin => Some TSpin | _ => None end.
Lemma own_free : forall a, locked a = false -> a = None.
Proof. intros [t|] H; [discriminate H|reflexivity]. Qed.
Lemma own_loop : forall a, is_some TLoop a = true -> own a = None.
Proof. intros [[]|] H; try discriminate H; reflexivity. Qed.

Lemma loop_calm_step : forall s l s1 l1, is_some TLoop (sh_glock s) = loop_g (lp_pc l) -> loop_calm (lp_pc l) -> loop_step cf s l = Some (Ok (s1, l1)) ->
  (forall i j sc t, ~ In (ObMatch i j sc t true) (sh_trace s1)) ->
  loop_calm (lp_pc l1) /\ own (sh_glock s1) = own (sh_glock s) /\ s1 = hush s (sh_flag s) (sh_glock s1) (sh_plock s) (sh_global s1) (sh_trace s1).
Proof.
  intros s l s1 l1 Lg C St N. unfold loop_step in St.
  assert (AC : forall c, lc_new c = false -> loop_calm (lp_pc (after_candidate l c))).
  { intros c E. unfold after_candidate, next_scan, lat. destruct (_ =? 0)%Z; cbn; exact E. }
  destruct (lp_pc l) as [| | |num new|num new|num new|c|c i|c i cand|c i cand corr cov|c i cand cov|c k|c k|c|num new| |] eqn:Pc;
    cbn [loop_calm loop_g] in C, Lg; try contradiction C; unfold lock_g in St.
  - injection St as <- <-. split; [destruct (sh_enable s); cbn; [exact I|rewrite Pc; exact I]|]. split; [reflexivity|]. destruct s; reflexivity.
  - destruct (locked (sh_glock s)) eqn:Lk; [discriminate St|]. injection St as <- <-. split; [exact I|]. rewrite (own_free _ Lk). split; [reflexivity|]. destruct s; reflexivity.
  - injection St as <- <-. split; [destruct (_ <=? _)%Z; cbn; [exact I|reflexivity]|]. split; [cbn; rewrite (own_loop _ Lg); reflexivity|]. destruct s; reflexivity.
  - injection St as <- <-. split; [destruct (_ <? _)%Z; cbn; exact C|]. split; [reflexivity|]. destruct s; reflexivity.
  - destruct (locked (sh_glock s)) eqn:Lk; [discriminate St|]. injection St as <- <-. split; [exact C|]. rewrite (own_free _ Lk). split; [reflexivity|]. destruct s; reflexivity.
  - destruct (vec_get (sh_scans s) (lp_done l)) as [p|]; [|discriminate St]. cbn [bind] in St. destruct (deref (sh_heap s) p) as [sc|]; [|discriminate St]. cbn [bind] in St.
    destruct (the_graph cf s) as [g|]; [|discriminate St]. cbn [bind] in St. destruct (find_nearest _ _ _ _ _) as [near|]; [|discriminate St]. cbn [bind] in St.
    injection St as <- <-. split; [exact C|]. split; [cbn; rewrite (own_loop _ Lg); reflexivity|]. destruct s; reflexivity.
  - destruct (lc_rest c) as [|i rest].
    + injection St as <- <-. split; [exact C|]. split; [reflexivity|]. destruct s; reflexivity.
    + destruct (locked (sh_glock s)) eqn:Lk; [discriminate St|]. injection St as <- <-. split; [exact C|]. rewrite (own_free _ Lk). split; [reflexivity|]. destruct s; reflexivity.
  - destruct (graph_scans s) as [scans|]; [|discriminate St]. cbn [bind] in St. destruct (vec_get (sh_scans s) (Z.of_nat i)) as [cand|]; [|discriminate St]. cbn [bind] in St.
    destruct (deref (sh_heap s) cand) as [cd|]; [|discriminate St]. cbn [bind] in St. destruct (s_pts cd) as [|q qs].
    + injection St as <- <-. split; [exact C|]. split; [cbn; rewrite (own_loop _ Lg); reflexivity|]. destruct s; reflexivity.
    + destruct (region _ _ _) as [reg|]; [|discriminate St]. cbn [bind] in St. destruct (sh_global s) as [g|] eqn:G; [|discriminate St].
      destruct (add_scans _ _ _) as [g'|]; [|discriminate St]. cbn [bind] in St. injection St as <- <-. split; [exact C|]. split; [cbn; rewrite (own_loop _ Lg); reflexivity|]. destruct s; reflexivity.
  - destruct (deref (sh_heap s) (lc_scan c)) as [sc|]; [|discriminate St]. cbn [bind] in St. destruct (sh_global s) as [g|] eqn:G; [|discriminate St].
    destruct (match_scan _ _ _ _ _) as [[[score corr] cov]|]; [|discriminate St]. cbn [bind] in St.
    destruct (nfinite score && nlt score (sh_typical s))%bool.
    + injection St as <- <-. exfalso. eapply N. left. reflexivity.
    + injection St as <- <-. split; [apply AC; exact C|]. split; [reflexivity|]. destruct s; reflexivity.
  - subst new. injection St as <- <-. split; [exact I|]. split; [reflexivity|]. destruct s; reflexivity.
Qed.

Lemma pub_calm_step : forall s p s1 p1, is_some TPub (sh_glock s) = pub_g (pb_pc p) -> is_some TPub (sh_plock s) = pub_p (pb_pc p) -> pub_step cf s p = Some (Ok (s1, p1)) ->
  own (sh_glock s1) = own (sh_glock s) /\ own (sh_plock s1) = own (sh_plock s) /\ s1 = hush s (sh_flag s1) (sh_glock s1) (sh_plock s1) (sh_global s) (sh_trace s1).
Proof.
  intros s p s1 p1 Lg Lp St. unfold pub_step, lock_g, lock_p in St.
  assert (Rel : forall a, is_some TPub a = true -> own a = None) by (intros [[]|] H; try discriminate H; reflexivity).
  destruct (pb_pc p) as [| | | | | | | | |r|r o] eqn:Pc; cbn [pub_g pub_p] in Lg, Lp.
  all: try (destruct (locked (sh_glock s)) eqn:Lk; [discriminate St|]).
  all: try (destruct (locked (sh_plock s)) eqn:Lk; [discriminate St|]).
  4: destruct (graph_scans s) as [scans|]; [|discriminate St]; cbn [bind] in St; destruct (occ_get_msg _ _) as [[grid msg]|]; [|discriminate St]; cbn [bind] in St.
  6: destruct (the_graph cf s) as [g|]; [|discriminate St]; cbn [bind] in St; destruct (graph_get_msg _ _) as [msg|]; [|discriminate St]; cbn [bind] in St.
  all: injection St as <- <-.
  all: cbn [sh_glock sh_plock set_glock set_plock set_flag unlock_g unlock_p note].
  all: (split; [first [reflexivity|rewrite (own_free _ Lk); reflexivity|rewrite (Rel _ Lg); reflexivity]|]);
    (split; [first [reflexivity|rewrite (own_free _ Lk); reflexivity|rewrite (Rel _ Lp); reflexivity]|]); destruct s; reflexivity.
Qed.

(** ** The simulation *)
(** In the run with the callbacks alone: the same data, except that the global
    matcher may differ while nobody asks for it. *)
Definition mode_ok (s : shared T) (sp : spin T) (lo : looper T) (gm : option (matcher T)) : Prop :=
  (sh_enable s = true /\ use_filter cf = false /\ asks_global (sp_pc sp) = false /\ loop_calm (lp_pc lo)) \/
  (sh_enable s = false /\ lp_pc lo = LSleep /\ gm = sh_global s).
Definition lulled (m m' : mapper T) : Prop :=
  mp_spin m' = mp_spin m /\
  exists fl gm tr, mp_sh m' = hush (mp_sh m) fl (own (sh_glock (mp_sh m))) (own (sh_plock (mp_sh m))) gm tr /\ mode_ok (mp_sh m) (mp_spin m) (mp_loop m) gm.

Definition steady (on : bool) (e : event T) : Prop :=
  match e with EvConfigure a _ => if on then Z.testbit a 0 = true \/ Z.testbit a 1 = false else Z.testbit a 0 = false | _ => True end.
(** Neither callback steps nor permitted messages change the mode. *)
Lemma deliver_mode : forall s sp e s1 sp1, deliver cf s sp e = Some (Ok (s1, sp1)) -> steady (sh_enable s) e ->
  sh_enable s1 = sh_enable s /\ (sh_enable s = true -> use_filter cf = false -> asks_global (sp_pc sp1) = false).
Proof.
  intros s sp e s1 sp1 D St. unfold deliver in D. destruct (sp_pc sp) eqn:Psp; try discriminate D. destruct e as [e|e|a f]; [injection D as D|injection D as D|].
  - unfold laser_begin, learn_laser in D.
    assert (Lr : sp_pc (learn_range sp (le_msg e)) = SIdle) by exact Psp.
    destruct (sp_frame (learn_range sp (le_msg e)) =? "")%string.
    + destruct (le_laser e) as [t|]; [|cbn [bind] in D; injection D as <- <-; rewrite Lr; auto].
      destruct (use_filter cf || negb (sh_enable s))%bool eqn:U.
      * destruct (graph_scans s) as [scans|]; [|discriminate D]. cbn [bind] in D. destruct (add_scans _ _ _) as [g'|]; [|discriminate D]. cbn [bind sh_init set_global] in D.
        split; [|intros En Uf; rewrite En, Uf in U; discriminate U].
        destruct (sh_init s); [|injection D as <- <-; reflexivity]. destruct (le_start e) as [start|]; [|injection D as <- <-; reflexivity].
        destruct (guess_pose cf _ _) as [guess|]; [|injection D as <- <-; reflexivity].
        destruct (sweep_ns _ _) as [ns|]; [|discriminate D]. cbn [bind] in D. destruct (le_end e ns) as [end_|]; [|injection D as <- <-; reflexivity].
        destruct (scan_points _ _ _ _ _ _) as [pts|]; [|discriminate D]. cbn [bind] in D. unfold alloc in D. injection D as <- <-. reflexivity.
      * cbn [bind sh_init set_global] in D.
        destruct (sh_init s); [|injection D as <- <-; cbn; rewrite Psp; auto]. destruct (le_start e) as [start|]; [|injection D as <- <-; cbn; rewrite Psp; auto].
        destruct (guess_pose cf _ _) as [guess|]; [|injection D as <- <-; cbn; rewrite Psp; auto].
        destruct (sweep_ns _ _) as [ns|]; [|discriminate D]. cbn [bind] in D. destruct (le_end e ns) as [end_|]; [|injection D as <- <-; cbn; rewrite Psp; auto].
        destruct (scan_points _ _ _ _ _ _) as [pts|]; [|discriminate D]. cbn [bind] in D. unfold alloc in D. injection D as <- <-.
        split; [reflexivity|]. intros En Uf. cbn. rewrite Uf, En. reflexivity.
    + cbn [bind] in D. destruct (sh_init s); [|injection D as <- <-; rewrite Lr; auto]. destruct (le_start e) as [start|]; [|injection D as <- <-; rewrite Lr; auto].
      destruct (guess_pose cf _ _) as [guess|]; [|injection D as <- <-; rewrite Lr; auto].
      destruct (sweep_ns _ _) as [ns|]; [|discriminate D]. cbn [bind] in D. destruct (le_end e ns) as [end_|]; [|injection D as <- <-; rewrite Lr; auto].
      destruct (scan_points _ _ _ _ _ _) as [pts|]; [|discriminate D]. cbn [bind] in D. unfold alloc in D. injection D as <- <-.
      split; [reflexivity|]. intros En Uf. cbn. rewrite Uf, En. reflexivity.
  - unfold pose_begin in D. destruct (sh_enable s && sh_init s)%bool; [injection D as <- <-; rewrite Psp; auto|]. destruct (negb _); [injection D as <- <-; rewrite Psp; auto|].
    destruct (pe_odom e) as [t|]; [|injection D as <- <-; rewrite Psp; auto]. destruct (sp_filter sp) as [f0|].
    + destruct (filter_init _ _ _ _ _ _ _ _) as [f'|]; [|discriminate D]. cbn [bind] in D. injection D as <- <-. auto.
    + destruct (sh_enable s) eqn:En; injection D as <- <-; auto.
  - unfold configure_begin in D. injection D as <- <-. cbn [steady] in St. cbn [sh_enable sp_pc at_pc].
    change ENABLE_MAPPING with (2 ^ 0)%Z. change DISABLE_MAPPING with (2 ^ 1)%Z. rewrite !has_bit_testbit by lia.
    split.
    + destruct (sh_enable s) eqn:En.
      * destruct (Z.testbit a 0); [reflexivity|]. destruct St as [St|St]; [discriminate St|]. rewrite St. exact En.
      * rewrite St. destruct (Z.testbit a 1); [reflexivity|exact En].
    + intros _ _. cbn. destruct (has_bit a LOAD_FROM_FILE); [reflexivity|]. destruct (has_bit a SAVE_TO_FILE); reflexivity.
Qed.
Lemma spin_mode : forall s sp s1 sp1, spin_step cf s sp = Some (Ok (s1, sp1)) -> sh_enable s1 = sh_enable s /\ asks_global (sp_pc sp1) = false.
Proof.
  intros s sp s1 sp1 D. unfold spin_step in D.
  destruct (sp_pc sp) as [|p o n d|p o|p o c|p o c|p o c|p o|p o|p o|p o u|p o u|e o|e o|r o|r o|r o|f|f| |] eqn:Psp; unfold lock_g, lock_p in D.
  all: try (destruct (locked (sh_glock s)); [discriminate D|]).
  all: try (destruct (locked (sh_plock s)); [discriminate D|]).
  all: try discriminate D.
  all: try (injection D as <- <-; split; reflexivity).
  - unfold filter_callback in D. destruct (deref (sh_heap s) p) as [sc|]; [|discriminate D]. cbn [bind] in D. destruct (sp_filter sp) as [f0|]; [|discriminate D].
    destruct (filter_update _ _ _ _ _) as [f1|]; [|discriminate D]. cbn [bind] in D. destruct (sh_global s) as [g|]; [|discriminate D].
    destruct (filter_measure _ _) as [f2|]; [|discriminate D]. cbn [bind] in D. destruct (filter_resample _ _ _ _) as [f3|]; [|discriminate D]. cbn [bind] in D.
    injection D as <- <-. split; reflexivity.
  - destruct (sh_scans s) as [|b bs]; [injection D as <- <-; split; reflexivity|]. unfold local_match in D.
    destruct (graph_scans s) as [scans|]; [|discriminate D]. cbn [bind] in D. destruct (rolling_window _ _) as [window|]; [|discriminate D]. cbn [bind] in D.
    destruct (sp_local sp) as [m|]; [|discriminate D]. destruct (add_scans _ _ _) as [m'|]; [|discriminate D]. cbn [bind] in D.
    destruct (deref (sh_heap s) p) as [sc|]; [|discriminate D]. cbn [bind] in D. destruct (score_scan _ _) as [v|]; [|discriminate D]. cbn [bind] in D.
    destruct (match_scan _ _ _ _ _) as [[[score corr] cov]|]; [|discriminate D]. cbn [bind] in D. injection D as <- <-. split; reflexivity.
  - destruct (match rev (sh_scans s) with [] => Fault OutOfBounds | b :: _ => deref (sh_heap s) b end) as [back|]; [|discriminate D]. cbn [bind] in D.
    destruct (deref (sh_heap s) p) as [sc|]; [|discriminate D]. cbn [bind] in D. injection D as <- <-. split; reflexivity.
  - unfold track_match in D. destruct (deref (sh_heap s) p) as [sc|]; [|discriminate D]. cbn [bind] in D. destruct (sh_global s) as [g|]; [|discriminate D].
    destruct (score_scan _ _) as [v|]; [|discriminate D]. cbn [bind] in D.
    destruct (match_scan _ _ _ _ _) as [[[score corr] cov]|]; [|discriminate D]. cbn [bind] in D. injection D as <- <-. split; reflexivity.
  - destruct (deref (sh_heap s) p) as [sc|]; [|discriminate D]. cbn [bind] in D. injection D as <- <-. destruct u; split; reflexivity.
  - unfold pose_graph in D. destruct (the_graph cf s) as [g|]; [|discriminate D]. cbn [bind] in D.
    destruct (find_nearest _ _ _ _ _) as [[|i l]|]; [| |discriminate D]; cbn [bind] in D; [injection D as <- <-; split; reflexivity|].
    unfold alloc in D. destruct (vec_get _ (Z.of_nat i)) as [from|]; [|discriminate D]. cbn [bind] in D. injection D as <- <-. split; reflexivity.
  - destruct (the_graph cf s) as [g|]; [|discriminate D]. cbn [bind] in D. injection D as <- <-. split; reflexivity.
Qed.

Lemma own_next : forall a b b', lock_next TSpin a (own a) b b' -> b' = own b.
Proof. intros a b b' [[-> ->]|[-> [->| ->]]]; reflexivity. Qed.
Lemma own_ok : forall a, a = None -> own a = None.
Proof. intros a ->. reflexivity. Qed.

Lemma lulled_deliver : forall e m m1 m', lulled m m' -> steady (sh_enable (mp_sh m)) e -> step cf (Deliver e) m = Some (Ok m1) ->
  sh_enable (mp_sh m1) = sh_enable (mp_sh m) /\ exists m1', step cf (Deliver e) m' = Some (Ok m1') /\ lulled m1 m1'.
Proof.
  intros e m m1 m' (Es & fl & gm & tr & Eh & Mo) Sd St. destruct m as [s sp lo pb], m' as [s' sp' lo' pb']. cbn [mp_sh mp_spin mp_loop mp_pub] in *. subst sp' s'.
  cbn [step mp_sh mp_spin mp_loop mp_pub] in *.
  pose proof (deliver_follows cf s sp e fl (own (sh_glock s)) (own (sh_plock s)) gm tr) as F.
  destruct (deliver cf s sp e) as [[[s1 x]|]|] eqn:D; try discriminate St. cbn in St. injection St as <-.
  destruct F as (fl1 & gl1 & pl1 & gm1 & new & -> & _ & _ & Ng & Np & Nm). destruct (deliver_mode s sp e s1 x D Sd) as [En Ask]. cbn [mp_sh].
  split; [exact En|]. eexists. split; [reflexivity|]. split; [reflexivity|]. exists fl1, gm1, (new ++ tr). cbn [mp_sh mp_spin mp_loop].
  rewrite <- (own_next _ _ _ Ng), <- (own_next _ _ _ Np). split; [reflexivity|]. unfold mode_ok. rewrite En.
  destruct Mo as [(E & U & G & L)|(E & L & ->)]; [left; auto|right]. split; [exact E|]. split; [exact L|]. destruct Nm as [[-> ->]| ->]; reflexivity.
Qed.
Lemma lulled_spin : forall m m1 m', lulled m m' -> step cf Spin m = Some (Ok m1) ->
  sh_enable (mp_sh m1) = sh_enable (mp_sh m) /\ exists m1', step cf Spin m' = Some (Ok m1') /\ lulled m1 m1'.
Proof.
  intros m m1 m' (Es & fl & gm & tr & Eh & Mo) St. destruct m as [s sp lo pb], m' as [s' sp' lo' pb']. cbn [mp_sh mp_spin mp_loop mp_pub] in *. subst sp' s'.
  cbn [step mp_sh mp_spin mp_loop mp_pub] in *.
  assert (Gm : asks_global (sp_pc sp) = true -> gm = sh_global s).
  { intro Q. destruct Mo as [(_ & _ & G & _)|(_ & _ & E)]; [rewrite Q in G; discriminate G|exact E]. }
  pose proof (spin_follows cf s sp fl (own (sh_glock s)) (own (sh_plock s)) gm tr (own_ok _) (own_ok _) Gm) as F.
  destruct (spin_step cf s sp) as [[[s1 x]|]|] eqn:D; try discriminate St. cbn in St. injection St as <-.
  destruct F as (fl1 & gl1 & pl1 & gm1 & new & -> & _ & _ & Ng & Np & Nm). destruct (spin_mode s sp s1 x D) as [En Ask]. cbn [mp_sh].
  split; [exact En|]. eexists. split; [reflexivity|]. split; [reflexivity|]. exists fl1, gm1, (new ++ tr). cbn [mp_sh mp_spin mp_loop].
  rewrite <- (own_next _ _ _ Ng), <- (own_next _ _ _ Np). split; [reflexivity|]. unfold mode_ok. rewrite En.
  destruct Mo as [(E & U & G & L)|(E & L & ->)]; [left; auto|right]. split; [exact E|]. split; [exact L|]. destruct Nm as [[-> ->]| ->]; reflexivity.
Qed.
Lemma lulled_loop : forall m m1 m', lock_inv m -> lulled m m' -> step cf Loop m = Some (Ok m1) -> (sh_enable (mp_sh m) = true -> no_closure m1) ->
  sh_enable (mp_sh m1) = sh_enable (mp_sh m) /\ lulled m1 m'.
Proof.
  intros m m1 m' (_ & Lg & _) (Es & fl & gm & tr & Eh & Mo) St N. destruct m as [s sp lo pb]. cbn [mp_sh mp_spin mp_loop mp_pub] in *.
  cbn [step mp_sh mp_spin mp_loop mp_pub] in St. destruct (loop_step cf s lo) as [[[s1 x]|]|] eqn:D; try discriminate St. cbn in St. injection St as <-.
  destruct Mo as [(E & U & G & L)|(E & L & ->)].
  - destruct (loop_calm_step s lo s1 x Lg L D (N E)) as (L1 & Ow & Es1).
    assert (En : sh_enable s1 = sh_enable s) by (rewrite Es1; reflexivity). cbn [mp_sh]. split; [exact En|]. split; [exact Es|]. exists fl, gm, tr. cbn [mp_sh mp_spin mp_loop].
    rewrite Ow. split.
    + rewrite Eh. rewrite Es1. reflexivity.
    + left. rewrite En. auto.
  - unfold loop_step in D. rewrite L, E in D. injection D as <- <-. cbn [mp_sh]. split; [reflexivity|]. split; [exact Es|]. exists fl, (sh_global s), tr. split; [exact Eh|].
    right. auto.
Qed.
Lemma lulled_pub : forall m m1 m', lock_inv m -> lulled m m' -> step cf Pub m = Some (Ok m1) -> sh_enable (mp_sh m1) = sh_enable (mp_sh m) /\ lulled m1 m'.
Proof.
  intros m m1 m' (_ & _ & Lg & _ & _ & Lp) (Es & fl & gm & tr & Eh & Mo) St. destruct m as [s sp lo pb]. cbn [mp_sh mp_spin mp_loop mp_pub] in *.
  cbn [step mp_sh mp_spin mp_loop mp_pub] in St. destruct (pub_step cf s pb) as [[[s1 x]|]|] eqn:D; try discriminate St. cbn in St. injection St as <-.
  destruct (pub_calm_step s pb s1 x Lg Lp D) as (Og & Op & Es1). 
  assert (En : sh_enable s1 = sh_enable s) by (rewrite Es1; reflexivity). assert (Gl : sh_global s1 = sh_global s) by (rewrite Es1; reflexivity).
  cbn [mp_sh]. split; [exact En|]. split; [exact Es|]. exists fl, gm, tr. cbn [mp_sh mp_spin mp_loop].
  rewrite Og, Op. split; [rewrite Eh, Es1; reflexivity|]. unfold mode_ok. rewrite En, Gl. exact Mo.
Qed.

(** Runs of callbacks alone in which every label is enabled. *)
Fixpoint strictly (m : mapper T) (ls : list (label T)) (mf : mapper T) : Prop :=
  match ls with [] => m = mf | l :: rest => exists m1, step cf l m = Some (Ok m1) /\ strictly m1 rest mf end.
Fixpoint events (ls : list (label T)) : list (event T) :=
  match ls with [] => [] | Deliver e :: rest => e :: events rest | _ :: rest => events rest end.
Definition callback (l : label T) : Prop := match l with Deliver _ | Spin => True | _ => False end.

Lemma alone : forall ls m m' mf, lock_inv m -> lulled m m' -> exec cf m ls = Ok mf -> (sh_enable (mp_sh m) = true -> no_closure mf) ->
  (forall e, In (Deliver e) ls -> steady (sh_enable (mp_sh m)) e) ->
  exists ls' mf', strictly m' ls' mf' /\ Forall callback ls' /\ events ls' = handled_from cf m ls /\ lulled mf mf'.
Proof.
  induction ls as [|l ls IH]; intros m m' mf Li H E N Sd.
  { cbn in E. injection E as <-. exists [], m'. split; [reflexivity|]. split; [constructor|]. split; [reflexivity|exact H]. }
  cbn [exec handled_from] in *. destruct (step cf l m) as [[m1|f]|] eqn:St; cbn [bind] in E.
  - assert (Li1 : lock_inv m1) by (apply (lock_inv_step cf l m m1 Li); apply step_cases; exact St).
    assert (N1 : sh_enable (mp_sh m) = true -> no_closure m1) by (intro Q; exact (no_closure_back ls m1 mf E (N Q))).
    destruct l as [e| | |].
    + destruct (lulled_deliver e m m1 m' H (Sd e (or_introl eq_refl)) St) as (En & m1' & St' & H1). rewrite <- En in N, Sd.
      destruct (IH m1 m1' mf Li1 H1 E N (fun e0 I0 => Sd e0 (or_intror I0))) as (ls' & mf' & X & C & Ev & Y).
      exists (Deliver e :: ls'), mf'. split; [exists m1'; auto|]. split; [constructor; [exact I|exact C]|]. split; [cbn; rewrite Ev; reflexivity|exact Y].
    + destruct (lulled_spin m m1 m' H St) as (En & m1' & St' & H1). rewrite <- En in N, Sd.
      destruct (IH m1 m1' mf Li1 H1 E N (fun e0 I0 => Sd e0 (or_intror I0))) as (ls' & mf' & X & C & Ev & Y).
      exists (Spin :: ls'), mf'. split; [exists m1'; auto|]. split; [constructor; [exact I|exact C]|]. split; [exact Ev|exact Y].
    + destruct (lulled_loop m m1 m' Li H St N1) as (En & H1). rewrite <- En in N, Sd.
      exact (IH m1 m' mf Li1 H1 E N (fun e0 I0 => Sd e0 (or_intror I0))).
    + destruct (lulled_pub m m1 m' Li H St) as (En & H1). rewrite <- En in N, Sd.
      exact (IH m1 m' mf Li1 H1 E N (fun e0 I0 => Sd e0 (or_intror I0))).
  - discriminate E.
  - exact (IH m m' mf Li H E N (fun e0 I0 => Sd e0 (or_intror I0))).
Qed.

Lemma rest_no_spin : forall m m1, at_rest m -> step cf Spin m <> Some (Ok m1).
Proof. intros m m1 R. unfold at_rest in R. cbn [step]. unfold spin_step. rewrite R. discriminate. Qed.
Lemma deliver_rest : forall e m m1, step cf (Deliver e) m = Some (Ok m1) -> at_rest m.
Proof. intros e m m1. cbn [step]. unfold deliver, at_rest. destruct (sp_pc (mp_spin m)); [reflexivity|discriminate..]. Qed.

(** The callbacks alone are deterministic. *)
Lemma strictly_once : forall l1 m l2 a b, strictly m l1 a -> strictly m l2 b -> Forall callback l1 -> Forall callback l2 -> at_rest a -> at_rest b ->
  events l1 = events l2 -> a = b.
Proof.
  induction l1 as [|x l1 IH]; intros m l2 a b S1 S2 C1 C2 Ra Rb Ev.
  - cbn in S1. subst a. destruct l2 as [|y l2]; [exact S2|]. inversion C2 as [|? ? Cy C2']; subst. destruct S2 as (m1 & St & _).
    destruct y as [e| | |]; [discriminate Ev|exfalso; exact (rest_no_spin _ _ Ra St)|contradiction Cy..].
  - inversion C1 as [|? ? Cx C1']; subst. destruct S1 as (m1 & St1 & S1). destruct x as [e| | |]; [| |contradiction Cx..].
    + pose proof (deliver_rest _ _ _ St1) as Rm. destruct l2 as [|y l2]; [discriminate Ev|]. inversion C2 as [|? ? Cy C2']; subst. destruct S2 as (m2 & St2 & S2).
      destruct y as [e'| | |]; [|exfalso; exact (rest_no_spin _ _ Rm St2)|contradiction Cy..]. cbn in Ev. injection Ev as <- Ev. rewrite St1 in St2. injection St2 as <-.
      exact (IH m1 l2 a b S1 S2 C1' C2' Ra Rb Ev).
    + destruct l2 as [|y l2]; [cbn in S2; subst b; exfalso; exact (rest_no_spin _ _ Rb St1)|]. inversion C2 as [|? ? Cy C2']; subst. destruct S2 as (m2 & St2 & S2).
      destruct y as [e'| | |]; [exfalso; exact (rest_no_spin _ _ (deliver_rest _ _ _ St2) St1)| |contradiction Cy..]. rewrite St1 in St2. injection St2 as <-.
      exact (IH m1 l2 a b S1 S2 C1' C2' Ra Rb Ev).
Qed.

Lemma lulled_self : forall m, sh_glock (mp_sh m) = None -> sh_plock (mp_sh m) = None -> lp_pc (mp_loop m) = LSleep -> at_rest m ->
  (sh_enable (mp_sh m) = true -> use_filter cf = false) -> lulled m m.
Proof.
  intros m G P L R U. split; [reflexivity|]. exists (sh_flag (mp_sh m)), (sh_global (mp_sh m)), (sh_trace (mp_sh m)). rewrite G, P. cbn [own]. split.
  - destruct m as [s sp lo pb]. cbn in *. destruct s. cbn in *. subst. reflexivity.
  - unfold mode_ok. unfold at_rest in R. rewrite L, R. destruct (sh_enable (mp_sh m)); [left; auto|right; auto].
    split; [reflexivity|]. split; [apply U; reflexivity|]. split; [reflexivity|exact I].
Qed.
Lemma lulled_back : forall a a' b, lulled a b -> lulled a' b -> same_result a a'.
Proof.
  intros a a' b (E1 & f1 & g1 & t1 & H1 & _) (E2 & f2 & g2 & t2 & H2 & _). rewrite H2 in H1. rewrite E2 in E1. unfold same_result, hush in *.
  injection H1 as Q1 Q2 Q3 Q4 Q5 Q6 Q7 Q8 Q9 Q10 Q11 Q12 Q13. auto 10.
Qed.
Lemma init_facts : forall m, mapper_init cf = Ok m -> sh_glock (mp_sh m) = None /\ sh_plock (mp_sh m) = None /\ lp_pc (mp_loop m) = LSleep /\ at_rest m /\ sh_enable (mp_sh m) = cf_enable cf.
Proof.
  intros m E. unfold mapper_init in E. destruct (match cf_filter cf with None => Ok None | Some (mn, mx, mo) => _ end) as [f|]; [|discriminate E]. cbn [bind] in E. injection E as <-.
  unfold at_rest. cbn. destruct (cf_file cf); cbn; auto 10.
Qed.

Lemma timing : forall ls1 ls2 m1 m2, run cf ls1 = Ok m1 -> run cf ls2 = Ok m2 -> (cf_enable cf = true -> use_filter cf = false) ->
  (forall e, In (Deliver e) ls1 -> steady (cf_enable cf) e) -> (forall e, In (Deliver e) ls2 -> steady (cf_enable cf) e) ->
  (cf_enable cf = true -> no_closure m1 /\ no_closure m2) -> at_rest m1 -> at_rest m2 -> handled cf ls1 = handled cf ls2 -> same_result m1 m2.
Proof.
  intros ls1 ls2 m1 m2 E1 E2 U S1 S2 N R1 R2 Hd. unfold run in *. unfold handled in Hd. destruct (mapper_init cf) as [m0|f] eqn:E0; [|discriminate E1]. cbn [bind] in *.
  destruct (init_facts m0 E0) as (G & P & L & R & En).
  assert (Li : lock_inv m0) by (apply (lock_inv_reachable cf); exists []; unfold run; rewrite E0; reflexivity).
  assert (H0 : lulled m0 m0) by (apply lulled_self; try assumption; rewrite En; exact U). rewrite <- En in *.
  destruct (alone ls1 m0 m0 m1 Li H0 E1 (fun Q => proj1 (N Q)) S1) as (l1 & a & X1 & C1 & V1 & Y1).
  destruct (alone ls2 m0 m0 m2 Li H0 E2 (fun Q => proj2 (N Q)) S2) as (l2 & b & X2 & C2 & V2 & Y2).
  assert (Ra : at_rest a) by (unfold at_rest; rewrite (proj1 Y1); exact R1). assert (Rb : at_rest b) by (unfold at_rest; rewrite (proj1 Y2); exact R2).
  assert (a = b) as <- by (apply (strictly_once l1 m0 l2 a b X1 X2 C1 C2 Ra Rb); rewrite V1, V2; exact Hd).
  exact (lulled_back m1 m2 a Y1 Y2).
Qed.
End Timing.
