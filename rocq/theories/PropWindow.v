(** Property C170: matching never moves a scan further than the search window. *)

From Coq Require Import ZArith Reals List Bool Lia Lra String.
From Flocq Require Import Core BinarySingleNaN.
From Verif Require Import Outcome Arith SpecOrigin TypesModel ScanModel CellModel NdtModel MatcherModel ConstraintModel SolverModel GraphModel
  OccGridModel MotionModel FilterModel LaserModel MapperModel SpecPose SpecLaser SpecMapper SpecMapper2 SpecNode SpecBest SpecWindow
  RTactics NdtProofs MatcherProofs MapperProofs MapperSteps MapperInv1 MapperInv2 MapperInv5 MapperInv6 NodeProofs PropBest PropNode MapperWitness2.
Import ListNotations.

Section P.
Context {T : Type} {A : Arith T}.
Context (cf : config T) (L G : pose T -> Prop).
Context (HL : forall r k s score c cov, same_settings k (en_local cf r) ->
  match_scan (en_fuel cf) k s origin (en_garbage cf) = Ok (score, c, cov) -> L c).
Context (HG : forall r k s score c cov, same_settings k (en_global cf r) ->
  match_scan (en_fuel cf) k s origin (en_garbage cf) = Ok (score, c, cov) -> G c).

Definition from_local (k : matcher T) : Prop := exists r, settings k = settings (en_local cf r).
Definition from_global (k : matcher T) : Prop := exists r, settings k = settings (en_global cf r).

Definition window_inv (m : mapper T) : Prop :=
  (forall k, sp_local (mp_spin m) = Some k -> from_local k) /\
  (forall k, sh_global (mp_sh m) = Some k -> from_global k) /\
  (forall c i cand corr cov, lp_pc (mp_loop m) = LCorrect c i cand corr cov -> G corr) /\
  (forall p o n d, sp_pc (mp_spin m) = SFilter p o n d -> use_filter cf = true).

Lemma learned s sp g sp' : learns cf s sp g sp' -> (forall k, sp_local sp = Some k -> from_local k) -> (forall k, sh_global s = Some k -> from_global k) ->
  (forall k, sp_local sp' = Some k -> from_local k) /\ (forall k, g = Some k -> from_global k).
Proof.
  intros Le I1 I2. destruct Le as [E1 E2 E3|r m E1 E2 E3 E4].
  - rewrite E1, E3. split; assumption.
  - rewrite E2, E3. split; intros k E; injection E as <-; exists r; [reflexivity|].
    destruct E4 as [(_ & scans & _ & E4)|(_ & ->)]; [|reflexivity]. apply add_scans_settings in E4. exact E4.
Qed.

Lemma window_step l m m' : window_inv m -> step_tr cf m l m' -> window_inv m'.
Proof.
  intros (I1 & I2 & I3 & I4) H. destruct H as [e s' sp' Id D|s' sp' D|s' l' D|s' p' D]; unfold window_inv; cbn [mp_sh mp_spin mp_loop mp_pub].
  - destruct D.
    + match goal with Q : learns _ _ _ _ _ |- _ => destruct (learned _ _ _ _ Q I1 I2) as [J1 J2] end.
      split; [exact J1|]. split; [exact J2|]. split; [exact I3|]. intros p o n d E. match goal with P : sp_pc sp' = SIdle |- _ => rewrite P in E; discriminate E end.
    + match goal with Q : learns _ _ _ _ _ |- _ => destruct (learned _ _ _ _ Q I1 I2) as [J1 J2] end.
      split; [exact J1|]. split; [exact J2|]. split; [exact I3|]. intros p o n d E.
      match goal with P : sp_pc sp' = run_pc _ _ _ _ _ |- _ => rewrite P in E end. unfold run_pc in E.
      destruct (use_filter cf); [reflexivity|]. destruct (sh_enable (mp_sh m)); discriminate E.
    + split; [exact I1|]. split; [exact I2|]. split; [exact I3|exact I4].
    + split; [exact I1|]. split; [exact I2|]. split; [exact I3|]. intros p o n d E. discriminate E.
    + split; [exact I1|]. split; [exact I2|]. split; [exact I3|]. intros p o n d E. discriminate E.
    + split; [exact I1|]. split; [exact I2|]. split; [exact I3|]. intros p o n d E. discriminate E.
    + rewrite configure_eq. split; [exact I1|]. split; [exact I2|]. split; [exact I3|]. cbn [snd at_pc sp_pc].
      intros p o n d E. destruct (Z.testbit a 2), (Z.testbit a 3); discriminate E.
  - destruct D; cbn [sp_local sp_pc at_pc with_local with_filter];
      try (split; [exact I1|]; split; [exact I2|]; split; [exact I3|]; intros ? ? ? ? E; discriminate E).
    + split; [|split; [exact I2|split; [exact I3|intros ? ? ? ? E; discriminate E]]].
      intros k E. injection E as <-. match goal with Q : sp_local _ = Some ?k, M : add_scans _ _ _ = Ok _ |- _ =>
        destruct (I1 k Q) as [r Er]; apply add_scans_settings in M; exists r; rewrite M, <- Er; reflexivity end.
    + destruct upd; (split; [exact I1|]; split; [exact I2|]; split; [exact I3|]; intros ? ? ? ? E; discriminate E).
  - split; [exact I1|].
    assert (J2 : forall k, sh_global s' = Some k -> from_global k).
    { destruct D; try exact I2.
      - intros k E. cbn in E. injection E as <-. match goal with Q : sh_global _ = Some ?k, M : add_scans _ _ _ = Ok _ |- _ =>
          destruct (I2 k Q) as [r Er]; apply add_scans_settings in M; exists r; rewrite M, <- Er; reflexivity end.
      - destruct (put_all_frame (sh_scans (mp_sh m)) scans' (mp_sh m)) as [h E]. rewrite E. exact I2. }
    split; [exact J2|]. split; [|exact I4]. clear J2.
    intros c0 i0 cand0 corr0 cov0 P. destruct D; try discriminate P;
      try (unfold after_candidate in P; destruct (_ =? 0)%Z in P; discriminate P);
      try (match goal with Q : lp_pc _ = LSleep |- _ => rewrite Q in P; discriminate P end).
    injection P as <- <- <- <- <-. match goal with Q : sh_global _ = Some ?k, M : match_scan _ _ _ _ _ = Ok _ |- _ =>
        destruct (I2 k Q) as [r Er]; exact (HG r _ _ _ _ _ (settings_same _ _ Er) M) end.
  - destruct D; (split; [exact I1|]; split; [exact I2|]; split; [exact I3|exact I4]).
Qed.

Lemma window_reachable m : reachable cf m -> window_inv m.
Proof.
  apply (reachable_inv cf window_inv); [|intros l m1 m' I H; apply (window_step l m1 m'); assumption].
  intros m0 H. apply init_cases in H. destruct H as (s & f & -> & _ & ->). unfold window_inv. cbn [mp_sh mp_spin mp_loop sp_local sp_pc lp_pc].
  split; [intros k E; discriminate E|]. split; [|split; [intros ? ? ? ? ? E; discriminate E|intros ? ? ? ? E; discriminate E]].
  intros k E. destruct (cf_file cf); discriminate E.
Qed.

Lemma set_other (h : list (scan T)) p v q sc sc' : nth_error h q = Some sc -> nth_error (list_set h p v) q = Some sc' ->
  sc' = sc \/ q = p /\ sc' = v.
Proof.
  intros E1 E2. rewrite nth_error_list_set in E2. assert (Hq : (q < List.length h)%nat) by (apply nth_error_Some; rewrite E1; discriminate).
  destruct (Nat.eqb_spec p q) as [->|N].
  - right. split; [reflexivity|]. destruct (Nat.ltb_spec q (List.length h)); [|lia]. cbn in E2. injection E2 as <-. reflexivity.
  - left. cbn in E2. rewrite E1 in E2. injection E2 as <-. reflexivity.
Qed.

Theorem scans_move m l m' p sc sc' : reachable cf m -> step cf l m = Some (Ok m') ->
  nth_error (sh_heap (mp_sh m)) p = Some sc -> nth_error (sh_heap (mp_sh m')) p = Some sc' ->
  allowed_move cf L G l m m' p (s_pose sc) (s_pose sc').
Proof.
  intros R S E E'. pose proof (window_reachable m R) as (I1 & I2 & I3 & I4). destruct (heap_reachable cf m R) as [_ Ap].
  apply step_cases in S.
  assert (same : sh_heap (mp_sh m') = sh_heap (mp_sh m) -> allowed_move cf L G l m m' p (s_pose sc) (s_pose sc')).
  { intro Q. rewrite Q, E in E'. injection E' as <-. left. reflexivity. }
  assert (more : forall x, sh_heap (mp_sh m') = sh_heap (mp_sh m) ++ x -> allowed_move cf L G l m m' p (s_pose sc) (s_pose sc')).
  { intros x Q. rewrite Q, nth_error_app1, E in E' by (apply nth_error_Some; rewrite E; discriminate). injection E' as <-. left. reflexivity. }
  destruct S as [e s' sp' Id D|s' sp' D|s' l' D|s' p' D]; cbn [mp_sh] in *.
  - destruct D; try (apply same; reflexivity); [eapply more; reflexivity|]. apply same. rewrite configure_eq. reflexivity.
  - destruct D; try (apply same; reflexivity); match goal with P : sp_pc (mp_spin m) = _ |- _ => rewrite P in Ap; cbn [apart] in Ap end.
    + destruct (set_other _ _ _ _ _ _ E E') as [->|[-> ->]]; [left; reflexivity|]. right. left. split; [reflexivity|]. split; [apply Ap|]. left.
      match goal with P : sp_pc (mp_spin m) = _ |- _ => exact (I4 _ _ _ _ P) end.
    + destruct (set_other _ _ _ _ _ _ E E') as [->|[-> ->]]; [left; reflexivity|]. right. left. split; [reflexivity|]. split; [apply Ap|]. right. left.
      match goal with Q : nth_error (sh_heap (mp_sh m)) _ = Some sc0 |- _ => rewrite E in Q; injection Q as <- end.
      exists corr. split; [|reflexivity]. match goal with Q : sp_local _ = Some ?k, N : add_scans _ _ _ = Ok _, M : match_scan _ _ _ _ _ = Ok _ |- _ =>
        destruct (I1 k Q) as [r Er]; apply add_scans_settings in N; refine (HL r _ _ _ _ _ (settings_same _ _ _) M); rewrite N, <- Er; reflexivity end.
    + destruct (set_other _ _ _ _ _ _ E E') as [->|[-> ->]]; [left; reflexivity|]. right. left. split; [reflexivity|]. split; [apply Ap|]. right. right.
      match goal with Q : nth_error (sh_heap (mp_sh m)) _ = Some sc0 |- _ => rewrite E in Q; injection Q as <- end.
      exists corr. split; [|reflexivity]. match goal with Q : sh_global _ = Some ?k, M : match_scan _ _ _ _ _ = Ok _ |- _ =>
        destruct (I2 k Q) as [r Er]; exact (HG r _ _ _ _ _ (settings_same _ _ Er) M) end.
    + apply same. destruct upd; reflexivity.
    + eapply more; reflexivity.
    + eapply more; reflexivity.
  - destruct D; try (apply same; reflexivity).
    + destruct (set_other _ _ _ _ _ _ E E') as [->|[-> ->]]; [left; reflexivity|]. right. right. split; [reflexivity|]. left.
      match goal with Q : nth_error (sh_heap (mp_sh m)) _ = Some sc0 |- _ => rewrite E in Q; injection Q as <- end.
      exists corr. split; [|reflexivity]. match goal with P : lp_pc _ = LCorrect _ _ _ _ _ |- _ => exact (I3 _ _ _ _ _ P) end.
    + right. right. split; [reflexivity|]. right. exists (List.length scans). destruct (put_all_frame (sh_scans (mp_sh m)) scans' (mp_sh m)) as [h Eh].
      cbn [mp_sh]. rewrite Eh. reflexivity.
  - destruct D; apply same; reflexivity.
Qed.
End P.

(** ** Exact arithmetic *)
Lemma R_comparable : @comparable R RA.
Proof.
  split; [|split].
  - intros a. ra. rlt a a; [lra|reflexivity].
  - intros a b c. ra. rlt a b; rlt b c; rlt a c; intros; try discriminate; try reflexivity; lra.
  - intros a b c. ra. rle a b; rlt b c; rlt a c; intros; try discriminate; try reflexivity; lra.
Qed.

Lemma counted_R (size res : R) d l : (0 < res)%R -> (- size <= d)%R -> counted size res d l -> forall v, In v l -> (Rabs v <= Rabs size)%R.
Proof.
  intros Hr Hd H. induction H as [d H|d l H C IH]; [contradiction|]. ra_in H. destruct (Rlt_bool_spec d size) as [H'|H']; [|discriminate H]. intros v [<-|Hv].
  - apply Rabs_le. split; [|apply Rle_trans with size; [lra|apply Rle_abs]]. apply Rle_trans with (- size)%R; [|exact Hd]. pose proof (Rle_abs size). lra.
  - apply IH; [|exact Hv]. ra. lra.
Qed.

Lemma match_within_R fuel (k : matcher R) s cov r c cov' : counting_R k -> match_scan fuel k s origin cov = Ok (r, c, cov') -> within_R k c.
Proof.
  intros (H1 & H2) H. destruct (k_ndt k) as [g|] eqn:Hg.
  2:{ unfold match_scan in H. rewrite Hg in H. injection H as _ <- _. unfold within_R, origin. cbn [pox poy poth]. ra. rewrite Rabs_R0.
      repeat split; apply Rabs_pos. }
  destruct (C122_best_any_arithmetic R_comparable fuel k g s origin c cov cov' r Hg H) as (ths & ds & l & best & Ct & Cd & El & _ & B & _).
  destruct B as [(_ & -> & _)|(pre & post & E & _)].
  { unfold within_R, origin. cbn [pox poy poth]. ra. rewrite Rabs_R0. repeat split; apply Rabs_pos. }
  assert (Hi : In c (tried ths ds)) by (rewrite <- El, E, map_app; apply in_or_app; right; left; reflexivity).
  unfold tried in Hi. apply in_flat_map in Hi. destruct Hi as (th & Ht & Hi). apply in_flat_map in Hi. destruct Hi as (dx & Hx & Hi).
  apply in_map_iff in Hi. destruct Hi as (dy & <- & Hy). unfold within_R. cbn [pox poy poth].
  split; [|split].
  - eapply (counted_R _ _ _ ds H2); [|exact Cd|exact Hx]. ra. lra.
  - eapply (counted_R _ _ _ ds H2); [|exact Cd|exact Hy]. ra. lra.
  - eapply (counted_R _ _ _ ths H1); [|exact Ct|exact Ht]. ra. lra.
Qed.

Lemma same_within_R k k' c : same_settings k k' -> within_R k c -> within_R k' c.
Proof. intros (_ & _ & E1 & _ & E2 & _). unfold within_R. rewrite E1, E2. tauto. Qed.
Lemma same_counting_R k k' : same_settings k k' -> counting_R k' -> counting_R k.
Proof. intros (_ & E1 & _ & E2 & _). unfold counting_R. rewrite E1, E2. tauto. Qed.

(** ** Doubles *)
Lemma inside_64 (v size : b64) : is_finite v = true /\ (- B2R size <= B2R v < B2R size)%R -> is_finite v = true /\ (Rabs (B2R v) <= Rabs (B2R size))%R.
Proof.
  intros [F B]. split; [exact F|]. apply Rabs_le. pose proof (Rle_abs (B2R size)). lra.
Qed.
Lemma match_within_64 lm fuel (k : matcher b64) s cov r c cov' : counting_64 k ->
  match_scan (A := BA lm) fuel k s (origin (A := BA lm)) cov = Ok (r, c, cov') -> within_64 k c.
Proof.
  intros (F1 & F2 & H1 & F3 & F4 & H2) H. destruct (C122_stays_in_window lm fuel k s _ c cov cov' r F1 F2 H1 F3 F4 H2 H) as [->|(B1 & B2 & B3)].
  - unfold within_64, origin. cbn [pox poy poth]. change (nzero (A := BA lm)) with (z64 0).
    assert (Z0 : B2R (z64 0) = 0%R) by reflexivity. rewrite Z0, Rabs_R0. repeat split; apply Rabs_pos.
  - split; [|split]; apply inside_64; assumption.
Qed.
Lemma same_within_64 k k' c : same_settings k k' -> within_64 k c -> within_64 k' c.
Proof. intros (_ & _ & E1 & _ & E2 & _). unfold within_64. rewrite E1, E2. tauto. Qed.
Lemma same_counting_64 k k' : same_settings k k' -> counting_64 k' -> counting_64 k.
Proof. intros (_ & E1 & E2 & E3 & E4 & _). unfold counting_64. rewrite E1, E2, E3, E4. tauto. Qed.

(** C170, exact arithmetic: whatever the schedule, every change of the pose of a scan
    is one of those listed in [allowed_move], with corrections from the search
    windows of the two matchers. *)
Theorem C170_moves (cf : config R) m l m' p sc sc' :
  (forall r, counting_R (en_local cf r) /\ counting_R (en_global cf r)) ->
  reachable cf m -> step cf l m = Some (Ok m') ->
  nth_error (sh_heap (mp_sh m)) p = Some sc -> nth_error (sh_heap (mp_sh m')) p = Some sc' ->
  allowed_move cf (fun c => exists r, within_R (en_local cf r) c) (fun c => exists r, within_R (en_global cf r) c) l m m' p (s_pose sc) (s_pose sc').
Proof.
  intros Hc. apply scans_move.
  - intros r k s score c cov Hs M. exists r. apply (same_within_R k); [exact Hs|]. eapply match_within_R; [|exact M]. apply (same_counting_R _ _ Hs). apply Hc.
  - intros r k s score c cov Hs M. exists r. apply (same_within_R k); [exact Hs|]. eapply match_within_R; [|exact M]. apply (same_counting_R _ _ Hs). apply Hc.
Qed.

(** C170, doubles. *)
Theorem C170_moves_doubles lm (cf : config b64) m l m' p sc sc' :
  (forall r, counting_64 (en_local cf r) /\ counting_64 (en_global cf r)) ->
  reachable (A := BA lm) cf m -> step (A := BA lm) cf l m = Some (Ok m') ->
  nth_error (sh_heap (mp_sh m)) p = Some sc -> nth_error (sh_heap (mp_sh m')) p = Some sc' ->
  allowed_move (A := BA lm) cf (fun c => exists r, within_64 (en_local cf r) c) (fun c => exists r, within_64 (en_global cf r) c)
    l m m' p (s_pose sc) (s_pose sc').
Proof.
  intros Hc. apply (scans_move (A := BA lm)).
  - intros r k s score c cov Hs M. exists r. apply (same_within_64 k); [exact Hs|]. eapply match_within_64; [|exact M]. apply (same_counting_64 _ _ Hs). apply Hc.
  - intros r k s score c cov Hs M. exists r. apply (same_within_64 k); [exact Hs|]. eapply match_within_64; [|exact M]. apply (same_counting_64 _ _ Hs). apply Hc.
Qed.

(** C170: while mapping, the pose stored after a scan differs from the one predicted
    from odometry by a correction from the search window of the local matcher. *)
Theorem C170_tracked (cf : config R) m e start guess pts g b back score corr cov :
  (forall r, counting_R (en_local cf r)) -> reachable cf m ->
  accepted cf m e start guess pts -> cf_filter cf = None -> sh_enable (mp_sh m) = true -> mutexes m = (None, None) ->
  the_graph cf (mp_sh m) = Ok g -> gr_scans g = b ++ [back] ->
  matched_locally cf m (fresh_scan (Z.of_nat (List.length (gr_scans g))) guess pts) score corr cov ->
  exists m' r, exec cf m (Deliver (EvLaser e) :: repeat Spin 8) = Ok m' /\
    let k := en_local cf r in
    (Rabs (pox (sh_robot (mp_sh m')) - pox guess) <= Rabs (k_lin_size k))%R /\
    (Rabs (poy (sh_robot (mp_sh m')) - poy guess) <= Rabs (k_lin_size k))%R /\
    (Rabs (poth (sh_robot (mp_sh m')) - poth guess) <= Rabs (k_ang_size k))%R.
Proof.
  intros Hc R Acc Nf En Mu Gr Sc M.
  destruct (C85_mapping_scan cf m e start guess pts g b back score corr cov Acc Nf En Mu Gr Sc M) as (m' & sc & E & _ & _ & Ep & _ & _ & Er & _).
  destruct M as (g0 & w & k & k' & u & _ & _ & Lk & Ad & _ & Ma).
  destruct (window_reachable cf (fun _ => True) ltac:(intros; exact I) m R) as (I1 & _).
  destruct (I1 k Lk) as [r Es]. apply add_scans_settings in Ad.
  assert (Hs : same_settings k' (en_local cf r)) by (apply settings_same; rewrite Ad, <- Es; reflexivity).
  exists m', r. split; [exact E|]. rewrite Er, Ep. pose proof (match_within_R _ _ _ _ _ _ _ (same_counting_R _ _ Hs (Hc r)) Ma) as W.
  apply (same_within_R _ _ _ Hs) in W. destruct W as (W1 & W2 & W3). unfold corrected. cbn [pox poy poth]. cbv zeta. ra.
  replace (pox corr + pox guess - pox guess)%R with (pox corr) by ring.
  replace (poy corr + poy guess - poy guess)%R with (poy corr) by ring.
  replace (poth corr + poth guess - poth guess)%R with (poth corr) by ring. auto.
Qed.

(** A loop closure moves a scan of the graph: the assumptions of [C170_moves_doubles]
    hold and the pose changes. *)
Example C170_nonvacuous : forall lm : libm, exists cf m m' p sc sc',
  (forall r, counting_64 (en_local cf r) /\ counting_64 (en_global cf r)) /\
  reachable (A := BA (easy lm)) cf m /\ step (A := BA (easy lm)) cf Loop m = Some (Ok m') /\ In p (sh_scans (mp_sh m)) /\
  nth_error (sh_heap (mp_sh m)) p = Some sc /\ nth_error (sh_heap (mp_sh m')) p = Some sc' /\ pox (s_pose sc') <> pox (s_pose sc).
Proof.
  intro lm. set (cf := cf64 lm 0 1 0 None true (Some two_scans)).
  pose (moves := fun m m' : mapper b64 => match nth_error (sh_heap (mp_sh m)) 1, nth_error (sh_heap (mp_sh m')) 1 with
     | Some a, Some b => negb (Beqb (pox (s_pose a)) (pox (s_pose b))) && negb (is_nan (pox (s_pose a))) | _, _ => false end).
  destruct (ends64_in (run (A := BA (easy lm)) cf (firstn 10 closure_schedule))
    (fun m => match sh_scans (mp_sh m) with [_; 1%nat] => true | _ => false end &&
       match step (A := BA (easy lm)) cf Loop m with Some (Ok m') => moves m m' | _ => false end)) as (m & E & H); [vm_compute; reflexivity|].
  apply andb_prop in H. destruct H as [H1 H2]. destruct (step (A := BA (easy lm)) cf Loop m) as [[m'|]|] eqn:S; try discriminate H2.
  unfold moves in H2. destruct (nth_error (sh_heap (mp_sh m)) 1) as [a|] eqn:Ea; [|discriminate H2].
  destruct (nth_error (sh_heap (mp_sh m')) 1) as [b|] eqn:Eb; [|discriminate H2].
  exists cf, m, m', 1%nat, a, b. split.
  - intro r. assert (C : counting_64 matcher64).
    { unfold counting_64, matcher64. cbn [k_ang_size k_ang_res k_lin_size k_lin_res].
      assert (H0 : forall v : b64, Bsign v = false -> (0 <= B2R v)%R).
      { intros v Hv. destruct v as [s|s| |s mm ee Hb]; cbn in Hv |- *; try lra. subst s. apply F2R_ge_0. cbn. lia. }
      split; [vm_compute; reflexivity|]. split; [vm_compute; reflexivity|]. split; [apply H0; vm_compute; reflexivity|].
      split; [vm_compute; reflexivity|]. split; [vm_compute; reflexivity|apply H0; vm_compute; reflexivity]. }
    split; exact C.
  - split; [exists (firstn 10 closure_schedule); exact E|]. split; [exact S|].
    split. { destruct (sh_scans (mp_sh m)) as [|x [|[|[|y]] [|z w]]]; try discriminate H1. right. left. reflexivity. }
    split; [exact Ea|]. split; [exact Eb|]. intro Q. rewrite Q in H2. apply andb_prop in H2. destruct H2 as [H2 H3].
    destruct (pox (s_pose a)) as [s|s| |s mm ee Hb]; try discriminate H3.
    + destruct s; discriminate H2.
    + destruct s; discriminate H2.
    + revert H2. unfold Beqb, SpecFloat.SFeqb. cbn [B2SF SpecFloat.SFcompare]. destruct s; rewrite Z.compare_refl, Pos.compare_refl; discriminate.
Qed.

Print Assumptions C170_moves.
Print Assumptions C170_moves_doubles.
Print Assumptions C170_tracked.
Print Assumptions C170_nonvacuous.
