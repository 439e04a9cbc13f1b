(** Basic lemmas about the callbacks (C57, C67-C69). *)

From Coq Require Import ZArith List Bool String Lia.
From Verif Require Import Outcome Arith TypesModel ScanModel MatcherModel ConstraintModel
  SolverModel GraphModel OccGridModel MotionModel FilterModel LaserModel MapperModel SpecMapper
  NdtProofs.
Import ListNotations.
Local Open Scope outcome_scope.

Section P.
Context {T : Type} {A : Arith T}.
Context (cf : config T).

Lemma untouched_refl : forall s : shared T, untouched s s.
Proof. intro s. repeat split. Qed.

Lemma learn_laser_cases : forall (s : shared T) sp e r, learn_laser cf s sp e = Ok r ->
  r = None \/ exists s' sp', r = Some (s', sp') /\ untouched s s' /\
    sp_pc sp' = sp_pc sp /\ sp_filter sp' = sp_filter sp /\ sp_range_max sp' = sp_range_max sp /\
    (sp_frame sp <> EmptyString -> s' = s /\ sp' = sp) /\
    (sh_global s = None -> sp_frame sp = EmptyString -> sh_global s' <> None) /\
    (sh_global s' = None -> sh_global s = None).
Proof.
  intros s sp e r H. unfold learn_laser in H.
  destruct (String.eqb_spec (sp_frame sp) "") as [E|E].
  - destruct (le_laser e) as [t|]; [|left; injection H as <-; reflexivity].
    right.
    destruct (use_filter cf || negb (sh_enable s)).
    + apply bind_ok in H. destruct H as (scans & _ & H). apply bind_ok in H. destruct H as (g' & _ & H).
      injection H as <-. eexists _, _. split; [reflexivity|]. split; [repeat split|]. cbn.
      repeat split; try reflexivity; intros; congruence.
    + injection H as <-. eexists _, _. split; [reflexivity|]. split; [repeat split|]. cbn.
      repeat split; try reflexivity; intros; congruence.
  - right. injection H as <-. exists s, sp. repeat split; try reflexivity; try tauto.
Qed.

(** What delivering a laser message does. *)
Lemma laser_begin_cases : forall (s : shared T) sp e s' sp', sp_pc sp = SIdle ->
  laser_begin cf s sp e = Ok (s', sp') ->
  (sp_pc sp' = SIdle /\ untouched s s' /\ sp_filter sp' = sp_filter sp) \/
  (exists start end_ guess pts sc s1 sp1,
     learn_laser cf s (learn_range sp (le_msg e)) e = Ok (Some (s1, sp1)) /\ untouched s s1 /\
     sh_init s = true /\ le_start e = Some start /\ (exists ns, sweep_ns (List.length (lr_ranges (le_msg e))) (le_time_inc e) = Ok ns /\ le_end e ns = Some end_) /\
     guess_pose cf s (from_msg start) = Some guess /\
     scan_points (sp_inverted sp1) (sp_range_max sp1) (sp_laser sp1) (from_msg start) (from_msg end_) (le_msg e) = Ok pts /\
     sc = scan_set_points (scan_set_pose (scan_new (num_scans s)) guess) pts /\
     s' = set_heap s1 (sh_heap s ++ [sc]) /\ sp_filter sp' = sp_filter sp /\
     sp_pc sp' = (if use_filter cf then SFilter (List.length (sh_heap s)) (from_msg start) (le_normal e) (le_draws e)
                  else if sh_enable s then SMatch (List.length (sh_heap s)) (from_msg start)
                  else STrack (List.length (sh_heap s)) (from_msg start))).
Proof.
  intros s sp e s' sp' I H. unfold laser_begin in H. apply bind_ok in H. destruct H as (r & L & H).
  pose proof L as L0.
  apply learn_laser_cases in L. destruct L as [->|(s1 & sp1 & -> & U & P & F & _)].
  - injection H as <- <-. left. split; [exact I|]. split; [apply untouched_refl|reflexivity].
  - pose proof U as U'. destruct U as (U1 & U2 & U3 & U4 & U5 & U6 & U7 & U8 & U9 & U10 & U11 & U12).
    assert (stop : Ok (s1, sp1) = Ok (s', sp') ->
      sp_pc sp' = SIdle /\ untouched s s' /\ sp_filter sp' = sp_filter sp).
    { intro J. injection J as <- <-. split; [rewrite P; exact I|]. split; [exact U'|exact F]. }
    destruct (sh_init s1) eqn:In; [|left; apply stop; exact H].
    destruct (le_start e) as [start|] eqn:Es; [|left; apply stop; exact H].
    assert (G : guess_pose cf s1 (from_msg start) = guess_pose cf s (from_msg start)).
    { unfold guess_pose. rewrite U2, U7, U8. reflexivity. }
    rewrite G in H.
    destruct (guess_pose cf s (from_msg start)) as [guess|] eqn:Eg; [|left; apply stop; exact H].
    apply bind_ok in H; destruct H as (ns & Ns & H).
    destruct (le_end e ns) as [end_|] eqn:Ee; [|left; apply stop; exact H].
    apply bind_ok in H. destruct H as (pts & Hp & H).
    right. exists start, end_, guess, pts, (scan_set_points (scan_set_pose (scan_new (num_scans s)) guess) pts), s1, sp1.
    unfold alloc in H. cbv beta iota zeta in H. cbn [sh_enable set_heap] in H.
    injection H as <- <-.
    unfold num_scans. rewrite U2, U1, U10.
    repeat (split; [first [reflexivity|assumption|congruence|eexists; split; eassumption]|]). reflexivity.
Qed.

End P.
