(** C184: the particle cloud on display. *)

From Coq Require Import ZArith Reals List Bool String Lia.
From Flocq Require Import Core BinarySingleNaN.
From Verif Require Import Outcome Arith TypesModel ScanModel FilterModel MotionModel LaserModel MapperModel SpecMapper SpecMapper2 NdtProofs MapperSteps
  MapperWitness2 ConstraintModel CloudModel.
Import ListNotations.

Section Cloud.
Context {T : Type} {A : Arith T} (cf : config T).

(** The message a viewer got last in an execution that led to a state. *)
Inductive displays : mapper T -> option (list (pose_msg T)) -> Prop :=
| displays_start m : run cf [] = Ok m -> displays m None
| displays_step m l m' c : displays m c -> step cf l m = Some (Ok m') ->
    displays m' (match cloud_published m l m' with Some c' => Some c' | None => c end).

(** A step changes the filter only if it publishes it. *)
Lemma filter_kept : forall m l m', step cf l m = Some (Ok m') -> cloud_published m l m' = None -> sp_filter (mp_spin m') = sp_filter (mp_spin m).
Proof.
  intros m l m' S P. destruct l as [[e|e|a file]| | |].
  - apply step_cases in S. inversion S as [e0 s' sp' Id D| | |]; subst. inversion D; subst; assumption.
  - cbn [cloud_published] in P. cbn [step] in S. unfold deliver in S. destruct (sp_pc (mp_spin m)); try discriminate S.
    cbn [option_map] in S. injection S as S. apply bind_ok in S. destruct S as ([s sp] & B & S). injection S as <-. cbn [mp_spin].
    unfold pose_begin in B. destruct (sh_enable (mp_sh m) && sh_init (mp_sh m)); [injection B as <- <-; reflexivity|].
    destruct (negb (pe_frame e =? "map")%string); [injection B as <- <-; reflexivity|].
    destruct (pe_odom e) as [t|]; [|injection B as <- <-; reflexivity].
    unfold cloud_of in P. cbn [mp_spin] in P. destruct (sp_filter sp) eqn:F; [discriminate P|].
    destruct (sp_filter (mp_spin m)) as [f|] eqn:F0.
    + apply bind_ok in B. destruct B as (f' & _ & B). injection B as <- <-. discriminate F.
    + reflexivity.
  - apply step_cases in S. inversion S as [e0 s' sp' Id D| | |]; subst. inversion D; subst. cbn [mp_spin].
    unfold configure_begin. reflexivity.
  - cbn [cloud_published] in P. apply step_cases in S. inversion S as [|s' sp' D| |]; subst. cbn [mp_spin] in *.
    destruct D; try reflexivity. 
    match goal with Q : sp_pc (mp_spin m) = _ |- _ => rewrite Q in P end. discriminate P.
  - apply step_cases in S. inversion S; subst. reflexivity.
  - apply step_cases in S. inversion S; subst. reflexivity.
Qed.

(** The cloud on display is the one of the particles the filter has now; nothing is on
    display only as long as the filter was not used. *)
Theorem C184_cloud_current : forall m c, displays m c ->
  match c with
  | Some c => exists f, sp_filter (mp_spin m) = Some f /\ c = filter_msg f
  | None => exists m0, run cf [] = Ok m0 /\ sp_filter (mp_spin m) = sp_filter (mp_spin m0)
  end.
Proof.
  intros m c D. induction D as [m E|m l m' c D IH S]; [exists m; split; [exact E|reflexivity]|].
  destruct (cloud_published m l m') as [c'|] eqn:P.
  - assert (Q : cloud_of m' = Some c').
    { unfold cloud_published in P. destruct l as [[e|e|a file]| | |]; try discriminate P.
      - destruct (_ && _); [discriminate P|]. destruct (negb _); [discriminate P|]. destruct (pe_odom e); [exact P|discriminate P].
      - destruct (sp_pc (mp_spin m)); try discriminate P. exact P. }
    unfold cloud_of in Q. destruct (sp_filter (mp_spin m')) as [f|]; [|discriminate Q]. injection Q as <-. exists f. split; reflexivity.
  - pose proof (filter_kept m l m' S P) as K. rewrite K. exact IH.
Qed.

(** Every execution has such a display. *)
Theorem C184_display_exists : forall m, reachable cf m -> exists c, displays m c.
Proof.
  intros m (ls & E). unfold run in E. apply bind_ok in E. destruct E as (m0 & E0 & E).
  assert (D0 : exists c, displays m0 c).
  { exists None. apply displays_start. unfold run. rewrite E0. reflexivity. }
  clear E0. revert m0 D0 E. induction ls as [|l ls IH]; intros m0 (c & D0) E; cbn [exec] in E.
  - injection E as <-. exists c. exact D0.
  - destruct (step cf l m0) as [[m1|]|] eqn:S; [|discriminate E|apply (IH m0); [exists c; exact D0|exact E]].
    apply (IH m1); [|exact E]. eexists. eapply displays_step; [exact D0|exact S].
Qed.
End Cloud.
Print Assumptions C184_cloud_current.
Print Assumptions C184_display_exists.

(** A laser message: the cloud published is that of the filter whose mean becomes the
    pose of the scan (and then of the robot, C87). *)
Theorem C184_cloud_of_the_pose : forall {T} {A : Arith T} (cf : config T) m m' p odom normal draws,
  sp_pc (mp_spin m) = SFilter p odom normal draws -> step cf Spin m = Some (Ok m') ->
  exists f sc, sp_filter (mp_spin m') = Some f /\ cloud_published m Spin m' = Some (filter_msg f) /\
    nth_error (sh_heap (mp_sh m')) p = Some sc /\ s_pose sc = mkPose (v0 (pf_mean f)) (v1 (pf_mean f)) (v2 (pf_mean f)).
Proof.
  intros T A cf m m' p odom normal draws Pc S. cbn [step] in S. unfold spin_step in S. rewrite Pc in S. cbn [option_map] in S. injection S as S.
  apply bind_ok in S. destruct S as ([s sp] & B & S). injection S as <-. apply bind_ok in B. destruct B as ([s1 sp1] & B & Q). injection Q as <- <-.
  unfold filter_callback in B. apply bind_ok in B. destruct B as (sc & D & B). destruct (sp_filter (mp_spin m)) as [f|]; [|discriminate B].
  apply bind_ok in B. destruct B as (f1 & _ & B). destruct (sh_global (mp_sh m)) as [g|]; [|discriminate B].
  apply bind_ok in B. destruct B as (f2 & _ & B). apply bind_ok in B. destruct B as (f3 & _ & B). injection B as <- <-.
  exists f3, (scan_set_pose sc (vec_pose (pf_mean f3))). split; [reflexivity|]. split; [unfold cloud_published; rewrite Pc; reflexivity|].
  split; [|reflexivity]. cbn [mp_sh put set_heap sh_heap]. apply deref_nth in D.
  rewrite nth_error_list_set, Nat.eqb_refl. assert (L : (p < List.length (sh_heap (mp_sh m)))%nat) by (apply nth_error_Some; rewrite D; discriminate).
  apply Nat.ltb_lt in L. rewrite L. reflexivity.
Qed.
Print Assumptions C184_cloud_of_the_pose.

Example C184_nonvacuous : forall lm : libm, let cf := cf64 lm 10 1 0 (Some (1%Z, 2%Z, motion64)) false (Some one_scan) in
  exists m c, displays (A := BA (easy lm)) cf m (Some c) /\ c <> [].
Proof.
  intros lm cf.
  destruct (ends64_in (run (A := BA (easy lm)) cf []) (fun m => match step (A := BA (easy lm)) cf (Deliver (pose_ev64 (z64 0) (z64 0) 0 0)) m with
    | Some (Ok m') => match cloud_published (A := BA (easy lm)) m (Deliver (pose_ev64 (z64 0) (z64 0) 0 0)) m' with Some (_ :: _) => true | _ => false end
    | _ => false end)) as (m & E & H).
  { vm_compute. reflexivity. }
  destruct (step (A := BA (easy lm)) cf (Deliver (pose_ev64 (z64 0) (z64 0) 0 0)) m) as [[m'|]|] eqn:S; try discriminate H.
  pose proof (displays_step (A := BA (easy lm)) cf m _ m' None (displays_start (A := BA (easy lm)) cf m E) S) as D.
  destruct (cloud_published (A := BA (easy lm)) m (Deliver (pose_ev64 (z64 0) (z64 0) 0 0)) m') as [[|x c]|]; try discriminate H.
  exists m', (x :: c). split; [exact D|discriminate].
Qed.
