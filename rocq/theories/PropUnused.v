(** C167: messages the node has no use for leave no trace; a standing robot adds nothing. *)

From Coq Require Import ZArith Reals List Bool Lra Lia String.
From Flocq Require Import Core BinarySingleNaN.
From Verif Require Import Outcome Arith TypesModel ScanModel NdtModel MatcherModel MotionModel LaserModel FilterModel MapperModel
  SpecPose SpecLaser SpecMapper SpecTiming SpecUnused RTactics NdtProofs LaserProofs MapperSteps MapperInv1 MapperInv2 MapperWitness2.
Import ListNotations.

Section Unused.
Context {T : Type} {A : Arith T} (cf : config T).

Lemma no_use_deliver : forall m e, no_use cf m e -> sp_pc (mp_spin m) = SIdle -> step cf (Deliver e) m = Some (Ok m).
Proof.
  intros m e N I. cbn [step]. unfold deliver. rewrite I. cbn [option_map]. do 2 f_equal.
  destruct m as [s sp l p]. cbn [mp_sh mp_spin mp_loop mp_pub] in *.
  destruct e as [e|e|a f]; cbn [no_use mp_sh mp_spin] in N.
  - destruct N as ((Fr & Rg) & N). cbn [mp_spin] in *. unfold laser_begin.
    assert (Q : learn_range sp (le_msg e) = sp) by (unfold learn_range; rewrite Rg; destruct sp; reflexivity). rewrite Q. clear Q.
    unfold learn_laser. destruct (String.eqb_spec (sp_frame sp) "") as [E|_]; [congruence|]. cbn [bind].
    destruct (sh_init s) eqn:In; [|reflexivity]. destruct N as [N|[N|[(start & Es & Ne & Sm)|(ns & En & Ee)]]]; [discriminate N|rewrite N; reflexivity| |].
    + rewrite Es. unfold guess_pose. destruct (sh_scans s); [congruence|]. rewrite Sm. reflexivity.
    + destruct (le_start e); [|reflexivity]. destruct (guess_pose cf s (from_msg p0)); [|reflexivity]. rewrite En. cbn [bind]. rewrite Ee. reflexivity.
  - unfold pose_begin. destruct N as [[E1 E2]|N]; [rewrite E1, E2; reflexivity|].
    destruct (sh_enable s && sh_init s); [reflexivity|]. destruct (String.eqb_spec (pe_frame e) "map"); [|reflexivity]. destruct N as [N|N]; [contradiction|]. cbn [negb]. rewrite N. reflexivity.
  - destruct N as (B0 & B1 & B2 & B3). unfold configure_begin.
    change ENABLE_MAPPING with (2 ^ 0)%Z. change DISABLE_MAPPING with (2 ^ 1)%Z. change LOAD_FROM_FILE with (2 ^ 2)%Z. change SAVE_TO_FILE with (2 ^ 3)%Z.
    rewrite !has_bit_testbit by lia. rewrite B0, B1, B2, B3. cbn [bind]. unfold at_pc. rewrite <- I. destruct sp; reflexivity.
Qed.

Lemma no_use_exec : forall m e ls, no_use cf m e -> exec cf m (Deliver e :: ls) = exec cf m ls.
Proof.
  intros m e ls N. cbn [exec]. destruct (sp_pc (mp_spin m)) eqn:I; try (cbn [step]; unfold deliver; rewrite I; reflexivity).
  rewrite (no_use_deliver m e N I). reflexivity.
Qed.

(** Leaving out messages of no use changes nothing, neither the state reached nor a failure. *)
Theorem C167_no_trace_partial : forall m ls ls', thinned cf m ls ls' -> exec cf m ls = exec cf m ls'.
Proof.
  intros m ls ls' H. induction H as [m|m l m1 ls ls' S H IH|m l ls ls' S H IH|m e ls ls' N H IH].
  - reflexivity.
  - cbn [exec]. rewrite S. cbn [bind]. exact IH.
  - cbn [exec]. rewrite S. exact IH.
  - rewrite (no_use_exec m e ls N). exact IH.
Qed.

Lemma background_keeps : forall l m m', background l = true -> step cf l m = Some (Ok m') ->
  sh_scans (mp_sh m') = sh_scans (mp_sh m) /\ same_poses (mp_sh m) (mp_sh m') /\ mp_spin m' = mp_spin m /\ sh_init (mp_sh m') = sh_init (mp_sh m).
Proof.
  intros l m m' B S. apply step_cases in S. destruct l; try discriminate B.
  - destruct (loop_frame cf m m' S) as (F1 & _ & F3 & F4 & _ & _ & _ & F8 & _). auto.
  - pose proof (pub_frame cf m m' S) as F. destruct F as ((F1 & F2 & F3) & F4 & F5 & F6 & F7 & F8 & F9 & F10). auto.
Qed.

Lemma standing_still : forall ls m, at_rest m -> laser_known m -> sh_scans (mp_sh m) <> [] ->
  standing (fun start => small_motion (cf_min_dist cf) (cf_min_rot cf) (sh_odom (mp_sh m)) (from_msg start) = true) ls ->
  exec cf m ls = exec cf m (filter background ls) /\
  (forall m', exec cf m ls = Ok m' -> sh_scans (mp_sh m') = sh_scans (mp_sh m) /\ same_poses (mp_sh m) (mp_sh m') /\ mp_spin m' = mp_spin m).
Proof.
  induction ls as [|l ls IH]; intros m I K N S.
  - split; [reflexivity|]. intros m' E. injection E as <-. repeat split.
  - assert (S' : standing (fun start => small_motion (cf_min_dist cf) (cf_min_rot cf) (sh_odom (mp_sh m)) (from_msg start) = true) ls) by (intros e H; apply S; right; exact H).
    destruct (background l) eqn:B.
    + cbn [filter]. rewrite B. cbn [exec]. destruct (step cf l m) as [[m1|f]|] eqn:St; cbn [bind].
      * destruct (background_keeps l m m1 B St) as (F1 & F2 & F3 & F4).
        destruct (IH m1) as [E1 E2]; [unfold at_rest; rewrite F3; exact I|unfold laser_known; rewrite F3; exact K|rewrite F1; exact N|destruct F2 as [_ ->]; exact S'|].
        split; [exact E1|]. intros m' E. destruct (E2 m' E) as (G1 & (G2 & G3) & G4). destruct F2 as [F2 F2']. repeat split; congruence.
      * split; [reflexivity|]. intros m' E. discriminate E.
      * apply IH; assumption.
    + assert (E0 : exec cf m (l :: ls) = exec cf m ls).
      { destruct l as [e| | |]; try discriminate B.
        - destruct (S e (or_introl eq_refl)) as (le & -> & Near). apply no_use_exec. split; [exact K|]. right.
          destruct (le_start le) as [start|] eqn:Es; [|left; reflexivity]. right. left. exists start. split; [reflexivity|]. split; [exact N|]. apply Near. reflexivity.
        - cbn [exec step]. unfold spin_step. unfold at_rest in I. rewrite I. reflexivity. }
      rewrite E0. cbn [filter]. rewrite B. apply IH; assumption.
Qed.

(** A standing robot: as if no message had come; no scan is added, nothing the executor
    thread knows changes, the tracked poses stay. *)
Theorem C167_standing : forall ls m, at_rest m -> laser_known m -> sh_scans (mp_sh m) <> [] ->
  standing (fun start => small_motion (cf_min_dist cf) (cf_min_rot cf) (sh_odom (mp_sh m)) (from_msg start) = true) ls ->
  exec cf m ls = exec cf m (filter background ls) /\
  (forall m', exec cf m ls = Ok m' -> sh_scans (mp_sh m') = sh_scans (mp_sh m) /\ same_poses (mp_sh m) (mp_sh m') /\ mp_spin m' = mp_spin m).
Proof. exact standing_still. Qed.
End Unused.
Print Assumptions C167_no_trace_partial.
Print Assumptions C167_standing.

(** In exact arithmetic "not enough" is the distance and the turn of the parameters. *)
Theorem C167_standing_exact : forall (cf : config R) ls m, (0 <= cf_min_dist cf)%R -> at_rest m -> laser_known m -> sh_scans (mp_sh m) <> [] ->
  standing (fun start => ~ moved (cf_min_dist cf) (cf_min_rot cf) (sh_odom (mp_sh m)) (from_msg start)) ls ->
  exec cf m ls = exec cf m (filter background ls) /\
  (forall m', exec cf m ls = Ok m' -> sh_scans (mp_sh m') = sh_scans (mp_sh m) /\ same_poses (mp_sh m) (mp_sh m') /\ mp_spin m' = mp_spin m).
Proof.
  intros cf ls m D I K N S. apply standing_still; try assumption. intros e He. destruct (S e He) as (l & -> & Near). exists l. split; [reflexivity|].
  intros start Es. apply small_motion_spec; [exact D|]. apply Near. exact Es.
Qed.
Print Assumptions C167_standing_exact.

(** The first message fixes the range limit and is dropped because the transform to the
    laser is missing; the reading of the second is then too far. *)
Definition short64 : event b64 :=
  EvLaser (mkLaserEv (mkLaser (z64 0) (z64 0) (z64 1) [z64 1]) "laser" None (Some (at64 0 0)) (z64 0) (fun _ => Some (at64 0 0)) (fun _ _ _ => z64 0) []).
Definition unlimited (lm : libm) : config b64 :=
  mkConfig b64 (z64 1) (z64 1) 0 false (z64 4) 1 0 None (z64 1) (z64 1) true (z64 (-1)) (z64 1) (z64 1) None
    eig64 search64 no_ceres64 10 (mat3_zero (A := BA lm)) (fun _ => matcher64) (fun _ => matcher64).
Definition far_reading : list (label b64) := Deliver (beam64 [b64_of 3 (-1)] 0 0) :: repeat Spin 5.
Definition points_seen (n : nat) (m : mapper b64) : bool :=
  idle64 m && match sh_scans (mp_sh m), sh_heap (mp_sh m) with [O], [sc] => (List.length (s_pts sc) =? n)%nat | _, _ => false end.
Lemma with_short : forall lm : libm, ends64 (run (A := BA (easy lm)) (unlimited lm) (Deliver short64 :: far_reading)) (points_seen 0) = true.
Proof. intro lm. vm_compute. reflexivity. Qed.
Lemma without_short : forall lm : libm, ends64 (run (A := BA (easy lm)) (unlimited lm) far_reading) (points_seen 1) = true.
Proof. intro lm. vm_compute. reflexivity. Qed.
Lemma short_dropped : forall lm : libm, ends64 (run (A := BA (easy lm)) (unlimited lm) [Deliver short64]) (fun m => idle64 m && match sh_heap (mp_sh m) with [] => true | _ => false end) = true.
Proof. intro lm. vm_compute. reflexivity. Qed.
Lemma points_seen_inv : forall n m, points_seen n m = true -> exists sc, sh_scans (mp_sh m) = [O] /\ sh_heap (mp_sh m) = [sc] /\ List.length (s_pts sc) = n.
Proof.
  intros n m H. unfold points_seen in H. apply andb_prop in H. destruct H as [_ H]. destruct (sh_scans (mp_sh m)) as [|[|] [|]]; try discriminate H.
  destruct (sh_heap (mp_sh m)) as [|sc [|]]; try discriminate H. apply Nat.eqb_eq in H. exists sc. auto.
Qed.
Theorem C167_no_trace_refuted : forall lm : libm, exists (cf : config b64) (e : event b64) (ls : list (label b64)) m0 m m' sc sc', let A := BA (easy lm) in
  run cf [Deliver e] = Ok m0 /\ at_rest m0 /\ sh_heap (mp_sh m0) = [] /\
  run cf (Deliver e :: ls) = Ok m /\ run cf ls = Ok m' /\ sh_heap (mp_sh m) = [sc] /\ sh_heap (mp_sh m') = [sc'] /\
  s_pts sc = [] /\ List.length (s_pts sc') = 1%nat.
Proof.
  intro lm. destruct (ends64_in _ _ (short_dropped lm)) as (m0 & E0 & H0). destruct (ends64_in _ _ (with_short lm)) as (m & E & H). destruct (ends64_in _ _ (without_short lm)) as (m' & E' & H').
  apply andb_prop in H0. destruct H0 as [I0 H0]. apply points_seen_inv in H. destruct H as (sc & _ & Hp & Ln). apply points_seen_inv in H'. destruct H' as (sc' & _ & Hp' & Ln').
  exists (unlimited lm), short64, far_reading, m0, m, m', sc, sc'. intro A.
  split; [exact E0|]. split; [unfold at_rest; unfold idle64 in I0; destruct (sp_pc (mp_spin m0)); [reflexivity|discriminate I0..]|].
  split; [destruct (sh_heap (mp_sh m0)); [reflexivity|discriminate H0]|]. split; [exact E|]. split; [exact E'|]. split; [exact Hp|]. split; [exact Hp'|].
  split; [destruct (s_pts sc); [reflexivity|discriminate Ln]|exact Ln'].
Qed.
Print Assumptions C167_no_trace_refuted.

(** A robot that mapped one scan and then stands still while the other threads work; and
    an initial pose that is refused. *)
Definition first_scan64 : list (label b64) := Deliver (beam64 [z64 1] 0 0) :: repeat Spin 5.
Definition stays64 : list (label b64) := [Deliver (beam64 [z64 1] 0 0); Pub; Deliver (beam64 [] 0 0); Loop; Loop; Deliver (beam64 [z64 1] 0 0)].
Definition known64 (m : mapper b64) : bool :=
  idle64 m && negb (sp_frame (mp_spin m) =? "")%string && negb (Bltb (sp_range_max (mp_spin m)) (z64 0)) && (List.length (sh_scans (mp_sh m)) =? 1)%nat && sh_enable (mp_sh m) && sh_init (mp_sh m).
Definition small64 (lm : libm) (m : mapper b64) : bool := small_motion (A := BA (easy lm)) (z64 1) (z64 1) (sh_odom (mp_sh m)) (from_msg (A := BA (easy lm)) (at64 0 0)).
Lemma first_run : forall lm : libm, ends64 (run (A := BA (easy lm)) (cf64 lm 0 1 0 None true None) first_scan64) (fun m => known64 m && small64 lm m) = true.
Proof. intro lm. vm_compute. reflexivity. Qed.
Example C167_nonvacuous : forall lm : libm, exists m, let A := BA (easy lm) in let cf := cf64 lm 0 1 0 None true None in
  run cf first_scan64 = Ok m /\ at_rest m /\ laser_known m /\ sh_scans (mp_sh m) <> [] /\
  standing (fun start => small_motion (cf_min_dist cf) (cf_min_rot cf) (sh_odom (mp_sh m)) (from_msg start) = true) stays64 /\
  thinned cf m [Deliver (pose_ev64 (z64 0) (z64 0) 0 0); Spin] [Spin].
Proof.
  intro lm. destruct (ends64_in _ _ (first_run lm)) as (m & E & H). apply andb_prop in H. destruct H as [H Sm]. unfold known64 in H. repeat (apply andb_prop in H; destruct H as [H ?]).
  assert (I : sp_pc (mp_spin m) = SIdle) by (unfold idle64 in H; destruct (sp_pc (mp_spin m)); [reflexivity|discriminate H..]).
  exists m. intros A cf. split; [exact E|]. split; [exact I|].
  split. { split; [intro Q; match goal with Q1 : negb (_ =? _)%string = true |- _ => rewrite Q in Q1; discriminate Q1 end|].
    match goal with Q1 : negb (Bltb _ _) = true |- _ => apply negb_true_iff in Q1; exact Q1 end. }
  split; [intro Q; match goal with Q1 : (List.length _ =? 1)%nat = true |- _ => rewrite Q in Q1; discriminate Q1 end|].
  split. { intros e He. cbn [stays64 In] in He. destruct He as [He|[He|[He|[He|[He|[He|[]]]]]]]; try discriminate He; injection He as <-; eexists; (split; [reflexivity|]); intros start Es; injection Es as <-; exact Sm. }
  apply th_drop; [left; split; assumption|]. apply th_idle; [cbn [step]; unfold spin_step; rewrite I; reflexivity|]. apply th_nil.
Qed.
