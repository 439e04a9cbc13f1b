(** C107, C108: where the node takes the robot to be. *)

From Coq Require Import ZArith Reals List Bool String Lia Lra.
From Flocq Require Import Core BinarySingleNaN.
From Verif Require Import Outcome Arith SpecOrigin NdtProofs TypesModel ScanModel NdtModel CellModel MatcherModel ConstraintModel
  SolverModel GraphModel OccGridModel MotionModel FilterModel LaserModel MapperModel SpecPose SpecLaser SpecMapper SpecMapper2 SpecNode SpecPlace
  LaserProofs MapperSteps MapperInv1 MapperInv2 MapperInv3 NodeProofs3 RTactics MapperWitness MapperWitness2.
Import ListNotations.
Local Open Scope outcome_scope.

Section P.
Context {T : Type} {A : Arith T}.
Context (cf : config T).

(** ** C107 *)
Definition stored_inv (m : mapper T) : Prop :=
  let s := mp_sh m in
  match sp_pc (mp_spin m) with
  | SInitOdom r o => sh_robot s = r
  | SInitDone r o => sh_robot s = r /\ sh_odom s = o
  | _ => last_stored (sh_trace s) = (sh_robot s, sh_odom s)
  end.

Definition no_poses (x : obs T) : Prop := match x with ObTf _ _ _ | ObLoad | ObPoses _ _ | ObInit _ _ => False | _ => True end.
Lemma loop_trace : forall s' l' m, loop_tr cf (mp_sh m) (mp_loop m) s' l' ->
  exists new, sh_trace s' = new ++ sh_trace (mp_sh m) /\ Forall no_poses new.
Proof.
  intros s' l' m D. destruct D; try (exists []; split; [reflexivity|constructor]);
    try (eexists [_]; split; [reflexivity|constructor; [exact I|constructor]]).
  destruct (put_all_frame (sh_scans (mp_sh m)) scans' (mp_sh m)) as [h ->].
  eexists [_]; split; [reflexivity|constructor; [exact I|constructor]].
Qed.
Lemma last_grow : forall new tr, Forall no_poses new -> last_stored (new ++ tr) = last_stored tr.
Proof. intros new tr N. induction N as [|x new N1 N2 IH]; [reflexivity|]. destruct x; try contradiction N1; exact IH. Qed.

Lemma stored_step : forall l m m', stored_inv m -> step_tr cf m l m' -> stored_inv m'.
Proof.
  intros l m m' I H. unfold stored_inv in *. cbv zeta in *.
  destruct H as [e s' sp' Id D|s' sp' D|s' l' D|s' p' D]; cbn [mp_sh mp_spin] in *.
  - rewrite Id in I. destruct D; cbn [at_pc sp_pc with_filter] in *;
      repeat match goal with P : sp_pc sp' = _ |- _ => rewrite P; clear P end; try exact I.
    all: try (unfold run_pc; destruct (use_filter cf), (sh_enable (mp_sh m)); exact I).
    all: try (rewrite configure_eq; cbn [fst snd at_pc sp_pc]; destruct (Z.testbit a 2), (Z.testbit a 3); exact I).
    all: rewrite Id; exact I.
  - destruct D; match goal with Q : sp_pc (mp_spin m) = _ |- _ => rewrite Q in I end; cbn [at_pc sp_pc with_filter with_local] in *; try exact I; try reflexivity.
    + destruct upd; reflexivity.
    + split; [exact I|reflexivity].
    + destruct I as [E1 E2]. cbn. congruence.
  - pose proof (loop_frame cf _ _ (T_loop cf m s' l' D)) as (_ & _ & [F1 F2] & _). cbn [mp_sh] in *. rewrite F1, F2.
    destruct (loop_trace s' l' m D) as (new & E & N). rewrite E, (last_grow new _ N). exact I.
  - destruct D; exact I.
Qed.
Lemma stored_reachable : forall m, reachable cf m -> stored_inv m.
Proof.
  apply reachable_inv; [|exact stored_step].
  intros m Im. apply init_cases in Im. destruct Im as (s & f & -> & _ & ->). unfold stored_inv. cbn. destruct (cf_file cf); reflexivity.
Qed.

(** ** C108 *)
Definition place_inv (m : mapper T) : Prop :=
  (placed (sh_trace (mp_sh m)) \/ sh_scans (mp_sh m) = [] \/ sh_init (mp_sh m) = false \/ between m) /\
  (forall e o, sp_pc (mp_spin m) = SGraphLock e o \/ sp_pc (mp_spin m) = SGraph e o -> sh_init (mp_sh m) = false) /\
  (sending m -> placed (sh_trace (mp_sh m))) /\ tf_placed (sh_trace (mp_sh m)).

Definition no_mark (x : obs T) : Prop := match x with ObTf _ _ _ | ObLoad => False | _ => True end.
Lemma placed_grow : forall (new tr : list (obs T)), (forall x, In x new -> x <> ObLoad) -> placed tr -> placed (new ++ tr).
Proof.
  induction new as [|x new IH]; intros tr N P; [exact P|]. assert (Q : placed (new ++ tr)) by (apply IH; [|exact P]; intros y Y; apply N; right; exact Y).
  pose proof (N x (or_introl eq_refl)) as Nx. cbn [app placed]. destruct x; try exact Q; try exact I. contradiction Nx. reflexivity.
Qed.
Lemma tf_grow : forall (new tr : list (obs T)), (forall x, In x new -> forall r o tf, x <> ObTf r o tf) -> tf_placed tr -> tf_placed (new ++ tr).
Proof.
  induction new as [|x new IH]; intros tr N P; [exact P|]. intros newer r o tf older E.
  destruct newer as [|y newer]; cbn [app] in E; injection E as E1 E2; [contradiction (N x (or_introl eq_refl) r o tf E1)|].
  apply (IH tr) in E2; [exact E2| |exact P]. intros z Z. apply N. right. exact Z.
Qed.

(** A step that publishes no transform and loads nothing. *)
Lemma place_plain : forall (m : mapper T) s' sp' l' p' new, place_inv m -> sh_trace s' = new ++ sh_trace (mp_sh m) ->
  (forall x, In x new -> no_mark x) ->
  (placed (sh_trace s') \/ sh_init s' = false \/ between (mkMapper s' sp' l' p') \/
    (sh_scans s' = sh_scans (mp_sh m) /\ sh_init s' = sh_init (mp_sh m) /\ (between m -> between (mkMapper s' sp' l' p')))) ->
  (forall e o, sp_pc sp' = SGraphLock e o \/ sp_pc sp' = SGraph e o -> sh_init s' = false) ->
  (sending (mkMapper s' sp' l' p') -> sending m) -> place_inv (mkMapper s' sp' l' p').
Proof.
  intros m s' sp' l' p' new (I1 & I2 & I3 & I4) E N C G Sd.
  assert (Pl : placed (sh_trace (mp_sh m)) -> placed (sh_trace s')).
  { rewrite E. apply placed_grow. intros x X ->. exact (N _ X). }
  split; [|split; [exact G|split]]; cbn [mp_sh].
  - destruct C as [C|[C|[C|(C1 & C2 & C3)]]]; [left; exact C|right; right; left; exact C|right; right; right; exact C|].
    destruct I1 as [H|[H|[H|H]]]; [left; apply Pl; exact H|right; left; congruence|right; right; left; congruence|right; right; right; exact (C3 H)].
  - intro H. apply Pl, I3, Sd, H.
  - rewrite E. apply tf_grow; [|exact I4]. intros x X r o tf ->. exact (N _ X).
Qed.

Lemma place_step : forall l m m', tf_calm m l -> place_inv m -> step_tr cf m l m' -> place_inv m'.
Proof.
  intros l m m' [Ct Cl] I H. pose proof I as (I1 & I2 & I3 & I4).
  destruct H as [e s' sp' Id D|s' sp' D|s' l' D|s' p' D].
  - assert (Nb : ~ between m) by (intros [(p & o & Q)|(p & o & Q)]; congruence).
    assert (K : forall s'' sp'', sh_trace s'' = sh_trace (mp_sh m) -> sh_scans s'' = sh_scans (mp_sh m) ->
        (sh_init s'' = sh_init (mp_sh m) \/ sh_init s'' = false) ->
        (forall e o, sp_pc sp'' = SGraphLock e o \/ sp_pc sp'' = SGraph e o -> sh_init s'' = false) ->
        place_inv (mkMapper s'' sp'' (mp_loop m) (mp_pub m))).
    { intros s'' sp'' E1 E2 E3 E4. apply (place_plain m _ _ _ _ []); [exact I|exact E1|intros x []| |exact E4|intro H; exact H].
      destruct E3 as [E3|E3]; [|right; left; exact E3]. right. right. right. split; [exact E2|]. split; [exact E3|]. intro B. contradiction (Nb B). }
    destruct D; try (apply K; try reflexivity; try (left; reflexivity); cbn [at_pc sp_pc with_filter]; intros e0 o0 [Q|Q]; congruence).
    + apply K; try reflexivity; [left; reflexivity|]. intros e0 o0 Q.
      match goal with P : sp_pc sp' = run_pc _ _ _ _ _ |- _ => rewrite P in Q end. unfold run_pc in Q.
      destruct (use_filter cf), (sh_enable (mp_sh m)); destruct Q as [Q|Q]; discriminate Q.
    + rewrite configure_eq. apply K; cbn [fst snd at_pc sp_pc].
      * reflexivity.
      * reflexivity.
      * cbn [sh_init set_init]. unfold after_mapping_bits. destruct (Z.testbit a 0); [left; reflexivity|]. destruct (Z.testbit a 1); [right; reflexivity|left; reflexivity].
      * intros e0 o0 Q. destruct (Z.testbit a 2), (Z.testbit a 3); destruct Q as [Q|Q]; discriminate Q.
  - assert (K : forall s'' sp'' new, sh_trace s'' = new ++ sh_trace (mp_sh m) -> (forall x, In x new -> no_mark x) ->
        (placed (sh_trace s'') \/ sh_init s'' = false \/ between (mkMapper s'' sp'' (mp_loop m) (mp_pub m)) \/
         (sh_scans s'' = sh_scans (mp_sh m) /\ sh_init s'' = sh_init (mp_sh m) /\ (between m -> between (mkMapper s'' sp'' (mp_loop m) (mp_pub m))))) ->
        (forall e o, sp_pc sp'' = SGraphLock e o \/ sp_pc sp'' = SGraph e o -> sh_init s'' = false) ->
        place_inv (mkMapper s'' sp'' (mp_loop m) (mp_pub m))).
    { intros s'' sp'' new E1 E2 E3 E4. apply (place_plain m _ _ _ _ new); try assumption. intro H; exact H. }
    assert (Nb : (forall p o, sp_pc (mp_spin m) <> SPoseLock p o true) -> (forall p o, sp_pc (mp_spin m) <> SPoseWrite p o true) -> ~ between m)
      by (intros N1 N2 [(p & o & Q)|(p & o & Q)]; [exact (N1 p o Q)|exact (N2 p o Q)]).
    destruct D; match goal with Q : sp_pc (mp_spin m) = _ |- _ => rename Q into Pc end; cbn [at_pc sp_pc with_filter with_local] in *;
      try (apply (K _ _ []); [reflexivity|intros x []| |cbn [at_pc sp_pc with_filter with_local]; intros e0 o0 [Q|Q]; discriminate Q];
        right; right; right; split; [reflexivity|]; split; [reflexivity|]; intro B; exfalso; revert B; apply Nb; intros; rewrite Pc; discriminate).
    + apply (K _ _ [ObConstraint ALaser c]); [reflexivity|intros x [<-|[]]; exact Logic.I| |cbn [at_pc sp_pc]; intros e0 o0 [Q|Q]; discriminate Q].
      right. right. right. split; [reflexivity|]. split; [reflexivity|]. intro B. exfalso. revert B. apply Nb; intros; rewrite Pc; discriminate.
    + apply (K _ _ [ObScan ALaser p]); [reflexivity|intros x [<-|[]]; exact Logic.I| |cbn [at_pc sp_pc]; intros e0 o0 [Q|Q]; discriminate Q].
      right. right. left. left. exists p, odom. reflexivity.
    + apply (K _ _ []); [reflexivity|intros x []| |cbn [at_pc sp_pc]; intros e0 o0 [Q|Q]; discriminate Q].
      right. right. right. split; [reflexivity|]. split; [reflexivity|].
      intros [(p0 & o0 & Q)|(p0 & o0 & Q)]; rewrite Pc in Q; [|discriminate Q]. injection Q as -> -> ->. right. exists p0, o0. reflexivity.
    + apply (K _ _ [ObPoses (s_pose sc) odom]); [destruct upd; reflexivity|intros x [<-|[]]; exact Logic.I| |cbn [at_pc sp_pc]; intros e0 o0 [Q|Q]; discriminate Q].
      left. destruct upd; exact Logic.I.
    + apply (K _ _ []); [reflexivity|intros x []|right; left; exact (I2 e odom (or_introl Pc))|]. intros _ _ _. exact (I2 e odom (or_introl Pc)).
    + apply (K _ _ [ObConstraint APose c; ObScan APose p]); [reflexivity|intros x [<-|[<-|[]]]; exact Logic.I|right; left; exact (I2 e odom (or_intror Pc))|].
      cbn [at_pc sp_pc]. intros e0 o0 [Q|Q]; discriminate Q.
    + apply (K _ _ [ObInit r o]); [reflexivity|intros x [<-|[]]; exact Logic.I|left; exact Logic.I|cbn [at_pc sp_pc]; intros e0 o0 [Q|Q]; discriminate Q].
    + pose proof (Cl eq_refl file Pc) as Ns. split; [right; right; left; reflexivity|]. split; [intros e0 o0 _; reflexivity|].
      split; [intro Sd; contradiction (Ns Sd)|]. cbn [mp_sh]. apply (tf_grow [ObLoad]); [|exact I4]. intros x [<-|[]] r o tf Q. discriminate Q.
    + apply (K _ _ [ObSave (graph_save g)]); [reflexivity|intros x [<-|[]]; exact Logic.I| |cbn [at_pc sp_pc]; intros e0 o0 [Q|Q]; discriminate Q].
      right. right. right. split; [reflexivity|]. split; [reflexivity|]. intro B. exfalso. revert B. apply Nb; intros; rewrite Pc; discriminate.
  - pose proof (loop_frame cf _ _ (T_loop cf m s' l' D)) as (F1 & _ & _ & _ & _ & _ & _ & F4 & _). cbn [mp_sh] in *.
    destruct (loop_trace s' l' m D) as (new & E & N). rewrite Forall_forall in N.
    apply (place_plain m _ _ _ _ new); [exact I|exact E| | | |intro H; exact H].
    + intros x X. specialize (N x X). destruct x; try exact Logic.I; exact N.
    + right. right. right. split; [exact F1|]. split; [exact F4|]. intro B. exact B.
    + intros e o Q. rewrite F4. exact (I2 e o Q).
  - assert (K : forall s'' p'' new, sh_trace s'' = new ++ sh_trace (mp_sh m) -> (forall x, In x new -> no_mark x) ->
        sh_scans s'' = sh_scans (mp_sh m) -> sh_init s'' = sh_init (mp_sh m) ->
        (sending (mkMapper s'' (mp_spin m) (mp_loop m) p'') -> sending m) -> place_inv (mkMapper s'' (mp_spin m) (mp_loop m) p'')).
    { intros s'' p'' new E1 E2 E3 E4 E5. apply (place_plain m _ _ _ _ new); try assumption.
      - right. right. right. split; [exact E3|]. split; [exact E4|]. intro B. exact B.
      - intros e o Q. rewrite E4. exact (I2 e o Q). }
    destruct D; match goal with Q : pb_pc (mp_pub m) = _ |- _ => rename Q into Pc end;
      try (apply (K _ _ []); [reflexivity|intros x []|reflexivity|reflexivity|unfold sending; cbn [mp_pub pat pb_pc]; rewrite Pc; intro Q; exact Q]).
    + apply (K _ _ []); [reflexivity|intros x []|reflexivity|reflexivity|]. unfold sending. cbn [mp_pub pat pb_pc]. destruct (sh_flag (mp_sh m)); intro Q; contradiction Q.
    + apply (K _ _ [ObMap scans m0]); [reflexivity|intros x [<-|[]]; exact Logic.I|reflexivity|reflexivity|]. intro Q. contradiction Q.
    + apply (K _ _ [ObMarkers g ms]); [reflexivity|intros x [<-|[]]; exact Logic.I|reflexivity|reflexivity|]. intro Q. contradiction Q.
    + destruct (sh_scans (mp_sh m)) as [|p ps] eqn:Sc.
      * apply (K _ _ []); [reflexivity|intros x []|exact Sc|reflexivity|]. intro Q. contradiction Q.
      * destruct (Ct eq_refl Pc) as [C1 C2].
        assert (P : placed (sh_trace (mp_sh m))) by (destruct I1 as [H|[H|[H|H]]]; [exact H|discriminate H|congruence|contradiction (C2 H)]).
        split; [left; exact P|]. split; [exact I2|]. split; [intros _; exact P|exact I4].
    + assert (P : placed (sh_trace (mp_sh m))) by (apply I3; unfold sending; rewrite Pc; exact Logic.I).
      split; [left; exact P|]. split; [exact I2|]. split; [intro Q; contradiction Q|]. cbn [mp_sh].
      intros newer r0 o0 tf older E. destruct newer as [|x newer]; cbn [note sh_trace app] in E.
      * assert (E2 : sh_trace (mp_sh m) = older) by congruence. rewrite <- E2. exact P.
      * assert (E2 : sh_trace (mp_sh m) = newer ++ ObTf r0 o0 tf :: older) by congruence. exact (I4 newer r0 o0 tf older E2).
Qed.

Lemma place_reach : forall m, reach_if cf tf_calm m -> place_inv m.
Proof.
  intros m R. induction R as [m Im|m l m' R IH Ok_ S].
  - apply init_cases in Im. destruct Im as (s & f & -> & _ & ->). unfold place_inv, tf_placed. cbn [mp_sh mp_spin sp_pc].
    assert (N : forall (tr : list (obs T)), tr = [] \/ tr = [ObLoad] -> forall newer r o tf older, tr = newer ++ ObTf r o tf :: older -> placed older).
    { intros tr [->| ->] newer r o tf older E; destruct newer as [|x newer]; try discriminate E. injection E as _ E. destruct newer; discriminate E. }
    destruct (cf_file cf); (split; [|split; [intros e o [Q|Q]; discriminate Q|split; [intro Q; contradiction Q|apply N]]]).
    + right. right. left. reflexivity.
    + right. reflexivity.
    + right. left. reflexivity.
    + left. reflexivity.
  - apply (place_step l m m'); [exact Ok_|exact IH|]. apply step_cases. exact S.
Qed.
End P.

(** C107: between callbacks the poses the node works with are those stored last,
    by an initial pose or a processed laser message; nothing else moves the robot. *)
Theorem C107_last_stored : forall {T} {A : Arith T} (cf : config T) m, reachable cf m -> sp_pc (mp_spin m) = SIdle ->
  last_stored (sh_trace (mp_sh m)) = (sh_robot (mp_sh m), sh_odom (mp_sh m)).
Proof. intros T A cf m R Id. pose proof (stored_reachable cf m R) as I. unfold stored_inv in I. cbv zeta in I. rewrite Id in I. exact I. Qed.
Print Assumptions C107_last_stored.

(** C107 on a map that is not empty: the pose predicted for a message is the last
    one, the initial pose in particular, moved by what odometry measured since. *)
Theorem C107_continues_partial : forall (cf : config R) m e start guess pts r o d, reachable cf m -> accepted cf m e start guess pts ->
  sh_scans (mp_sh m) <> [] -> last_stored (sh_trace (mp_sh m)) = (r, o) ->
  same_pose (compose o d) (from_msg start) -> same_pose (compose r d) guess.
Proof.
  intros cf m e start guess pts r o d R Ac N L D. pose proof Ac as (Id & _ & _ & _ & Hg & _).
  rewrite (C107_last_stored cf m R Id) in L. injection L as <- <-.
  unfold guess_pose in Hg. destruct (sh_scans (mp_sh m)); [contradiction|].
  destruct (small_motion _ _ _ _); [discriminate Hg|]. injection Hg as <-. apply odom_guess_rigid. exact D.
Qed.
Print Assumptions C107_continues_partial.

(** On an empty map every processed message puts the robot at the origin. *)
Theorem C107_origin : forall {T} {A : Arith T} (cf : config T) m e start guess pts, accepted cf m e start guess pts ->
  sh_scans (mp_sh m) = [] -> guess = origin.
Proof. intros T A cf m e start guess pts (_ & _ & _ & _ & Hg & _) N. unfold guess_pose in Hg. rewrite N in Hg. injection Hg as <-. reflexivity. Qed.
Print Assumptions C107_origin.

(** C107: false.  Odometry was not known at the first laser message, so the map
    is empty; mapping is switched off; the robot is localized at (5, 0).  It does
    not move; the next message takes it back to the origin. *)
Definition blind64 : event b64 :=
  EvLaser (mkLaserEv (mkLaser (z64 0) (z64 0) (z64 2) [z64 1]) "laser" (Some (at64 0 0)) None (z64 0) (fun _ => None) (fun _ _ _ => z64 0) []).
Definition lost_schedule : list (label b64) :=
  Deliver blind64 :: Deliver (EvConfigure 2 []) :: Deliver (pose_ev64 (z64 5) (z64 0) 0 0) :: repeat Spin 3.
Definition lost_rest : list (label b64) := Deliver (beam64 [z64 1] 0 0) :: repeat Spin 3.
Definition lost_cf (lm : libm) : config b64 := cf64 lm 10 1 0 None true None.
Definition robot_x (lm : libm) (x : Z) (m : mapper b64) : bool := let '(r, o) := last_stored (A := BA (easy lm)) (sh_trace (mp_sh m)) in
  idle64 m && beq (pox r) (z64 x) && beq (pox o) (z64 0) && beq (pox (sh_robot (mp_sh m))) (z64 x).
Lemma lost_run : forall lm : libm, ends64 (run (A := BA (easy lm)) (lost_cf lm) lost_schedule) (robot_x lm 5) = true.
Proof. intro lm. vm_compute. reflexivity. Qed.
Lemma lost_run2 : forall lm : libm, ends64 (run (A := BA (easy lm)) (lost_cf lm) (lost_schedule ++ lost_rest)) (robot_x lm 0) = true.
Proof. intro lm. vm_compute. reflexivity. Qed.
Lemma exec_app : forall {T} {A : Arith T} (cf : config T) ls ls' m m', exec cf m ls = Ok m' -> exec cf m (ls ++ ls') = exec cf m' ls'.
Proof.
  intros T A cf ls ls'. induction ls as [|l ls IH]; intros m m' E; cbn [exec app] in *; [injection E as <-; reflexivity|].
  destruct (step cf l m) as [[m1|f]|]; cbn [bind] in *; [apply IH; exact E|discriminate E|apply IH; exact E].
Qed.
Lemma run_split : forall {T} {A : Arith T} (cf : config T) ls ls' m m', run cf ls = Ok m -> run cf (ls ++ ls') = Ok m' -> exec cf m ls' = Ok m'.
Proof.
  intros T A cf ls ls' m m' E E'. unfold run in E, E'. apply bind_ok in E. destruct E as (m0 & E0 & E). rewrite E0 in E'. cbn [bind] in E'.
  rewrite (exec_app _ _ _ _ _ E) in E'. exact E'.
Qed.

Theorem C107_continues_refuted : forall lm : libm, exists m m',
  run (A := BA (easy lm)) (lost_cf lm) lost_schedule = Ok m /\ exec (A := BA (easy lm)) (lost_cf lm) m lost_rest = Ok m' /\
  robot_x lm 5 m = true /\ robot_x lm 0 m' = true.
Proof.
  intro lm. destruct (ends64_in _ _ (lost_run lm)) as (m & E & H). destruct (ends64_in _ _ (lost_run2 lm)) as (m' & E' & H').
  exists m, m'. split; [exact E|]. split; [exact (run_split (A := BA (easy lm)) (lost_cf lm) lost_schedule lost_rest m m' E E')|]. split; [exact H|exact H'].
Qed.
Print Assumptions C107_continues_refuted.

(** A robot localized on a map of one scan moves two metres. *)
Definition found_schedule : list (label R) :=
  [Deliver (EvLaser (mkLaserEv (mkLaser 0 0 2 [1]) "laser" (Some (pose_at 0 0)) None 0 (fun _ => None) (fun _ _ _ => 0) []));
   Deliver (EvConfigure 2 []); Deliver (EvPose (mkPoseEv "map" (pose_at 5 0) 1 1 1 (Some (pose_at 3 3)) (fun _ _ _ => 0))); Spin; Spin; Spin]%R.
Definition found_cf : config R := demo_cf 0 1 0 None true (Some [scan_file 0 0 0 []]).
Definition found_b (m : mapper R) : bool :=
  idle m && sh_init (mp_sh m) && negb (String.eqb (sp_frame (mp_spin m)) "") && match sh_scans (mp_sh m) with [] => false | _ => true end &&
  match sh_trace (mp_sh m) with ObInit _ _ :: _ => true | _ => false end.
Lemma found_run : ends (run found_cf found_schedule) found_b = true.
Proof. reflexivity. Qed.

Example C107_nonvacuous : exists m e start guess pts r o d,
  reachable found_cf m /\ accepted found_cf m e start guess pts /\ sh_scans (mp_sh m) <> [] /\
  (exists older, sh_trace (mp_sh m) = ObInit r o :: older) /\ last_stored (sh_trace (mp_sh m)) = (r, o) /\ same_pose (compose o d) (from_msg start).
Proof.
  destruct (ends_in _ _ found_run) as (m & E & H). unfold found_b in H. repeat (apply andb_prop in H; destruct H as [H ?]).
  rename H into Id, H3 into In, H2 into Fr, H1 into Sc, H0 into Tr. apply idle_pc in Id.
  destruct (sh_trace (mp_sh m)) as [|x older] eqn:Et; [discriminate Tr|]. destruct x as [| | | | | | | | | |r o|]; try discriminate Tr. clear Tr.
  assert (L : last_stored (sh_trace (mp_sh m)) = (sh_robot (mp_sh m), sh_odom (mp_sh m))).
  { apply (C107_last_stored found_cf); [exists found_schedule; exact E|exact Id]. }
  pose (start := pose_at (pox (sh_odom (mp_sh m)) + 2)%R 0%R).
  pose (e := (mkLaserEv (mkLaser 0 0 2 [1]) "laser" (Some start) (Some start) 0 (fun _ => Some start) (fun _ _ _ => 0) [] : laser_ev R)%R).
  assert (Sm : small_motion (cf_min_dist found_cf) (cf_min_rot found_cf) (sh_odom (mp_sh m)) (from_msg start) = false).
  { unfold small_motion. cbn [cf_min_dist cf_min_rot found_cf demo_cf]. apply andb_false_intro1. unfold start, from_msg, pose_at. cbn [pox poy ps_x ps_y].
    ra. apply Rlt_bool_false. nra. }
  destruct (sweep_exact 1 0%R) as (ns & Ns & _); [lia|lia|lra|cbn [Nat.sub INR]; lra|].
  assert (P : exists pts, scan_points (sp_inverted (mp_spin m)) (limit_after (sp_range_max (mp_spin m)) e) (sp_laser (mp_spin m)) (from_msg start) (from_msg start) (le_msg e) = Ok pts).
  { unfold scan_points. destruct (sp_inverted (mp_spin m)); eexists; reflexivity. }
  destruct P as [pts P]. destruct (relative_exists o (from_msg start)) as [d D].
  exists m, e, start, (odom_guess (sh_robot (mp_sh m)) (sh_odom (mp_sh m)) (from_msg start)), pts, r, o, d.
  split; [exists found_schedule; exact E|]. split; [|split; [|split; [exists older; exact Et|split; [rewrite Et; reflexivity|exact D]]]].
  - split; [exact Id|]. split; [exact In|]. split; [intro Q; rewrite Q in Fr; discriminate Fr|]. split; [reflexivity|].
    split; [unfold guess_pose; rewrite Sm; destruct (sh_scans (mp_sh m)); [discriminate Sc|reflexivity]|].
    exists ns, start. split; [exact Ns|]. split; [reflexivity|exact P].
  - intro Q. rewrite Q in Sc. discriminate Sc.
Qed.

(** C108: transforms before the robot is localized.  A node started from a map
    file publishes at once; a node that begins a map publishes between adding
    the first scan and storing its pose; after a map is loaded the pose in the old
    map is published. *)
Definition early_file : list (label b64) := repeat Pub 11.
Definition early_first : list (label b64) := Pub :: Deliver (beam64 [z64 1] 7 0) :: repeat Spin 3 ++ repeat Pub 6.
Definition early_load : list (label b64) := Deliver (beam64 [z64 1] 7 0) :: repeat Spin 5 ++ load64 two_scans ++ repeat Pub 11.
Fixpoint placed_b (tr : list (obs b64)) : bool :=
  match tr with [] | ObLoad :: _ => false | ObPoses _ _ :: _ | ObInit _ _ :: _ => true | _ :: tr => placed_b tr end.
Lemma placed_b_sound : forall tr, placed_b tr = false -> ~ placed tr.
Proof.
  induction tr as [|x tr IH]; intros H P; [exact P|]. destruct x; cbn [placed_b placed] in *; try (exact (IH H P)); try discriminate H. exact P.
Qed.
Fixpoint early_tf (tr : list (obs b64)) : bool :=
  match tr with [] => false | ObTf _ _ _ :: tr => negb (placed_b tr) || early_tf tr | _ :: tr => early_tf tr end.
Lemma early_sound : forall tr, early_tf tr = true -> ~ tf_placed tr.
Proof.
  induction tr as [|x tr IH]; intros H P; [discriminate H|].
  assert (Q : tf_placed tr) by (intros n r o tf older E; apply (P (x :: n) r o tf older); rewrite E; reflexivity).
  destruct x; cbn [early_tf] in H; try (exact (IH H Q)). apply orb_prop in H. destruct H as [H|H]; [|exact (IH H Q)].
  apply (placed_b_sound tr); [destruct (placed_b tr); [discriminate H|reflexivity]|]. exact (P [] robot odom tf tr eq_refl).
Qed.
Definition early (m : mapper b64) : bool := early_tf (sh_trace (mp_sh m)).
Lemma early_file_run : forall lm : libm, ends64 (run (A := BA (easy lm)) (cf64 lm 10 1 0 None true (Some one_scan)) early_file) early = true.
Proof. intro lm. vm_compute. reflexivity. Qed.
Lemma early_first_run : forall lm : libm, ends64 (run (A := BA (easy lm)) (lost_cf lm) early_first) early = true.
Proof. intro lm. vm_compute. reflexivity. Qed.
Lemma early_load_run : forall lm : libm, ends64 (run (A := BA (easy lm)) (lost_cf lm) early_load) early = true.
Proof. intro lm. vm_compute. reflexivity. Qed.

Theorem C108_transform_needs_pose_refuted : forall lm : libm,
  (exists m, run (A := BA (easy lm)) (cf64 lm 10 1 0 None true (Some one_scan)) early_file = Ok m /\ ~ tf_placed (sh_trace (mp_sh m))) /\
  (exists m, run (A := BA (easy lm)) (lost_cf lm) early_first = Ok m /\ ~ tf_placed (sh_trace (mp_sh m))) /\
  (exists m, run (A := BA (easy lm)) (lost_cf lm) early_load = Ok m /\ ~ tf_placed (sh_trace (mp_sh m))).
Proof.
  intro lm. split; [|split].
  - destruct (ends64_in _ _ (early_file_run lm)) as (m & E & H). exists m. split; [exact E|]. apply early_sound. exact H.
  - destruct (ends64_in _ _ (early_first_run lm)) as (m & E & H). exists m. split; [exact E|]. apply early_sound. exact H.
  - destruct (ends64_in _ _ (early_load_run lm)) as (m & E & H). exists m. split; [exact E|]. apply early_sound. exact H.
Qed.
Print Assumptions C108_transform_needs_pose_refuted.

(** C108 when the publisher looks for scans only while the robot is localized. *)
Theorem C108_transform_needs_pose_partial : forall {T} {A : Arith T} (cf : config T) m, reach_if cf tf_calm m ->
  tf_placed (sh_trace (mp_sh m)).
Proof. intros T A cf m R. destruct (place_reach cf m R) as (_ & _ & _ & H). exact H. Qed.
Print Assumptions C108_transform_needs_pose_partial.

(** A transform is published after a map was loaded and the robot localized. *)
Definition late_schedule : list (label b64) := load64 two_scans ++ Deliver (pose_ev64 (z64 0) (z64 0) 0 0) :: repeat Spin 5 ++ repeat Pub 11.
Definition calm_b (m : mapper b64) (l : label b64) : bool :=
  match l with
  | Pub => match pb_pc (mp_pub m) with PTf => sh_init (mp_sh m) && match sp_pc (mp_spin m) with SPoseLock _ _ true | SPoseWrite _ _ true => false | _ => true end | _ => true end
  | Spin => match sp_pc (mp_spin m), pb_pc (mp_pub m) with SLoad _, (PPoseLock | PReadRobot | PReadOdom _ | PSend _ _) => false | _, _ => true end
  | _ => true
  end.
Lemma calm_sound : forall m l, calm_b m l = true -> tf_calm m l.
Proof.
  intros m l H. split.
  - intros -> Pc. cbn [calm_b] in H. rewrite Pc in H. apply andb_prop in H. destruct H as [H1 H2]. split; [exact H1|].
    intros [(p & o & Q)|(p & o & Q)]; rewrite Q in H2; discriminate H2.
  - intros -> file Pc Sd. cbn [calm_b] in H. rewrite Pc in H. unfold sending in Sd. destruct (pb_pc (mp_pub m)); try contradiction Sd; discriminate H.
Qed.
Definition sent (m : mapper b64) : bool := existsb (fun x => match x with ObTf _ _ _ => true | _ => false end) (sh_trace (mp_sh m)).
Lemma late_run : forall lm : libm, ends64 (run (A := BA (easy lm)) (lost_cf lm) late_schedule) sent = true.
Proof. intro lm. vm_compute. reflexivity. Qed.
Lemma late_ok : forall lm : libm, run_ok (easy lm) (lost_cf lm) calm_b late_schedule = true.
Proof. intro lm. vm_compute. reflexivity. Qed.
Example C108_nonvacuous : forall lm : libm, exists m r o tf, reach_if (A := BA (easy lm)) (lost_cf lm) tf_calm m /\ In (ObTf r o tf) (sh_trace (mp_sh m)).
Proof.
  intro lm. destruct (ends64_in _ _ (late_run lm)) as (m & E & H). unfold sent in H. apply existsb_exists in H. destruct H as (x & X & H).
  destruct x as [| | | | | | | | | | |r o tf]; try discriminate H. exists m, r, o, tf. split; [|exact X].
  apply (run_reach (easy lm) _ calm_b) with (ls := late_schedule); [exact calm_sound|apply late_ok|exact E].
Qed.
