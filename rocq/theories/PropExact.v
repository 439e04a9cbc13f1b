(** Property C177: until a loop is closed, the map is what its constraints say. *)

From Coq Require Import ZArith Reals List Bool Lia Lra.
From Flocq Require Import Core BinarySingleNaN.
From Verif Require Import Outcome Arith TypesModel ScanModel ConstraintModel GraphModel MatcherModel LaserModel MotionModel FilterModel MapperModel SpecPose SpecLaser SpecGraph
  SpecMapper SpecMapper2 SpecMapper4 SpecSolver SpecOptim SpecExact RTactics B64Tactics B64Lemmas NdtProofs ConstraintProofs GraphProofs PropConstraint PropGraph PropMapError PropResidual64 LaserB64
  MapperProofs MapperSteps MapperInv9 MapperWitness MapperWitness2 PropMapper3 ExactProofs.
Import ListNotations.

Lemma fits_reckoned (g : graph R) i p : fits leads g -> reckoned g i p -> exists sc, nth_error (gr_scans g) (Z.to_nat i) = Some sc /\ p = s_pose sc.
Proof.
  intros F H. induction H as [sc E|c p I H (sc & E & ->)]; [exists sc; split; [exact E|reflexivity]|].
  unfold fits in F. rewrite Forall_forall in F. destruct (F c I) as (_ & _ & a & b & H1 & H2 & H3).
  rewrite E in H1. injection H1 as <-. exists b. split; [exact H2|]. exact H3.
Qed.

Lemma linked_reckoned (g : graph R) : spanning g -> fits leads g -> forall i sc, nth_error (gr_scans g) i = Some sc -> reckoned g (Z.of_nat i) (s_pose sc).
Proof.
  intros (_ & S1 & S2) F i. induction i as [i IH] using lt_wf_ind. intros sc E.
  destruct i as [|i]; [apply reckoned_first; exact E|].
  assert (L : (Datatypes.S i < List.length (gr_scans g))%nat) by (apply nth_error_Some; congruence).
  assert (J : In (Z.of_nat (Datatypes.S i)) (map c_end (chain g))) by (rewrite S1; apply in_map; apply in_seq; lia).
  apply in_map_iff in J. destruct J as (c & Ec & J). rewrite Forall_forall in S2. pose proof (S2 c J) as K.
  apply filter_In in J. destruct J as [J _]. unfold fits in F. rewrite Forall_forall in F. destruct (F c J) as (_ & _ & a & b & H1 & H2 & H3).
  rewrite Ec, Nat2Z.id, E in H2. injection H2 as <-. unfold leads in H3. rewrite <- H3, <- Ec. apply reckoned_next; [exact J|].
  replace (c_begin c) with (Z.of_nat (Z.to_nat (c_begin c))) by lia. apply IH; [lia|exact H1].
Qed.

Lemma fits_agrees (g : graph R) : Forall (fun c => pos_def3 (c_information c)) (gr_constraints g) -> fits leads g -> agrees (gr_constraints g) (gr_scans g).
Proof.
  intros D F. unfold agrees, fits in *. rewrite Forall_forall in *. intros c I. split; [exact (D c I)|]. intros a b E1 E2.
  destruct (F c I) as (_ & _ & a' & b' & H1 & H2 & H3). rewrite E1 in H1. injection H1 as <-. rewrite E2 in H2. injection H2 as <-.
  unfold leads in H3. unfold as_measured. rewrite H3. split; [reflexivity|]. split; [reflexivity|]. exists 0%Z. cbn. lra.
Qed.

(** C177: as long as no loop closure was accepted, outside the moment in which a
    laser callback adds its scan, the motion of every constraint leads exactly from
    the one scan to the other; every scan is where following constraints from the
    first scan leads, whichever way one takes; the error of the map is zero. *)
Theorem C177_map_is_its_constraints (cf : config R) : (0 <= cf_depth cf)%Z -> search_in_range (en_search cf) -> fitting_start leads cf ->
  forall m, reach_if cf (unclosed leads cf) m -> ~ half_added m ->
  exists g, the_graph cf (mp_sh m) = Ok g /\ fits leads g /\
    (forall i sc, nth_error (gr_scans g) i = Some sc -> reckoned g (Z.of_nat i) (s_pose sc) /\ forall p, reckoned g (Z.of_nat i) p -> p = s_pose sc) /\
    (Forall (fun c => pos_def3 (c_information c)) (gr_constraints g) -> map_error (gr_constraints g) (gr_scans g) = 0%R).
Proof.
  intros D S St m R N. destruct (exact_graph leads (fun f t c => proj1 (C28_constraint_reproduces_relative_pose f t c)) cf D S St m R N) as (g & G & Sp & F).
  exists g. split; [exact G|]. split; [exact F|]. split.
  - intros i sc E. split; [exact (linked_reckoned g Sp F i sc E)|]. intros p H. apply (fits_reckoned g _ _ F) in H. destruct H as (sc' & E' & ->).
    rewrite Nat2Z.id, E in E'. injection E' as <-. reflexivity.
  - intro Pd. apply (C173_zero _ (gr_scans g) Pd). exact (fits_agrees g Pd F).
Qed.
Print Assumptions C177_map_is_its_constraints.

(** The assumption on loaded maps holds for the maps such a node saves. *)
Theorem C177_saved (ub : bool) (g : graph R) (file : list (bag_msg R)) : fits64 g -> same_topics file (graph_save g) -> fits leads g -> fits leads (graph_load ub file).
Proof.
  intros B S F. destruct (C33_save_load_lossless ub g file B S) as [H1 H2]. apply (fits_saved leads g); [|exact H2|exact F].
  revert H1. generalize (gr_scans (graph_load ub file)). generalize (gr_scans g). intros l l' H. induction H as [|x y l l' E H IH]; constructor; [apply E|exact IH].
Qed.
Print Assumptions C177_saved.

(** In doubles: the error the optimizer computes for such a constraint is exactly
    zero. *)
Definition no_error64 (lm : libm) (c : constraint b64) (a b : pose b64) : Prop :=
  usual_pose a -> usual_pose b -> finite3 (llt_L (A := BA lm) (c_information c)) ->
  let r := constraint_residual (A := BA lm) c a b in is_zero (v0 r) /\ is_zero (v1 r) /\ is_zero (v2 r).

Theorem C177_doubles (lm : libm) (cf : config b64) : trig_ok lm -> (0 <= cf_depth cf)%Z -> search_in_range (en_search cf) ->
  fitting_start (A := BA lm) (no_error64 lm) cf ->
  forall m, reach_if (A := BA lm) cf (unclosed (A := BA lm) (no_error64 lm) cf) m -> ~ half_added m ->
  exists g, the_graph cf (mp_sh m) = Ok g /\ fits (no_error64 lm) g.
Proof.
  intros Tr D S St m R N. destruct (exact_graph (A := BA lm) (no_error64 lm)) with (cf := cf) (m := m) as (g & G & _ & F); try assumption; [|exists g; split; assumption].
  intros from to cov Ua Ub Fi. exact (C127_fresh_constraint_zero_residual lm from to cov Tr Ua Ub Fi).
Qed.
Print Assumptions C177_doubles.

(** A node started with a map of two scans and the constraint between them. *)
Definition two_linked : list (bag_msg R) :=
  [scan_file 0 1 1 []; scan_file 1 2 1 []; BConstraint (mkConstraintMsg 0 1 (mkGpoint 1 0 0) [1; 0; 0; 0; 4; 0; 0; 0; 9] false)]%R.
Definition linked_cf : config R := demo_cf 0 1 0 None true (Some two_linked).
Lemma two_linked_spanning : spanning (graph_load false two_linked).
Proof.
  split; [|split; [reflexivity|repeat constructor; cbn; lia]].
  intros [|[|[|i]]] sc E; cbn in E; try discriminate E; injection E as <-; reflexivity.
Qed.
Lemma two_linked_fits : fits leads (graph_load false two_linked).
Proof.
  constructor; [|constructor]. split; [cbn; lia|]. split; [cbn; lia|]. eexists. eexists. split; [reflexivity|]. split; [reflexivity|].
  unfold leads, compose. cbn. rewrite cos_0, sin_0. f_equal; lra.
Qed.
Example C177_nonvacuous : (0 <= cf_depth linked_cf)%Z /\ search_in_range (en_search linked_cf) /\ fitting_start leads linked_cf /\
  exists m g, reach_if linked_cf (unclosed leads linked_cf) m /\ ~ half_added m /\ the_graph linked_cf (mp_sh m) = Ok g /\
    List.length (gr_scans g) = 2%nat /\ List.length (gr_constraints g) = 1%nat /\
    Forall (fun c => pos_def3 (c_information c)) (gr_constraints g).
Proof.
  assert (St : fitting_start leads linked_cf).
  { split; intros f E; injection E as <-; [exact two_linked_spanning|exact two_linked_fits]. }
  split; [cbn; lia|]. split; [intros pts q r i I; apply (search_exact_contract pts q r) in I; destruct I as (p & I & _); apply nth_error_Some; congruence|]. split; [exact St|].
  destruct (mapper_init linked_cf) as [m|f] eqn:E; [|discriminate E].
  exists m, (graph_load false two_linked). split; [apply reach_init; exact E|].
  injection E as <-. split; [intros [(p & o & E)|(p & o & E)]; discriminate E|]. split; [reflexivity|]. split; [reflexivity|]. split; [reflexivity|].
  constructor; [|constructor]. exact diag_info_pd.
Qed.

(** In doubles: an initial pose is added to a map of one scan. *)
Definition small (x : b64) : bool := is_finite x && Bleb (Babs x) (z64 8).
Definition small_pose (p : pose b64) : bool := small (pox p) && small (poy p) && small (poth p).
Lemma small_bnd (x : b64) : small x = true -> bnd x 400.
Proof.
  intro H. apply andb_prop in H. destruct H as [H1 H2]. assert (F : is_finite (Babs x) = true) by (rewrite is_finite_Babs; exact H1).
  split; [exact H1|]. rewrite <- B2R_Babs. destruct (z64_usual 8) as [F8 H8]; [lia|].
  apply Rle_trans with (2 := Rle_trans _ _ _ (Rle_abs _) H8).
  rewrite Bleb_correct in H2 by assumption. revert H2. case Rle_bool_spec; [intros H2 _; exact H2|intros _ E; discriminate E].
Qed.
Definition pose_cf (lm : libm) : config b64 := cf64 (with_trig lm) 10 1 0 None true (Some one_scan).
Definition added : list (label b64) := [Deliver (pose_ev64 half64 half64 0 0); Spin; Spin; Spin; Spin; Spin; Spin].
Definition unclosed_b (m : mapper b64) (l : label b64) : bool :=
  unloaded_b m l && match lp_pc (mp_loop m) with LCorrect _ _ _ _ _ | LOptRun => false | _ => true end.
Definition no_moved64 (lm : libm) (m : mapper b64) : bool :=
  sizes m 2 1 && negb (half_b m) && forallb (fun sc => small_pose (s_pose sc)) (sh_heap (mp_sh m)) &&
  forallb (fun c => finite3b (llt_L (A := BA lm) (c_information c))) (sh_cons (mp_sh m)).
Example C177_doubles_nonvacuous (lm : libm) : let em := easy (with_trig lm) in trig_ok em /\ fitting_start (A := BA em) (no_error64 em) (pose_cf lm) /\
  exists m, reach_if (A := BA em) (pose_cf lm) (unclosed (A := BA em) (no_error64 em) (pose_cf lm)) m /\ ~ half_added m /\
    num_scans (mp_sh m) = 2%Z /\ List.length (sh_cons (mp_sh m)) = 1%nat /\
    Forall (fun sc => usual_pose (s_pose sc)) (sh_heap (mp_sh m)) /\ Forall (fun c => finite3 (llt_L (A := BA em) (c_information c))) (sh_cons (mp_sh m)).
Proof.
  intro em. split; [|split].
  - intros x _. subst em. unfold easy, with_trig. cbn [lm_cos lm_sin].
    assert (Z1 : bnd (z64 1) 0) by (unfold z64; apply b64_of_bnd; [cbn; rewrite Rabs_pos_eq; lra|lia]). split.
    + destruct (is0 x); [exact Z1|]. destruct (beq _ _); [|exact Z1]. apply b64_of_bnd; [cbn; rewrite Rabs_pos_eq; lra|lia].
    + destruct (is0 x) eqn:E0; [destruct x; try discriminate E0; split; [reflexivity|cbn; rewrite Rabs_R0; lra]|].
      destruct (beq _ _); [apply b64_of_bnd; [cbn; rewrite Rabs_pos_eq; lra|lia]|]. destruct (beq _ _); [|exact half_bnd].
      apply b64_of_bnd; [cbn; rewrite Rabs_left; lra|lia].
  - split; intros f E; injection E as <-; [apply spanning_sound; vm_compute; reflexivity|constructor].
  - destruct (ends64_in (run (A := BA em) (pose_cf lm) added) (no_moved64 em)) as (m & E & H); [vm_compute; reflexivity|].
    apply andb_prop in H. destruct H as [H H4]. apply andb_prop in H. destruct H as [H H3]. apply andb_prop in H. destruct H as [H H2].
    apply andb_prop in H. destruct H as [H H1]. apply Nat.eqb_eq in H. apply Nat.eqb_eq in H1. rewrite forallb_forall in H3, H4. exists m.
    split; [apply (run_reach em _ unclosed_b) with (ls := added); [|vm_compute; reflexivity|exact E]|].
    + intros m0 l B. apply andb_prop in B. destruct B as [B1 B2]. apply unloaded_sound in B1. destruct B1 as [B N]. split; [|split].
      * split; [exact B|]. intros S file P. contradiction (N S file P).
      * intros _. destruct (lp_pc (mp_loop m0)); solve [exact I|discriminate B2].
      * intros S file P. contradiction (N S file P).
    + split; [apply half_sound; destruct (half_b m); [discriminate H2|reflexivity]|]. split; [unfold num_scans; rewrite H; reflexivity|].
      split; [exact H1|]. split; apply Forall_forall.
      * intros sc I. specialize (H3 sc I). apply andb_prop in H3. destruct H3 as [H3 H5]. apply andb_prop in H3. destruct H3 as [H3 H6].
        split; [|split]; apply small_bnd; assumption.
      * intros c I. apply finite3b_ok. exact (H4 c I).
Qed.
