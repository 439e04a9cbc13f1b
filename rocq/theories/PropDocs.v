(** C151: the set-ups for localization of README.md:19-32, 87-88. *)

From Coq Require Import ZArith List Bool String Lia.
From Flocq Require Import Core BinarySingleNaN.
From Verif Require Import Outcome Arith NdtProofs TypesModel ScanModel MatcherModel ConstraintModel
  SolverModel GraphModel OccGridModel MotionModel FilterModel LaserModel MapperModel SpecMapper SpecMapper2 SpecMapper4 SpecNode SpecFreeze
  MapperSteps MapperInv1 MapperInv2 MapperInv5 MapperInv6 MapperInv9 MapperWitness2 MapperInv3 PropMapper2 PropMapper3 PropFreeze.
Import ListNotations.
Local Open Scope outcome_scope.

Definition filter_cf (lm : libm) : config b64 := cf64 lm 0 1 0 (Some (1, 1, motion64)%Z) true (Some two_scans).
Definition matching_cf (lm : libm) : config b64 := cf64 lm 10 1 0 None true (Some two_scans).
Definition use_schedule : list (label b64) :=
  [Deliver (beam64 [] 0 0); Deliver (pose_ev64 (z64 0) (z64 0) 0 0)] ++ repeat Spin 5 ++ [Deliver (beam64 [z64 1] 2 0)] ++ repeat Spin 8.
Definition one_closure (m : mapper b64) : bool :=
  (List.length (sh_cons (mp_sh m)) =? 1)%nat && (List.length (sh_scans (mp_sh m)) =? 2)%nat.
Definition two_more (m : mapper b64) : bool := (List.length (sh_scans (mp_sh m)) =? 4)%nat.

(** A map file and the particle filter: the loop closure thread adds a constraint
    to the map, although nobody asked for anything but localization. *)
Theorem C151_filter_refuted : forall lm : libm, exists (cf : config b64) file ls m g,
  cf_file cf = Some file /\ use_filter cf = true /\ good_start (A := BA (easy lm)) cf /\ no_requests ls /\
  run (A := BA (easy lm)) cf ls = Ok m /\ the_graph cf (mp_sh m) = Ok g /\
  gr_constraints (graph_load (A := BA (easy lm)) (cf_use_bary cf) file) = [] /\ List.length (gr_constraints g) = 1%nat.
Proof.
  intro lm. destruct (ends64_in (run (A := BA (easy lm)) (filter_cf lm) closure_schedule) one_closure) as (m & E & H); [vm_compute; reflexivity|].
  apply andb_prop in H. destruct H as [H _]. apply Nat.eqb_eq in H.
  destruct (run_graph (A := BA (easy lm)) (filter_cf lm) _ m E) as (_ & g & G & C).
  exists (filter_cf lm), two_scans, closure_schedule, m, g. split; [reflexivity|]. split; [reflexivity|].
  split; [intros f F; injection F as <-; exact (two_scans_ok (easy lm))|]. split; [apply no_requests_sound; reflexivity|].
  split; [exact E|]. split; [exact G|]. split; [vm_compute; reflexivity|]. rewrite C. exact H.
Qed.
Print Assumptions C151_filter_refuted.

(** A map file without the particle filter: the initial pose and the first scan
    after it are added to the map. *)
Theorem C151_matching_refuted : forall lm : libm, exists (cf : config b64) file ls m g,
  cf_file cf = Some file /\ use_filter cf = false /\ good_start (A := BA (easy lm)) cf /\ no_requests ls /\
  run (A := BA (easy lm)) cf ls = Ok m /\ the_graph cf (mp_sh m) = Ok g /\
  List.length (gr_scans (graph_load (A := BA (easy lm)) (cf_use_bary cf) file)) = 2%nat /\ List.length (gr_scans g) = 4%nat.
Proof.
  intro lm. destruct (ends64_in (run (A := BA (easy lm)) (matching_cf lm) use_schedule) two_more) as (m & E & H); [vm_compute; reflexivity|].
  apply Nat.eqb_eq in H.
  destruct (run_graph (A := BA (easy lm)) (matching_cf lm) _ m E) as (_ & g & G & C).
  exists (matching_cf lm), two_scans, use_schedule, m, g. split; [reflexivity|]. split; [reflexivity|].
  split; [intros f F; injection F as <-; exact (two_scans_ok (easy lm))|]. split; [apply no_requests_sound; reflexivity|].
  split; [exact E|]. split; [exact G|]. split; [vm_compute; reflexivity|]. 
  unfold the_graph in G. apply bind_ok in G. destruct G as (sc & G & Q). injection Q as <-. cbn [gr_scans].
  rewrite <- H. unfold graph_scans in G. revert G. generalize (sh_scans (mp_sh m)) sc. clear.
  induction l as [|p l IH]; intros sc G; cbn [mapM] in G; [injection G as <-; reflexivity|].
  apply bind_ok in G. destruct G as (a & _ & G). apply bind_ok in G. destruct G as (b & G & Q). injection Q as <-. cbn [List.length]. f_equal. apply IH. exact G.
Qed.
Print Assumptions C151_matching_refuted.

(** With enable_mapping false both set-ups keep the map of the file. *)
Theorem C151_partial : forall {T} {A : Arith T} (cf : config T) file m, cf_file cf = Some file -> cf_enable cf = false ->
  reach_if cf no_request m ->
  let g := graph_load (cf_use_bary cf) file in
  the_graph cf (mp_sh m) = Ok (mkGraph (cf_use_bary cf) (gr_scans g) (gr_constraints g)).
Proof.
  intros T A cf file m Fi En R. pose proof (C101_localization_keeps_map cf m En) as K. rewrite Fi in K. cbv zeta in *.
  destruct K as (scans & G & -> & C & _).
  - eapply reach_if_mono; [|exact R]. intros x l N a f ->. exfalso. exact (N a f eq_refl).
  - unfold the_graph. rewrite G, C. reflexivity.
Qed.
Print Assumptions C151_partial.

(** With the filter no scan is ever added, whether or not mapping is enabled, and
    the scans keep their points; constraints are only added by the loop closure
    thread. *)
Section Filter.
Context {T : Type} {A : Arith T}.
Context (cf : config T).

Definition filtering (n : nat) (m : mapper T) : Prop :=
  sp_filter (mp_spin m) <> None /\ ~ adding (sp_pc (mp_spin m)) /\ not_loading m /\ List.length (sh_scans (mp_sh m)) = n /\
  forall ob, In ob (sh_trace (mp_sh m)) -> match ob with ObScan _ _ | ObConstraint ALaser _ | ObConstraint APose _ => False | _ => True end.

Lemma filtering_step : use_filter cf = true -> forall n l m m', no_request m l -> filtering n m -> step_tr cf m l m' -> filtering n m'.
Proof.
  intros U n l m m' NR (F & Ad & NL & N & Tr) H. revert NR. destruct H as [e s' sp' Id D|s' sp' D|s' l' D|s' p' D]; intro NR; unfold filtering, not_loading in *; cbn [mp_sh mp_spin] in *.
  - destruct D.
    + match goal with P : sp_pc sp' = _, Q : sp_filter sp' = _ |- _ => rewrite P, Q end. repeat split; auto.
    + match goal with P : sp_pc sp' = _, Q : sp_filter sp' = _ |- _ => rewrite P, Q end. unfold run_pc. rewrite U. repeat split; auto.
    + repeat split; auto.
    + cbn. repeat split; auto. discriminate.
    + congruence.
    + congruence.
    + exfalso. exact (NR a file eq_refl).
  - destruct D; match goal with Q : sp_pc (mp_spin m) = _ |- _ => rewrite Q in * end; cbn [adding at_pc sp_pc sp_filter with_filter] in *;
      try (contradiction Ad; exact I); try contradiction;
      try (split; [first [exact F|discriminate]|]; split; [exact (fun X => X)|]; split; [exact I|]; split; [exact N|];
           first [exact Tr|intros o' [<-|J]; [exact I|exact (Tr o' J)]]).
    destruct upd; (split; [exact F|]; split; [exact (fun X => X)|]; split; [exact I|]; split; [exact N|]; intros o' [<-|J]; [exact I|exact (Tr o' J)]).
  - pose proof (loop_frame cf m _ (T_loop cf m s' l' D)) as (K & _). cbn [mp_sh] in K.
    split; [exact F|]. split; [exact Ad|]. split; [exact NL|]. split; [rewrite K; exact N|].
    intros o' J. destruct D; try exact (Tr o' J); try (destruct J as [<-|J]; [exact I|exact (Tr o' J)]).
    destruct (put_all_frame (sh_scans (mp_sh m)) scans' (mp_sh m)) as [h Eh]. rewrite Eh in J.
    first [exact (Tr o' J)|destruct J as [<-|J]; [exact I|exact (Tr o' J)]].
  - split; [exact F|]. split; [exact Ad|]. split; [exact NL|].
    destruct D; (split; [exact N|]); intros o' J; try exact (Tr o' J); destruct J as [<-|J]; try exact I; exact (Tr o' J).
Qed.
End Filter.

Theorem C151_filter_adds_no_scan : forall {T} {A : Arith T} (cf : config T) file m, cf_file cf = Some file -> use_filter cf = true ->
  reach_if cf no_request m ->
  List.length (sh_scans (mp_sh m)) = List.length (gr_scans (graph_load (cf_use_bary cf) file)) /\
  forall a c, In (ObConstraint a c) (sh_trace (mp_sh m)) -> a = ALoop.
Proof.
  intros T A cf file m Fi U R.
  assert (K : filtering (List.length (gr_scans (graph_load (cf_use_bary cf) file))) m).
  { induction R as [m I|m l m' R IH G S].
    - pose proof I as I'. apply init_cases in I. destruct I as (s & f & -> & F & Es). cbv zeta in Es. rewrite Fi in Es. subst s.
      unfold filtering, not_loading. cbn [mp_sh mp_spin sp_filter sp_pc adding].
      split; [unfold use_filter in U; destruct (cf_filter cf); [|discriminate U]; intro X; apply F in X; discriminate X|].
      split; [exact (fun X => X)|]. split; [exact I|]. split; [cbn; apply seq_length|].
      cbn. intros o [<-|[]]. exact I.
    - apply step_cases in S. apply (filtering_step cf U _ l m m' G IH S). }
  destruct K as (_ & _ & _ & N & Tr). split; [exact N|]. intros a c J. specialize (Tr _ J). destruct a; [contradiction|contradiction|reflexivity].
Qed.
Print Assumptions C151_filter_adds_no_scan.

Example C151_nonvacuous : forall lm, (exists m, reach_if (A := BA (easy lm)) (filter_cf lm) no_request m /\ exists c, In (ObConstraint ALoop c) (sh_trace (mp_sh m))) /\
  (exists m, reach_if (A := BA (easy lm)) (cf64 lm 10 1 0 None false (Some two_scans)) no_request m /\ sh_init (mp_sh m) = true).
Proof.
  intro lm. split.
  - destruct (ends64_in (run (A := BA (easy lm)) (filter_cf lm) closure_schedule)
      (fun m => existsb (fun o => match o with ObConstraint ALoop _ => true | _ => false end) (sh_trace (mp_sh m)))) as (m & E & H); [vm_compute; reflexivity|].
    exists m. split.
    + apply (run_reach (easy lm) _ PropMapper2.no_request_b) with (ls := closure_schedule); [|vm_compute; reflexivity|exact E].
      intros m0 l0 H0 a f ->. discriminate H0.
    + apply existsb_exists in H. destruct H as (o & I & H). destruct o as [|a c| | | | | | | | | | ]; try discriminate H. destruct a; try discriminate H. exists c. exact I.
  - destruct (ends64_in (run (A := BA (easy lm)) (cf64 lm 10 1 0 None false (Some two_scans)) use_schedule)
      (fun m => sh_init (mp_sh m))) as (m & E & H); [vm_compute; reflexivity|].
    exists m. split; [|exact H].
    apply (run_reach (easy lm) _ PropMapper2.no_request_b) with (ls := use_schedule); [|vm_compute; reflexivity|exact E].
    intros m0 l0 H0 a f ->. discriminate H0.
Qed.
