(** C101: the map while mapping is off. *)

From Coq Require Import ZArith List Bool String Lia.
From Flocq Require Import Core BinarySingleNaN.
From Verif Require Import Outcome Arith NdtProofs TypesModel ScanModel MatcherModel ConstraintModel
  SolverModel GraphModel OccGridModel MotionModel FilterModel LaserModel MapperModel SpecMapper SpecMapper2 SpecNode SpecFreeze
  MapperSteps MapperInv1 MapperInv2 MapperInv5 MapperInv6 MapperInv9 MapperWitness2 NodeLive NodeFair PropNode2.
Import ListNotations.
Local Open Scope outcome_scope.

Section Off.
Context {T : Type} {A : Arith T}.
Context (cf : config T).

(** The places of a callback that is mapping. *)
Definition adding (pc : spin_pc T) : Prop :=
  match pc with
  | SMatch _ _ | SMake _ _ _ | SConsLock _ _ _ | SConsPush _ _ _ | SScanLock _ _ | SScanPush _ _ | SGraphLock _ _ | SGraph _ _ => True
  | _ => False
  end.
Definition off_inv (m : mapper T) : Prop := sh_enable (mp_sh m) = false -> ~ adding (sp_pc (mp_spin m)).

Lemma off_step : forall l m m', off_inv m -> step_tr cf m l m' -> off_inv m'.
Proof.
  intros l m m' H [e s' sp' Id D|s' sp' D|s' l' D|s' p' D]; unfold off_inv in *.
  - destruct D; cbn [mp_sh mp_spin at_pc sp_pc]; try (intros _ X; exact X).
    + intros _. match goal with Q : sp_pc sp' = _ |- _ => rewrite Q end. exact (fun X => X).
    + cbn [sh_enable set_heap set_global]. intro E. match goal with Q : sp_pc sp' = _ |- _ => rewrite Q end. unfold run_pc. rewrite E.
      destruct (use_filter cf); exact (fun X => X).
    + intros _. rewrite Id. exact (fun X => X).
    + intro E. congruence.
    + rewrite configure_eq. cbn [fst snd sp_pc at_pc]. intros _. destruct (Z.testbit a 2), (Z.testbit a 3); exact (fun X => X).
  - assert (K : sh_enable s' = sh_enable (mp_sh m)) by (destruct D; try reflexivity; destruct upd; reflexivity).
    cbn [mp_sh mp_spin]. rewrite K. intros E X. specialize (H E).
    destruct D; match goal with Q : sp_pc (mp_spin m) = _ |- _ => rewrite Q in H end; cbn [at_pc sp_pc adding] in *; tauto.
  - pose proof (loop_frame cf m _ (T_loop cf m s' l' D)) as (_ & _ & _ & _ & _ & _ & K & _). cbn [mp_sh mp_spin] in *. rewrite K. exact H.
  - assert (K : sh_enable s' = sh_enable (mp_sh m)) by (destruct D; reflexivity). cbn [mp_sh mp_spin]. rewrite K. exact H.
Qed.
Lemma off_reachable : forall m, reachable cf m -> off_inv m.
Proof.
  apply reachable_inv; [|intros l m m' I H; apply (off_step l m m'); assumption].
  intros m H. apply init_cases in H. destruct H as (s & f & -> & _). intros _ X. exact X.
Qed.

(** One step while mapping is off. *)
Lemma frozen_step : forall l m m' g, heap_inv m -> off_inv m -> mapping_off m -> leaves_map l -> step_tr cf m l m' ->
  the_graph cf (mp_sh m) = Ok g ->
  mapping_off m' /\ the_graph cf (mp_sh m') = Ok g /\ exists new, sh_trace (mp_sh m') = new ++ sh_trace (mp_sh m) /\ Forall (shows g) new.
Proof.
  intros l m m' g [Hp Ap] Of (E & Sl & NL) Lv H G. specialize (Of E).
  assert (Gs : forall s', graph_scans s' = graph_scans (mp_sh m) -> sh_cons s' = sh_cons (mp_sh m) -> the_graph cf s' = Ok g).
  { intros s' E1 E2. unfold the_graph in *. rewrite E1, E2. exact G. }
  assert (one : forall s' : shared T, sh_trace s' = sh_trace (mp_sh m) -> exists new, sh_trace s' = new ++ sh_trace (mp_sh m) /\ Forall (shows g) new).
  { intros s' Q. exists []. split; [exact Q|constructor]. }
  assert (cons1 : forall (s' : shared T) o, sh_trace s' = o :: sh_trace (mp_sh m) -> shows g o -> exists new, sh_trace s' = new ++ sh_trace (mp_sh m) /\ Forall (shows g) new).
  { intros s' o Q P. exists [o]. split; [exact Q|constructor; [exact P|constructor]]. }
  destruct H as [e s' sp' Id D|s' sp' D|s' l' D|s' p' D]; unfold mapping_off, not_loading in *; cbn [mp_sh mp_spin mp_loop mp_pub] in *.
  - destruct D.
    + split; [split; [exact E|split; [exact Sl|match goal with Q : sp_pc sp' = _ |- _ => rewrite Q end; exact I]]|]. split; [apply Gs; reflexivity|apply one; reflexivity].
    + split.
      * split; [exact E|]. split; [exact Sl|]. match goal with Q : sp_pc sp' = _ |- _ => rewrite Q end. unfold run_pc. destruct (use_filter cf), (sh_enable (mp_sh m)); exact I.
      * split; [|apply one; reflexivity]. apply Gs; [|reflexivity]. eapply (graph_scans_grow (mp_sh m)); [exact Hp|reflexivity|reflexivity].
    + split; [split; [exact E|split; [exact Sl|exact NL]]|]. split; [apply Gs; reflexivity|apply one; reflexivity].
    + split; [split; [exact E|split; [exact Sl|exact I]]|]. split; [apply Gs; reflexivity|apply one; reflexivity].
    + congruence.
    + split; [split; [exact E|split; [exact Sl|exact I]]|]. split; [apply Gs; reflexivity|apply one; reflexivity].
    + destruct (Lv a file eq_refl) as [B0 B2]. rewrite configure_eq. unfold after_mapping_bits. rewrite B0, B2. cbn [fst snd at_pc sp_pc].
      split; [|split; [apply Gs; reflexivity|apply one; reflexivity]].
      split; [cbn [sh_enable set_init set_enable]; destruct (Z.testbit a 1); [reflexivity|exact E]|]. split; [exact Sl|].
      destruct (Z.testbit a 3); exact I.
  - destruct D; match goal with Q : sp_pc (mp_spin m) = _ |- _ => rewrite Q in * end; cbn [adding apart at_pc sp_pc] in *;
      try (contradiction Of; exact I); try contradiction;
      try (split; [split; [exact E|split; [exact Sl|exact I]]|]; split; [apply Gs; reflexivity|];
           first [apply one; reflexivity|eapply cons1; [reflexivity|exact I]]).
    + split; [split; [exact E|split; [exact Sl|exact I]]|]. split; [|apply one; reflexivity]. apply Gs; [|reflexivity].
      eapply (graph_scans_apart (mp_sh m)); [apply Ap|reflexivity|reflexivity].
    + split; [split; [exact E|split; [exact Sl|exact I]]|]. split; [|apply one; reflexivity]. apply Gs; [|reflexivity].
      eapply (graph_scans_apart (mp_sh m)); [apply Ap|reflexivity|reflexivity].
    + destruct upd; (split; [split; [exact E|split; [exact Sl|exact I]]|]; split; [apply Gs; reflexivity|eapply cons1; [reflexivity|exact I]]).
    + split; [split; [exact E|split; [exact Sl|exact I]]|]. split; [apply Gs; reflexivity|eapply cons1; [reflexivity|]].
      cbn [shows]. congruence.
  - destruct D; match goal with Q : lp_pc _ = _ |- _ => rewrite Sl in Q; try discriminate Q end.
    + split; [split; [exact E|split; [exact Sl|exact NL]]|]. split; [exact G|apply one; reflexivity].
    + congruence.
  - destruct D; (split; [split; [exact E|split; [exact Sl|exact NL]]|]; split; [apply Gs; reflexivity|]);
      first [apply one; reflexivity|eapply cons1; [reflexivity|]]; cbn [shows]; try exact I; try congruence.
    unfold the_graph in G. match goal with Q : graph_scans _ = Ok scans |- _ => rewrite Q in G end. injection G as <-. reflexivity.
Qed.

Lemma reach_next : forall l m m', reachable cf m -> step cf l m = Some (Ok m') -> reachable cf m'.
Proof.
  intros l m m' (ls & E) S. exists (ls ++ [l]). unfold run in *. destruct (mapper_init cf) as [m0|]; [|discriminate E]. cbn [bind] in *.
  rewrite (exec_app cf ls [l] m0), E. cbn [bind exec]. rewrite S. reflexivity.
Qed.
Lemma frozen_exec : forall ls m m' g, reachable cf m -> mapping_off m -> Forall leaves_map ls -> exec cf m ls = Ok m' -> the_graph cf (mp_sh m) = Ok g ->
  mapping_off m' /\ the_graph cf (mp_sh m') = Ok g /\ exists new, sh_trace (mp_sh m') = new ++ sh_trace (mp_sh m) /\ Forall (shows g) new.
Proof.
  induction ls as [|l ls IH]; intros m m' g R O F E G.
  - injection E as <-. split; [exact O|]. split; [exact G|]. exists []. split; [reflexivity|constructor].
  - inversion F as [|? ? F1 F2]; subst. cbn [exec] in E. destruct (step cf l m) as [o|] eqn:St; [|apply (IH m m' g); assumption].
    apply bind_ok in E. destruct E as (m1 & -> & E).
    destruct (frozen_step l m m1 g (heap_reachable cf m R) (off_reachable m R) O F1 (step_cases cf l m m1 St) G) as (O1 & G1 & n1 & T1 & N1).
    assert (R1 : reachable cf m1) by (apply (reach_next l m); assumption).
    destruct (IH m1 m' g R1 O1 F2 E G1) as (O2 & G2 & n2 & T2 & N2).
    split; [exact O2|]. split; [exact G2|]. exists (n2 ++ n1). split; [rewrite T2, T1, app_assoc; reflexivity|apply Forall_app; split; assumption].
Qed.
End Off.

(** Once mapping is off and the loop closure thread sleeps, the graph stays as it
    is, and whatever is published or saved shows this graph, until a request
    switches mapping on or loads a map. *)
Theorem C101_map_frozen_partial : forall {T} {A : Arith T} (cf : config T) m ls m', reachable cf m -> mapping_off m -> Forall leaves_map ls ->
  exec cf m ls = Ok m' ->
  exists g new, the_graph cf (mp_sh m) = Ok g /\ the_graph cf (mp_sh m') = Ok g /\
    sh_trace (mp_sh m') = new ++ sh_trace (mp_sh m) /\ Forall (shows g) new.
Proof.
  intros T A cf m ls m' R O F E. destruct (graph_of_heap cf m (heap_reachable cf m R)) as (g & G).
  destruct (frozen_exec cf ls m m' g R O F E G) as (_ & G' & new & E' & N). exists g, new. auto.
Qed.
Print Assumptions C101_map_frozen_partial.

(** Started with mapping off, the node works with the map file and never changes
    it. *)
Theorem C101_localization_keeps_map : forall {T} {A : Arith T} (cf : config T) m, cf_enable cf = false -> reach_if cf (fun _ l => leaves_map l) m ->
  let g := match cf_file cf with Some file => graph_load (cf_use_bary cf) file | None => mkGraph (cf_use_bary cf) [] [] end in
  exists scans, graph_scans (mp_sh m) = Ok scans /\ scans = gr_scans g /\ sh_cons (mp_sh m) = gr_constraints g /\
    Forall (shows (mkGraph (cf_use_bary cf) (gr_scans g) (gr_constraints g))) (sh_trace (mp_sh m)).
Proof.
  intros T A cf m En R g0. set (g := mkGraph (cf_use_bary cf) (gr_scans g0) (gr_constraints g0)).
  assert (K : reachable cf m /\ mapping_off m /\ the_graph cf (mp_sh m) = Ok g /\ Forall (shows g) (sh_trace (mp_sh m))).
  { induction R as [m Im|m l m' R (R0 & O & G & F) Lv S].
    - split; [exists []; unfold run; rewrite Im; reflexivity|]. apply init_cases in Im. destruct Im as (s & f & -> & _ & Es). cbv zeta in Es.
      unfold mapping_off, not_loading. cbn [mp_sh mp_spin mp_loop lp_pc sp_pc]. unfold g, g0. clear g g0. rewrite Es. clear Es.
      destruct (cf_file cf) as [file|]; cbn [sh_enable sh_trace set_flag set_init load_graph note set_cons set_scans set_heap gr_scans gr_constraints].
      + split; [split; [exact En|split; [reflexivity|exact I]]|]. split; [|repeat constructor].
        unfold the_graph, graph_scans. cbn [sh_heap sh_scans sh_cons set_flag set_init load_graph note set_cons set_scans set_heap].
        pose proof (deref_app (@nil (scan T)) (gr_scans (graph_load (cf_use_bary cf) file))) as Q. cbn [app List.length] in *. rewrite Q. reflexivity.
      + split; [split; [exact En|split; [reflexivity|exact I]]|]. split; [reflexivity|constructor].
    - destruct (frozen_step cf l m m' g (heap_reachable cf m R0) (off_reachable cf m R0) O Lv (step_cases cf l m m' S) G) as (O1 & G1 & new & T1 & N1).
      split; [apply (reach_next cf l m); assumption|]. split; [exact O1|]. split; [exact G1|]. rewrite T1. apply Forall_app. split; assumption. }
  destruct K as (_ & _ & G & F). unfold the_graph in G. apply bind_ok in G. destruct G as (scans & G & H). injection H as H1 H2.
  exists scans. auto.
Qed.
Print Assumptions C101_localization_keeps_map.

(** After mapping was switched off the graph changes only finitely often. *)
Section Eventually.
Context {T : Type} {A : Arith T}.
Context (cf : config T) (st : nat -> mapper T) (lb : nat -> label T).
Context (I0 : mapper_init cf = Ok (st 0)) (L : lives cf st lb) (F : fair cf st lb).
Context (B : forall n, (num_scans (mp_sh (st n)) < 2 ^ 64)%Z).
Context (N : nat) (E : sh_enable (mp_sh (st N)) = false) (Lv : forall n, (N <= n)%nat -> leaves_map (lb n)).

Lemma stays_off : forall n, (N <= n)%nat -> sh_enable (mp_sh (st n)) = false.
Proof.
  intros n H. induction H as [|n H IH]; [exact E|]. specialize (Lv n H). destruct (L n) as [S|[_ S]]; [|rewrite S; exact IH].
  apply step_cases in S. revert S IH Lv. generalize (st n) (lb n) (st (S n)). clear. intros m l m' S E Lv.
  destruct S as [e s' sp' Id D|s' sp' D|s' l' D|s' p' D]; cbn [mp_sh].
  - destruct D; try exact E. destruct (Lv a file eq_refl) as [B0 _]. rewrite configure_eq. cbn [fst sh_enable set_init set_enable].
    unfold after_mapping_bits. rewrite B0. destruct (Z.testbit a 1); [reflexivity|exact E].
  - destruct D; try exact E. destruct upd; exact E.
  - pose proof (loop_frame cf m _ (T_loop cf m s' l' D)) as (_ & _ & _ & _ & _ & _ & K & _). cbn [mp_sh] in K. rewrite K. exact E.
  - destruct D; exact E.
Qed.
Lemma stays_unloading : forall k n, (N <= k)%nat -> not_loading (st k) -> (k <= n)%nat -> not_loading (st n).
Proof.
  intros k n Hk Q H. induction H as [|n H IH]; [exact Q|]. assert (Lv' := Lv n ltac:(lia)). destruct (L n) as [S|[_ S]]; [|rewrite S; exact IH].
  apply step_cases in S. revert S IH Lv'. generalize (st n) (lb n) (st (S n)). clear. intros m l m' S Q Lv. unfold not_loading in *.
  destruct S as [e s' sp' Id D|s' sp' D|s' l' D|s' p' D]; cbn [mp_spin].
  - destruct D; try exact I; try exact Q.
    + match goal with P : sp_pc sp' = _ |- _ => rewrite P end. exact I.
    + match goal with P : sp_pc sp' = _ |- _ => rewrite P end. unfold run_pc. destruct (use_filter cf), (sh_enable (mp_sh m)); exact I.
    + destruct (Lv a file eq_refl) as [_ B2]. rewrite configure_eq, B2. cbn [snd at_pc sp_pc]. destruct (Z.testbit a 3); exact I.
  - destruct D; try exact I. match goal with P : sp_pc _ = SLoadLock _ |- _ => rewrite P in Q end. contradiction Q.
  - exact Q.
  - exact Q.
Qed.
Lemma settles : exists k, (N <= k)%nat /\ mapping_off (st k).
Proof.
  destruct (idle_often cf st lb I0 L F N) as (k1 & H1 & P1).
  destruct (C91_pass_finishes cf st lb I0 L F B k1) as (k2 & H2 & P2).
  exists k2. split; [lia|]. split; [apply stays_off; lia|]. split; [exact P2|].
  apply (stays_unloading k1); [exact H1|unfold not_loading; rewrite P1; exact I|exact H2].
Qed.
Lemma frozen_later : forall k g, (N <= k)%nat -> mapping_off (st k) -> the_graph cf (mp_sh (st k)) = Ok g ->
  forall n, (k <= n)%nat -> mapping_off (st n) /\ the_graph cf (mp_sh (st n)) = Ok g.
Proof.
  intros k g Hk O G n H. induction H as [|n H (O1 & G1)]; [auto|]. destruct (L n) as [J|[_ J]]; [|rewrite J; auto].
  pose proof (st_reachable cf st lb I0 L n) as R.
  destruct (frozen_step cf (lb n) (st n) (st (S n)) g (heap_reachable cf _ R) (off_reachable cf _ R) O1 (Lv n ltac:(lia)) (step_cases cf _ _ _ J) G1) as (O2 & G2 & _).
  auto.
Qed.
End Eventually.

Theorem C101_map_settles : forall {T} {A : Arith T} (cf : config T) st lb N, mapper_init cf = Ok (st 0) -> lives cf st lb -> fair cf st lb ->
  (forall n, (num_scans (mp_sh (st n)) < 2 ^ 64)%Z) ->
  sh_enable (mp_sh (st N)) = false -> (forall n, (N <= n)%nat -> leaves_map (lb n)) ->
  exists k g, (N <= k)%nat /\ forall n, (k <= n)%nat -> the_graph cf (mp_sh (st n)) = Ok g.
Proof.
  intros T A cf st lb N I0 L F B E Lv. destruct (settles cf st lb I0 L F B N E Lv) as (k & Hk & O).
  destruct (graph_of_heap cf (st k) (heap_reachable cf _ (st_reachable cf st lb I0 L k))) as (g & G).
  exists k, g. split; [exact Hk|]. intros n H. apply (frozen_later cf st lb I0 L N Lv k g Hk O G n H).
Qed.
Print Assumptions C101_map_settles.

(** A loop closure that was under way when mapping was switched off is still
    added: after the request only the loop closure thread runs. *)
Definition off_schedule : list (label b64) := Deliver (beam64 [] 0 0) :: loops 9 ++ [Deliver (EvConfigure 2 [])].
Definition off64 (n : nat) (m : mapper b64) : bool :=
  negb (sh_enable (mp_sh m)) && match sp_pc (mp_spin m) with SIdle => true | _ => false end && (List.length (sh_cons (mp_sh m)) =? n)%nat.
Lemma run_split : forall {T} {A : Arith T} (cf : config T) a b m m', run cf a = Ok m -> run cf (a ++ b) = Ok m' -> exec cf m b = Ok m'.
Proof.
  intros T A cf a b m m' E E'. unfold run in *. destruct (mapper_init cf) as [m0|f]; [|discriminate E]. cbn [bind] in *.
  rewrite (exec_app cf), E in E'. exact E'.
Qed.
Lemma run_graph : forall {T} {A : Arith T} (cf : config T) a m, run cf a = Ok m ->
  reachable cf m /\ exists g, the_graph cf (mp_sh m) = Ok g /\ gr_constraints g = sh_cons (mp_sh m).
Proof.
  intros T A cf a m E. assert (R : reachable cf m) by (exists a; exact E). split; [exact R|].
  destruct (graph_of_heap cf m (heap_reachable cf m R)) as (g & G). exists g. split; [exact G|].
  unfold the_graph in G. apply bind_ok in G. destruct G as (sc & _ & G). injection G as <-. reflexivity.
Qed.
Lemma off64_sound : forall n m, off64 n m = true -> sh_enable (mp_sh m) = false /\ sp_pc (mp_spin m) = SIdle /\ List.length (sh_cons (mp_sh m)) = n.
Proof.
  intros n m P. unfold off64 in P. apply andb_true_iff in P. destruct P as [P P3]. apply andb_true_iff in P. destruct P as [P1 P2].
  split; [apply negb_true_iff; exact P1|]. split; [destruct (sp_pc (mp_spin m)); congruence|apply Nat.eqb_eq; exact P3].
Qed.
Lemma grows_off : forall {A : Arith b64} (cf : config b64) a b n, ends64 (run cf a) (off64 n) = true -> ends64 (run cf (a ++ b)) (off64 (S n)) = true ->
  exists m m' g g', reachable cf m /\ sh_enable (mp_sh m) = false /\ sp_pc (mp_spin m) = SIdle /\ exec cf m b = Ok m' /\
  the_graph cf (mp_sh m) = Ok g /\ the_graph cf (mp_sh m') = Ok g' /\ List.length (gr_constraints g') = S (List.length (gr_constraints g)).
Proof.
  intros A cf a b n X Y. apply ends64_in in X. destruct X as (m & E & P). apply ends64_in in Y. destruct Y as (m' & E' & P').
  apply off64_sound in P, P'. destruct P as (P1 & P2 & P3), P' as (_ & _ & P4).
  destruct (run_graph cf a m E) as (R & g & G & C). destruct (run_graph cf _ m' E') as (_ & g' & G' & C').
  exists m, m', g, g'. rewrite C, C', P3, P4. split; [exact R|]. split; [exact P1|]. split; [exact P2|].
  split; [apply (run_split cf a b m m' E E')|]. auto.
Qed.
Theorem C101_map_frozen_refuted : forall lm, exists (cf : config b64) m m' g g',
  reachable (A := BA (easy lm)) cf m /\ sh_enable (mp_sh m) = false /\ sp_pc (mp_spin m) = SIdle /\ exec (A := BA (easy lm)) cf m (loops 9) = Ok m' /\
  the_graph cf (mp_sh m) = Ok g /\ the_graph cf (mp_sh m') = Ok g' /\ List.length (gr_constraints g') = S (List.length (gr_constraints g)).
Proof.
  intro lm. exists (cf64 lm 0 1 0 None true (Some two_scans)).
  apply (grows_off (A := BA (easy lm)) (cf64 lm 0 1 0 None true (Some two_scans)) off_schedule (loops 9) 0); vm_compute; reflexivity.
Qed.
Print Assumptions C101_map_frozen_refuted.

(** Mapping is switched off in the middle of a pass. *)
Definition settle_schedule : list (label b64) := loops 5 ++ [Deliver (EvConfigure 2 [])] ++ loops 9 ++ repeat Pub 11.
Example C101_nonvacuous_settles : forall lm, exists (cf : config b64) st lb N,
  mapper_init (A := BA (easy lm)) cf = Ok (st 0) /\ lives (A := BA (easy lm)) cf st lb /\ fair (A := BA (easy lm)) cf st lb /\
  (forall n, (num_scans (mp_sh (st n)) < 2 ^ 64)%Z) /\ sh_enable (mp_sh (st N)) = false /\ (forall n, (N <= n)%nat -> leaves_map (lb n)) /\
  lp_pc (mp_loop (st N)) <> LSleep.
Proof.
  intro lm. exists (apart_cf lm).
  destruct (witness lm (apart_cf lm) settle_schedule) as (st & lb & I & L & F & B & P & P' & Q); [apply Z.le_refl|vm_compute; reflexivity|].
  exists st, lb, 6%nat. split; [exact I|]. split; [exact L|]. split; [exact F|]. split; [exact B|].
  assert (C : every64 lm (apart_cf lm) settle_schedule (fun n m => negb (n =? 6)%nat || (negb (sh_enable (mp_sh m)) && match lp_pc (mp_loop m) with LSleep => false | _ => true end)) = true)
    by (vm_compute; reflexivity).
  destruct (every64_sound lm _ _ _ _ I C 6%nat) as (m & Em & Qm); [cbn; lia|]. rewrite (P 6%nat) in Em by (cbn; lia). injection Em as <-.
  cbn [Nat.eqb negb orb] in Qm. apply andb_true_iff in Qm. destruct Qm as [Q1 Q2]. apply negb_true_iff in Q1. split; [exact Q1|]. split.
  - intros n Hn a file Ef. destruct (Nat.lt_ge_cases n (List.length settle_schedule)) as [H|H].
    + rewrite (P' n H) in Ef. assert (J : In (Deliver (EvConfigure a file)) (skipn 6 settle_schedule)).
      { rewrite <- Ef. replace n with (6 + (n - 6))%nat by lia. rewrite <- (firstn_skipn 6 settle_schedule) at 1. rewrite app_nth2 by (cbn; lia).
        rewrite firstn_length. apply nth_In. rewrite skipn_length. cbn in H. cbn. lia. }
      cbn in J. repeat (destruct J as [J|J]; [discriminate J|]). contradiction J.
    + destruct (Q n H) as ([J|J] & _); rewrite J in Ef; discriminate Ef.
  - intro Z. rewrite Z in Q2. discriminate Q2.
Qed.

(** Localization in a map of two scans: poses are tracked, the map is published
    and saved. *)
Definition save_schedule : list (label b64) := Deliver (EvConfigure 8 []) :: Spin :: Spin :: repeat Pub 11.
Example C101_nonvacuous : forall lm, let cf := cf64 lm 0 1 0 None false (Some two_scans) in exists m,
  reach_if (A := BA (easy lm)) cf (fun _ l => leaves_map l) m /\ (exists sc g, In (ObMap sc g) (sh_trace (mp_sh m))) /\ (exists f, In (ObSave f) (sh_trace (mp_sh m))).
Proof.
  intros lm cf.
  assert (X : ends64 (run (A := BA (easy lm)) cf save_schedule) (fun m => existsb (fun o => match o with ObMap _ _ => true | _ => false end) (sh_trace (mp_sh m)) &&
     existsb (fun o => match o with ObSave _ => true | _ => false end) (sh_trace (mp_sh m))) = true) by (vm_compute; reflexivity).
  apply ends64_in in X. destruct X as (m & E & P). apply andb_true_iff in P. destruct P as [P1 P2].
  exists m. split.
  - eapply (run_reach (easy lm) cf (fun _ l => match l with Deliver (EvConfigure a _) => negb (Z.testbit a 0) && negb (Z.testbit a 2) | _ => true end)); [| |exact E].
    + intros m1 l H a file Q. subst l. apply andb_true_iff in H. destruct H as [H1 H2]. split; apply negb_true_iff; assumption.
    + vm_compute. reflexivity.
  - apply existsb_exists in P1. destruct P1 as ([] & J & P1); try discriminate P1. apply existsb_exists in P2. destruct P2 as ([] & J2 & P2); try discriminate P2.
    split; eexists; [eexists; exact J|exact J2].
Qed.
