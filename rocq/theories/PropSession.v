(** C102: maps are carried from session to session. *)

From Coq Require Import ZArith List Bool String Lia.
From Flocq Require Import Core BinarySingleNaN.
From Verif Require Import Outcome Arith TypesModel ScanModel MatcherModel ConstraintModel
  SolverModel GraphModel OccGridModel MotionModel FilterModel LaserModel MapperModel SpecMapper SpecMapper2 SpecMapper4 SpecGraph SpecSession
  NdtProofs GraphProofs MapperProofs MapperSteps MapperInv1 MapperInv2 MapperInv3 MapperInv5 MapperInv6 MapperInv9 MapperInv10 MapperWitness2.
Import ListNotations.
Local Open Scope outcome_scope.

Section P.
Context {T : Type} {A : Arith T}.

(** A graph made from a file has 64 bit ids in its constraints. *)
Lemma load_fits : forall ub file, fits64 (graph_load (T := T) ub file).
Proof.
  intros ub file. unfold graph_load, fits64. assert (H : Forall (fun c : constraint T => (0 <= c_begin c < 2 ^ 64)%Z /\ (0 <= c_end c < 2 ^ 64)%Z) (gr_constraints (graph_new (T := T) ub))) by constructor.
  revert H. generalize (graph_new (T := T) ub). induction file as [|[s|c] file IH]; intros g H; cbn [fold_left]; [exact H|apply IH; exact H|].
  apply IH. cbn [gr_constraints]. apply Forall_app. split; [exact H|]. constructor; [|constructor]. cbn [constraint_of_msg c_begin c_end].
  unfold wrap64. split; apply Z.mod_pos_bound; lia.
Qed.

Section Session.
Context (cf : config T).

(** What was saved. *)
Lemma saved_trace : forall ok m, reach_if cf ok m -> forall file, In (ObSave file) (sh_trace (mp_sh m)) -> exists g, file = graph_save g /\ saved_when cf ok file g.
Proof.
  intros ok m R. induction R as [m E|m l m' R IH O S]; intros file J.
  - apply init_cases in E. destruct E as (s & f & -> & _ & Es). cbv zeta in Es. cbn [mp_sh] in J. rewrite Es in J.
    destruct (cf_file cf); cbn in J; [destruct J as [J|[]]; discriminate J|contradiction J].
  - destruct (step_cases cf l m m' S) as [e s' sp' Id D|s' sp' D|s' l' D|s' p' D] eqn:Tr; clear Tr.
    + apply IH. assert (K : sh_trace s' = sh_trace (mp_sh m)).
      { destruct D; try reflexivity. rewrite configure_eq. reflexivity. }
      cbn [mp_sh] in J. rewrite K in J. exact J.
    + destruct D; cbn [mp_sh] in J; try (apply IH; exact J); try (destruct J as [J|J]; [discriminate J|apply IH; exact J]).
      * destruct upd; (destruct J as [J|J]; [discriminate J|apply IH; exact J]).
      * destruct J as [J|[J|J]]; [discriminate J|discriminate J|apply IH; exact J].
      * destruct J as [J|J]; [|apply IH; exact J]. injection J as <-. exists g. split; [reflexivity|].
        eexists _, _. split; [exact R|]. split; [exact O|]. split; [eassumption|]. split; [exact S|]. split; [reflexivity|].
        cbn [mp_sh]. assumption.
    + destruct D; cbn [mp_sh] in J; try (apply IH; exact J); try (destruct J as [J|J]; [discriminate J|apply IH; exact J]).
      cbn in J. destruct (put_all_frame (sh_scans (mp_sh m)) scans' (mp_sh m)) as [h Eh]. rewrite Eh in J.
      destruct J as [J|J]; [discriminate J|apply IH; exact J].
    + destruct D; cbn [mp_sh] in J; try (apply IH; exact J); try (destruct J as [J|J]; [discriminate J|apply IH; exact J]).
Qed.

Context (depth_ok : (0 <= cf_depth cf)%Z) (search_ok : search_in_range (en_search cf)).

(** The constraints have 64 bit ids. *)
Definition fit (c : constraint T) : Prop := (0 <= c_begin c < 2 ^ 64)%Z /\ (0 <= c_end c < 2 ^ 64)%Z.
Lemma fits_step : forall l m m', tame cf m l -> id_inv cf m -> Forall fit (sh_cons (mp_sh m)) -> step_tr cf m l m' -> Forall fit (sh_cons (mp_sh m')).
Proof.
  intros l m m' [B Ld] (I1 & I3 & I4) C H. pose proof H as H0.
  destruct H as [e s' sp' Id D|s' sp' D|s' l' D|s' p' D]; cbn [mp_sh mp_spin mp_loop] in *.
  - destruct D; try exact C. rewrite configure_eq. exact C.
  - destruct D; match goal with P : sp_pc (mp_spin m) = _ |- _ => rewrite P in I3 end; cbn [spin_ok] in I3; try exact C.
    + destruct I3 as (J1 & J2 & J3 & J4). apply Forall_app. split; [exact C|]. constructor; [|constructor]. unfold fit. lia.
    + destruct upd; exact C.
    + match goal with Gr : the_graph cf _ = Ok g |- _ => destruct (the_graph_length _ _ _ Gr) as (Lg & _ & Gs) end.
      assert (Li : (i < List.length (gr_scans g))%nat).
      { match goal with F : find_nearest _ _ _ _ _ = Ok (i :: rest) |- _ => apply (nearest_bound cf _ _ _ _ _ i search_ok F) end. left. reflexivity. }
      match goal with F : nth_error (_ ++ _) i = Some from |- _ => rewrite nth_error_app1 in F by exact Li; rename F into Fr end.
      pose proof (ids_numbered _ _ I1 Gs i from Fr) as Fid.
      cbn [sh_cons unlock_g set_glock note set_cons]. apply Forall_app. split; [exact C|]. constructor; [|constructor].
      unfold fit, c, make_constraint. cbn [c_begin c_end]. rewrite Fid. change (s_id sc) with (num_scans (mp_sh m)). unfold num_scans in *. lia.
    + exact (load_fits (cf_use_bary cf) file).
  - destruct D; try exact C.
    + cbn [sh_cons note set_cons]. apply Forall_app. split; [exact C|]. constructor; [|constructor].
      destruct I4 as [I40 I4]. match goal with P : lp_pc _ = LPush _ _ |- _ => rewrite P in I4 end.
      destruct I4 as ((C1 & C2 & C3 & _) & K1 & K2 & _). unfold fit. rewrite K2. lia.
    + cbn. destruct (put_all_frame (sh_scans (mp_sh m)) scans' (mp_sh m)) as [h E]. rewrite E. exact C.
  - destruct D; exact C.
Qed.
Lemma fits_reach : numbered_start cf -> forall (ok : mapper T -> label T -> Prop) m, (forall m l, ok m l -> tame cf m l) -> reach_if cf ok m -> Forall fit (sh_cons (mp_sh m)).
Proof.
  intros start ok m T0 R. apply (reach_if_mono cf ok (tame cf) T0) in R. revert m R.
  apply (reach_if_and cf (tame cf) (fun m => Forall fit (sh_cons (mp_sh m))) (id_inv cf)); [apply (id_reach cf depth_ok search_ok start)| |].
  - intros m E. apply init_cases in E. destruct E as (s & f & -> & _ & ->). destruct (cf_file cf) as [file|]; [exact (load_fits (cf_use_bary cf) file)|constructor].
  - intros l m m' O J I H. apply (fits_step l m m'); assumption.
Qed.
Lemma graph_fits : forall m g, Forall fit (sh_cons (mp_sh m)) -> the_graph cf (mp_sh m) = Ok g -> fits64 g.
Proof.
  intros m g F G. unfold the_graph in G. apply bind_ok in G. destruct G as (scans & _ & G). injection G as <-. exact F.
Qed.

(** What [saved_when] says about the moment. *)
Lemma saving : forall ok file g, saved_when cf ok file g -> exists m, reach_if cf ok m /\ sp_pc (mp_spin m) = SSave /\ the_graph cf (mp_sh m) = Ok g.
Proof.
  intros ok file g (m & m' & R & O & G & S & E & G'). exists m. split; [exact R|]. split; [|exact G].
  apply step_cases in S. revert E. inversion S as [|s' sp' D| |]; subst. destruct D; cbn [mp_sh]; intro E; try assumption;
    try (exfalso; apply (f_equal (@List.length _)) in E; cbn in E; lia); try discriminate E.
Qed.
End Session.

Lemma load_numbered : forall ub (g : graph T) file, fits64 g -> same_topics file (graph_save g) -> numbered (gr_scans g) -> numbered (gr_scans (graph_load ub file)).
Proof.
  intros ub g file F S N. destruct (save_load ub g file F S) as [E1 _]. intros i sc Hi.
  assert (Q : exists sc', nth_error (gr_scans g) i = Some sc' /\ s_id sc = s_id sc').
  { clear -E1 Hi. revert i Hi. induction E1 as [|a b l l' R F IH]; intros [|i] Hi; cbn in Hi; try discriminate Hi.
    - injection Hi as <-. exists b. split; [reflexivity|apply R].
    - destruct (IH i Hi) as (c & E & I). exists c. split; assumption. }
  destruct Q as (sc' & Hi' & I). rewrite I. apply N. exact Hi'.
Qed.
Lemma load_well_formed : forall ub (g : graph T) file, fits64 g -> same_topics file (graph_save g) -> well_formed g -> well_formed (graph_load ub file).
Proof.
  intros ub g file F S [N J]. split; [apply (load_numbered ub g); assumption|]. destruct (save_load ub g file F S) as [E1 E2]. rewrite E2.
  assert (L : List.length (gr_scans (graph_load ub file)) = List.length (gr_scans g)) by (clear -E1; induction E1; cbn; congruence).
  rewrite L. exact J.
Qed.
Lemma not_half : forall m : mapper T, sp_pc (mp_spin m) = SSave -> ~ half_added m.
Proof. intros m E [(p & o & H)|(p & o & H)]; congruence. Qed.

Lemma lifelong : forall extra n file, saved_in extra n file -> forall ub, spanning (graph_load ub file).
Proof.
  intros extra n. induction n as [|n IH]; intros file S ub; cbn [saved_in] in S; [contradiction S|].
  destruct S as [S|(cf & m & w & D & Se & St & R & J & Tp)]; [apply IH; exact S|].
  destruct (saved_trace cf _ m R w J) as (g & -> & W). apply saving in W. destruct W as (m0 & R0 & P & G).
  assert (start : chained_start cf) by (intros f E; apply IH; apply St; exact E).
  assert (ch : forall m l, session_step (saved_in extra n) extra m l -> chained cf m l).
  { intros m1 l1 (B & _ & L). split; [exact B|]. intros E f Q. apply IH. apply (L E f Q). }
  assert (F : fits64 g).
  { apply (graph_fits cf m0 g); [|exact G]. apply (fits_reach cf D Se) with (ok := session_step (saved_in extra n) extra); [| |exact R0].
    - intros f E. apply (start f E).
    - intros m1 l1 O. apply (chained_tame cf). apply ch. exact O. }
  apply (saved_spanning ub g file F Tp).
  destruct (graph_spanning cf D Se start m0) as (g' & G' & Sp); [apply (reach_if_mono cf _ _ ch); exact R0|apply not_half; exact P|].
  rewrite G in G'. injection G' as <-. exact Sp.
Qed.
Lemma lifelong_wf : forall (extra : mapper T -> label T -> Prop), (forall m l, extra m l -> loads_asleep m l) ->
  forall n file, saved_in extra n file -> forall ub, well_formed (graph_load ub file).
Proof.
  intros extra As n. induction n as [|n IH]; intros file S ub; cbn [saved_in] in S; [contradiction S|].
  destruct S as [S|(cf & m & w & D & Se & St & R & J & Tp)]; [apply IH; exact S|].
  destruct (saved_trace cf _ m R w J) as (g & -> & W). apply saving in W. destruct W as (m0 & R0 & P & G).
  assert (start : good_start cf) by (intros f E; apply IH; apply St; exact E).
  assert (ch : forall m l, session_step (saved_in extra n) extra m l -> calm cf m l).
  { intros m1 l1 (B & X & L). split; [exact B|]. intros E f Q. split; [apply (As _ _ X E f Q)|]. apply IH. apply (L E f Q). }
  assert (F : fits64 g).
  { apply (graph_fits cf m0 g); [|exact G]. apply (fits_reach cf D Se) with (ok := session_step (saved_in extra n) extra); [| |exact R0].
    - intros f E. apply (start f E).
    - intros m1 l1 O. apply (calm_tame cf). apply ch. exact O. }
  apply (load_well_formed ub g file F Tp).
  destruct (graph_wf cf D Se start m0) as (g' & G' & Sp); [apply (reach_if_mono cf _ _ ch); exact R0|rewrite P; reflexivity|].
  rewrite G in G'. injection G' as <-. exact Sp.
Qed.
Lemma init_graph : forall (cf : config T) file m, cf_file cf = Some file -> mapper_init cf = Ok m ->
  exists g, the_graph cf (mp_sh m) = Ok g /\ gr_scans g = gr_scans (graph_load (cf_use_bary cf) file) /\ gr_constraints g = gr_constraints (graph_load (cf_use_bary cf) file).
Proof.
  intros cf file m F E. apply init_cases in E. destruct E as (s & f & -> & _ & Es). cbv zeta in Es. rewrite F in Es. cbn [mp_sh]. rewrite Es.
  unfold the_graph, graph_scans. cbn [sh_heap sh_scans sh_cons set_flag set_init load_graph note set_cons set_scans set_heap].
  pose proof (deref_app (@nil (scan T)) (gr_scans (graph_load (cf_use_bary cf) file))) as Q. cbn [app List.length] in *. rewrite Q. cbn [bind].
  eexists. split; [reflexivity|]. split; reflexivity.
Qed.
Lemma reload_graph : forall (cf : config T) m m' file, sp_pc (mp_spin m) = SLoad file -> step cf Spin m = Some (Ok m') ->
  exists g, the_graph cf (mp_sh m') = Ok g /\ gr_scans g = gr_scans (graph_load (cf_use_bary cf) file) /\ gr_constraints g = gr_constraints (graph_load (cf_use_bary cf) file).
Proof.
  intros cf m m' file P S. cbn [step] in S. unfold spin_step in S. rewrite P in S. cbn [option_map bind] in S. injection S as <-. cbn [mp_sh].
  unfold the_graph, graph_scans. cbn [sh_heap sh_scans sh_cons unlock_g set_glock set_flag set_init load_graph note set_cons set_scans set_heap].
  rewrite (deref_app (sh_heap (mp_sh m)) (gr_scans (graph_load (cf_use_bary cf) file))). cbn [bind].
  eexists. split; [reflexivity|]. split; reflexivity.
Qed.
End P.

(** Every file that was saved is the graph of the moment of saving. *)
Theorem C102_saved : forall {T} {A : Arith T} (cf : config T) ok m file, reach_if cf ok m -> In (ObSave file) (sh_trace (mp_sh m)) ->
  exists g, file = graph_save g /\ saved_when cf ok file g.
Proof. intros T A cf ok m file R J. apply (saved_trace cf ok m R file J). Qed.
Print Assumptions C102_saved.

(** A node that is started with the file, or loads it, has that graph again. *)
Theorem C102_resume : forall {T} {A : Arith T} (cf cf' : config T) m written file, (0 <= cf_depth cf)%Z -> search_in_range (en_search cf) -> numbered_start cf ->
  reach_if cf (tame cf) m -> In (ObSave written) (sh_trace (mp_sh m)) -> same_topics file written ->
  exists g, saved_when cf (tame cf) written g /\
    (forall m', cf_file cf' = Some file -> mapper_init cf' = Ok m' -> exists g', the_graph cf' (mp_sh m') = Ok g' /\ same_graph g' g) /\
    (forall m1 m2, sp_pc (mp_spin m1) = SLoad file -> step cf' Spin m1 = Some (Ok m2) -> exists g', the_graph cf' (mp_sh m2) = Ok g' /\ same_graph g' g).
Proof.
  intros T A cf cf' m w file D Se St R J Tp. destruct (saved_trace cf _ m R w J) as (g & -> & W). exists g. split; [exact W|].
  apply saving in W. destruct W as (m0 & R0 & P & G).
  assert (F : fits64 g).
  { apply (graph_fits cf m0 g); [|exact G]. apply (fits_reach cf D Se St (tame cf)); [intros m1 l1 O; exact O|exact R0]. }
  destruct (save_load (cf_use_bary cf') g file F Tp) as [E1 E2].
  split.
  - intros m' Fi I. destruct (init_graph cf' file m' Fi I) as (g' & G' & Q1 & Q2). exists g'. split; [exact G'|]. unfold same_graph. rewrite Q1, Q2. auto.
  - intros m1 m2 Pc S. destruct (reload_graph cf' m1 m2 file Pc S) as (g' & G' & Q1 & Q2). exists g'. split; [exact G'|]. unfold same_graph. rewrite Q1, Q2. auto.
Qed.
Print Assumptions C102_resume.

(** Whatever the sessions do, the files they pass on hold graphs whose scans are
    numbered in order and connected to the first scan. *)
Theorem C102_lifelong : forall {T} {A : Arith T} extra n (file : list (bag_msg T)) ub, saved_in extra n file -> spanning (graph_load ub file).
Proof. intros T A extra n file ub S. apply (lifelong extra n file S). Qed.
Print Assumptions C102_lifelong.

(** If maps are loaded only while the loop closure thread sleeps, all constraints
    join scans of the graph. *)
Theorem C102_lifelong_well_formed : forall {T} {A : Arith T} n (file : list (bag_msg T)) ub, saved_in loads_asleep n file -> well_formed (graph_load ub file).
Proof. intros T A n file ub S. apply (lifelong_wf loads_asleep (fun m l H => H) n file S). Qed.
Print Assumptions C102_lifelong_well_formed.

(** Two sessions: the first maps two scans and saves, the second starts with the
    file, adds a third scan and saves. *)
Section Two.
Context (lm : libm).
Local Instance SA : Arith b64 := BA (easy lm).
Definition first_save (o : outcome (mapper b64)) : option (list (bag_msg b64)) :=
  match o with
  | Ok m => match find (fun x => match x with ObSave _ => true | _ => false end) (sh_trace (mp_sh m)) with Some (ObSave f) => Some f | _ => None end
  | Fault _ => None
  end.
Definition save64 : list (label b64) := [Deliver (EvConfigure 8 []); Spin; Spin].
Definition day1 : outcome (mapper b64) := run (cf64 lm 10 1 0 None true None) (laser_schedule ++ save64).
Definition cf_day2 : config b64 := cf64 lm 10 1 0 None true (first_save day1).
Definition day2_schedule : list (label b64) :=
  Deliver (pose_ev64 (z64 2) (z64 0) 2 0) :: Spin :: Spin :: Spin :: Spin :: Spin ::
  Deliver (beam64 [z64 1] 4 0) :: Spin :: Spin :: Spin :: Spin :: Spin :: Spin :: Spin :: Spin :: save64.
Definition day2 : outcome (mapper b64) := run cf_day2 day2_schedule.

Definition session_b (m : mapper b64) (l : label b64) : bool :=
  (num_scans (mp_sh m) <? 2 ^ 31)%Z && match l, sp_pc (mp_spin m) with Spin, SLoad _ => false | _, _ => true end.
Lemma session_b_sound : forall files m l, session_b m l = true -> session_step files loads_asleep m l.
Proof.
  intros files m l H. unfold session_b in H. apply andb_true_iff in H. destruct H as [H1 H2]. apply Z.ltb_lt in H1.
  split; [exact H1|]. assert (N : l = Spin -> forall f, sp_pc (mp_spin m) <> SLoad f) by (intros -> f E; rewrite E in H2; discriminate H2).
  split; [intros E f P; contradiction (N E f P)|intros E f P; contradiction (N E f P)].
Qed.
Definition saved64 (o : outcome (mapper b64)) (n : nat) : bool :=
  match first_save o with Some f => (List.length (gr_scans (graph_load false f)) =? n)%nat | None => false end.
Lemma saved64_in : forall o n, saved64 o n = true -> exists m f, o = Ok m /\ first_save o = Some f /\ In (ObSave f) (sh_trace (mp_sh m)) /\
  List.length (gr_scans (graph_load false f)) = n.
Proof.
  intros o n H. unfold saved64 in H. destruct (first_save o) as [f|] eqn:E; [|discriminate H]. apply Nat.eqb_eq in H.
  destruct o as [m|]; [|discriminate E]. exists m, f. split; [reflexivity|]. split; [reflexivity|]. split; [|exact H].
  cbn [first_save] in E. destruct (find _ (sh_trace (mp_sh m))) as [[]|] eqn:Fd; try discriminate E. injection E as ->. apply find_some in Fd. apply Fd.
Qed.
Lemma next_session : forall cf ls n k, (0 <= cf_depth cf)%Z -> en_search cf = search64 ->
  (forall f, cf_file cf = Some f -> saved_in loads_asleep n f) -> run_ok (easy lm) cf session_b ls = true -> saved64 (run cf ls) k = true ->
  exists f, first_save (run cf ls) = Some f /\ saved_in loads_asleep (S n) f /\ List.length (gr_scans (graph_load false f)) = k.
Proof.
  intros cf ls n k D Se St B S. apply saved64_in in S. destruct S as (m & f & E & Fs & J & L). exists f. split; [exact Fs|]. split; [|exact L].
  right. exists cf, m, f. split; [exact D|]. split; [rewrite Se; exact search64_in_range|]. split; [exact St|].
  split; [|split; [exact J|split; reflexivity]]. apply (run_reach (easy lm) cf session_b _ ls); [|exact B|exact E].
  intros m0 l0 H. apply session_b_sound. exact H.
Qed.
End Two.

Lemma session1 : forall lm, exists f, first_save (day1 lm) = Some f /\ saved_in (A := BA (easy lm)) loads_asleep 1 f /\
  List.length (gr_scans (graph_load (A := BA (easy lm)) false f)) = 2%nat.
Proof.
  intro lm. apply (next_session lm (cf64 lm 10 1 0 None true None) (laser_schedule ++ save64) 0 2);
    [discriminate|reflexivity|intros f E; discriminate E|vm_compute; reflexivity|vm_compute; reflexivity].
Qed.
Lemma cf_day2_file : forall lm, cf_file (cf_day2 lm) = first_save (day1 lm).
Proof. intro lm. reflexivity. Qed.
Lemma cf_day2_depth : forall lm, (0 <= cf_depth (cf_day2 lm))%Z.
Proof. intro lm. discriminate. Qed.
Lemma session2_b : forall lm, run_ok (easy lm) (cf_day2 lm) session_b day2_schedule = true.
Proof. intro lm. vm_compute. reflexivity. Qed.
Lemma session2_saved : forall lm, saved64 lm (run (A := SA lm) (cf_day2 lm) day2_schedule) 4 = true.
Proof. intro lm. vm_compute. reflexivity. Qed.
Lemma session2 : forall lm f, first_save (day1 lm) = Some f -> saved_in (A := BA (easy lm)) loads_asleep 1 f -> 
  exists f2, first_save (run (A := SA lm) (cf_day2 lm) day2_schedule) = Some f2 /\ saved_in (A := SA lm) loads_asleep 2 f2 /\
    List.length (gr_scans (graph_load (A := SA lm) false f2)) = 4%nat.
Proof.
  intros lm f Fs S. apply (next_session lm (cf_day2 lm) day2_schedule 1 4); [apply cf_day2_depth|reflexivity| |apply session2_b|apply session2_saved].
  intros f0 E. rewrite cf_day2_file, Fs in E. injection E as <-. exact S.
Qed.

Example C102_nonvacuous : forall lm, exists f f2 : list (bag_msg b64),
  saved_in (A := BA (easy lm)) loads_asleep 1 f /\ List.length (gr_scans (graph_load (A := BA (easy lm)) false f)) = 2%nat /\
  saved_in (A := BA (easy lm)) loads_asleep 2 f2 /\ List.length (gr_scans (graph_load (A := BA (easy lm)) false f2)) = 4%nat.
Proof.
  intro lm. destruct (session1 lm) as (f & Fs & S & L). destruct (session2 lm f Fs S) as (f2 & _ & S2 & L2).
  exists f, f2. split; [exact S|]. split; [exact L|]. split; [exact S2|exact L2].
Qed.
