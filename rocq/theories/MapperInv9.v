(** How the graph of the node grows. *)

From Coq Require Import ZArith List Bool String Lia.
From Verif Require Import Outcome Arith TypesModel ScanModel MatcherModel ConstraintModel
  SolverModel GraphModel OccGridModel MotionModel FilterModel LaserModel MapperModel SpecMapper SpecMapper2 SpecMapper4 SpecSolver
  NdtProofs SolverProofs MapperProofs MapperSteps MapperInv1 MapperInv2 MapperInv3 MapperInv5 MapperInv6.
Import ListNotations.
Local Open Scope outcome_scope.

Section P.
Context {T : Type} {A : Arith T}.
Context (cf : config T).

(** ** Nothing is forgotten *)
Definition kept (h h' : list (scan T)) : Prop :=
  forall p sc, nth_error h p = Some sc -> exists sc', nth_error h' p = Some sc' /\ s_id sc' = s_id sc /\ s_pts sc' = s_pts sc.
Definition ext (s s' : shared T) : Prop :=
  (exists more, sh_scans s' = sh_scans s ++ more) /\ (exists more, sh_cons s' = sh_cons s ++ more) /\ kept (sh_heap s) (sh_heap s').

Lemma kept_refl : forall h, kept h h.
Proof. intros h p sc E. exists sc. auto. Qed.
Lemma kept_app : forall h more, kept h (h ++ more).
Proof. intros h more p sc E. exists sc. split; [|auto]. rewrite nth_error_app1; [exact E|]. apply nth_error_Some. rewrite E. discriminate. Qed.
Lemma kept_poses : forall h h', only_poses h h' -> kept h h'.
Proof.
  intros h h' F. induction F as [|a b h h' R F IH]; intros p sc E; [destruct p; discriminate E|].
  destruct p as [|p]; cbn in E |- *; [injection E as <-; exists b; split; [reflexivity|exact R]|apply IH; exact E].
Qed.
Lemma kept_set : forall h p sc v, nth_error h p = Some sc -> s_id v = s_id sc -> s_pts v = s_pts sc -> kept h (list_set h p v).
Proof. intros h p sc v E I P. apply kept_poses. apply (only_poses_set' h p sc v E); [exact I|exact P]. Qed.
Lemma ext_trans : forall s s' s'', ext s s' -> ext s' s'' -> ext s s''.
Proof.
  intros s s' s'' ((a & A1) & (b & B1) & K1) ((c & A2) & (d & B2) & K2). split; [|split].
  - exists (a ++ c). rewrite A2, A1, app_assoc. reflexivity.
  - exists (b ++ d). rewrite B2, B1, app_assoc. reflexivity.
  - intros p sc E. destruct (K1 p sc E) as (sc1 & E1 & I1 & P1). destruct (K2 p sc1 E1) as (sc2 & E2 & I2 & P2).
    exists sc2. split; [exact E2|]. split; congruence.
Qed.
Lemma ext_same : forall s s' : shared T, sh_scans s' = sh_scans s -> sh_cons s' = sh_cons s -> kept (sh_heap s) (sh_heap s') -> ext s s'.
Proof. intros s s' E1 E2 K. split; [exists []; rewrite app_nil_r; exact E1|]. split; [exists []; rewrite app_nil_r; exact E2|exact K]. Qed.

Definition trace_ext (s s' : shared T) : Prop :=
  exists new, sh_trace s' = new ++ sh_trace s /\ (In ObLoad new \/ ext s s').

Definition loads (m : mapper T) (l : label T) : Prop := l = Spin /\ exists file, sp_pc (mp_spin m) = SLoad file.
Lemma step_ext0 : forall l m m', step_tr cf m l m' ->
  exists new, sh_trace (mp_sh m') = new ++ sh_trace (mp_sh m) /\ ((In ObLoad new /\ loads m l) \/ ext (mp_sh m) (mp_sh m')).
Proof.
  intros l m m' H.
  assert (zero : forall (s s' : shared T) P, sh_trace s' = sh_trace s -> ext s s' -> exists new, sh_trace s' = new ++ sh_trace s /\ ((In ObLoad new /\ P) \/ ext s s')).
  { intros s s' P E X. exists []. split; [exact E|right; exact X]. }
  assert (one : forall (s s' : shared T) o P, sh_trace s' = o :: sh_trace s -> ext s s' -> exists new, sh_trace s' = new ++ sh_trace s /\ ((In ObLoad new /\ P) \/ ext s s')).
  { intros s s' o P E X. exists [o]. split; [exact E|right; exact X]. }
  pose proof H as H0.
  destruct H as [e s' sp' Id D|s' sp' D|s' l' D|s' p' D]; cbn [mp_sh] in *.
  - destruct D; try (apply zero; [reflexivity|apply ext_same; [reflexivity|reflexivity|apply kept_refl]]).
    + apply zero; [reflexivity|apply ext_same; [reflexivity|reflexivity|apply kept_app]].
    + rewrite configure_eq. apply zero; [reflexivity|apply ext_same; [reflexivity|reflexivity|apply kept_refl]].
  - destruct D; try (apply zero; [reflexivity|apply ext_same; [reflexivity|reflexivity|apply kept_refl]]);
      try (apply zero; [reflexivity|apply ext_same; [reflexivity|reflexivity|eapply kept_set; [eassumption|reflexivity|reflexivity]]]).
    + eapply one; [reflexivity|]. split; [exists []; rewrite app_nil_r; reflexivity|]. split; [eexists; reflexivity|apply kept_refl].
    + eapply one; [reflexivity|]. split; [eexists; reflexivity|]. split; [exists []; rewrite app_nil_r; reflexivity|apply kept_refl].
    + destruct upd; (eapply one; [reflexivity|apply ext_same; [reflexivity|reflexivity|apply kept_refl]]).
    + exists [ObConstraint APose c; ObScan APose p]. split; [reflexivity|right]. split; [eexists; reflexivity|]. split; [eexists; reflexivity|apply kept_app].
    + eapply one; [reflexivity|apply ext_same; [reflexivity|reflexivity|apply kept_refl]].
    + exists [ObLoad]. split; [reflexivity|left]. split; [left; reflexivity|]. split; [reflexivity|eexists; eassumption].
    + eapply one; [reflexivity|apply ext_same; [reflexivity|reflexivity|apply kept_refl]].
  - apply loop_frame in H0. cbn [mp_sh] in H0. destruct H0 as (F1 & F2 & _ & _ & _ & _ & _ & _ & _ & F3).
    assert (X : ext (mp_sh m) s').
    { split; [exists []; rewrite app_nil_r; exact F1|]. split; [exact F3|apply kept_poses; exact F2]. }
    destruct D; try (apply zero; [reflexivity|exact X]); try (eapply one; [reflexivity|exact X]).
    destruct (put_all_frame (sh_scans (mp_sh m)) scans' (mp_sh m)) as [h E]. eapply one; [rewrite E; reflexivity|exact X].
  - apply pub_frame in H0. cbn [mp_sh] in H0. destruct H0 as ((F1 & F2 & F3) & _).
    assert (X : ext (mp_sh m) s') by (apply ext_same; [exact F2|exact F3|rewrite F1; apply kept_refl]).
    destruct D; try (apply zero; [reflexivity|exact X]); try (eapply one; [reflexivity|exact X]).
Qed.

Lemma step_ext : forall l m m', step_tr cf m l m' -> trace_ext (mp_sh m) (mp_sh m').
Proof. intros l m m' H. destruct (step_ext0 l m m' H) as (new & E & [[L _]|X]); exists new; (split; [exact E|]); [left; exact L|right; exact X]. Qed.
Lemma trace_ext_trans : forall s s' s'', trace_ext s s' -> trace_ext s' s'' -> trace_ext s s''.
Proof.
  intros s s' s'' (a & E1 & X1) (b & E2 & X2). exists (b ++ a). split; [rewrite E2, E1, app_assoc; reflexivity|].
  destruct X1 as [L|X1]; [left; apply in_or_app; right; exact L|]. destruct X2 as [L|X2]; [left; apply in_or_app; left; exact L|].
  right. apply (ext_trans _ s'); assumption.
Qed.
Lemma exec_ext : forall ls m m', exec cf m ls = Ok m' -> trace_ext (mp_sh m) (mp_sh m').
Proof.
  induction ls as [|l ls IH]; intros m m' E; cbn [exec] in E.
  - injection E as <-. exists []. split; [reflexivity|right]. apply ext_same; [reflexivity|reflexivity|apply kept_refl].
  - destruct (step cf l m) as [[m1|f]|] eqn:S; [|discriminate E|apply IH; exact E]. cbn [bind] in E.
    apply (trace_ext_trans _ (mp_sh m1)); [apply (step_ext l); apply step_cases; exact S|apply IH; exact E].
Qed.

Lemma graph_of_heap : forall m, heap_inv m -> exists g, the_graph cf (mp_sh m) = Ok g.
Proof.
  intros m [H _]. unfold the_graph, graph_scans.
  destruct (mapM_defined (deref (sh_heap (mp_sh m))) (sh_scans (mp_sh m))) as (scans & E).
  - intros p J. rewrite Forall_forall in H. apply H in J. destruct (nth_error (sh_heap (mp_sh m)) p) as [sc|] eqn:N.
    + exists sc. apply deref_nth. exact N.
    + apply nth_error_None in N. lia.
  - rewrite E. eexists. reflexivity.
Qed.

Lemma mapM_app_inv : forall {X Y} (f : X -> outcome Y) a b r, mapM f (a ++ b) = Ok r ->
  exists r1 r2, mapM f a = Ok r1 /\ mapM f b = Ok r2 /\ r = r1 ++ r2.
Proof.
  intros X Y f a. induction a as [|x a IH]; intros b r H; cbn [app mapM] in H.
  - exists [], r. auto.
  - apply bind_ok in H. destruct H as (y & E & H). apply bind_ok in H. destruct H as (ys & E2 & H). injection H as <-.
    destruct (IH b ys E2) as (r1 & r2 & E3 & E4 & ->). exists (y :: r1), r2. cbn [mapM]. rewrite E, E3. auto.
Qed.
Lemma mapM_kept : forall h h' ps a b, kept h h' -> mapM (deref h) ps = Ok a -> mapM (deref h') ps = Ok b -> only_poses a b.
Proof.
  intros h h' ps. induction ps as [|p ps IH]; intros a b K E1 E2; cbn [mapM] in *.
  - injection E1 as <-. injection E2 as <-. constructor.
  - apply bind_ok in E1. destruct E1 as (x & X1 & E1). apply bind_ok in E1. destruct E1 as (xs & X2 & E1). injection E1 as <-.
    apply bind_ok in E2. destruct E2 as (y & Y1 & E2). apply bind_ok in E2. destruct E2 as (ys & Y2 & E2). injection E2 as <-.
    constructor; [|apply IH; assumption]. apply deref_nth in X1. apply deref_nth in Y1.
    destruct (K p x X1) as (y' & N & I & P). rewrite Y1 in N. injection N as <-. auto.
Qed.

Lemma ext_extends : forall s s' g g', ext s s' -> the_graph cf s = Ok g -> the_graph cf s' = Ok g' -> extends g g'.
Proof.
  intros s s' g g' ((more & E1) & (mc & E2) & K) G G'. unfold the_graph, graph_scans in *.
  apply bind_ok in G. destruct G as (a & M & G). injection G as <-.
  apply bind_ok in G'. destruct G' as (b & M' & G'). injection G' as <-.
  rewrite E1 in M'. apply mapM_app_inv in M'. destruct M' as (r1 & r2 & M1 & M2 & ->).
  exists r1, r2, mc. cbn [gr_scans gr_constraints]. split; [apply (mapM_kept _ _ _ _ _ K M M1)|]. split; [reflexivity|exact E2].
Qed.

Lemma exec_reachable : forall ls m m', reachable cf m -> exec cf m ls = Ok m' -> reachable cf m'.
Proof.
  intros ls m m' (ls0 & R) E. exists (ls0 ++ ls). unfold run in *. apply bind_ok in R. destruct R as (m0 & I & R). rewrite I. cbn [bind].
  clear I. revert m0 R. induction ls0 as [|l ls0 IH]; intros m0 R; cbn [app exec] in *; [injection R as ->; exact E|].
  destruct (step cf l m0) as [[m1|f]|]; [|discriminate R|apply IH; exact R]. cbn [bind] in *. apply IH. exact R.
Qed.

Lemma app_inv_new : forall {X} (a b t : list X), a ++ t = b ++ t -> a = b.
Proof. intros X a b t H. apply app_inv_tail in H. exact H. Qed.

Theorem graph_grows : forall m ls m', reachable cf m -> exec cf m ls = Ok m' -> no_load_since m m' ->
  exists g g', the_graph cf (mp_sh m) = Ok g /\ the_graph cf (mp_sh m') = Ok g' /\ extends g g'.
Proof.
  intros m ls m' R E (new & N & L).
  destruct (graph_of_heap m (heap_reachable cf m R)) as (g & G).
  destruct (graph_of_heap m' (heap_reachable cf m' (exec_reachable ls m m' R E))) as (g' & G').
  exists g, g'. split; [exact G|]. split; [exact G'|].
  destruct (exec_ext ls m m' E) as (new' & N' & [Lo|X]).
  - rewrite N in N'. apply app_inv_new in N'. subst new'. contradiction.
  - apply (ext_extends _ _ _ _ X G G').
Qed.

(** ** The chain of constraints *)
Definition odo (cs : list (constraint T)) : list (constraint T) := filter (fun c => negb (c_switchable c)) cs.
Definition nums (n : nat) : list Z := map Z.of_nat (seq 1 n).
Lemma nums_S : forall n, nums (Datatypes.S n) = nums n ++ [Z.of_nat n + 1]%Z.
Proof. intro n. unfold nums. rewrite seq_S, map_app. cbn [map]. do 2 f_equal. lia. Qed.

Definition links (n : nat) (cs : list (constraint T)) : Prop :=
  map c_end (odo cs) = nums (n - 1) /\ Forall (fun c => 0 <= c_begin c < c_end c)%Z (odo cs).
Definition chain_inv (m : mapper T) : Prop :=
  let s := mp_sh m in
  match sp_pc (mp_spin m) with
  | SConsLock _ _ c | SConsPush _ _ c => c_switchable c = false
  | SScanLock _ _ | SScanPush _ _ => True
  | _ => True
  end /\
  links (List.length (sh_scans s) + match sp_pc (mp_spin m) with SScanLock _ _ | SScanPush _ _ => 1 | _ => 0 end) (sh_cons s).

Lemma links_loop : forall n cs k, links n cs -> c_switchable k = true -> links n (cs ++ [k]).
Proof.
  intros n cs k H E. unfold links, odo in *. rewrite filter_app. cbn [filter]. rewrite E. cbn [negb]. rewrite app_nil_r. exact H.
Qed.
Lemma links_push : forall n cs k, (1 <= n)%nat -> links n cs -> c_switchable k = false -> c_end k = Z.of_nat n -> (0 <= c_begin k < c_end k)%Z ->
  links (Datatypes.S n) (cs ++ [k]).
Proof.
  intros n cs k P [H1 H2] E K1 K2. unfold links, odo in *. rewrite filter_app. cbn [filter]. rewrite E. cbn [negb]. split.
  - rewrite map_app, H1. cbn [map]. replace (Datatypes.S n - 1)%nat with (Datatypes.S (n - 1)) by lia. rewrite nums_S, K1. do 2 f_equal. lia.
  - apply Forall_app. split; [exact H2|constructor; [exact K2|constructor]].
Qed.

Lemma load_links : forall s file, spanning (graph_load (cf_use_bary cf) file) -> links (List.length (sh_scans (load_graph cf s file))) (sh_cons (load_graph cf s file)).
Proof.
  intros s file (_ & S1 & S2). unfold load_graph. cbn [sh_scans sh_cons note set_cons set_scans set_heap]. rewrite seq_length. split; assumption.
Qed.

Context (depth_ok : (0 <= cf_depth cf)%Z) (search_ok : search_in_range (en_search cf)).

Lemma chained_tame : forall m l, chained cf m l -> tame cf m l.
Proof. intros m l [B L]. split; [exact B|]. intros E file P. apply (L E file P). Qed.

Lemma chain_step : forall l m m', chained cf m l -> id_inv cf m -> chain_inv m -> step_tr cf m l m' -> chain_inv m'.
Proof.
  intros l m m' [B Ld] (I1 & I3 & I4) [C1 C2] H. pose proof H as H0.
  destruct H as [e s' sp' Id D|s' sp' D|s' l' D|s' p' D]; cbn [mp_sh mp_spin mp_loop] in *.
  - rewrite Id in C2. unfold chain_inv. destruct D; cbn [mp_sh mp_spin].
    + match goal with P : sp_pc sp' = SIdle |- _ => rewrite P end. split; [exact I|exact C2].
    + match goal with P : sp_pc sp' = _ |- _ => rewrite P end. unfold run_pc; destruct (use_filter cf), (sh_enable (mp_sh m)); (split; [exact I|exact C2]).
    + rewrite Id. split; [exact I|exact C2].
    + split; [exact I|exact C2].
    + split; [exact I|exact C2].
    + split; [exact I|exact C2].
    + rewrite configure_eq. cbn [fst snd at_pc sp_pc]. destruct (Z.testbit a 2), (Z.testbit a 3); (split; [exact I|exact C2]).
  - unfold chain_inv. destruct D; match goal with P : sp_pc (mp_spin m) = _ |- _ => rewrite P in C1, C2, I3 end; cbn [spin_ok] in I3;
      cbn [mp_sh mp_spin at_pc sp_pc]; try (split; [exact I|exact C2]).
    + (* S_first *) split; [exact I|]. destruct C2 as [C2 C3].
      match goal with E : sh_scans _ = [] |- _ => rewrite E in * end. cbn [List.length Nat.add Nat.sub] in *. split; assumption.
    + split; [reflexivity|exact C2].
    + split; [exact C1|exact C2].
    + (* S_cons_push *) split; [exact I|]. destruct I3 as (J1 & J2 & J3 & J4). unfold num_scans in *.
      cbn [sh_scans sh_cons unlock_g set_glock note set_cons]. rewrite Nat.add_0_r in C2. rewrite Nat.add_1_r. apply links_push; [lia|exact C2|exact C1|exact J3|lia].
    + (* S_scan_push *) split; [exact I|]. cbn [sh_scans sh_cons unlock_g set_glock note set_scans]. rewrite app_length, Nat.add_0_r. exact C2.
    + destruct upd; (split; [exact I|exact C2]).
    + (* S_graph_near *)
      match goal with Gr : the_graph cf _ = Ok g |- _ => destruct (the_graph_length _ _ _ Gr) as (Lg & _ & Gs) end.
      assert (Li : (i < List.length (gr_scans g))%nat).
      { match goal with F : find_nearest _ _ _ _ _ = Ok (i :: rest) |- _ => apply (nearest_bound cf _ _ _ _ _ i search_ok F) end. left. reflexivity. }
      match goal with F : nth_error (_ ++ _) i = Some from |- _ => rewrite nth_error_app1 in F by exact Li; rename F into Fr end.
      pose proof (ids_numbered _ _ I1 Gs i from Fr) as Fid.
      split; [exact I|]. cbn [sh_scans sh_cons unlock_g set_glock note set_cons set_scans set_heap]. rewrite app_length. cbn [List.length].
      rewrite Nat.add_0_r in *. rewrite Nat.add_1_r. apply links_push; [lia|exact C2|reflexivity| |].
      * unfold c, make_constraint. cbn [c_end]. change (s_id sc) with (num_scans (mp_sh m)). reflexivity.
      * unfold c, make_constraint. cbn [c_begin c_end]. rewrite Fid. change (s_id sc) with (num_scans (mp_sh m)). unfold num_scans. lia.
    + (* S_load *) split; [exact I|]. rewrite Nat.add_0_r. match goal with P : sp_pc (mp_spin m) = SLoad file |- _ => exact (load_links (mp_sh m) file (Ld eq_refl file P)) end.
  - apply loop_frame in H0. cbn [mp_sh] in H0. destruct H0 as (F1 & _). unfold chain_inv. cbn [mp_sh mp_spin]. split; [exact C1|]. rewrite F1.
    destruct D; try exact C2.
    + cbn [sh_cons note set_cons]. apply links_loop; [exact C2|]. destruct I4 as [_ I4]. match goal with P : lp_pc _ = LPush _ _ |- _ => rewrite P in I4 end. apply I4.
    + destruct (put_all_frame (sh_scans (mp_sh m)) scans' (mp_sh m)) as [h E]. rewrite E. exact C2.
  - apply pub_frame in H0. cbn [mp_sh] in H0. destruct H0 as ((_ & F2 & F3) & _). unfold chain_inv. cbn [mp_sh mp_spin]. rewrite F2, F3. split; assumption.
Qed.

Lemma chain_reach : chained_start cf -> forall m, reach_if cf (chained cf) m -> id_inv cf m /\ chain_inv m.
Proof.
  intro start.
  assert (ids : forall m, reach_if cf (chained cf) m -> id_inv cf m).
  { intros m R. apply (id_reach cf depth_ok search_ok); [intros file F; apply (start file F)|]. apply (reach_if_mono cf (chained cf)); [exact chained_tame|exact R]. }
  intros m R. split; [apply ids; exact R|]. revert m R.
  apply (reach_if_and cf (chained cf) chain_inv (id_inv cf) ids); [|intros l m m' O J I H; apply (chain_step l m m'); assumption].
  intros m H. apply init_cases in H. destruct H as (s & f & -> & _ & ->). unfold chain_inv. cbn [mp_sh mp_spin sp_pc].
  split; [exact I|]. rewrite Nat.add_0_r. destruct (cf_file cf) as [file|] eqn:F.
  - exact (load_links (mkShared [] [] [] false None None pose0 pose0 (nopp (nlit 1 2)) (cf_enable cf) true None []) file (start file F)).
  - split; [reflexivity|constructor].
Qed.

Theorem graph_spanning : chained_start cf -> forall m, reach_if cf (chained cf) m -> ~ half_added m ->
  exists g, the_graph cf (mp_sh m) = Ok g /\ spanning g.
Proof.
  intros start m R N. destruct (chain_reach start m R) as ((I1 & _) & _ & C1 & C2).
  destruct (graph_defined cf _ I1) as (g & G). exists g. split; [exact G|]. destruct (the_graph_length _ _ _ G) as (L & C & Gs).
  assert (Z0 : match sp_pc (mp_spin m) with SScanLock _ _ | SScanPush _ _ => 1 | _ => 0 end = 0%nat).
  { destruct (sp_pc (mp_spin m)) eqn:E; try reflexivity; exfalso; apply N; [left|right]; eauto. }
  rewrite Z0, Nat.add_0_r in C1. split; [apply (ids_numbered _ _ I1 Gs)|]. unfold chain. rewrite L, C. split; assumption.
Qed.

Lemma spanning_linked : forall g : graph T, spanning g -> forall i, (i < List.length (gr_scans g))%nat -> linked g (Z.of_nat i).
Proof.
  intros g (_ & S1 & S2) i. induction i as [i IH] using lt_wf_ind. intro L.
  destruct i as [|i]; [apply linked_first|].
  assert (J : In (Z.of_nat (Datatypes.S i)) (map c_end (chain g))).
  { rewrite S1. apply in_map. apply in_seq. lia. }
  apply in_map_iff in J. destruct J as (c & E & J). rewrite Forall_forall in S2. pose proof (S2 c J) as K.
  apply filter_In in J. destruct J as [J _]. rewrite <- E. apply linked_forward; [exact J|].
  replace (c_begin c) with (Z.of_nat (Z.to_nat (c_begin c))) by lia. apply IH; lia.
Qed.

End P.
