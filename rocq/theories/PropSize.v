(** C153: how far away loop closure candidates may be. *)

From Coq Require Import ZArith Reals List Bool Lia Lra String.
From Flocq Require Import Core BinarySingleNaN.
From Verif Require Import Outcome Arith TypesModel ScanModel MatcherModel ConstraintModel SolverModel GraphModel LaserModel MapperModel
  NdtProofs SolverProofs ScanProofs GraphProofs MapperSteps MapperInv1 MapperInv5 MapperWitness2 SpecPose SpecGraph SpecMapper SpecMapper2 MapperWitness PropRace PropFreeze.
Import ListNotations.

(** Every scan object of the node came out of the constructor and the setters. *)
Section Made.
Context {T : Type} {A : Arith T}.

Lemma made_step (s : scan T) o : made s -> made (scan_step s o).
Proof. intros (id & ops & ->). exists id, (ops ++ [o]). unfold scan_run. rewrite fold_left_app. reflexivity. Qed.
Lemma made_pose (s : scan T) p : made s -> made (scan_set_pose s p).
Proof. exact (made_step s (SSetPose p)). Qed.
Lemma made_points (s : scan T) p : made s -> made (scan_set_points s p).
Proof. exact (made_step s (SSetPoints p)). Qed.
Lemma made_new id : made (scan_new id : scan T).
Proof. exists id, []. reflexivity. Qed.
Lemma made_put (s : shared T) p v : Forall made (sh_heap s) -> made v -> Forall made (sh_heap (put s p v)).
Proof. intros H V. unfold put. cbn [sh_heap set_heap]. apply list_set_forall; assumption. Qed.
Lemma made_put_all : forall ps vs (s : shared T), Forall made (sh_heap s) -> Forall made vs -> Forall made (sh_heap (put_all s ps vs)).
Proof.
  unfold put_all. induction ps as [|p ps IH]; intros [|v vs] s H V; cbn [combine fold_left]; try assumption.
  inversion V as [|? ? V1 V2]; subst. apply IH; [apply made_put; assumption|exact V2].
Qed.
Lemma made_loaded ub (file : list (bag_msg T)) : Forall made (gr_scans (graph_load ub file)).
Proof.
  unfold graph_load.
  assert (G : forall (l : list (bag_msg T)) (g : graph T), Forall made (gr_scans g) ->
    Forall made (gr_scans (fold_left (fun g m => match m with
      | BScan s => mkGraph (gr_use_bary g) (gr_scans g ++ [scan_of_msg s]) (gr_constraints g)
      | BConstraint c => mkGraph (gr_use_bary g) (gr_scans g) (gr_constraints g ++ [constraint_of_msg c]) end) l g))).
  { induction l as [|x l IH]; intros g H; [exact H|]. cbn [fold_left]. apply IH. destruct x as [s|c]; cbn [gr_scans]; [|exact H].
    apply Forall_app. split; [exact H|]. constructor; [|constructor]. unfold scan_of_msg. repeat first [apply made_pose|apply made_points|apply made_new]. }
  apply G. constructor.
Qed.
Lemma made_scans (s : shared T) scans : Forall made (sh_heap s) -> graph_scans s = Ok scans -> Forall made scans.
Proof.
  intros H. unfold graph_scans. revert scans. induction (sh_scans s) as [|p ps IH]; intros scans E; cbn [mapM] in E.
  - injection E as <-. constructor.
  - apply bind_ok in E. destruct E as (sc & D & E). apply bind_ok in E. destruct E as (r & R & E). injection E as <-.
    constructor; [|apply IH; exact R]. apply deref_nth in D. rewrite Forall_forall in H. apply H. apply nth_error_In in D. exact D.
Qed.
Lemma made_nth (l : list (scan T)) p s : Forall made l -> nth_error l p = Some s -> made s.
Proof. intros H N. rewrite Forall_forall in H. apply H. apply nth_error_In in N. exact N. Qed.

Context (cf : config T).
Lemma made_tr : forall l m m', Forall made (sh_heap (mp_sh m)) -> step_tr cf m l m' -> Forall made (sh_heap (mp_sh m')).
Proof.
  intros l m m' H D. destruct D as [e s' sp' Id D|s' sp' D|s' l' D|s' p' D]; cbn [mp_sh].
  - destruct D; try exact H.
    + cbn [sh_heap set_heap set_global]. apply Forall_app. split; [exact H|]. subst sc. constructor; [apply made_points, made_pose, made_new|constructor].
    + unfold configure_begin. repeat match goal with |- context [if ?b then _ else _] => destruct b end; exact H.
  - destruct D; try exact H; try (apply made_put; [exact H|apply made_pose; eapply made_nth; [exact H|eassumption]]); try (destruct upd; exact H).
    + cbn. apply Forall_app. split; [exact H|]. constructor; [|constructor]. first [apply made_pose, made_new|subst sc; apply made_pose, made_new].
    + cbn. apply Forall_app. split; [exact H|]. apply made_loaded.
  - destruct D; try exact H; try (apply made_put; [exact H|apply made_pose; eapply made_nth; [exact H|eassumption]]).
    apply made_put_all; [exact H|].
    match goal with G : graph_scans _ = Ok _, O : optimize _ _ _ _ = Ok _ |- _ => pose proof (made_scans _ _ H G) as F; destruct (optimize_inv _ _ _ _ _ _ _ O) as [(_ & _ & _ & ->)|(_ & r & _ & Q)] end; [constructor|].
    destruct Q as (_ & _ & ->). destruct b; [|exact F]. rewrite Forall_forall in F |- *. intros x I. apply in_map_iff in I. destruct I as (y & <- & I).
    unfold write_back. destruct (nodes_find _ (scan_key y)); [apply made_pose|]; apply F, I.
  - destruct D; exact H.
Qed.
Lemma made_reachable : forall m, reachable cf m -> Forall made (sh_heap (mp_sh m)).
Proof.
  apply (reachable_inv cf (fun m => Forall made (sh_heap (mp_sh m)))); [|intros l m m' I H; apply (made_tr l m m'); assumption].
  intros m E. apply init_cases in E. destruct E as (s & f & -> & _ & ->). cbn [mp_sh]. destruct (cf_file cf) as [file|]; [|constructor].
  cbn. apply made_loaded.
Qed.
End Made.

(** What the loop closure thread compares with global_search_size is the square
    of the distance: the candidates for a scan are those closer than the square
    root of the parameter. *)
Theorem C153_candidates_partial : forall (cf : config R) m num new m' c, radius_contract (en_search cf) -> reachable cf m ->
  lp_pc (mp_loop m) = LFetch num new -> step cf Loop m = Some (Ok m') -> lp_pc (mp_loop m') = LCand c ->
  exists g sc, the_graph cf (mp_sh m) = Ok g /\ nth_error (gr_scans g) (Z.to_nat (lp_done (mp_loop m))) = Some sc /\
    forall i, In i (lc_rest c) -> (apart g sc i * apart g sc i < cf_search_size cf)%R /\ (apart g sc i < sqrt (cf_search_size cf))%R.
Proof.
  intros cf m num new m' c RC R Pc S Pc'. apply step_cases in S. inversion S as [| |s' l' D|]; subst; cbn [mp_loop] in *.
  destruct D; match goal with Q : lp_pc (mp_loop m) = _ |- _ => rewrite Q in Pc; try discriminate Pc end.
  cbn [lp_pc lat] in Pc'. injection Pc' as <-. cbn [lc_rest].
  pose proof (made_reachable cf m R) as M.
  match goal with G : the_graph cf (mp_sh m) = Ok g |- _ => pose proof G as G0; unfold the_graph in G; apply bind_ok in G; destruct G as (scans & Gs & Eg); injection Eg as <- end.
  exists (mkGraph (cf_use_bary cf) scans (sh_cons (mp_sh m))), sc. split; [exact G0|].
  assert (N : nth_error scans (Z.to_nat (lp_done (mp_loop m))) = Some sc).
  { clear - Gs H1 H2. unfold graph_scans in Gs. revert scans Gs H1. generalize (Z.to_nat (lp_done (mp_loop m))) as k.
    induction (sh_scans (mp_sh m)) as [|q ps IH]; intros k scans G E; [destruct k; discriminate E|].
    cbn [mapM] in G. apply bind_ok in G. destruct G as (x & D & G). apply bind_ok in G. destruct G as (r & Gr & Q). injection Q as <-.
    destruct k as [|k]; cbn in E |- *; [injection E as ->; apply deref_nth in D; congruence|apply (IH k r Gr E)]. }
  split; [exact N|]. intros i I.
  destruct (find_nearest_made (en_search cf) (mkGraph (cf_use_bary cf) scans (sh_cons (mp_sh m))) sc RC
    (made_scans _ _ M Gs) (made_nth _ _ _ (made_scans _ _ M Gs) N) _ _ _ H4) as (_ & K & _).
  apply K in I. destruct I as (_ & I). split; [exact I|].
  match type of I with (?a * ?a < ?s)%R => assert (P : (0 <= a)%R) by apply apart_pos; rewrite <- (sqrt_square a P) at 1; apply sqrt_lt_1; nra end.
Qed.
Print Assumptions C153_candidates_partial.

(** Two scans at (0, 0) and (1/2, 1/2) are more than 5/8 apart; with
    global_search_size = 5/8 one is matched against the other. *)
Definition size64 : b64 := b64_of 5 (-3).
Definition size_cf (lm : libm) : config b64 :=
  mkConfig b64 (z64 1) (z64 1) 0 false size64 1 0 None (z64 1) (z64 1) true (z64 2) (z64 1) (z64 1) (Some two_scans)
    eig64 search64 no_ceres64 10 (mat3_zero (A := BA lm)) (fun _ => matcher64) (fun _ => matcher64).
Definition r64 (x : b64) : R := B2R x.
Definition gap2 (a b : scan b64) : R :=
  ((r64 (pox (s_pose a)) - r64 (pox (s_pose b))) * (r64 (pox (s_pose a)) - r64 (pox (s_pose b))) +
   (r64 (poy (s_pose a)) - r64 (poy (s_pose b))) * (r64 (poy (s_pose a)) - r64 (poy (s_pose b))))%R.
(** The scan about to be matched, and its candidate. *)
Definition is_b64 (x y : b64) : bool :=
  match x, y with
  | B754_zero _, B754_zero _ => true
  | B754_finite s m e _, B754_finite s' m' e' _ => Bool.eqb s s' && (m =? m')%positive && (e =? e')%Z
  | _, _ => false
  end.
Lemma is_b64_sound : forall x y, is_b64 x y = true -> r64 x = r64 y.
Proof.
  intros [s|s| |s m e H] [s'|s'| |s' m' e' H'] E; try discriminate E; [reflexivity|]. cbn in E. apply andb_prop in E. destruct E as [E E3]. apply andb_prop in E. destruct E as [E1 E2].
  apply Bool.eqb_prop in E1. apply Pos.eqb_eq in E2. apply Z.eqb_eq in E3. subst. reflexivity.
Qed.
Definition at_point (s : scan b64) (x y : b64) : bool := is_b64 (pox (s_pose s)) x && is_b64 (poy (s_pose s)) y.
Definition about_to_match (m : mapper b64) : bool :=
  match lp_pc (mp_loop m) with
  | LMatch c i cand =>
    match nth_error (sh_heap (mp_sh m)) (lc_scan c), nth_error (sh_heap (mp_sh m)) cand with
    | Some sc, Some csc => at_point sc half64 half64 && at_point csc (z64 0) (z64 0)
    | _, _ => false
    end
  | _ => false
  end.

Theorem C153_candidates_refuted : forall lm : libm, exists cf m c i cand sc csc,
  reachable (A := BA (easy lm)) cf m /\ good_start (A := BA (easy lm)) cf /\ lp_pc (mp_loop m) = LMatch c i cand /\
  nth_error (sh_heap (mp_sh m)) (lc_scan c) = Some sc /\ nth_error (sh_heap (mp_sh m)) cand = Some csc /\
  (0 < r64 (cf_search_size cf))%R /\ (r64 (cf_search_size cf) * r64 (cf_search_size cf) < gap2 sc csc)%R.
Proof.
  intro lm. destruct (ends64_in (run (A := BA (easy lm)) (size_cf lm) (Deliver (beam64 [] 0 0) :: loops 8)) about_to_match) as (m & E & H); [vm_compute; reflexivity|].
  unfold about_to_match in H. destruct (lp_pc (mp_loop m)) as [| | | | | | | |c i cand| | | | | | | |] eqn:Pc; try discriminate H.
  destruct (nth_error (sh_heap (mp_sh m)) (lc_scan c)) as [sc|] eqn:N1; [|discriminate H].
  destruct (nth_error (sh_heap (mp_sh m)) cand) as [csc|] eqn:N2; [|discriminate H].
  apply andb_prop in H. destruct H as [H1 H2]. apply andb_prop in H1, H2. destruct H1 as [H1 H3], H2 as [H2 H4].
  apply is_b64_sound in H1, H2, H3, H4.
  assert (R5 : r64 size64 = (5 / 8)%R) by (unfold r64, size64, b64_of; cbn; unfold F2R; cbn; lra).
  assert (R1 : r64 half64 = (1 / 2)%R) by (unfold r64, half64, b64_of; cbn; unfold F2R; cbn; lra).
  assert (R0 : r64 (z64 0) = 0%R) by reflexivity.
  exists (size_cf lm), m, c, i, cand, sc, csc. split; [eexists; exact E|].
  split; [intros f F; injection F as <-; exact (two_scans_ok (easy lm))|].
  split; [exact Pc|]. split; [exact N1|]. split; [exact N2|].
  change (cf_search_size (size_cf lm)) with size64. unfold gap2. rewrite H1, H2, H3, H4, R5, R1, R0. split; lra.
Qed.
Print Assumptions C153_candidates_refuted.

(** Two scans at the same place: one is a candidate for the other. *)
Definition same_place_by (search : @radius_oracle R) : config R :=
  mkConfig R 1%R 1%R 0 false 1%R 1 0 None 1%R 1%R true 1%R 1%R 1%R (Some [scan_file 0 0 0 []; scan_file 1 0 0 []])
    (fun m => (m00 m, m11 m)) search no_ceres 10 mat3_zero (fun _ => demo_matcher) (fun _ => demo_matcher).
Definition same_place : config R := same_place_by search_exact.
Lemma placed_fetch : forall search, ends (run (same_place_by search) (repeat Loop 5))
  (fun m => match lp_pc (mp_loop m) with LFetch 2 false => true | _ => false end) = true.
Proof. intro search. vm_compute. reflexivity. Qed.
Lemma placed_found : forall search, match run (same_place_by search) (repeat Loop 5 ++ [Loop]) with
  | Ok m => match lp_pc (mp_loop m) with LCand c => Some (lc_rest c) | _ => None end
  | Fault _ => None
  end = Some (search [mkPoint 0 0] (mkPoint 0 0) 1)%R.
Proof. intro search. vm_compute. reflexivity. Qed.
Example C153_nonvacuous : exists m num new m' c, radius_contract (en_search same_place) /\ reachable same_place m /\
  lp_pc (mp_loop m) = LFetch num new /\ step same_place Loop m = Some (Ok m') /\ lp_pc (mp_loop m') = LCand c /\ In 0%nat (lc_rest c).
Proof.
  destruct (ends_in _ _ (placed_fetch search_exact)) as (m & E & H). pose proof (placed_found search_exact) as P.
  change (same_place_by search_exact) with same_place in E, P.
  destruct (lp_pc (mp_loop m)) as [| | | | |num new| | | | | | | | | | |] eqn:Pc; try discriminate H. clear H.
  destruct (run same_place (repeat Loop 5 ++ [Loop])) as [m'|f] eqn:E'; [|discriminate P].
  pose proof (run_split same_place _ _ _ _ E E') as X. cbn [exec] in X.
  destruct (step same_place Loop m) as [[m1|f]|] eqn:S; [|discriminate X|].
  - cbn [bind] in X. injection X as ->. destruct (lp_pc (mp_loop m')) as [| | | | | |c| | | | | | | | | |] eqn:Pc'; try discriminate P. injection P as P.
    exists m, num, new, m', c. split; [exact search_exact_contract|].
    split; [eexists; exact E|]. split; [exact Pc|]. split; [exact S|]. split; [exact Pc'|]. rewrite P.
    destruct (search_exact_contract [mkPoint 0 0] (mkPoint 0 0) 1)%R as (_ & K & _). apply K.
    exists (mkPoint 0 0)%R. split; [reflexivity|]. unfold sq_dist. cbn. lra.
  - injection X as <-. rewrite Pc in P. discriminate P.
Qed.
