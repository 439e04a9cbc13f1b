(** The optimizer within the node: its problem is the graph's. *)

From Coq Require Import ZArith List Bool Lia.
From Verif Require Import Outcome Arith TypesModel ScanModel MatcherModel ConstraintModel
  SolverModel GraphModel OccGridModel MotionModel FilterModel LaserModel MapperModel SpecMapper SpecMapper2 SpecMapper4 SpecSolver SpecGraph
  NdtProofs MatcherProofs SolverProofs GraphProofs MapperProofs MapperSteps MapperInv1 MapperInv2 MapperInv3 MapperInv5 MapperInv6 MapperInv9 MapperInv10.
Import ListNotations.
Local Open Scope outcome_scope.

Section P.
Context {T : Type} {A : Arith T}.
Context (cf : config T).
Context (depth_ok : (0 <= cf_depth cf)%Z) (search_ok : search_in_range (en_search cf)).

Lemma put_len : forall (s : shared T) p v, List.length (sh_heap (put s p v)) = List.length (sh_heap s).
Proof.
  intros s p v. cbn [put set_heap sh_heap]. revert p. generalize (sh_heap s) as h.
  induction h as [|x h IH]; intros [|p]; cbn; auto.
Qed.

Lemma put_all_scans : forall ps vs (s : shared T), NoDup ps -> List.length vs = List.length ps ->
  Forall (fun p => (p < List.length (sh_heap s))%nat) ps ->
  mapM (deref (sh_heap (put_all s ps vs))) ps = Ok vs.
Proof.
  induction ps as [|p ps IH]; intros [|v vs] s ND L B; try discriminate L; [reflexivity|].
  inversion ND as [|? ? N1 N2]; subst. inversion B as [|? ? B1 B2]; subst. injection L as L.
  assert (E : put_all s (p :: ps) (v :: vs) = put_all (put s p v) ps vs) by reflexivity.
  cbn [mapM]. rewrite E.
  assert (D : deref (sh_heap (put_all (put s p v) ps vs)) p = Ok v).
  { apply deref_nth. rewrite put_all_other by exact N1. cbn [put set_heap sh_heap]. rewrite nth_error_list_set.
    rewrite Nat.eqb_refl. cbn [andb]. rewrite (proj2 (Nat.ltb_lt _ _) B1). reflexivity. }
  rewrite D. cbn [bind]. rewrite IH; [reflexivity|exact N2|exact L|].
  eapply Forall_impl; [|exact B2]. intros q Hq. rewrite put_len. exact Hq.
Qed.

Lemma ids_nodup : forall s : shared T, ids_ok s -> NoDup (sh_scans s).
Proof.
  intros s I. apply NoDup_nth_error. intros i j Hi E.
  destruct (nth_error (sh_scans s) i) as [p|] eqn:Ei; [|apply nth_error_None in Ei; lia].
  symmetry in E. pose proof (has_id_unique _ _ _ _ (I i p Ei) (I j p E)). lia.
Qed.

Definition solver_inv (m : mapper T) : Prop :=
  solver_ok (sh_cons (mp_sh m)) (keys (mp_sh m)) (lp_solver (mp_loop m)).

Lemma solver_inv_step : forall l m m', unloaded m l -> id_inv cf m -> solver_inv m -> step_tr cf m l m' -> solver_inv m'.
Proof.
  intros l m m' U (I1 & _) R1 H. unfold solver_inv in *.
  pose proof (unloaded_ext cf l m m' U H) as X. pose proof (solver_more _ _ _ X R1) as R1'.
  destruct H as [e s' sp' Id D|s' sp' D|s' l' D|s' p' D]; cbn [mp_sh mp_loop] in *; try exact R1'.
  destruct D; cbn [lat lp_solver next_scan]; try rewrite after_candidate_solver; try exact R1'.
  match goal with G : graph_scans _ = Ok scans, O : optimize _ _ _ _ = _ |- _ => rename G into Gs; rename O into Op end.
  destruct (put_all_frame (sh_scans (mp_sh m)) scans' (mp_sh m)) as [h Eh]. unfold keys. rewrite Eh.
  cbn [sh_cons sh_scans unlock_g set_glock set_flag note set_heap]. fold (keys (mp_sh m)).
  rewrite <- (graph_keys cf (mp_sh m) scans I1 (proj1 U) Gs) in R1 |- *. apply (optimize_ok _ _ _ _ _ _ _ R1 Op).
Qed.

Theorem optimizer_input : numbered_start cf -> forall m m', reach_if cf unloaded m -> (num_scans (mp_sh m) < 2 ^ 31)%Z ->
  optimizing m -> step cf Loop m = Some (Ok m') ->
  exists g b sv scans', the_graph cf (mp_sh m) = Ok g /\ NoDup (int_ids (gr_scans g)) /\
    solver_ok (gr_constraints g) (int_ids (gr_scans g)) (lp_solver (mp_loop m)) /\
    optimize (en_ceres cf) (lp_solver (mp_loop m)) (gr_constraints g) (gr_scans g) = Ok (b, sv, scans') /\
    the_graph cf (mp_sh m') = Ok (mkGraph (gr_use_bary g) scans' (gr_constraints g)).
Proof.
  intros start m m' R B O St.
  assert (inv : forall m, reach_if cf unloaded m -> id_inv cf m).
  { intros m0 R0. apply (id_reach cf depth_ok search_ok start). apply (reach_if_mono cf unloaded); [exact (unloaded_tame cf)|exact R0]. }
  assert (Q : solver_inv m).
  { clear O B St. revert m R. apply (reach_if_and cf unloaded solver_inv _ inv).
    - intros m H. apply init_cases in H. destruct H as (s & f & -> & _ & ->). split; [apply Nat.le_0_l|constructor].
    - intros l m m0 Se J I H. apply (solver_inv_step l m m0); assumption. }
  destruct (inv m R) as (I1 & _).
  destruct (heap_reachable cf m (reach_if_reachable cf unloaded m R)) as (Hp & _).
  apply step_cases in St. remember Loop as lb eqn:El.
  destruct St as [e s' sp' Id D|s' sp' D|s' l' D|s' p' D]; try discriminate El. cbn [mp_sh mp_loop] in *. red in O.
  destruct D; match goal with P : lp_pc (mp_loop m) = _ |- _ => rewrite P in O end; try discriminate O.
  match goal with G : graph_scans _ = Ok scans, P : optimize _ _ _ _ = _ |- _ => rename G into Gs; rename P into Op end.
  exists (mkGraph (cf_use_bary cf) scans (sh_cons (mp_sh m))), b, sv, scans'. cbn [gr_scans gr_constraints gr_use_bary].
  pose proof (graph_keys cf (mp_sh m) scans I1 B Gs) as K.
  split; [unfold the_graph; rewrite Gs; reflexivity|]. rewrite K.
  split; [apply nodup_ids|]. split; [exact Q|]. split; [exact Op|].
  assert (L : List.length scans' = List.length (sh_scans (mp_sh m))).
  { destruct (optimize_keeps _ _ _ _ _ _ _ Op) as (E & _). rewrite <- (map_length s_id scans'), E, map_length.
    unfold graph_scans in Gs. apply mapM_length in Gs. exact Gs. }
  unfold the_graph, graph_scans. destruct (put_all_frame (sh_scans (mp_sh m)) scans' (mp_sh m)) as [h Eh].
  assert (P : mapM (deref (sh_heap (put_all (mp_sh m) (sh_scans (mp_sh m)) scans'))) (sh_scans (mp_sh m)) = Ok scans').
  { apply put_all_scans; [apply ids_nodup; exact I1|exact L|exact Hp]. }
  rewrite Eh in P |- *. cbn [sh_heap sh_scans sh_cons unlock_g set_glock set_flag note set_heap] in P |- *. rewrite P. reflexivity.
Qed.

End P.
