(** C183, continued: the candidates for a loop closure, in double arithmetic. *)

From Coq Require Import ZArith Reals List Bool Lia Lra String.
From Flocq Require Import Core BinarySingleNaN.
From Verif Require Import Outcome Arith TypesModel ScanModel GraphModel LaserModel MapperModel NdtProofs GraphProofs SpecGraph SpecMapper SpecMapper2
  MapperSteps MapperInv1 MapperInv5 MapperWitness2 SpecNan SpecNear64 PropNear64.
Import ListNotations.
Local Open Scope R_scope.

(** The scans a scan is compared with for a loop closure: older than the rolling window
    (below the limit, if that is positive, C35) and, up to rounding, closer than the square root of global_search_size; none that
    is clearly closer is left out. *)
Theorem C183_candidates_doubles : forall (lm : libm) (tol : R) (cf : config b64) m num new m' c g, 0 <= tol ->
  radius_contract64 tol (en_search cf) -> is_finite (cf_search_size cf) = true ->
  lp_pc (mp_loop m) = LFetch num new -> step (A := BA lm) cf Loop m = Some (Ok m') -> lp_pc (mp_loop m') = LCand c ->
  the_graph cf (mp_sh m) = Ok g -> (forall sc, In sc (gr_scans g) -> in_size (placed lm (gr_use_bary g) sc)) ->
  exists sc limit, nth_error (gr_scans g) (Z.to_nat (lp_done (mp_loop m))) = Some sc /\ limit = to_int32 (wrap64 (lp_done (mp_loop m) - cf_depth cf)) /\
    let gap i := match nth_error (gr_scans g) i with Some other => true_sq (placed lm (gr_use_bary g) other) (placed lm (gr_use_bary g) sc) | None => 0 end in
    (forall i, In i (lc_rest c) -> below_limit (List.length (gr_scans g)) limit i /\ at_least (gap i) < B2R (cf_search_size cf)) /\
    (forall i, below_limit (List.length (gr_scans g)) limit i -> (1 + tol) * at_most (gap i) < B2R (cf_search_size cf) -> In i (lc_rest c)).
Proof.
  intros lm tol cf m num new m' c g0 T0 RC Fs Pc S Pc' G0 Sz. apply step_cases in S. inversion S as [| |s' l' D|]; subst; cbn [mp_loop] in *.
  destruct D; match goal with Q : lp_pc (mp_loop m) = _ |- _ => rewrite Q in Pc; try discriminate Pc end.
  cbn [lp_pc lat] in Pc'. injection Pc' as <-. cbn [lc_rest].
  match goal with G : the_graph cf (mp_sh m) = Ok ?g |- _ => assert (g = g0) by congruence; subst g; clear G end.
  pose proof G0 as G. unfold the_graph in G. apply bind_ok in G. destruct G as (scans & Gs & Eg). injection Eg as <-.
  assert (N : nth_error scans (Z.to_nat (lp_done (mp_loop m))) = Some sc).
  { clear - Gs H1 H2. unfold graph_scans in Gs. revert scans Gs H1. generalize (Z.to_nat (lp_done (mp_loop m))) as k.
    induction (sh_scans (mp_sh m)) as [|q ps IH]; intros k scans G E; [destruct k; discriminate E|].
    cbn [mapM] in G. apply bind_ok in G. destruct G as (x & D & G). apply bind_ok in G. destruct G as (r & Gr & Q). injection Q as <-.
    destruct k as [|k]; cbn in E |- *; [injection E as ->; apply deref_nth in D; congruence|apply (IH k r Gr E)]. }
  exists sc, (to_int32 (rolling_start cf (mp_loop m))). split; [exact N|]. split; [reflexivity|]. cbv zeta.
  match goal with F : find_nearest _ _ _ _ _ = Ok _ |- _ => 
    destruct (C183_find_nearest_doubles lm tol (en_search cf) T0 RC _ _ _ _ _ F Fs Sz (Sz _ (nth_error_In _ _ N))) as (_ & K1 & K2 & _) end.
  cbv zeta in K1, K2. split; assumption.
Qed.
Print Assumptions C183_candidates_doubles.

Example C183_candidates_nonvacuous : forall lm : libm, let cf := cf64 lm 0 1 0 None true (Some two_scans) in
  radius_contract64 0 (en_search cf) /\ is_finite (cf_search_size cf) = true /\
  exists m num new m' c g, run (A := BA (easy lm)) cf (Deliver (beam64 [] 0 0) :: loops 5) = Ok m /\ lp_pc (mp_loop m) = LFetch num new /\
  step (A := BA (easy lm)) cf Loop m = Some (Ok m') /\ lp_pc (mp_loop m') = LCand c /\ lc_rest c <> [] /\ the_graph cf (mp_sh m) = Ok g.
Proof.
  intros lm cf. split; [exact search64_contract|]. split; [reflexivity|].
  destruct (ends64_in (run (A := BA (easy lm)) cf (Deliver (beam64 [] 0 0) :: loops 5)) (fun m =>
    match lp_pc (mp_loop m) with LFetch _ _ => true | _ => false end &&
    match the_graph cf (mp_sh m) with Ok _ => true | Fault _ => false end &&
    match step (A := BA (easy lm)) cf Loop m with
    | Some (Ok m') => match lp_pc (mp_loop m') with LCand c => match lc_rest c with [] => false | _ => true end | _ => false end
    | _ => false end)) as (m & E & H).
  { vm_compute. reflexivity. }
  apply andb_prop in H. destruct H as [H H3]. apply andb_prop in H. destruct H as [H1 H2].
  destruct (the_graph cf (mp_sh m)) as [g|] eqn:G; [|discriminate H2].
  destruct (lp_pc (mp_loop m)) as [| | | | |num new| | | | | | | | | | |] eqn:Pc; try discriminate H1.
  destruct (step (A := BA (easy lm)) cf Loop m) as [[m'|]|] eqn:S; try discriminate H3.
  destruct (lp_pc (mp_loop m')) eqn:Pc'; try discriminate H3.
  do 6 eexists. split; [exact E|]. split; [exact Pc|]. split; [exact S|]. split; [exact Pc'|]. split; [|exact G].
  intro Q. rewrite Q in H3. discriminate H3.
Qed.
