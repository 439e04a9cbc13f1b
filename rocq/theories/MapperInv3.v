(** The graph stays well formed (C64, C65); indices of the loop closure thread
    (C75). *)

From Coq Require Import ZArith List Bool String Lia.
From Verif Require Import Outcome Arith TypesModel ScanModel MatcherModel ConstraintModel
  SolverModel GraphModel OccGridModel MotionModel FilterModel LaserModel MapperModel SpecMapper
  NdtProofs MatcherProofs GraphProofs MapperProofs MapperSteps MapperInv1 MapperInv2.
Import ListNotations.

Section P.
Context {T : Type} {A : Arith T}.
Context (cf : config T).

Lemma reach_if_inv (ok : mapper T -> label T -> Prop) (I : mapper T -> Prop) :
  (forall m, mapper_init cf = Ok m -> I m) ->
  (forall l m m', ok m l -> I m -> step_tr cf m l m' -> I m') -> forall m, reach_if cf ok m -> I m.
Proof.
  intros H0 St m R. induction R as [m E|m l m' R IH O E]; [apply H0; exact E|].
  apply (St l m m' O IH). apply step_cases. exact E.
Qed.

Lemma reach_if_and (ok : mapper T -> label T -> Prop) (I J : mapper T -> Prop) :
  (forall m, reach_if cf ok m -> J m) ->
  (forall m, mapper_init cf = Ok m -> I m) ->
  (forall l m m', ok m l -> J m -> I m -> step_tr cf m l m' -> I m') -> forall m, reach_if cf ok m -> I m.
Proof.
  intros HJ H0 St m R. induction R as [m E|m l m' R IH O E]; [apply H0; exact E|].
  apply (St l m m' O); [apply HJ; exact R|exact IH|apply step_cases; exact E].
Qed.

Definition has_id (s : shared T) (p : nat) (k : Z) : Prop := exists sc, nth_error (sh_heap s) p = Some sc /\ s_id sc = k.
Definition ids_grow (s s' : shared T) : Prop := forall p k, has_id s p k -> has_id s' p k.

Lemma ids_grow_same : forall s s' : shared T, sh_heap s' = sh_heap s -> ids_grow s s'.
Proof. intros s s' E p k (sc & N & I). exists sc. rewrite E. auto. Qed.
Lemma ids_grow_app : forall (s s' : shared T) more, sh_heap s' = sh_heap s ++ more -> ids_grow s s'.
Proof.
  intros s s' more E p k (sc & N & I). exists sc. split; [|exact I]. rewrite E, nth_error_app1; [exact N|].
  apply nth_error_Some. rewrite N. discriminate.
Qed.
Lemma ids_grow_poses : forall s s' : shared T, only_poses (sh_heap s) (sh_heap s') -> ids_grow s s'.
Proof.
  intros s s' O p k (sc & N & I). destruct (only_poses_nth _ _ p sc O N) as (sc' & N' & I' & _). exists sc'. split; [exact N'|congruence].
Qed.

Lemma step_ids : forall l m m', step_tr cf m l m' -> ids_grow (mp_sh m) (mp_sh m').
Proof.
  intros l m m' H. pose proof H as H0. destruct H as [e s' sp' Id D|s' sp' D|s' l' D|s' p' D]; cbn [mp_sh].
  - destruct D; try (apply ids_grow_same; reflexivity).
    + apply ids_grow_app with [sc]. reflexivity.
    + rewrite configure_eq. apply ids_grow_same. reflexivity.
  - destruct D; try (apply ids_grow_same; reflexivity).
    + apply ids_grow_poses. apply only_poses_set. assumption.
    + apply ids_grow_poses. apply only_poses_set. assumption.
    + apply ids_grow_poses. apply only_poses_set. assumption.
    + destruct upd; apply ids_grow_same; reflexivity.
    + apply ids_grow_app with [sc]. reflexivity.
    + apply ids_grow_app with (gr_scans (graph_load (cf_use_bary cf) file)). reflexivity.
  - apply ids_grow_poses. apply loop_frame in H0. apply H0.
  - apply ids_grow_same. apply pub_frame in H0. apply H0.
Qed.

(** ** The invariant *)
Definition ids_ok (s : shared T) : Prop := forall i p, nth_error (sh_scans s) i = Some p -> has_id s p (Z.of_nat i).

Definition spin_ok (s : shared T) (pc : spin_pc T) : Prop :=
  match pc with
  | SFilter p _ _ _ | SMatch p _ | SMake p _ _ | SScanLock p _ | SScanPush p _ | STrack p _ => has_id s p (num_scans s)
  | SConsLock p _ c | SConsPush p _ c =>
    has_id s p (num_scans s) /\ c_begin c = (num_scans s - 1)%Z /\ c_end c = num_scans s /\ (1 <= num_scans s)%Z
  | SPoseLock p _ _ | SPoseWrite p _ _ => exists k, has_id s p k
  | _ => True
  end.
Definition pending (pc : spin_pc T) : nat := match pc with SScanLock _ _ | SScanPush _ _ => 1 | _ => 0 end.

Definition ctx_ok (s : shared T) (done : Z) (c : lctx) : Prop :=
  (lc_num c < 2 ^ 31)%Z /\ (done < lc_num c)%Z /\ (cf_depth cf < done)%Z /\ has_id s (lc_scan c) done /\
  Forall (fun i => (Z.of_nat i < done - cf_depth cf)%Z) (lc_rest c).
Definition loop_ok (s : shared T) (l : looper T) : Prop :=
  (0 <= lp_done l)%Z /\
  match lp_pc l with
  | LNext num _ => (num < 2 ^ 31)%Z /\ (cf_depth cf < lp_done l)%Z
  | LFetchLock num _ | LFetch num _ => (lp_done l < num < 2 ^ 31)%Z /\ (cf_depth cf < lp_done l)%Z
  | LCand c | LFlag c => ctx_ok s (lp_done l) c
  | LRegion c i => ctx_ok s (lp_done l) c /\ (Z.of_nat i < lp_done l - cf_depth cf)%Z
  | LMatch c i cand | LCorrect c i cand _ _ | LMake c i cand _ =>
    ctx_ok s (lp_done l) c /\ (Z.of_nat i < lp_done l - cf_depth cf)%Z /\ has_id s cand (Z.of_nat i)
  | LPushLock c k | LPush c k =>
    ctx_ok s (lp_done l) c /\ (0 <= c_begin k < lp_done l - cf_depth cf)%Z /\ c_end k = lp_done l /\ c_switchable k = true
  | _ => True
  end.

(** The number of scans the loop closure thread counted. *)
Definition counted (pc : loop_pc T) : Z :=
  match pc with
  | LNext num _ | LFetchLock num _ | LFetch num _ => num
  | LCand c | LRegion c _ | LMatch c _ _ | LCorrect c _ _ _ _ | LMake c _ _ _ | LPushLock c _ | LPush c _ | LFlag c => lc_num c
  | _ => 0
  end%Z.

Definition id_inv (m : mapper T) : Prop :=
  let s := mp_sh m in ids_ok s /\ spin_ok s (sp_pc (mp_spin m)) /\ loop_ok s (mp_loop m).
Definition wf_inv (m : mapper T) : Prop :=
  let s := mp_sh m in
  Forall (joins (List.length (sh_scans s) + pending (sp_pc (mp_spin m)))) (sh_cons s) /\
  (counted (lp_pc (mp_loop m)) <= num_scans s)%Z.

Lemma ids_ok_grow : forall s s', ids_ok s -> sh_scans s' = sh_scans s -> ids_grow s s' -> ids_ok s'.
Proof. intros s s' H E G i p N. apply G. apply H. rewrite E in N. exact N. Qed.

Lemma spin_ok_grow : forall s s' pc, spin_ok s pc -> sh_scans s' = sh_scans s -> ids_grow s s' -> spin_ok s' pc.
Proof.
  intros s s' pc H E G. assert (N : num_scans s' = num_scans s) by (unfold num_scans; rewrite E; reflexivity).
  destruct pc; cbn [spin_ok] in *; rewrite ?N; try exact I; try (apply G; exact H).
  - destruct H as (H & R). split; [apply G; exact H|exact R].
  - destruct H as (H & R). split; [apply G; exact H|exact R].
  - destruct H as [k H]. exists k. apply G. exact H.
  - destruct H as [k H]. exists k. apply G. exact H.
Qed.

Lemma ctx_ok_grow : forall s s' d c, ctx_ok s d c -> ids_grow s s' -> ctx_ok s' d c.
Proof.
  intros s s' d c (H1 & H2 & H3 & H4 & H5) G. split; [exact H1|]. split; [exact H2|]. split; [exact H3|]. split; [apply G; exact H4|exact H5].
Qed.
Lemma loop_ok_grow : forall s s' l, loop_ok s l -> ids_grow s s' -> loop_ok s' l.
Proof.
  intros s s' l (H0 & H) G. split; [exact H0|]. destruct (lp_pc l); try exact I; try exact H; try (apply (ctx_ok_grow s); assumption).
  - destruct H as [H1 H2]. split; [apply (ctx_ok_grow s); assumption|exact H2].
  - destruct H as (H1 & H2 & H3). split; [apply (ctx_ok_grow s); assumption|]. split; [exact H2|apply G; exact H3].
  - destruct H as (H1 & H2 & H3). split; [apply (ctx_ok_grow s); assumption|]. split; [exact H2|apply G; exact H3].
  - destruct H as (H1 & H2 & H3). split; [apply (ctx_ok_grow s); assumption|]. split; [exact H2|apply G; exact H3].
  - destruct H as (H1 & H2). split; [apply (ctx_ok_grow s); assumption|exact H2].
  - destruct H as (H1 & H2). split; [apply (ctx_ok_grow s); assumption|exact H2].
Qed.

Lemma joins_mono : forall n n' (c : constraint T), joins n c -> (n <= n')%nat -> joins n' c.
Proof. intros n n' c [H1 H2] L. split; [exact H1|lia]. Qed.
Lemma joins_all_mono : forall n n' (cs : list (constraint T)), Forall (joins n) cs -> (n <= n')%nat -> Forall (joins n') cs.
Proof. intros n n' cs H L. eapply Forall_impl; [|exact H]. intros c J. apply (joins_mono n); assumption. Qed.

Lemma has_id_unique : forall s p j k, has_id s p j -> has_id s p k -> j = k.
Proof. intros s p j k (x & N & E) (y & N' & E'). congruence. Qed.
Lemma has_id_at : forall s p k sc, has_id s p k -> nth_error (sh_heap s) p = Some sc -> s_id sc = k.
Proof. intros s p k sc (x & N & E) N'. congruence. Qed.

Lemma last_index : forall (l : list nat) x, nth_error (rev l) 0 = Some x -> nth_error l (List.length l - 1) = Some x.
Proof.
  intros l x H. destruct (rev l) as [|y r] eqn:E; [discriminate H|]. injection H as ->.
  assert (L : l = rev r ++ [x]) by (rewrite <- (rev_involutive l), E; reflexivity). rewrite L.
  rewrite app_length. cbn [List.length]. rewrite nth_error_app2 by lia. rewrite Nat.add_sub. rewrite Nat.sub_diag. reflexivity.
Qed.

Lemma nearest_bound : forall g (sc : scan T) d limit near i, search_in_range (en_search cf) -> find_nearest (en_search cf) g sc d limit = Ok near ->
  In i near -> (i < List.length (gr_scans g))%nat /\ ((0 < limit)%Z -> (Z.of_nat i < limit)%Z).
Proof.
  intros g sc d limit near i S H I. rewrite find_nearest_defined in H.
  destruct (Z.ltb_spec (Z.of_nat (List.length (gr_scans g))) limit) as [L|L]; [discriminate H|]. injection H as <-.
  apply S in I. rewrite map_length, firstn_length in I. unfold limit_of in I. destruct (Z.ltb_spec 0 limit); lia.
Qed.

Lemma the_graph_length : forall (s : shared T) g, the_graph cf s = Ok g ->
  List.length (gr_scans g) = List.length (sh_scans s) /\ gr_constraints g = sh_cons s /\ graph_scans s = Ok (gr_scans g).
Proof.
  intros s g H. unfold the_graph in H. apply bind_ok in H. destruct H as (scans & G & H). injection H as <-. cbn [gr_scans gr_constraints].
  split; [|split; [reflexivity|exact G]]. unfold graph_scans in G. apply mapM_length in G. exact G.
Qed.

Lemma ids_numbered : forall (s : shared T) scans, ids_ok s -> graph_scans s = Ok scans -> numbered scans.
Proof.
  intros s scans I G i sc N. destruct (graph_scans_nth' s scans i sc G N) as (p & P & D).
  apply (has_id_at s p); [apply I; exact P|exact D].
Qed.

Lemma ids_push : forall s s' p, ids_ok s -> ids_grow s s' -> sh_scans s' = sh_scans s ++ [p] -> has_id s' p (num_scans s) -> ids_ok s'.
Proof.
  intros s s' p H G E Hp i q N. rewrite E in N. destruct (Nat.ltb_spec i (List.length (sh_scans s))) as [L|L].
  - rewrite nth_error_app1 in N by exact L. apply G. apply H. exact N.
  - rewrite nth_error_app2 in N by exact L. destruct (i - List.length (sh_scans s))%nat as [|k] eqn:K; [|destruct k; discriminate N].
    injection N as <-. unfold num_scans in Hp. replace i with (List.length (sh_scans s)) by lia. exact Hp.
Qed.

Lemma num_push : forall (s s' : shared T) p, sh_scans s' = sh_scans s ++ [p] -> num_scans s' = (num_scans s + 1)%Z.
Proof. intros s s' p E. unfold num_scans. rewrite E, app_length. cbn [List.length]. lia. Qed.

Lemma after_candidate_ok : forall s l c, (0 <= cf_depth cf)%Z -> (0 <= lp_done l)%Z -> ctx_ok s (lp_done l) c ->
  loop_ok s (after_candidate l c).
Proof.
  intros s l c D H0 (H1 & H2 & H3 & H4 & H5). unfold after_candidate. destruct (_ =? 0)%Z.
  - unfold next_scan, loop_ok. cbn [lp_done lp_pc]. rewrite wrap64_small by lia. split; [lia|]. split; [lia|lia].
  - unfold loop_ok, lat. cbn [lp_done lp_pc]. split; [exact H0|]. split; [exact H1|]. split; [exact H2|]. split; [exact H3|]. split; [exact H4|exact H5].
Qed.

Lemma first_done_ok : forall (s : shared T) l, (num_scans s < 2 ^ 31)%Z -> (0 <= cf_depth cf)%Z -> (0 <= lp_done l)%Z -> (cf_depth cf < num_scans s)%Z ->
  (0 <= first_done cf l)%Z /\ (cf_depth cf < first_done cf l)%Z.
Proof.
  intros s l B D H0 H. unfold first_done. destruct (Z.leb_spec (lp_done l) (cf_depth cf)); [rewrite wrap64_small; lia|lia].
Qed.

Lemma rolling_value : forall l : looper T, (cf_depth cf < lp_done l)%Z -> (0 <= cf_depth cf)%Z -> (lp_done l < 2 ^ 64)%Z ->
  rolling_start cf l = (lp_done l - cf_depth cf)%Z.
Proof. intros l H D B. unfold rolling_start. apply wrap64_small. lia. Qed.

Lemma seq_nth_in : forall (h more : list (scan T)) i p, nth_error (seq (List.length h) (List.length more)) i = Some p ->
  exists sc, nth_error (h ++ more) p = Some sc /\ nth_error more i = Some sc.
Proof.
  intros h more i p H. assert (L : (i < List.length more)%nat).
  { rewrite <- (seq_length (List.length more) (List.length h)). apply nth_error_Some. rewrite H. discriminate. }
  apply nth_error_nth with (d := O) in H. rewrite seq_nth in H by exact L. subst p.
  destruct (nth_error more i) as [sc|] eqn:E; [|apply nth_error_None in E; lia].
  exists sc. split; [|reflexivity]. rewrite nth_error_app2 by lia. replace (List.length h + i - List.length h)%nat with i by lia. exact E.
Qed.

Lemma load_ids : forall s file, numbered (gr_scans (graph_load (cf_use_bary cf) file)) -> ids_ok (load_graph cf s file).
Proof.
  intros s file N. unfold load_graph, ids_ok, has_id. cbn [sh_scans sh_heap sh_cons note set_cons set_scans set_heap].
  intros i p H. apply seq_nth_in in H. destruct H as (sc & E & E'). exists sc. split; [exact E|apply N; exact E'].
Qed.
Lemma load_joins : forall s file, well_formed (graph_load (cf_use_bary cf) file) ->
  Forall (joins (List.length (sh_scans (load_graph cf s file)))) (sh_cons (load_graph cf s file)).
Proof.
  intros s file [N J]. unfold load_graph. cbn [sh_scans sh_heap sh_cons note set_cons set_scans set_heap]. rewrite seq_length. exact J.
Qed.

Context (depth_ok : (0 <= cf_depth cf)%Z) (search_ok : search_in_range (en_search cf)).

Lemma loop_ok_step : forall s l s' l', (num_scans s < 2 ^ 31)%Z -> ids_ok s -> loop_ok s l -> ids_grow s s' ->
  loop_tr cf s l s' l' -> loop_ok s' l'.
Proof.
  intros s l s' l' B Ids (H0 & H) G D.
  assert (cx : forall d c, ctx_ok s d c -> ctx_ok s' d c) by (intros d c C; apply (ctx_ok_grow s); assumption).
  destruct D; match goal with P : lp_pc l = _ |- _ => rewrite P in H end;
    try (split; [exact H0|exact I]); try (apply (loop_ok_grow s); try assumption; fail).
  - split; [exact H0|]. match goal with P : lp_pc l = _ |- _ => rewrite P end. exact I.
  - destruct (first_done_ok s l) as [F1 F2]; try assumption. split; cbn [lp_done lp_pc]; [exact F1|]. split; [lia|exact F2].
  - destruct H as [K1 K2]. split; [exact H0|]. cbn [lat lp_done lp_pc]. split; [lia|exact K2].
  - destruct H as [K1 K2]. split; [exact H0|]. cbn [lat lp_done lp_pc]. split; [lia|exact K2].
  - destruct H as [K1 K2]. split; [exact H0|]. cbn [lat lp_done lp_pc]. unfold ctx_ok. cbn [lc_num lc_scan lc_rest].
    split; [lia|]. split; [lia|]. split; [exact K2|]. split.
    + apply G. rewrite <- (Z2Nat.id (lp_done l)) by exact H0. apply Ids. assumption.
    + apply Forall_forall. intros i I. match goal with F : find_nearest _ _ _ _ _ = _ |- _ => pose proof (nearest_bound _ _ _ _ _ i search_ok F I) as [_ L] end.
      rewrite rolling_value, to_int32_small in L by lia. lia.
  - (* L_cand_none *) destruct H as (K1 & K2 & K3 & K4 & K5). unfold next_scan, loop_ok. cbn [lp_done lp_pc]. rewrite wrap64_small by lia. split; [lia|]. split; lia.
  - (* L_cand *) apply cx in H. destruct H as (K1 & K2 & K3 & K4 & K5). split; [exact H0|]. cbn [lat lp_done lp_pc].
    match goal with R : lc_rest c = _ |- _ => rewrite R in K5 end. inversion K5 as [|x y F1 F2]; subst. split; [|exact F1].
    split; [exact K1|]. split; [exact K2|]. split; [exact K3|]. split; [exact K4|exact F2].
  - (* L_region_empty *) destruct H as [K1 _]. split; [exact H0|]. apply cx. exact K1.
  - (* L_region *) destruct H as [K1 K2]. split; [exact H0|]. split; [apply cx; exact K1|]. split; [exact K2|].
    apply G. apply Ids. assumption.
  - (* L_match_ok *) destruct H as (K1 & K2 & K3). split; [exact H0|]. split; [apply cx in K1; exact K1|]. split; [exact K2|apply G; exact K3].
  - (* L_match_no *) destruct H as (K1 & _). apply after_candidate_ok; [assumption|assumption|apply cx; exact K1].
  - (* L_correct *) destruct H as (K1 & K2 & K3). split; [exact H0|]. split; [apply cx; exact K1|]. split; [exact K2|apply G; exact K3].
  - (* L_make *) destruct H as (K1 & K2 & K3). split; [exact H0|]. cbn [lat lp_done lp_pc]. split; [apply cx; exact K1|].
    destruct K1 as (_ & _ & _ & K4 & _). cbn [c_begin c_end c_switchable]. subst k. unfold make_constraint. cbn [c_begin c_end].
    rewrite (has_id_at _ _ _ _ K3) by assumption. rewrite (has_id_at _ _ _ _ K4) by assumption. split; [lia|]. split; reflexivity.
  - (* L_push_lock *) destruct H as (K1 & K2). split; [exact H0|]. cbn [lat lp_done lp_pc]. split; [apply cx; exact K1|exact K2].
  - (* L_push *) destruct H as (K1 & K2). split; [exact H0|]. apply cx. exact K1.
  - (* L_flag *) apply after_candidate_ok; [assumption|assumption|apply cx; exact H].
Qed.

Lemma id_step : forall l m m', tame cf m l -> id_inv m -> step_tr cf m l m' -> id_inv m'.
Proof.
  intros l m m' [B Ld] (I1 & I3 & I4) H. pose proof (step_ids _ _ _ H) as G. pose proof H as H0.
  destruct H as [e s' sp' Id D|s' sp' D|s' l' D|s' p' D]; cbn [mp_sh mp_spin mp_loop] in *.
  - rewrite Id in I3.
    assert (keep : sh_scans s' = sh_scans (mp_sh m) -> spin_ok s' (sp_pc sp') -> id_inv (mkMapper s' sp' (mp_loop m) (mp_pub m))).
    { intros E Sp. split; [apply (ids_ok_grow (mp_sh m)); assumption|]. split; [exact Sp|apply (loop_ok_grow (mp_sh m)); assumption]. }
    destruct D.
    + apply keep; [reflexivity|]. match goal with P : sp_pc sp' = SIdle |- _ => rewrite P end. exact I.
    + apply keep; [reflexivity|]. match goal with P : sp_pc sp' = _ |- _ => rewrite P end.
      assert (Hs : has_id (set_heap (set_global (mp_sh m) g) (sh_heap (mp_sh m) ++ [sc])) (List.length (sh_heap (mp_sh m)))
                     (num_scans (set_heap (set_global (mp_sh m) g) (sh_heap (mp_sh m) ++ [sc])))).
      { exists sc. cbn [sh_heap set_heap]. rewrite nth_error_app2 by lia. rewrite Nat.sub_diag. split; [reflexivity|].
        match goal with E : sc = _ |- _ => rewrite E end. reflexivity. }
      unfold run_pc; destruct (use_filter cf), (sh_enable (mp_sh m)); exact Hs.
    + apply keep; [reflexivity|]. rewrite Id. exact I.
    + apply keep; [reflexivity|exact I].
    + apply keep; [reflexivity|exact I].
    + apply keep; [reflexivity|exact I].
    + rewrite configure_eq in *. cbn [fst snd] in *. apply keep; [reflexivity|]. cbn [at_pc sp_pc].
      destruct (Z.testbit a 2), (Z.testbit a 3); exact I.
  - assert (keep : sh_scans s' = sh_scans (mp_sh m) -> spin_ok s' (sp_pc sp') -> id_inv (mkMapper s' sp' (mp_loop m) (mp_pub m))).
    { intros E Sp. split; [apply (ids_ok_grow (mp_sh m)); assumption|]. split; [exact Sp|apply (loop_ok_grow (mp_sh m)); assumption]. }
    destruct D; match goal with P : sp_pc (mp_spin m) = _ |- _ => rewrite P in I3 end; cbn [spin_ok] in I3.
    + apply keep; [reflexivity|]. exists (num_scans (mp_sh m)). apply G. exact I3.
    + apply keep; [reflexivity|]. exact I3.
    + apply keep; [reflexivity|]. cbn [spin_ok sp_pc at_pc]. apply G. exact I3.
    + apply keep; [reflexivity|]. cbn [spin_ok sp_pc at_pc]. split; [exact I3|].
      match goal with R : nth_error (rev _) 0 = _ |- _ => apply last_index in R; rename R into La end.
      assert (n1 : (1 <= List.length (sh_scans (mp_sh m)))%nat).
      { destruct (sh_scans (mp_sh m)); [destruct (List.length (@nil nat) - 1)%nat; discriminate La|cbn; lia]. }
      unfold make_constraint. cbn [c_begin c_end]. apply I1 in La.
      rewrite (has_id_at _ _ _ _ La) by assumption. rewrite (has_id_at _ _ _ _ I3) by assumption. unfold num_scans. lia.
    + apply keep; [reflexivity|]. exact I3.
    + apply keep; [reflexivity|]. destruct I3 as [J _]. exact J.
    + apply keep; [reflexivity|]. exact I3.
    + (* S_scan_push *)
      assert (Es : sh_scans (unlock_g (note (set_scans (mp_sh m) (sh_scans (mp_sh m) ++ [p])) (ObScan ALaser p))) = sh_scans (mp_sh m) ++ [p]) by reflexivity.
      split; [apply (ids_push (mp_sh m) _ p I1 G Es); apply G; exact I3|].
      split; [exists (num_scans (mp_sh m)); apply G; exact I3|]. apply (loop_ok_grow (mp_sh m)); assumption.
    + apply keep; [reflexivity|]. exists (num_scans (mp_sh m)). apply G. exact I3.
    + apply keep; [reflexivity|]. exact I3.
    + destruct upd; (apply keep; [reflexivity|exact I]).
    + apply keep; [reflexivity|exact I].
    + apply keep; [reflexivity|exact I].
    + (* S_graph_near *)
      match goal with |- id_inv (mkMapper ?s _ _ _) => set (s1 := s) in * end.
      assert (Es : sh_scans s1 = sh_scans (mp_sh m) ++ [p]) by reflexivity.
      split; [apply (ids_push (mp_sh m) _ p I1 G Es)|].
      { exists sc. split; [|reflexivity]. subst s1. cbn [mp_sh sh_heap unlock_g set_glock note set_cons set_scans set_heap]. unfold p.
        rewrite nth_error_app2 by lia. rewrite Nat.sub_diag. reflexivity. }
      split; [exact I|]. apply (loop_ok_grow (mp_sh m)); assumption.
    + apply keep; [reflexivity|exact I].
    + apply keep; [reflexivity|exact I].
    + apply keep; [reflexivity|exact I].
    + apply keep; [reflexivity|exact I].
    + (* S_load *) match goal with P : sp_pc (mp_spin m) = SLoad file |- _ => pose proof (Ld eq_refl file P) as Wf end.
      split; [exact (load_ids (mp_sh m) file Wf)|]. split; [exact I|]. apply (loop_ok_grow (mp_sh m)); assumption.
    + apply keep; [reflexivity|exact I].
    + apply keep; [reflexivity|exact I].
  - apply loop_frame in H0. cbn [mp_sh] in H0. destruct H0 as (F1 & F2 & _).
    split; [apply (ids_ok_grow (mp_sh m)); assumption|].
    split; [apply (spin_ok_grow (mp_sh m)); assumption|]. apply (loop_ok_step (mp_sh m) (mp_loop m)); assumption.
  - apply pub_frame in H0. cbn [mp_sh] in H0. destruct H0 as ((F1 & F2 & F3) & _).
    split; [apply (ids_ok_grow (mp_sh m)); assumption|].
    split; [apply (spin_ok_grow (mp_sh m)); assumption|]. apply (loop_ok_grow (mp_sh m)); assumption.
Qed.

Lemma after_candidate_counted : forall l c, counted (lp_pc (after_candidate l c)) = lc_num c.
Proof. intros l c. unfold after_candidate. destruct (_ =? 0)%Z; reflexivity. Qed.

Lemma wf_step : forall l m m', calm cf m l -> id_inv m -> wf_inv m -> step_tr cf m l m' -> wf_inv m'.
Proof.
  intros l m m' [B Ld] (I1 & I3 & I4) [I2 I5] H. pose proof H as H0.
  destruct H as [e s' sp' Id D|s' sp' D|s' l' D|s' p' D]; cbn [mp_sh mp_spin mp_loop] in *.
  - rewrite Id in I2. cbn [pending] in I2. split; [|destruct D; try exact I5; rewrite configure_eq; exact I5]. destruct D.
    + cbn [mp_sh mp_spin]. match goal with P : sp_pc sp' = SIdle |- _ => rewrite P end. exact I2.
    + cbn [mp_sh mp_spin]. match goal with P : sp_pc sp' = _ |- _ => rewrite P end.
      unfold run_pc; destruct (use_filter cf), (sh_enable (mp_sh m)); exact I2.
    + cbn [mp_sh mp_spin]. rewrite Id. exact I2.
    + exact I2.
    + exact I2.
    + exact I2.
    + rewrite configure_eq in *. cbn [fst snd mp_sh mp_spin at_pc sp_pc]. destruct (Z.testbit a 2), (Z.testbit a 3); exact I2.
  - assert (keep : sh_scans s' = sh_scans (mp_sh m) -> sh_cons s' = sh_cons (mp_sh m) ->
        (pending (sp_pc (mp_spin m)) <= pending (sp_pc sp'))%nat -> wf_inv (mkMapper s' sp' (mp_loop m) (mp_pub m))).
    { intros E1 E2 P. unfold wf_inv, num_scans. cbn [mp_sh mp_spin mp_loop]. rewrite E1, E2. split; [|exact I5].
      apply (joins_all_mono (List.length (sh_scans (mp_sh m)) + pending (sp_pc (mp_spin m)))); [exact I2|lia]. }
    destruct D; match goal with P : sp_pc (mp_spin m) = _ |- _ => rewrite P in I2, I3, keep end; cbn [pending spin_ok] in I2, I3, keep;
      try (apply keep; [reflexivity|reflexivity|cbn [pending at_pc sp_pc]; lia]).
    + (* S_cons_push *) destruct I3 as (J1 & J2 & J3 & J4). split; [|exact I5]. cbn [mp_sh mp_spin mp_loop at_pc sp_pc pending].
      cbn [sh_cons sh_scans unlock_g set_glock note set_cons]. apply Forall_app. split.
      * apply (joins_all_mono (List.length (sh_scans (mp_sh m)) + 0)); [exact I2|lia].
      * constructor; [|constructor]. unfold joins. rewrite J2, J3. unfold num_scans in *. lia.
    + (* S_scan_push *) unfold wf_inv, num_scans. cbn [mp_sh mp_spin mp_loop at_pc sp_pc pending].
      assert (Es : sh_scans (unlock_g (note (set_scans (mp_sh m) (sh_scans (mp_sh m) ++ [p])) (ObScan ALaser p))) = sh_scans (mp_sh m) ++ [p]) by reflexivity.
      rewrite Es, app_length. cbn [List.length]. rewrite Nat.add_0_r. split; [exact I2|]. unfold num_scans in I5. lia.
    + destruct upd; (apply keep; [reflexivity|reflexivity|cbn [pending at_pc sp_pc]; lia]).
    + (* S_graph_near *)
      match goal with Gr : the_graph cf _ = Ok g |- _ => destruct (the_graph_length _ _ Gr) as (Lg & _ & Gs) end.
      assert (Li : (i < List.length (gr_scans g))%nat).
      { match goal with F : find_nearest _ _ _ _ _ = Ok (i :: rest) |- _ => apply (nearest_bound _ _ _ _ _ i search_ok F) end. left. reflexivity. }
      match goal with F : nth_error (_ ++ _) i = Some from |- _ => rewrite nth_error_app1 in F by exact Li; rename F into Fr end.
      pose proof (ids_numbered _ _ I1 Gs i from Fr) as Fid.
      unfold wf_inv. match goal with |- context[mkMapper ?s _ _ _] => set (s1 := s) in * end.
      assert (Es : sh_scans s1 = sh_scans (mp_sh m) ++ [p]) by reflexivity.
      cbn [mp_sh mp_spin mp_loop at_pc sp_pc pending]. rewrite (num_push _ _ _ Es), Es, app_length. cbn [List.length]. split; [|lia].
      subst s1. cbn [sh_cons unlock_g set_glock note set_cons]. apply Forall_app. split.
      * apply (joins_all_mono (List.length (sh_scans (mp_sh m)) + 0)); [exact I2|lia].
      * constructor; [|constructor]. unfold joins, c, make_constraint. cbn [c_begin c_end]. rewrite Fid.
        change (s_id sc) with (num_scans (mp_sh m)). unfold num_scans. lia.
    + (* S_load *) match goal with P : sp_pc (mp_spin m) = SLoad file |- _ => destruct (Ld eq_refl file P) as [Sl Wf] end.
      unfold wf_inv. cbn [mp_sh mp_spin mp_loop at_pc sp_pc pending]. rewrite Nat.add_0_r.
      split; [exact (load_joins (mp_sh m) file Wf)|]. rewrite Sl. unfold num_scans. cbn [counted]. lia.
  - apply loop_frame in H0. cbn [mp_sh] in H0. destruct H0 as (F1 & F2 & _). unfold wf_inv, num_scans. cbn [mp_sh mp_spin mp_loop]. rewrite F1.
    split.
    + destruct D; try exact I2.
      * cbn [sh_cons note set_cons]. apply Forall_app. split; [exact I2|]. constructor; [|constructor].
        destruct I4 as [I40 I4]. match goal with P : lp_pc _ = LPush _ _ |- _ => rewrite P in I4, I5 end. cbn [counted] in I5.
        destruct I4 as ((C1 & C2 & C3 & _) & K1 & K2 & _). unfold joins. rewrite K2. unfold num_scans in *. lia.
      * destruct (put_all_frame (sh_scans (mp_sh m)) scans' (mp_sh m)) as [h E]. rewrite E. exact I2.
    + fold (num_scans (mp_sh m)). assert (0 <= num_scans (mp_sh m))%Z by (unfold num_scans; lia).
      destruct D; match goal with P : lp_pc _ = _ |- _ => rewrite P in I5 end; cbn [counted] in I5; rewrite ?after_candidate_counted;
        cbn [counted lat lp_pc next_scan lc_num]; try assumption; try lia.
      match goal with P : lp_pc _ = LSleep |- _ => rewrite P end. assumption.
  - apply pub_frame in H0. cbn [mp_sh] in H0. destruct H0 as ((F1 & F2 & F3) & _). unfold wf_inv, num_scans. cbn [mp_sh mp_spin mp_loop].
    rewrite F2, F3. split; [exact I2|exact I5].
Qed.

Lemma id_reach : numbered_start cf -> forall m, reach_if cf (tame cf) m -> id_inv m.
Proof.
  intro start. apply reach_if_inv; [|exact id_step].
  intros m H. apply init_cases in H. destruct H as (s & f & -> & _ & ->). unfold id_inv. cbn [mp_sh mp_spin mp_loop].
  destruct (cf_file cf) as [file|] eqn:F.
  - split; [exact (load_ids (mkShared [] [] [] false None None pose0 pose0 (nopp (nlit 1 2)) (cf_enable cf) true None []) file (start file F))|].
    split; [exact I|]. split; [apply Z.le_refl|exact I].
  - split; [intros i p N; destruct i; discriminate N|]. split; [exact I|]. split; [apply Z.le_refl|exact I].
Qed.

Lemma reach_if_mono : forall ok ok' : mapper T -> label T -> Prop, (forall m l, ok m l -> ok' m l) ->
  forall m, reach_if cf ok m -> reach_if cf ok' m.
Proof.
  intros ok ok' H m R. induction R as [m E|m l m' R IH O E]; [apply reach_init; exact E|].
  apply (reach_step cf ok' m l m' IH); [apply H; exact O|exact E].
Qed.
Lemma calm_tame : forall m l, calm cf m l -> tame cf m l.
Proof. intros m l [B L]. split; [exact B|]. intros E file P. apply (L E file P). Qed.
Lemma good_numbered : good_start cf -> numbered_start cf.
Proof. intros H file E. apply (H file E). Qed.

Lemma wf_reach : good_start cf -> forall m, reach_if cf (calm cf) m -> id_inv m /\ wf_inv m.
Proof.
  intro start.
  assert (ids : forall m, reach_if cf (calm cf) m -> id_inv m).
  { intros m R. apply id_reach; [apply good_numbered; exact start|]. apply (reach_if_mono (calm cf)); [exact calm_tame|exact R]. }
  intros m R. split; [apply ids; exact R|]. revert m R. apply (reach_if_and (calm cf) wf_inv id_inv ids); [|intros l m m' O J I H; apply (wf_step l m m'); assumption].
  intros m H. apply init_cases in H. destruct H as (s & f & -> & _ & ->). unfold wf_inv. cbn [mp_sh mp_spin mp_loop].
  destruct (cf_file cf) as [file|] eqn:F.
  - split; [|unfold num_scans; cbn [counted lp_pc]; lia]. cbn [sp_pc pending]. rewrite Nat.add_0_r.
    exact (load_joins (mkShared [] [] [] false None None pose0 pose0 (nopp (nlit 1 2)) (cf_enable cf) true None []) file (start file F)).
  - split; [constructor|apply Z.le_refl].
Qed.

(** ** C64, C65 *)
Lemma mapM_defined : forall {X Y} (f : X -> outcome Y) l, (forall x, In x l -> exists y, f x = Ok y) -> exists ys, mapM f l = Ok ys.
Proof.
  intros X Y f l. induction l as [|x l IH]; intro H; cbn [mapM]; [eexists; reflexivity|].
  destruct (H x (or_introl eq_refl)) as (y & E). rewrite E. cbn [bind].
  destruct IH as (ys & E'); [intros z Z; apply H; right; exact Z|]. rewrite E'. eexists. reflexivity.
Qed.

Lemma graph_defined : forall s, ids_ok s -> exists g, the_graph cf s = Ok g.
Proof.
  intros s I. unfold the_graph, graph_scans.
  destruct (mapM_defined (deref (sh_heap s)) (sh_scans s)) as (scans & E).
  - intros p Hp. apply In_nth_error in Hp. destruct Hp as [i Hp]. destruct (I i p Hp) as (sc & N & _). exists sc. apply deref_nth. exact N.
  - rewrite E. eexists. reflexivity.
Qed.

Lemma graph_ends : good_start cf -> forall m, reach_if cf (calm cf) m ->
  exists g, the_graph cf (mp_sh m) = Ok g /\ numbered (gr_scans g) /\
    Forall (joins (List.length (gr_scans g) + pending (sp_pc (mp_spin m)))) (gr_constraints g).
Proof.
  intros start m R. destruct (wf_reach start m R) as ((I1 & _) & I2 & _).
  destruct (graph_defined _ I1) as (g & G). exists g. split; [exact G|].
  destruct (the_graph_length _ _ G) as (L & C & Gs). split; [apply (ids_numbered _ _ I1 Gs)|]. rewrite L, C. exact I2.
Qed.

Lemma graph_wf : good_start cf -> forall m, reach_if cf (calm cf) m -> pending (sp_pc (mp_spin m)) = 0%nat ->
  exists g, the_graph cf (mp_sh m) = Ok g /\ well_formed g.
Proof.
  intros start m R P. destruct (graph_ends start m R) as (g & G & N & J). exists g. split; [exact G|].
  rewrite P, Nat.add_0_r in J. split; assumption.
Qed.

End P.
