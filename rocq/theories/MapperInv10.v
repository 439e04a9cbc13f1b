(** The anchor of the map, and the optimizer. *)

From Coq Require Import ZArith List Bool String Lia.
From Verif Require Import Outcome Arith TypesModel ScanModel MatcherModel ConstraintModel
  SolverModel GraphModel OccGridModel MotionModel FilterModel LaserModel MapperModel SpecMapper SpecMapper2 SpecMapper4 SpecSolver SpecGraph
  NdtProofs SolverProofs GraphProofs MapperProofs MapperSteps MapperInv1 MapperInv2 MapperInv3 MapperInv5 MapperInv6 MapperInv9.
Import ListNotations.
Local Open Scope outcome_scope.

Section P.
Context {T : Type} {A : Arith T}.
Context (cf : config T).

(** ** A saved map is of the same kind *)
Lemma saved_spanning : forall ub (g : graph T) file, fits64 g -> same_topics file (graph_save g) -> spanning g -> spanning (graph_load ub file).
Proof.
  intros ub g file F S (S1 & S2 & S3). destruct (save_load ub g file F S) as (E1 & E2).
  assert (L : List.length (gr_scans (graph_load ub file)) = List.length (gr_scans g)) by (clear -E1; induction E1; cbn; congruence).
  split; [|unfold chain in *; rewrite L, E2; split; assumption].
  intros i sc N. assert (Q : exists sc', nth_error (gr_scans g) i = Some sc' /\ s_id sc = s_id sc').
  { clear -E1 N. revert i N. induction E1 as [|a b l l' R F IH]; intros [|i] N; cbn in N; try discriminate N.
    - injection N as <-. exists b. split; [reflexivity|apply R].
    - destruct (IH i N) as (c & E & I). exists c. split; assumption. }
  destruct Q as (sc' & N' & I). rewrite I. apply S1. exact N'.
Qed.

(** ** The first scan stays where it is *)
Context (depth_ok : (0 <= cf_depth cf)%Z) (search_ok : search_in_range (en_search cf)).
Context (ceres_const : keeps_constant (en_ceres cf)) (ceres_nodes : keeps_nodes (en_ceres cf)).

Lemma list_ext : forall {X} (l l' : list X), (forall i, nth_error l i = nth_error l' i) -> l = l'.
Proof.
  intros X l. induction l as [|x l IH]; intros [|y l'] H; [reflexivity|discriminate (H 0%nat)|discriminate (H 0%nat)|].
  pose proof (H 0%nat) as H0. cbn in H0. injection H0 as <-. f_equal. apply IH. intro i. exact (H (Datatypes.S i)).
Qed.

Lemma numbered_ids : forall scans : list (scan T), numbered scans -> (Z.of_nat (List.length scans) < 2 ^ 31)%Z ->
  int_ids scans = map Z.of_nat (seq 0 (List.length scans)).
Proof.
  intros scans N B. unfold int_ids. apply list_ext. intro i.
  rewrite !nth_error_map. destruct (nth_error scans i) as [sc|] eqn:E.
  - assert (L : (i < List.length scans)%nat) by (apply nth_error_Some; rewrite E; discriminate).
    cbn [option_map]. rewrite (N i sc E), to_int32_small by lia.
    rewrite (nth_error_nth' _ 0%nat) by (rewrite seq_length; exact L). rewrite seq_nth by exact L. reflexivity.
  - apply nth_error_None in E. cbn [option_map]. assert (E2 : nth_error (seq 0 (List.length scans)) i = None) by (apply nth_error_None; rewrite seq_length; lia).
    rewrite E2. reflexivity.
Qed.
Lemma nodup_ids : forall n, NoDup (map Z.of_nat (seq 0 n)).
Proof. intro n. apply FinFun.Injective_map_NoDup; [intros a b E; lia|apply seq_NoDup]. Qed.

Lemma put_all_other : forall ps vs (s : shared T) p, ~ In p ps -> nth_error (sh_heap (put_all s ps vs)) p = nth_error (sh_heap s) p.
Proof.
  unfold put_all. intros ps vs. revert ps. induction vs as [|v vs IH]; intros [|q ps] s p N; cbn [combine fold_left]; try reflexivity.
  rewrite IH by (intro J; apply N; right; exact J). cbn [fst snd put set_heap sh_heap]. rewrite nth_error_list_set.
  destruct (Nat.eqb_spec q p) as [->|_]; [contradiction N; left; reflexivity|reflexivity].
Qed.

Lemma first_id : forall (s : shared T) p ps, ids_ok s -> sh_scans s = p :: ps -> has_id s p 0.
Proof. intros s p ps I E. apply (I 0%nat p). rewrite E. reflexivity. Qed.
Lemma first_once : forall (s : shared T) p ps, ids_ok s -> sh_scans s = p :: ps -> ~ In p ps.
Proof.
  intros s p ps I E J. apply In_nth_error in J. destruct J as [i J].
  assert (H : has_id s p (Z.of_nat (Datatypes.S i))) by (apply I; rewrite E; exact J).
  pose proof (has_id_unique _ _ _ _ H (first_id s p ps I E)). lia.
Qed.
Lemma other_id : forall (s : shared T) p q j k, has_id s p j -> has_id s q k -> j <> k -> p <> q.
Proof. intros s p q j k H1 H2 N E. subst q. apply N. apply (has_id_unique s p); assumption. Qed.

Lemma first_same : forall s s' : shared T, (forall p ps, sh_scans s = p :: ps -> exists qs, sh_scans s' = p :: qs /\
    option_map s_pose (nth_error (sh_heap s') p) = option_map s_pose (nth_error (sh_heap s) p)) ->
  sh_scans s <> [] -> first_pose s' = first_pose s.
Proof.
  intros s s' H N. unfold first_pose. destruct (sh_scans s) as [|p ps] eqn:E; [contradiction N; reflexivity|].
  destruct (H p ps eq_refl) as (qs & Q & F). rewrite Q. exact F.
Qed.

Lemma first_kept : forall l m m', tame cf m l -> id_inv cf m -> heap_inv m -> (l = Spin -> forall file, sp_pc (mp_spin m) <> SLoad file) ->
  sh_scans (mp_sh m) <> [] -> step_tr cf m l m' -> first_pose (mp_sh m') = first_pose (mp_sh m).
Proof.
  intros l m m' [B _] (I1 & I3 & I4) [H1 H2] NL NE H. apply first_same; [|exact NE]. intros q qs Eq.
  assert (Lq : (q < List.length (sh_heap (mp_sh m)))%nat) by (rewrite Eq in H1; inversion H1; assumption).
  destruct H as [e s' sp' Id D|s' sp' D|s' l' D|s' p' D]; cbn [mp_sh] in *.
  - exists qs. destruct D; try (split; [exact Eq|reflexivity]).
    + split; [exact Eq|]. cbn [sh_heap set_heap]. rewrite nth_error_app1 by exact Lq. reflexivity.
    + rewrite configure_eq. split; [exact Eq|reflexivity].
  - assert (other : forall p v, ~ In p (sh_scans (mp_sh m)) -> nth_error (list_set (sh_heap (mp_sh m)) p v) q = nth_error (sh_heap (mp_sh m)) q).
    { intros p v N. rewrite nth_error_list_set. destruct (Nat.eqb_spec p q) as [->|_]; [|reflexivity]. contradiction N. rewrite Eq. left. reflexivity. }
    destruct D; match goal with P : sp_pc (mp_spin m) = _ |- _ => rewrite P in H2 end; cbn [apart] in H2;
      try (exists qs; split; [exact Eq|reflexivity]);
      try (exists qs; split; [exact Eq|]; cbn [sh_heap put set_heap set_typical]; rewrite other by apply H2; reflexivity).
    + exists (qs ++ [p]). split; [|reflexivity]. cbn [sh_scans unlock_g set_glock note set_scans]. rewrite Eq. reflexivity.
    + exists qs. destruct upd; (split; [exact Eq|reflexivity]).
    + exists (qs ++ [p]). split; [cbn [sh_scans unlock_g set_glock note set_cons set_scans set_heap]; rewrite Eq; reflexivity|].
      cbn [sh_heap unlock_g set_glock note set_cons set_scans set_heap]. rewrite nth_error_app1 by exact Lq. reflexivity.
    + match goal with P : sp_pc _ = SLoad file |- _ => contradiction (NL eq_refl file P) end.
  - exists qs. pose proof (first_id _ _ _ I1 Eq) as F0. destruct D; try (split; [exact Eq|reflexivity]).
    + (* L_correct *) split; [exact Eq|]. destruct I4 as [I40 I4]. match goal with P : lp_pc _ = LCorrect _ _ _ _ _ |- _ => rewrite P in I4 end.
      destruct I4 as ((C1 & C2 & C3 & C4 & _) & _). cbn [sh_heap note put set_heap]. rewrite nth_error_list_set.
      destruct (Nat.eqb_spec (lc_scan c) q) as [Ec|_]; [|reflexivity]. exfalso. rewrite Ec in C4. pose proof (has_id_unique _ _ _ _ C4 F0). lia.
    + (* L_optimize *)
      match goal with G : graph_scans _ = Ok scans, O : optimize _ _ _ _ = _ |- _ => rename G into Gs; rename O into Op end.
      destruct (put_all_frame (sh_scans (mp_sh m)) scans' (mp_sh m)) as [h Eh].
      cbn [sh_scans sh_heap unlock_g set_glock set_flag note]. split; [rewrite Eh; exact Eq|].
      pose proof (graph_scans_nth (mp_sh m) scans 0 q Gs) as G0. rewrite Eq in G0. destruct (G0 eq_refl) as (sc & N1 & N2).
      assert (Len : (Z.of_nat (List.length scans) < 2 ^ 31)%Z).
      { assert (Gr : the_graph cf (mp_sh m) = Ok (mkGraph (cf_use_bary cf) scans (sh_cons (mp_sh m)))) by (unfold the_graph; rewrite Gs; reflexivity).
        destruct (the_graph_length cf _ _ Gr) as (L & _ & _). cbn [gr_scans] in L. rewrite L. exact B. }
      assert (ND : NoDup (int_ids scans)) by (rewrite (numbered_ids scans (ids_numbered _ _ I1 Gs) Len); apply nodup_ids).
      assert (K : exists sc', nth_error scans' 0 = Some sc' /\ s_pose sc' = s_pose sc).
      { destruct b.
        - destruct (optimize_success _ _ _ _ _ _ ceres_const ceres_nodes ND Op) as (p & _ & _ & _ & K). apply K. exact N1.
        - rewrite (optimize_failure _ _ _ _ _ _ Op). exists sc. split; [exact N1|reflexivity]. }
      destruct K as (sc' & K1 & K2). destruct scans' as [|v vs]; [discriminate K1|]. cbn in K1. injection K1 as ->.
      rewrite Eq. unfold put_all. cbn [combine fold_left fst snd]. fold (put_all (put (mp_sh m) q sc') qs vs).
      rewrite put_all_other by (apply (first_once (mp_sh m) q qs I1 Eq)). cbn [sh_heap put set_heap]. rewrite nth_error_list_set, Nat.eqb_refl.
      assert (Lb : (q <? List.length (sh_heap (mp_sh m)))%nat = true) by (apply Nat.ltb_lt; exact Lq). rewrite Lb. cbn [andb option_map].
      rewrite N2. cbn [option_map]. rewrite K2. reflexivity.
  - exists qs. destruct D; (split; [exact Eq|reflexivity]).
Qed.

(** A map begun by a laser message begins at the origin. *)
Definition origin_inv (m : mapper T) : Prop :=
  let s := mp_sh m in
  (sh_scans s = [] \/ first_pose s = Some pose0) /\
  match sp_pc (mp_spin m) with
  | SMatch p _ | SScanLock p _ | SScanPush p _ =>
    sh_scans s = [] -> option_map s_pose (nth_error (sh_heap s) p) = Some pose0
  | SMake _ _ _ | SConsLock _ _ _ | SConsPush _ _ _ => sh_scans s <> []
  | _ => True
  end.

Lemma nearest_empty : forall ub cs (sc : scan T) d limit, find_nearest (en_search cf) (mkGraph ub [] cs) sc d limit = Ok [] \/
  exists f, find_nearest (en_search cf) (mkGraph ub [] cs) sc d limit = Fault f.
Proof.
  intros ub cs sc d limit. destruct (find_nearest (en_search cf) (mkGraph ub [] cs) sc d limit) as [[|i near]|f] eqn:E; [left; reflexivity| |right; eauto].
  exfalso. assert (H := nearest_bound cf _ _ _ _ _ i search_ok E (or_introl eq_refl)). cbn in H. lia.
Qed.

Lemma origin_step : forall l m m', tame cf m l -> id_inv cf m -> heap_inv m -> (l = Spin -> forall file, sp_pc (mp_spin m) <> SLoad file) ->
  origin_inv m -> step_tr cf m l m' -> origin_inv m'.
Proof.
  intros l m m' Ta Ii Hi NL [O1 O2] H.
  assert (keep : sh_scans (mp_sh m') = sh_scans (mp_sh m) -> sh_scans (mp_sh m') = [] \/ first_pose (mp_sh m') = Some pose0).
  { intro E. destruct O1 as [O1|O1]; [left; rewrite E; exact O1|].
    assert (Ne : sh_scans (mp_sh m) <> []) by (intro S; unfold first_pose in O1; rewrite S in O1; discriminate O1).
    right. rewrite (first_kept l m m' Ta Ii Hi NL Ne H). exact O1. }
  assert (grown : sh_scans (mp_sh m) <> [] -> first_pose (mp_sh m') = Some pose0).
  { intro Ne. rewrite (first_kept l m m' Ta Ii Hi NL Ne H). destruct O1 as [O1|O1]; [contradiction|exact O1]. }
  pose proof H as H0. destruct Ii as (I1 & I3 & I4). destruct Hi as [Hi1 Hi2].
  destruct H as [e s' sp' Id D|s' sp' D|s' l' D|s' p' D]; cbn [mp_sh] in *; unfold origin_inv; cbn [mp_sh mp_spin].
  - destruct D.
    + split; [apply keep; reflexivity|]. match goal with P : sp_pc sp' = SIdle |- _ => rewrite P end. exact I.
    + split; [apply keep; reflexivity|]. match goal with P : sp_pc sp' = _ |- _ => rewrite P end.
      unfold run_pc; destruct (use_filter cf), (sh_enable (mp_sh m)); try exact I.
      cbn [sh_heap sh_scans set_heap set_global]. intro E. rewrite nth_error_app2, Nat.sub_diag by lia. cbn [nth_error option_map].
      match goal with G : guess_pose _ _ _ = Some guess |- _ => unfold guess_pose in G; rewrite E in G; injection G as <- end. subst sc. reflexivity.
    + split; [apply keep; reflexivity|]. rewrite Id. exact I.
    + split; [apply keep; reflexivity|exact I].
    + split; [apply keep; reflexivity|exact I].
    + split; [apply keep; reflexivity|exact I].
    + rewrite configure_eq in *. cbn [fst snd at_pc sp_pc]. split; [apply keep; reflexivity|]. destruct (Z.testbit a 2), (Z.testbit a 3); exact I.
  - destruct D; match goal with P : sp_pc (mp_spin m) = _ |- _ => rewrite P in O2, Hi2 end; cbn [apart] in Hi2;
      cbn [at_pc sp_pc with_filter with_local]; try (split; [apply keep; reflexivity|exact I]); try (split; [apply keep; reflexivity|exact O2]).
    + split; [apply keep; reflexivity|]. assumption.
    + split; [apply keep; reflexivity|]. intro E. contradiction (O2 E).
    + (* S_scan_push *) split; [|exact I]. right. destruct (sh_scans (mp_sh m)) as [|q qs] eqn:S.
      * unfold first_pose. cbn [sh_scans sh_heap unlock_g set_glock note set_scans]. cbn [app]. apply O2. reflexivity.
      * apply grown. discriminate.
    + destruct upd; (split; [apply keep; reflexivity|exact I]).
    + (* S_graph_near *) split; [|exact I]. right. destruct (sh_scans (mp_sh m)) as [|q qs] eqn:S.
      * exfalso. match goal with Gr : the_graph cf _ = Ok g |- _ => destruct (the_graph_length cf _ _ Gr) as (Lg & _ & _) end. rewrite S in Lg. cbn in Lg.
        match goal with F : find_nearest _ _ _ _ _ = Ok (i :: rest) |- _ => pose proof (nearest_bound cf _ _ _ _ _ i search_ok F (or_introl eq_refl)) end. lia.
      * apply grown. discriminate.
    + match goal with P : sp_pc _ = SLoad file |- _ => contradiction (NL eq_refl file P) end.
  - pose proof (loop_frame cf _ _ H0) as (F1 & F2 & _). cbn [mp_sh] in F1, F2. split; [apply keep; exact F1|].
    assert (fresh : forall p, sh_scans (mp_sh m) = [] -> has_id (mp_sh m) p (num_scans (mp_sh m)) -> nth_error (sh_heap s') p = nth_error (sh_heap (mp_sh m)) p).
    { intros p E Hp. unfold num_scans in Hp. rewrite E in Hp. cbn in Hp. destruct D; try reflexivity.
      - destruct I4 as [I40 I4]. match goal with P : lp_pc _ = LCorrect _ _ _ _ _ |- _ => rewrite P in I4 end.
        destruct I4 as ((C1 & C2 & C3 & C4 & _) & _). cbn [sh_heap note put set_heap]. rewrite nth_error_list_set.
        destruct (Nat.eqb_spec (lc_scan c) p) as [Ec|_]; [|reflexivity]. exfalso. rewrite Ec in C4. pose proof (has_id_unique _ _ _ _ C4 Hp). lia.
      - rewrite E. reflexivity. }
    destruct (sp_pc (mp_spin m)) eqn:P; try exact O2; rewrite ?F1; try exact O2; intro E; pose proof (O2 E) as Q; cbn [spin_ok] in I3;
      rewrite fresh by assumption; exact Q.
  - pose proof (pub_frame cf _ _ H0) as ((F1 & F2 & F3) & _). cbn [mp_sh] in *. split; [apply keep; exact F2|].
    destruct (sp_pc (mp_spin m)); try exact O2; rewrite ?F1, ?F2; exact O2.
Qed.
Lemma unloaded_tame : forall m l, unloaded m l -> tame cf m l.
Proof. intros m l [B N]. split; [exact B|]. intros E file P. contradiction (N E file P). Qed.

Theorem first_scan_stays : numbered_start cf -> forall m l m', reach_if cf (tame cf) m -> unloaded m l -> sh_scans (mp_sh m) <> [] ->
  step cf l m = Some (Ok m') -> first_pose (mp_sh m') = first_pose (mp_sh m).
Proof.
  intros start m l m' R U N E. apply (first_kept l m m'); [apply unloaded_tame; exact U| | |apply U|exact N|apply step_cases; exact E].
  - apply (id_reach cf depth_ok search_ok start m R).
  - apply (heap_reachable cf). apply (reach_if_reachable cf (tame cf) m R).
Qed.

Theorem map_at_origin : cf_file cf = None -> forall m, reach_if cf unloaded m -> sh_scans (mp_sh m) <> [] -> first_pose (mp_sh m) = Some pose0.
Proof.
  intros start m R N.
  assert (ids : forall m, reach_if cf unloaded m -> id_inv cf m /\ heap_inv m).
  { intros m0 R0. split; [|apply (heap_reachable cf); apply (reach_if_reachable cf unloaded m0 R0)].
    apply (id_reach cf depth_ok search_ok); [intros file F; rewrite start in F; discriminate F|].
    apply (reach_if_mono cf unloaded); [exact unloaded_tame|exact R0]. }
  assert (Q : origin_inv m).
  { revert m R N. intros m R _. revert m R.
    apply (reach_if_and cf unloaded origin_inv (fun m => id_inv cf m /\ heap_inv m) ids).
    - intros m H. apply init_cases in H. destruct H as (s & f & -> & _ & ->). rewrite start. split; [left; reflexivity|exact I].
    - intros l m m' O [J1 J2] I H. apply (origin_step l m m'); [apply unloaded_tame; exact O|exact J1|exact J2|apply O|exact I|exact H]. }
  destruct Q as [[Q|Q] _]; [contradiction|exact Q].
Qed.

(** ** The optimizer *)
Definition keys (s : shared T) : list Z := map Z.of_nat (seq 0 (List.length (sh_scans s))).
Definition opt_ready (m : mapper T) : Prop :=
  let s := mp_sh m in let n := num_scans s in
  solver_ok (sh_cons s) (keys s) (lp_solver (mp_loop m)) /\
  match lp_pc (mp_loop m) with
  | LNext num new | LFetchLock num new | LFetch num new | LOpt num new => (num <= n)%Z /\ (new = true -> 2 <= num)%Z
  | LOptLock => (2 <= n)%Z
  | LOptRun => (2 <= n)%Z /\ pending (sp_pc (mp_spin m)) = 0%nat
  | _ => True
  end.

Lemma keys_app : forall (s s' : shared T) more, sh_scans s' = sh_scans s ++ more -> exists k, keys s' = keys s ++ k.
Proof. intros s s' more E. unfold keys. rewrite E, app_length, seq_app, map_app. eexists. reflexivity. Qed.

Lemma solver_more : forall (s s' : shared T) sv, ext s s' -> solver_ok (sh_cons s) (keys s) sv -> solver_ok (sh_cons s') (keys s') sv.
Proof.
  intros s s' sv ((a & E1) & (b & E2) & _) H. destruct (keys_app _ _ _ E1) as (k & Ek). rewrite E2, Ek. apply solver_ok_grow. exact H.
Qed.

Lemma ext_num : forall s s' : shared T, ext s s' -> (num_scans s <= num_scans s')%Z.
Proof. intros s s' ((a & E1) & _). unfold num_scans. rewrite E1, app_length. lia. Qed.

Lemma unloaded_ext : forall l m m', unloaded m l -> step_tr cf m l m' -> ext (mp_sh m) (mp_sh m').
Proof.
  intros l m m' [_ N] H. destruct (step_ext0 cf l m m' H) as (new & _ & [(_ & E & file & P)|X]); [contradiction (N E file P)|exact X].
Qed.
Lemma is_loop : forall l : label T, {l = Loop} + {l <> Loop}.
Proof. intros []; try (right; discriminate). left. reflexivity. Qed.
Lemma after_candidate_solver : forall (l : looper T) c, lp_solver (after_candidate l c) = lp_solver l.
Proof. intros l c. unfold after_candidate. destruct (_ =? 0)%Z; reflexivity. Qed.
Lemma unhalf_pending : forall m : mapper T, ~ half_added m -> pending (sp_pc (mp_spin m)) = 0%nat.
Proof. intros m N. destruct (sp_pc (mp_spin m)) eqn:E; try reflexivity; exfalso; apply N; [left|right]; eauto. Qed.

Lemma graph_keys : forall (s : shared T) scans, ids_ok s -> (num_scans s < 2 ^ 31)%Z -> graph_scans s = Ok scans -> int_ids scans = keys s.
Proof.
  intros s scans I B Gs.
  assert (Gr : the_graph cf s = Ok (mkGraph (cf_use_bary cf) scans (sh_cons s))) by (unfold the_graph; rewrite Gs; reflexivity).
  destruct (the_graph_length cf _ _ Gr) as (L & _ & _). cbn [gr_scans] in L.
  rewrite (numbered_ids scans (ids_numbered _ _ I Gs)) by (rewrite L; exact B). unfold keys. rewrite L. reflexivity.
Qed.

Lemma pending_opt : forall l m m', unloaded m l -> lock_inv m -> l <> Loop -> lp_pc (mp_loop m) = LOptRun -> (2 <= num_scans (mp_sh m))%Z ->
  pending (sp_pc (mp_spin m)) = 0%nat -> step_tr cf m l m' -> pending (sp_pc (mp_spin m')) = 0%nat.
Proof.
  intros l m m' _ (K1 & K2 & _) N O B P H. rewrite O in K2. cbn [loop_g] in K2.
  destruct H as [e s' sp' Id D|s' sp' D|s' l' D|s' p' D]; cbn [mp_spin].
  - destruct D; try exact P; try reflexivity.
    + match goal with Q : sp_pc sp' = SIdle |- _ => rewrite Q end. reflexivity.
    + match goal with Q : sp_pc sp' = _ |- _ => rewrite Q end. unfold run_pc; destruct (use_filter cf), (sh_enable (mp_sh m)); reflexivity.
    + rewrite configure_eq. cbn [snd at_pc sp_pc]. destruct (Z.testbit a 2), (Z.testbit a 3); reflexivity.
  - destruct D; match goal with Q : sp_pc (mp_spin m) = _ |- _ => rewrite Q in K1, P end; try reflexivity; try exact P.
    + exfalso. match goal with E : sh_scans _ = [] |- _ => unfold num_scans in B; rewrite E in B end. cbn in B. lia.
    + exfalso. cbn [spin_g] in K1. destruct (sh_glock (mp_sh m)) as [[]|]; discriminate.
  - contradiction N. reflexivity.
  - exact P.
Qed.

Lemma opt_ready_step : forall l m m', separate m l -> id_inv cf m /\ wf_inv m /\ lock_inv m -> opt_ready m -> step_tr cf m l m' -> opt_ready m'.
Proof.
  intros l m m' [U Sp] ((I1 & I3 & I4) & [I5 I6] & LI) [R1 R2] H.
  pose proof (unloaded_ext l m m' U H) as X. pose proof (ext_num _ _ X) as Nu. pose proof (solver_more _ _ _ X R1) as R1'.
  destruct (is_loop l) as [->|NLo].
  - remember Loop as lb eqn:El. destruct H as [e s' sp' Id D|s' sp' D|s' l' D|s' p' D]; try discriminate El. cbn [mp_sh mp_spin mp_loop] in *.
    assert (ctx : forall c, (counted (lp_pc (mp_loop m)) <= num_scans (mp_sh m))%Z -> counted (lp_pc (mp_loop m)) = lc_num c -> ctx_ok cf (mp_sh m) (lp_done (mp_loop m)) c ->
      (lc_num c <= num_scans s')%Z /\ (lc_new c = true -> 2 <= lc_num c)%Z).
    { intros c C1 C2 (C3 & C4 & C5 & _). split; [lia|intros _; lia]. }
    assert (cand : forall c, (counted (lp_pc (mp_loop m)) <= num_scans (mp_sh m))%Z -> counted (lp_pc (mp_loop m)) = lc_num c -> ctx_ok cf (mp_sh m) (lp_done (mp_loop m)) c ->
      opt_ready (mkMapper s' (mp_spin m) (after_candidate (mp_loop m) c) (mp_pub m))).
    { intros c C1 C2 C3. unfold opt_ready. cbn [mp_sh mp_spin mp_loop]. rewrite after_candidate_solver. split; [exact R1'|].
      unfold after_candidate. destruct (_ =? 0)%Z; [|exact I]. cbn [next_scan lp_pc]. apply ctx; assumption. }
    destruct I4 as [I40 I4].
    destruct D; match goal with P : lp_pc (mp_loop m) = _ |- _ => rewrite P in R2, I4, I6, ctx, cand end; cbn [counted] in I6, ctx, cand;
      unfold opt_ready; cbn [mp_sh mp_spin mp_loop lat lp_pc lp_solver next_scan];
      try (split; [exact R1'|exact I]); try (split; [exact R1'|exact R2]).
    + match goal with P : lp_pc (mp_loop m) = LSleep |- _ => rewrite P end. split; [exact R1'|exact I].
    + split; [exact R1'|]. split; [exact Nu|discriminate].
    + split; [exact R1'|]. apply ctx; [exact I6|reflexivity|exact I4].
    + apply cand; [exact I6|reflexivity|apply I4].
    + apply cand; [exact I6|reflexivity|exact I4].
    + split; [exact R1'|]. destruct R2 as [R2 R3]. specialize (R3 eq_refl). lia.
    + split; [exact R1'|]. split; [exact R2|]. apply unhalf_pending. apply Sp; [reflexivity|assumption].
    + split; [|exact I].
      match goal with G : graph_scans _ = Ok scans, O : optimize _ _ _ _ = _ |- _ => rename G into Gs; rename O into Op end.
      destruct (put_all_frame (sh_scans (mp_sh m)) scans' (mp_sh m)) as [h Eh]. unfold keys. rewrite Eh.
      cbn [sh_cons sh_scans unlock_g set_glock set_flag note set_heap]. fold (keys (mp_sh m)).
      rewrite <- (graph_keys (mp_sh m) scans I1 (proj1 U) Gs) in R1 |- *. apply (optimize_ok _ _ _ _ _ _ _ R1 Op).
  - assert (El : mp_loop m' = mp_loop m) by (destruct H; try reflexivity; contradiction NLo; reflexivity).
    unfold opt_ready. rewrite El. split; [exact R1'|].
    destruct (lp_pc (mp_loop m)) eqn:P; try exact I; try lia.
    + destruct R2; split; [lia|assumption].
    + destruct R2; split; [lia|assumption].
    + destruct R2; split; [lia|assumption].
    + destruct R2; split; [lia|assumption].
    + destruct R2 as [R2 R3]. split; [lia|]. apply (pending_opt l m m' U LI NLo P R2 R3 H).
Qed.

Lemma separate_chained : forall m l, separate m l -> chained cf m l.
Proof. intros m l [[B N] _]. split; [exact B|]. intros E file P. contradiction (N E file P). Qed.
Lemma separate_calm : forall m l, separate m l -> calm cf m l.
Proof. intros m l [[B N] _]. split; [exact B|]. intros E file P. contradiction (N E file P). Qed.

Lemma spanning_joins : forall g : graph T, spanning g -> Forall (fun c => c_switchable c = false -> joins (List.length (gr_scans g)) c) (gr_constraints g).
Proof.
  intros g (_ & S1 & S2). apply Forall_forall. intros c J E.
  assert (K : In c (chain g)) by (apply filter_In; split; [exact J|rewrite E; reflexivity]).
  rewrite Forall_forall in S2. pose proof (S2 c K) as B. apply (in_map c_end) in K. rewrite S1 in K. apply in_map_iff in K. destruct K as (i & Ei & K).
  apply in_seq in K. unfold joins. lia.
Qed.

Theorem optimizer_runs : chained_start cf -> good_start cf -> forall m, reach_if cf separate m -> (num_scans (mp_sh m) < 2 ^ 31)%Z -> optimizing m ->
  exists m', step cf Loop m = Some (Ok m').
Proof.
  intros start good m R B O.
  assert (inv : forall m, reach_if cf separate m -> id_inv cf m /\ wf_inv m /\ lock_inv m).
  { intros m0 R0. destruct (wf_reach cf depth_ok search_ok good m0) as [J1 J2]; [apply (reach_if_mono cf separate); [exact separate_calm|exact R0]|].
    split; [exact J1|]. split; [exact J2|]. apply (lock_inv_reachable cf). apply (reach_if_reachable cf separate m0 R0). }
  assert (Q : opt_ready m).
  { clear O B. revert m R. apply (reach_if_and cf separate opt_ready _ inv).
    - intros m H. apply init_cases in H. destruct H as (s & f & -> & _ & ->). split; [split; [apply Nat.le_0_l|constructor]|exact I].
    - intros l m m' Se J I H. apply (opt_ready_step l m m'); assumption. }
  destruct (inv m R) as ((I1 & _) & (I5 & _) & _). destruct Q as [Q1 Q2]. red in O. rewrite O in Q2. destruct Q2 as [Q2 Q3].
  rewrite Q3, Nat.add_0_r in I5.
  destruct (chain_reach cf depth_ok search_ok start m) as (_ & _ & C1 & C2); [apply (reach_if_mono cf separate); [exact separate_chained|exact R]|].
  assert (Z0 : match sp_pc (mp_spin m) with SScanLock _ _ | SScanPush _ _ => 1 | _ => 0 end = 0%nat) by exact Q3.
  rewrite Z0, Nat.add_0_r in C1.
  destruct (graph_defined cf _ I1) as (g & G). unfold the_graph in G. apply bind_ok in G. destruct G as (scans & Gs & _).
  assert (D : exists r, optimize (en_ceres cf) (lp_solver (mp_loop m)) (sh_cons (mp_sh m)) scans = Ok r).
  { pose proof (graph_keys (mp_sh m) scans I1 B Gs) as K. rewrite <- K in Q1. apply (optimize_defined _ _ _ _ Q1). right. rewrite K.
    unfold num_scans in *. split.
    - apply Forall_forall. intros c J. assert (J' : In c (sh_cons (mp_sh m))).
      { rewrite <- (firstn_skipn (sv_num (lp_solver (mp_loop m))) (sh_cons (mp_sh m))). apply in_or_app. right. exact J. }
      rewrite Forall_forall in I5. pose proof (I5 c J') as [E1 E2]. unfold good_constraint. split; [lia|]. split; [lia|].
      exists (c_begin c), (c_end c). unfold keys.
      assert (nth : forall z, (0 <= z < Z.of_nat (List.length (sh_scans (mp_sh m))))%Z ->
        nth_error (map Z.of_nat (seq 0 (List.length (sh_scans (mp_sh m))))) (Z.to_nat z) = Some z).
      { intros z Hz. rewrite nth_error_map, (nth_error_nth' _ 0%nat) by (rewrite seq_length; lia). rewrite seq_nth by lia. cbn. f_equal. lia. }
      rewrite !nth by lia. split; [reflexivity|]. split; [reflexivity|lia].
    - assert (J : In 1%Z (map c_end (odo (sh_cons (mp_sh m))))).
      { rewrite C1. unfold nums. apply in_map_iff. exists 1%nat. split; [reflexivity|]. apply in_seq. lia. }
      apply in_map_iff in J. destruct J as (c & E & J). rewrite Forall_forall in C2. pose proof (C2 c J) as Bc. apply filter_In in J. destruct J as [J _].
      exists 0%Z, c. split; [|split; [exact J|]].
      + unfold keys. destruct (List.length (sh_scans (mp_sh m))); [lia|reflexivity].
      + left. replace (c_begin c) with 0%Z by lia. unfold keys. destruct (List.length (sh_scans (mp_sh m))); [lia|reflexivity]. }
  destruct D as ([[b sv] scans'] & D). unfold step, loop_step. rewrite O, Gs. cbn [bind]. rewrite D. cbn [bind option_map]. eexists. reflexivity.
Qed.
End P.
