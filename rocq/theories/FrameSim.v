(** Two runs of the node whose odometry is given in different frames, step by step. *)

From Coq Require Import ZArith Reals List Bool String Lia.
From Verif Require Import Outcome Arith TypesModel ScanModel CellModel NdtModel MatcherModel ConstraintModel SolverModel GraphModel OccGridModel KdModel
  MotionModel FilterModel LaserModel MapperModel SpecPose SpecLaser SpecFrame NdtProofs.
Import ListNotations.

Section Sim.
Context {T : Type} {A : Arith T}.
Context (cf : config T) (rel : pose T -> pose T -> Prop) (tf : iso T -> iso T -> Prop).
Hypothesis Hsmall : forall md mr p p' q q', rel p p' -> rel q q' -> small_motion md mr p' q' = small_motion md mr p q.
Hypothesis Hguess : forall r p p' q q', rel p p' -> rel q q' -> odom_guess r p' q' = odom_guess r p q.
Hypothesis Htf : forall r p p', rel p p' -> tf (map_to_odom r p) (map_to_odom r p').

(** The shared data with another odometry pose and trace. *)
Definition recolor (s : shared T) (o : pose T) (tr : list (obs T)) : shared T :=
  mkShared (sh_heap s) (sh_scans s) (sh_cons s) (sh_flag s) (sh_glock s) (sh_plock s) o (sh_robot s) (sh_typical s) (sh_enable s) (sh_init s) (sh_global s) tr.

Definition pc_rel (a b : spin_pc T) : Prop :=
  match a, b with
  | SFilter p o n d, SFilter p' o' n' d' => p' = p /\ n' = n /\ d' = d /\ rel o o'
  | SMatch p o, SMatch p' o' => p' = p /\ rel o o'
  | SMake p o c, SMake p' o' c' => p' = p /\ c' = c /\ rel o o'
  | SConsLock p o c, SConsLock p' o' c' => p' = p /\ c' = c /\ rel o o'
  | SConsPush p o c, SConsPush p' o' c' => p' = p /\ c' = c /\ rel o o'
  | SScanLock p o, SScanLock p' o' => p' = p /\ rel o o'
  | SScanPush p o, SScanPush p' o' => p' = p /\ rel o o'
  | STrack p o, STrack p' o' => p' = p /\ rel o o'
  | SPoseLock p o u, SPoseLock p' o' u' => p' = p /\ u' = u /\ rel o o'
  | SPoseWrite p o u, SPoseWrite p' o' u' => p' = p /\ u' = u /\ rel o o'
  | SGraphLock e o, SGraphLock e' o' => same_request rel e e' /\ rel o o'
  | SGraph e o, SGraph e' o' => same_request rel e e' /\ rel o o'
  | SInitRobot r o, SInitRobot r' o' => r' = r /\ rel o o'
  | SInitOdom r o, SInitOdom r' o' => r' = r /\ rel o o'
  | SInitDone r o, SInitDone r' o' => r' = r /\ rel o o'
  | _, _ => b = a
  end.
Definition spin_rel (a b : spin T) : Prop := pc_rel (sp_pc a) (sp_pc b) /\ b = at_pc a (sp_pc b).
Definition ppc_rel (a b : pub_pc T) : Prop :=
  match a, b with
  | PSend r o, PSend r' o' => r' = r /\ (rel o o' \/ o = pose0 /\ o' = pose0)
  | _, _ => b = a
  end.
Definition pub_rel (a b : publisher T) : Prop := ppc_rel (pb_pc a) (pb_pc b) /\ pb_grid b = pb_grid a.

(** The odometry pose is not looked at before it was stored for the first time. *)
Definition unused (s : shared T) (pc : spin_pc T) : Prop :=
  match pc with
  | SPoseLock _ _ _ | SPoseWrite _ _ _ | SInitRobot _ _ | SInitOdom _ _ => True
  | SInitDone _ _ => False
  | _ => sh_scans s = [] \/ sh_init s = false
  end.
Definition odom_rel (s : shared T) (pc : spin_pc T) (o' : pose T) : Prop := rel (sh_odom s) o' \/ ((sh_odom s = pose0 /\ o' = pose0) /\ unused s pc).

Definition sh_rel (s s' : shared T) (pc : spin_pc T) : Prop :=
  exists o' tr', s' = recolor s o' tr' /\ Forall2 (same_obs rel tf) (sh_trace s) tr' /\ odom_rel s pc o'.
Definition m_rel (m m' : mapper T) : Prop :=
  sh_rel (mp_sh m) (mp_sh m') (sp_pc (mp_spin m)) /\ spin_rel (mp_spin m) (mp_spin m') /\ mp_loop m' = mp_loop m /\ pub_rel (mp_pub m) (mp_pub m').

(** The same outcome. *)
Definition out_rel {X Y} (r : X -> Y -> Prop) (a : option (outcome X)) (b : option (outcome Y)) : Prop :=
  match a, b with
  | None, None => True
  | Some (Ok x), Some (Ok y) => r x y
  | Some (Fault f), Some (Fault f') => f' = f
  | _, _ => False
  end.

Lemma put_all_recolor : forall ps vs (s : shared T) o tr, put_all (recolor s o tr) ps vs = recolor (put_all s ps vs) o tr.
Proof.
  unfold put_all. intros ps vs. generalize (combine ps vs) as l. induction l as [|x l IH]; intros s o tr; [reflexivity|].
  cbn [fold_left]. rewrite <- IH. reflexivity.
Qed.
Lemma put_all_rest : forall ps vs (s : shared T), exists h, put_all s ps vs = set_heap s h.
Proof.
  unfold put_all. intros ps vs. generalize (combine ps vs) as l. induction l as [|x l IH]; intros s; [exists (sh_heap s); destruct s; reflexivity|].
  cbn [fold_left]. destruct (IH (put s (fst x) (snd x))) as (h & E). rewrite E. exists h. reflexivity.
Qed.

(** Loop closure. *)
Ltac fin K tr' Tr := cbn [fst snd]; match goal with |- sh_rel ?a _ _ => refine (K a tr' _ _ _ _) end; [exact Tr|reflexivity..].
Lemma loop_sim : forall s l o' tr' pc, Forall2 (same_obs rel tf) (sh_trace s) tr' -> odom_rel s pc o' ->
  out_rel (fun a b => sh_rel (fst a) (fst b) pc /\ snd b = snd a) (loop_step cf s l) (loop_step cf (recolor s o' tr') l).
Proof.
  intros s l o' tr' pc Tr Od.
  assert (K : forall s1 tr1, Forall2 (same_obs rel tf) (sh_trace s1) tr1 -> sh_odom s1 = sh_odom s -> sh_scans s1 = sh_scans s -> sh_init s1 = sh_init s ->
    sh_rel s1 (recolor s1 o' tr1) pc).
  { intros s1 tr1 T1 E1 E2 E3. exists o', tr1. split; [reflexivity|]. split; [exact T1|]. unfold odom_rel, unused in *. rewrite E1, E2, E3. exact Od. }
  unfold loop_step. destruct (lp_pc l) as [| | |num new|num new|num new|c|c i|c i cand|c i cand corr cov|c i cand cov|c k|c k|c|num new| |] eqn:Pc;
    unfold lock_g; cbn [sh_glock recolor sh_enable];
    change (graph_scans (recolor s o' tr')) with (graph_scans s); change (the_graph cf (recolor s o' tr')) with (the_graph cf s);
    change (num_scans (recolor s o' tr')) with (num_scans s).
  all: try (destruct (locked (sh_glock s)); [exact I|]).
  all: try (split; [fin K tr' Tr|reflexivity]).
  - (* LFetch *) cbn [sh_scans sh_heap recolor]. destruct (vec_get (sh_scans s) (lp_done l)) as [p|]; [|exact eq_refl]. cbn [bind].
    destruct (deref (sh_heap s) p) as [sc|]; [|exact eq_refl]. cbn [bind]. destruct (the_graph cf s) as [g|]; [|exact eq_refl]. cbn [bind].
    destruct (find_nearest _ _ _ _ _) as [near|]; [|exact eq_refl]. cbn [bind]. split; [fin K tr' Tr|reflexivity].
  - (* LCand *) destruct (lc_rest c) as [|i rest]; [split; [fin K tr' Tr|reflexivity]|].
    destruct (locked (sh_glock s)); [exact I|]. split; [fin K tr' Tr|reflexivity].
  - (* LRegion *) cbn [sh_scans sh_heap sh_global recolor]. destruct (graph_scans s) as [scans|]; [|exact eq_refl]. cbn [bind].
    destruct (vec_get (sh_scans s) (Z.of_nat i)) as [cand|]; [|exact eq_refl]. cbn [bind]. destruct (deref (sh_heap s) cand) as [cd|]; [|exact eq_refl]. cbn [bind].
    destruct (s_pts cd) as [|q qs]; [split; [fin K tr' Tr|reflexivity]|].
    destruct (region i (rolling_start cf l) scans) as [reg|]; [|exact eq_refl]. cbn [bind]. destruct (sh_global s) as [g|]; [|exact eq_refl].
    destruct (add_scans _ _ _) as [g'|]; [|exact eq_refl]. cbn [bind]. split; [fin K tr' Tr|reflexivity].
  - (* LMatch *) cbn [sh_heap sh_global sh_typical recolor]. destruct (deref (sh_heap s) (lc_scan c)) as [sc|]; [|exact eq_refl]. cbn [bind].
    destruct (sh_global s) as [g|]; [|exact eq_refl]. destruct (match_scan _ _ _ _ _) as [[[score corr] cov]|]; [|exact eq_refl]. cbn [bind].
    destruct (nfinite score && (score <? sh_typical s)%num)%bool;
      (split; [apply (K (note s (ObMatch (lp_done l) (Z.of_nat i) score (sh_typical s) _))); [cbn [sh_trace note]; constructor; [reflexivity|exact Tr]|reflexivity..]|reflexivity]).
  - (* LCorrect *) cbn [sh_heap recolor]. destruct (deref (sh_heap s) (lc_scan c)) as [sc|]; [|exact eq_refl]. cbn [bind].
    split; [|reflexivity]. apply (K (note (put s (lc_scan c) (scan_set_pose sc (add_correction (s_pose sc) corr))) (ObMove (lc_scan c) (add_correction (s_pose sc) corr)))); [|reflexivity..].
    cbn [sh_trace note put set_heap]. constructor; [reflexivity|exact Tr].
  - (* LMake *) cbn [sh_heap recolor]. destruct (deref (sh_heap s) cand) as [cd|]; [|exact eq_refl]. cbn [bind].
    destruct (deref (sh_heap s) (lc_scan c)) as [sc|]; [|exact eq_refl]. cbn [bind]. split; [fin K tr' Tr|reflexivity].
  - (* LPush *) split; [|reflexivity]. apply (K (note (set_cons s (sh_cons s ++ [k])) (ObConstraint ALoop k))); [|reflexivity..].
    cbn [sh_trace note set_cons]. constructor; [reflexivity|exact Tr].
  - (* LOptRun *) cbn [sh_cons sh_scans recolor]. destruct (graph_scans s) as [scans|]; [|exact eq_refl]. cbn [bind].
    destruct (optimize _ _ _ _) as [[[u sv] scans']|]; [|exact eq_refl]. cbn [bind]. rewrite put_all_recolor. destruct (put_all_rest (sh_scans s) scans' s) as (h & E). rewrite E.
    split; [|reflexivity]. apply (K (unlock_g (set_flag (note (set_heap s h) (ObOptimize (List.length scans))) true))); [|reflexivity..].
    cbn [sh_trace note set_heap set_flag unlock_g set_glock]. constructor; [reflexivity|exact Tr].
Qed.

(** Publishing. *)
Lemma pub_sim : forall s p p' o' tr' pc, Forall2 (same_obs rel tf) (sh_trace s) tr' -> odom_rel s pc o' -> pub_rel p p' ->
  out_rel (fun a b => sh_rel (fst a) (fst b) pc /\ pub_rel (snd a) (snd b)) (pub_step cf s p) (pub_step cf (recolor s o' tr') p').
Proof.
  intros s p p' o' tr' pc Tr Od [Pp Gp].
  assert (K : forall s1 tr1, Forall2 (same_obs rel tf) (sh_trace s1) tr1 -> sh_odom s1 = sh_odom s -> sh_scans s1 = sh_scans s -> sh_init s1 = sh_init s ->
    sh_rel s1 (recolor s1 o' tr1) pc).
  { intros s1 tr1 T1 E1 E2 E3. exists o', tr1. split; [reflexivity|]. split; [exact T1|]. unfold odom_rel, unused in *. rewrite E1, E2, E3. exact Od. }
  destruct p as [pa pg], p' as [pa' pg']. cbn [pb_pc pb_grid] in Pp, Gp. subst pg'. unfold pub_step. cbn [pb_pc pb_grid].
  destruct pa as [| | | | | | | | |r|r o]; cbn [ppc_rel] in Pp; try (subst pa');
    unfold lock_g, lock_p; cbn [sh_glock sh_plock sh_flag sh_scans sh_robot sh_odom recolor];
    change (graph_scans (recolor s o' tr')) with (graph_scans s); change (the_graph cf (recolor s o' tr')) with (the_graph cf s).
  all: try (destruct (locked _); [exact I|]).
  all: try (split; [fin K tr' Tr|split; [|reflexivity]]; cbn [snd pat pb_pc]; first [reflexivity|destruct (sh_flag s); reflexivity|destruct (sh_scans s); reflexivity]).
  - (* PGrid *) destruct (graph_scans s) as [scans|]; [|exact eq_refl]. cbn [bind]. destruct (occ_get_msg pg scans) as [[grid m]|]; [|exact eq_refl]. cbn [bind].
    split; [|split; reflexivity]. apply (K (unlock_g (note s (ObMap scans m)))); [|reflexivity..]. cbn [sh_trace note unlock_g set_glock]. constructor; [reflexivity|exact Tr].
  - (* PGraph *) destruct (the_graph cf s) as [g|]; [|exact eq_refl]. cbn [bind]. destruct (graph_get_msg g []) as [ms|]; [|exact eq_refl]. cbn [bind].
    split; [|split; reflexivity]. apply (K (unlock_g (note s (ObMarkers g ms)))); [|reflexivity..]. cbn [sh_trace note unlock_g set_glock]. constructor; [reflexivity|exact Tr].
  - (* PReadOdom *) split; [fin K tr' Tr|]. split; [|reflexivity]. cbn. split; [reflexivity|]. destruct Od as [Od|[Od _]]; [left; exact Od|right; exact Od].
  - (* PSend *) destruct pa' as [| | | | | | | | |r'|r' oo]; try discriminate Pp. destruct Pp as [-> Po]. cbn [out_rel fst snd].
    split; [|split; reflexivity]. apply (K (note s (ObTf r o (map_to_odom r o)))); [|reflexivity..]. cbn [sh_trace note]. constructor; [|exact Tr].
    cbn [same_obs]. split; [reflexivity|]. destruct Po as [Po|[-> ->]]; [left; split; [exact Po|apply Htf; exact Po]|right; repeat split; reflexivity].
Qed.

(** Callbacks. *)
Lemma same_request_graph : forall s e e', same_request rel e e' -> pose_graph cf s e' = pose_graph cf s e.
Proof. intros s e e' (E1 & E2 & E3 & E4 & E5 & E6 & _). unfold pose_graph. rewrite E2, E3, E4, E5. reflexivity. Qed.
Lemma pose_graph_recolor : forall s e o tr, pose_graph cf (recolor s o tr) e =
  match pose_graph cf s e with
  | Ok (s1, b) => Ok (recolor s1 o (firstn (List.length (sh_trace s1) - List.length (sh_trace s)) (sh_trace s1) ++ tr), b)
  | Fault f => Fault f
  end.
Proof.
  intros s e o tr. unfold pose_graph. change (the_graph cf (recolor s o tr)) with (the_graph cf s). change (num_scans (recolor s o tr)) with (num_scans s).
  destruct (the_graph cf s) as [g|]; [|reflexivity]. cbn [bind]. destruct (find_nearest _ _ _ _ _) as [[|i l]|]; [| |reflexivity]; cbn [bind].
  - rewrite Nat.sub_diag. reflexivity.
  - unfold alloc. destruct (vec_get _ (Z.of_nat i)) as [from|]; [|reflexivity]. cbn [bind sh_trace note set_cons set_scans set_heap List.length].
    replace (Datatypes.S (Datatypes.S (List.length (sh_trace s))) - List.length (sh_trace s))%nat with 2%nat by lia. reflexivity.
Qed.
Lemma pose_graph_rest : forall s e s1 b, pose_graph cf s e = Ok (s1, b) ->
  sh_odom s1 = sh_odom s /\ sh_init s1 = sh_init s /\ (b = false -> s1 = s) /\
  exists new, sh_trace s1 = new ++ sh_trace s /\ (forall x, In x new -> same_obs rel tf x x).
Proof.
  intros s e s1 b H. unfold pose_graph in H. apply bind_ok in H. destruct H as (g & _ & H). apply bind_ok in H. destruct H as (near & _ & H).
  destruct near as [|i l]; [injection H as <- <-; repeat split; exists []; split; [reflexivity|intros x []]|].
  unfold alloc in H. apply bind_ok in H. destruct H as (from & _ & H). injection H as <- <-. repeat split; [discriminate|].
  eexists [_; _]. split; [reflexivity|]. intros x [<-|[<-|[]]]; reflexivity.
Qed.

Ltac sfin K tr' Tr := cbn [fst snd]; split; [match goal with |- sh_rel ?a _ _ => refine (K a _ tr' _ _ _) end; [exact Tr|reflexivity|cbn [sp_pc at_pc fst snd]]|].
Lemma spin_sim : forall s sp sp' o' tr', Forall2 (same_obs rel tf) (sh_trace s) tr' -> odom_rel s (sp_pc sp) o' -> spin_rel sp sp' ->
  out_rel (fun a b => sh_rel (fst a) (fst b) (sp_pc (snd a)) /\ spin_rel (snd a) (snd b)) (spin_step cf s sp) (spin_step cf (recolor s o' tr') sp').
Proof.
  intros s sp sp' o' tr' Tr Od [Pc Esp].
  assert (K : forall s1 pc tr1, Forall2 (same_obs rel tf) (sh_trace s1) tr1 -> sh_odom s1 = sh_odom s -> (unused s (sp_pc sp) -> unused s1 pc) -> sh_rel s1 (recolor s1 o' tr1) pc).
  { intros s1 pc tr1 T1 E1 U. exists o', tr1. split; [reflexivity|]. split; [exact T1|]. unfold odom_rel in *; rewrite E1; destruct Od as [Od|[Od Un]]; [left; exact Od|right; split; [exact Od|exact (U Un)]]. }
  assert (At : forall pc pc', pc_rel pc pc' -> forall q x, spin_rel (at_pc q pc) (at_pc (at_pc q x) pc')) by (intros pc pc' H q x; split; [exact H|reflexivity]).
  remember (sp_pc sp') as pc' eqn:Q. clear Q. subst sp'. unfold spin_step. cbn [sp_pc at_pc].
  destruct (sp_pc sp) as [|p o n d|p o|p o cov|p o c|p o c|p o|p o|p o|p o u|p o u|e o|e o|r o|r o|r o|f|f| |] eqn:Psp;
    destruct pc' as [|p' o1 n' d'|p' o1|p' o1 cov'|p' o1 c'|p' o1 c'|p' o1|p' o1|p' o1|p' o1 u'|p' o1 u'|e' o1|e' o1|r' o1|r' o1|r' o1|f'|f'| |];
    cbn [pc_rel] in Pc; try discriminate Pc; try contradiction.
  - exact I.
  - (* SFilter *) destruct Pc as (-> & -> & -> & Ro). unfold filter_callback. cbn [sh_heap sh_robot sh_global recolor sp_filter at_pc].
    destruct (deref (sh_heap s) p) as [sc|]; [|exact eq_refl]. cbn [bind]. destruct (sp_filter sp) as [fl|]; [|exact eq_refl].
    destruct (filter_update _ _ _ _ _) as [f1|]; [|exact eq_refl]. cbn [bind]. destruct (sh_global s) as [g|]; [|exact eq_refl].
    destruct (filter_measure _ _) as [f2|]; [|exact eq_refl]. cbn [bind]. destruct (filter_resample _ _ _ _) as [f3|]; [|exact eq_refl]. cbn [bind].
    sfin K tr' Tr; [intros _; exact I|]. split; [cbn; auto|reflexivity].
  - (* SMatch *) destruct Pc as (-> & Ro). cbn [sh_scans recolor]. destruct (sh_scans s) as [|b bs] eqn:Es.
    { sfin K tr' Tr; [intros _; left; exact Es|]. apply At. cbn. auto. }
    unfold local_match. change (graph_scans (recolor s o' tr')) with (graph_scans s). cbn [sh_heap sh_typical recolor sp_local at_pc].
    destruct (graph_scans s) as [scans|]; [|exact eq_refl]. cbn [bind]. destruct (rolling_window _ _) as [window|]; [|exact eq_refl]. cbn [bind].
    destruct (sp_local sp) as [m|]; [|exact eq_refl]. destruct (add_scans _ _ _) as [m'|]; [|exact eq_refl]. cbn [bind].
    destruct (deref (sh_heap s) p) as [sc|]; [|exact eq_refl]. cbn [bind]. destruct (score_scan _ _) as [v|]; [|exact eq_refl]. cbn [bind].
    destruct (match_scan _ _ _ _ _) as [[[score corr] cov]|]; [|exact eq_refl]. cbn [bind].
    sfin K tr' Tr; [intro U; exact U|]. split; [cbn; auto|reflexivity].
  - (* SMake *) destruct Pc as (-> & -> & Ro). cbn [sh_scans sh_heap recolor].
    destruct (match rev (sh_scans s) with [] => Fault OutOfBounds | b :: _ => deref (sh_heap s) b end) as [back|]; [|exact eq_refl]. cbn [bind].
    destruct (deref (sh_heap s) p) as [sc|]; [|exact eq_refl]. cbn [bind]. sfin K tr' Tr; [intro U; exact U|]. apply At. cbn. auto.
  - (* SConsLock *) destruct Pc as (-> & -> & Ro). unfold lock_g. cbn [sh_glock recolor]. destruct (locked _); [exact I|]. sfin K tr' Tr; [intro U; exact U|]. apply At. cbn. auto.
  - (* SConsPush *) destruct Pc as (-> & -> & Ro). cbn [out_rel fst snd]. split; [|apply At; cbn; auto].
    refine (K (unlock_g (note (set_cons s (sh_cons s ++ [c])) (ObConstraint ALaser c))) _ (ObConstraint ALaser c :: tr') _ eq_refl _); [constructor; [reflexivity|exact Tr]|intro U; exact U].
  - (* SScanLock *) destruct Pc as (-> & Ro). unfold lock_g. cbn [sh_glock recolor]. destruct (locked _); [exact I|]. sfin K tr' Tr; [intro U; exact U|]. apply At. cbn. auto.
  - (* SScanPush *) destruct Pc as (-> & Ro). cbn [out_rel fst snd]. split; [|apply At; cbn; auto].
    refine (K (unlock_g (note (set_scans s (sh_scans s ++ [p])) (ObScan ALaser p))) _ (ObScan ALaser p :: tr') _ eq_refl _); [constructor; [reflexivity|exact Tr]|intros _; exact I].
  - (* STrack *) destruct Pc as (-> & Ro). unfold track_match. cbn [sh_heap sh_global recolor]. destruct (deref (sh_heap s) p) as [sc|]; [|exact eq_refl]. cbn [bind].
    destruct (sh_global s) as [g|]; [|exact eq_refl]. destruct (score_scan _ _) as [v|]; [|exact eq_refl]. cbn [bind].
    destruct (match_scan _ _ _ _ _) as [[[score corr] cov]|]; [|exact eq_refl]. cbn [bind]. sfin K tr' Tr; [intros _; exact I|]. apply At. cbn. auto.
  - (* SPoseLock *) destruct Pc as (-> & -> & Ro). unfold lock_p. cbn [sh_plock recolor]. destruct (locked _); [exact I|]. sfin K tr' Tr; [intro U; exact U|]. apply At. cbn. auto.
  - (* SPoseWrite *) destruct Pc as (-> & -> & Ro). cbn [sh_heap recolor]. destruct (deref (sh_heap s) p) as [sc|]; [|exact eq_refl]. cbn [bind out_rel fst snd]. split; [|apply At; reflexivity].
    exists o1, (ObPoses (s_pose sc) o1 :: tr'). split; [destruct u; reflexivity|]. split; [|left; destruct u; exact Ro].
    destruct u; (constructor; [split; [reflexivity|exact Ro]|exact Tr]).
  - (* SGraphLock *) destruct Pc as (Re & Ro). unfold lock_g. cbn [sh_glock recolor]. destruct (locked _); [exact I|]. sfin K tr' Tr; [intro U; exact U|]. apply At. cbn. auto.
  - (* SGraph *) destruct Pc as (Re & Ro). rewrite (same_request_graph _ e e' Re), pose_graph_recolor.
    destruct (pose_graph cf s e) as [[s1 b]|] eqn:G; [|exact eq_refl]. cbn [bind out_rel fst snd]. destruct (pose_graph_rest _ _ _ _ G) as (E1 & E2 & E3 & new & E4 & E5). split.
    + refine (K (unlock_g s1) _ _ _ E1 _).
      * cbn [sh_trace unlock_g set_glock]. rewrite E4, app_length, Nat.add_sub, firstn_app, Nat.sub_diag, firstn_all. cbn [firstn]. rewrite app_nil_r. apply Forall2_app; [|exact Tr].
        clear -E5. induction new as [|x new IH]; constructor; [apply E5; left; reflexivity|apply IH; intros y Iy; apply E5; right; exact Iy].
      * destruct b; [intros _; exact I|]. rewrite (E3 eq_refl). intro U. exact U.
    + apply At. destruct b; [|reflexivity]. cbn. split; [|exact Ro]. destruct Re as (_ & -> & _). reflexivity.
  - (* SInitRobot *) destruct Pc as (-> & Ro). sfin K tr' Tr; [intro U; exact U|]. apply At. cbn. auto.
  - (* SInitOdom *) destruct Pc as (-> & Ro). cbn [out_rel fst snd]. split; [|apply At; cbn; auto]. exists o1, tr'. split; [reflexivity|]. split; [exact Tr|left; exact Ro].
  - (* SInitDone *) destruct Pc as (-> & Ro). cbn [out_rel fst snd]. split; [|apply At; reflexivity].
    refine (K (note (set_init s true) (ObInit r o)) _ (ObInit r o1 :: tr') _ eq_refl _); [constructor; [split; [reflexivity|exact Ro]|exact Tr]|intros []].
  - (* SLoadLock *) injection Pc as ->. unfold lock_g. cbn [sh_glock recolor]. destruct (locked _); [exact I|]. sfin K tr' Tr; [intro U; exact U|]. apply At. reflexivity.
  - (* SLoad *) injection Pc as ->. cbn [out_rel fst snd]. split; [|apply At; reflexivity].
    refine (K (unlock_g (set_init (set_flag (load_graph cf s f) true) false)) _ (ObLoad :: tr') _ eq_refl _); [constructor; [reflexivity|exact Tr]|intros _; right; reflexivity].
  - (* SSaveLock *) unfold lock_g. cbn [sh_glock recolor]. destruct (locked _); [exact I|]. sfin K tr' Tr; [intro U; exact U|]. apply At. reflexivity.
  - (* SSave *) change (the_graph cf (recolor s o' tr')) with (the_graph cf s). destruct (the_graph cf s) as [g|]; [|exact eq_refl]. cbn [bind out_rel fst snd]. split; [|apply At; reflexivity].
    refine (K (unlock_g (note s (ObSave (graph_save g)))) _ (ObSave (graph_save g) :: tr') _ eq_refl _); [constructor; [reflexivity|exact Tr]|intro U; exact U].
Qed.

Lemma deliver_sim : forall s sp sp' o' tr' e e', Forall2 (same_obs rel tf) (sh_trace s) tr' -> odom_rel s (sp_pc sp) o' -> spin_rel sp sp' ->
  same_label rel (Deliver e) (Deliver e') -> same_sweep (Deliver e) (Deliver e') ->
  out_rel (fun a b => sh_rel (fst a) (fst b) (sp_pc (snd a)) /\ spin_rel (snd a) (snd b)) (deliver cf s sp e) (deliver cf (recolor s o' tr') sp' e').
Proof.
  intros s sp sp' o' tr' e e' Tr Od [Pc Esp] Le Hw.
  assert (Ip : forall a b, pc_rel a b -> (a = SIdle <-> b = SIdle)).
  { intros a b H. destruct a, b; cbn [pc_rel] in H; try discriminate H; try contradiction; split; intro X; try discriminate X; reflexivity. }
  specialize (Ip _ _ Pc). unfold deliver. destruct (sp_pc sp) eqn:Psp; try (destruct (sp_pc sp') eqn:Q; [exfalso; discriminate (proj2 Ip eq_refl)|exact I..]).
  assert (E : sp' = sp) by (rewrite Esp, (proj1 Ip eq_refl), <- Psp; destruct sp; reflexivity). clear Esp Ip Pc. subst sp'. rewrite Psp.
  assert (K : forall s1 pc tr1, Forall2 (same_obs rel tf) (sh_trace s1) tr1 -> sh_odom s1 = sh_odom s -> (unused s SIdle -> unused s1 pc) -> sh_rel s1 (recolor s1 o' tr1) pc).
  { intros s1 pc tr1 T1 E1 U. exists o', tr1. split; [reflexivity|]. split; [exact T1|]. unfold odom_rel in *; rewrite E1; destruct Od as [Od|[Od Un]]; [left; exact Od|right; split; [exact Od|exact (U Un)]]. }
  assert (At : forall pc pc', pc_rel pc pc' -> forall q, spin_rel (at_pc q pc) (at_pc q pc')) by (intros pc pc' H q; split; [exact H|reflexivity]).
  assert (Rf : forall q : spin T, sp_pc q = SIdle -> spin_rel q q) by (intros q H; split; [rewrite H; reflexivity|destruct q; reflexivity]).
  destruct e as [e|e|a f], e' as [e'|e'|a' f']; try contradiction Le.
  - (* a laser message *)
    destruct Le as (E1 & E2 & E3 & E4 & E5 & E6 & Hs & He). unfold laser_begin. rewrite E1.
    assert (L : forall sp1, sp_pc sp1 = SIdle -> match learn_laser cf s sp1 e, learn_laser cf (recolor s o' tr') sp1 e' with
      | Ok None, Ok None => True
      | Ok (Some (s1, sp2)), Ok (Some (s1', sp2')) => s1' = recolor s1 o' tr' /\ sp2' = sp2 /\ sp_pc sp2 = SIdle /\ sh_odom s1 = sh_odom s /\ sh_trace s1 = sh_trace s /\ sh_scans s1 = sh_scans s /\ sh_init s1 = sh_init s
      | Fault f, Fault f' => f' = f
      | _, _ => False end).
    { intros sp1 P1. unfold learn_laser. destruct (sp_frame sp1 =? "")%string; [|repeat split; exact P1]. rewrite E3. destruct (le_laser e) as [t|]; [|exact I].
      cbn [sh_enable recolor]. change (graph_scans (recolor s o' tr')) with (graph_scans s). rewrite E2.
      destruct (use_filter cf || negb (sh_enable s))%bool; [|repeat split; exact P1]. destruct (graph_scans s) as [scans|]; [|exact eq_refl]. cbn [bind].
      destruct (add_scans _ _ _) as [g'|]; [|exact eq_refl]. cbn [bind]. repeat split; exact P1. }
    specialize (L (learn_range sp (le_msg e)) Psp). destruct (learn_laser cf s (learn_range sp (le_msg e)) e) as [[[s1 sp2]|]|] eqn:Q1;
      destruct (learn_laser cf (recolor s o' tr') (learn_range sp (le_msg e)) e') as [[[s1' sp2']|]|] eqn:Q2; try contradiction L; cbn [bind].
    3: { exact L. }
    2: { sfin K tr' Tr; [change (unused s SIdle -> unused s (sp_pc sp)); rewrite Psp; intro U; exact U|]. apply Rf. exact Psp. }
    destruct L as (-> & -> & P2 & O1 & T1 & S1 & I1).
    assert (Tr1 : Forall2 (same_obs rel tf) (sh_trace s1) tr') by (rewrite T1; exact Tr).
    assert (K' : forall s2 pc tr2, Forall2 (same_obs rel tf) (sh_trace s2) tr2 -> sh_odom s2 = sh_odom s1 -> (unused s1 SIdle -> unused s2 pc) -> sh_rel s2 (recolor s2 o' tr2) pc).
    { intros s2 pc tr2 T2 X2 U. apply K; [exact T2|congruence|]. intro W. apply U. unfold unused in *. rewrite S1, I1. exact W. }
    assert (Quit : out_rel (fun a b : shared T * spin T => sh_rel (fst a) (fst b) (sp_pc (snd a)) /\ spin_rel (snd a) (snd b)) (Some (Ok (s1, sp2))) (Some (Ok (recolor s1 o' tr', sp2)))).
    { sfin K' tr' Tr1; [rewrite P2; intro U; exact U|]. apply Rf. exact P2. }
    cbn [sh_init recolor]. destruct (sh_init s1) eqn:Hi; [|exact Quit].
    destruct (le_start e) as [t|] eqn:St; destruct (le_start e') as [t'|] eqn:St'; cbn [answers] in Hs; try contradiction Hs; [|exact Quit].
    assert (G : guess_pose cf (recolor s1 o' tr') (from_msg t') = guess_pose cf s1 (from_msg t)).
    { unfold guess_pose. cbn [sh_scans sh_odom sh_robot recolor]. destruct (sh_scans s1) as [|b bs] eqn:Es; [reflexivity|].
      assert (Ro : rel (sh_odom s1) o').
      { rewrite O1. destruct Od as [Od|[_ [U|U]]]; [exact Od|exfalso; congruence|exfalso; congruence]. }
      rewrite (Hsmall _ _ _ _ _ _ Ro Hs), (Hguess _ _ _ _ _ Ro Hs). reflexivity. }
    rewrite G. destruct (guess_pose cf s1 (from_msg t)) as [guess|]; [|exact Quit]. rewrite E4.
    destruct (sweep_ns _ _) as [ns|]; [|exact eq_refl]. cbn [bind]. specialize (He ns).
    destruct (le_end e ns) as [u|] eqn:En; destruct (le_end e' ns) as [u'|] eqn:En'; cbn [answers] in He; try contradiction He; [|exact Quit].
    assert (Sc : scan_points (sp_inverted sp2) (sp_range_max sp2) (sp_laser sp2) (from_msg t') (from_msg u') (le_msg e) = scan_points (sp_inverted sp2) (sp_range_max sp2) (sp_laser sp2) (from_msg t) (from_msg u) (le_msg e)).
    { destruct (Hw ns t u t' u' St En St' En') as (W1 & W2 & W3). unfold scan_points, sweep_translation.
      change (pox (from_msg u')) with (ps_x u'). change (pox (from_msg t')) with (ps_x t'). change (poy (from_msg u')) with (ps_y u'). change (poy (from_msg t')) with (ps_y t'). rewrite W1, W2, W3. reflexivity. }
    rewrite Sc. clear Sc. destruct (scan_points _ _ _ _ _ _) as [pts|]; [|exact eq_refl]. cbn [bind]. unfold alloc. cbn [sh_enable sh_heap recolor set_heap]. rewrite E5, E6.
    change (num_scans (recolor s1 o' tr')) with (num_scans s1).
    sfin K' tr' Tr1.
    + cbn [snd sp_pc at_pc]. intro U. destruct (use_filter cf); [exact U|]. destruct (sh_enable s1); exact U.
    + apply At. destruct (use_filter cf); [cbn; auto|]. destruct (sh_enable s1); cbn; auto.
  - (* an initial pose *)
    pose proof Le as Re. destruct Le as (E1 & E2 & E3 & E4 & E5 & E6 & Hs). unfold pose_begin. cbn [sh_enable sh_init recolor]. rewrite E1, E2, E3, E4, E5, E6.
    assert (Quit : out_rel (fun a b : shared T * spin T => sh_rel (fst a) (fst b) (sp_pc (snd a)) /\ spin_rel (snd a) (snd b)) (Some (Ok (s, sp))) (Some (Ok (recolor s o' tr', sp)))).
    { sfin K tr' Tr; [rewrite Psp; intro U; exact U|]. apply Rf. exact Psp. }
    destruct (sh_enable s && sh_init s)%bool; [exact Quit|]. destruct (negb _); [exact Quit|].
    destruct (pe_odom e) as [t|]; destruct (pe_odom e') as [t'|]; cbn [answers] in Hs; try contradiction Hs; [|exact Quit].
    destruct (sp_filter sp) as [fl|].
    + destruct (filter_init _ _ _ _ _ _ _ _) as [f'|]; [|exact eq_refl]. cbn [bind]. sfin K tr' Tr; [intros _; exact I|]. apply At. cbn. auto.
    + destruct (sh_enable s); (sfin K tr' Tr; [try (intro U; exact U); intros _; exact I|]; apply At; cbn; auto).
  - (* a request *)
    destruct Le as [-> ->]. unfold configure_begin. cbn [out_rel fst snd].
    assert (C : exists s1, (if has_bit a ENABLE_MAPPING then set_enable s true else if has_bit a DISABLE_MAPPING then set_init (set_enable s false) false else s) = s1 /\
      (if has_bit a ENABLE_MAPPING then set_enable (recolor s o' tr') true else if has_bit a DISABLE_MAPPING then set_init (set_enable (recolor s o' tr') false) false else recolor s o' tr') = recolor s1 o' tr' /\
      sh_trace s1 = sh_trace s /\ sh_odom s1 = sh_odom s /\ (unused s SIdle -> unused s1 SIdle)).
    { destruct (has_bit a ENABLE_MAPPING); [eexists; repeat split; intro U; exact U|]. destruct (has_bit a DISABLE_MAPPING); eexists; repeat split; [intros _; right; reflexivity|intro U; exact U]. }
    destruct C as (s1 & -> & -> & T1 & O1 & U1). split.
    + apply K; [rewrite T1; exact Tr|exact O1|]. intro U. specialize (U1 U). cbn [sp_pc at_pc]. destruct (has_bit a LOAD_FROM_FILE); [exact U1|]. destruct (has_bit a SAVE_TO_FILE); exact U1.
    + apply At. destruct (has_bit a LOAD_FROM_FILE); [reflexivity|]. destruct (has_bit a SAVE_TO_FILE); reflexivity.
Qed.

(** Whole runs. *)
Lemma step_sim : forall l l' m m', same_label rel l l' -> same_sweep l l' -> m_rel m m' -> out_rel m_rel (step cf l m) (step cf l' m').
Proof.
  intros l l' m m' Hl Hw (Hs & Hp & Hlp & Hpb). destruct m as [s sp lo pb], m' as [s' sp' lo' pb']. cbn [mp_sh mp_spin mp_loop mp_pub] in *. subst lo'.
  destruct Hs as (o' & tr' & -> & Tr & Od).
  destruct l as [e| | |], l' as [e'| | |]; try contradiction Hl; try (destruct e; contradiction Hl); cbn [step mp_sh mp_spin mp_loop mp_pub].
  - pose proof (deliver_sim s sp sp' o' tr' e e' Tr Od Hp Hl Hw) as D.
    destruct (deliver cf s sp e) as [[[s1 sp1]|f]|]; destruct (deliver cf (recolor s o' tr') sp' e') as [[[s2 sp2]|f2]|]; cbn in D |- *; try contradiction D; try exact D.
    destruct D as [D1 D2]. repeat split; try assumption; try (apply D2); apply Hpb.
  - pose proof (spin_sim s sp sp' o' tr' Tr Od Hp) as D.
    destruct (spin_step cf s sp) as [[[s1 sp1]|f]|]; destruct (spin_step cf (recolor s o' tr') sp') as [[[s2 sp2]|f2]|]; cbn in D |- *; try contradiction D; try exact D.
    destruct D as [D1 D2]. repeat split; try assumption; try (apply D2); apply Hpb.
  - pose proof (loop_sim s lo o' tr' (sp_pc sp) Tr Od) as D.
    destruct (loop_step cf s lo) as [[[s1 l1]|f]|]; destruct (loop_step cf (recolor s o' tr') lo) as [[[s2 l2]|f2]|]; cbn in D |- *; try contradiction D; try exact D.
    destruct D as [D1 D2]. repeat split; try assumption; try (apply Hp); apply Hpb.
  - pose proof (pub_sim s pb pb' o' tr' (sp_pc sp) Tr Od Hpb) as D.
    destruct (pub_step cf s pb) as [[[s1 p1]|f]|]; destruct (pub_step cf (recolor s o' tr') pb') as [[[s2 p2]|f2]|]; cbn in D |- *; try contradiction D; try exact D.
    destruct D as [D1 D2]. repeat split; try assumption; try (apply Hp); apply D2.
Qed.

Definition end_rel (a b : outcome (mapper T)) : Prop :=
  match a, b with Ok m, Ok m' => m_rel m m' | Fault f, Fault f' => f' = f | _, _ => False end.
Lemma exec_sim : forall ls ls', Forall2 (fun l l' => same_label rel l l' /\ same_sweep l l') ls ls' -> forall m m', m_rel m m' -> end_rel (exec cf m ls) (exec cf m' ls').
Proof.
  intros ls ls' F. induction F as [|l l' ls ls' [H W] F IH]; intros m m' M; [exact M|]. cbn [exec]. pose proof (step_sim l l' m m' H W M) as D.
  destruct (step cf l m) as [[m1|f]|]; destruct (step cf l' m') as [[m2|f2]|]; cbn [out_rel] in D; try contradiction D; cbn [bind]; [exact (IH _ _ D)|exact D|exact (IH _ _ M)].
Qed.
Lemma init_rel : forall m, mapper_init cf = Ok m -> m_rel m m.
Proof.
  intros m H. unfold mapper_init in H. apply bind_ok in H. destruct H as (f & _ & H). injection H as <-. split; [|split; [|split; [|split]]]; try reflexivity; [|split; reflexivity].
  exists pose0. destruct (cf_file cf) as [file|]; (eexists; split; [reflexivity|]; split; [|right; split; [split; reflexivity|]]); cbn; [constructor; [reflexivity|constructor]|right; reflexivity|constructor|left; reflexivity].
Qed.
Lemma run_sim : forall ls ls', Forall2 (fun l l' => same_label rel l l' /\ same_sweep l l') ls ls' -> end_rel (run cf ls) (run cf ls').
Proof.
  intros ls ls' F. unfold run. destruct (mapper_init cf) as [m|f] eqn:E; [|reflexivity]. cbn [bind]. apply exec_sim; [exact F|]. apply init_rel. exact E.
Qed.
End Sim.
