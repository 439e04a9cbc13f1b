(** The typical response (C72) and the constraints between consecutive scans (C79). *)

From Coq Require Import ZArith List Bool String Lia.
From Verif Require Import Outcome Arith TypesModel ScanModel MatcherModel ConstraintModel
  SolverModel GraphModel OccGridModel MotionModel FilterModel LaserModel MapperModel SpecMapper SpecMapper2
  NdtProofs MatcherProofs GraphProofs MapperProofs MapperSteps MapperInv1 MapperInv2 MapperInv3 MapperInv5.
Import ListNotations.

Local Ltac grow := first
  [ exists []; split; [reflexivity|constructor]
  | eexists [_]; split; [reflexivity|repeat (constructor; [exact I|]); constructor]
  | eexists [_; _]; split; [reflexivity|repeat (constructor; [exact I|]); constructor] ].
Local Ltac rename_pc := match goal with P : lp_pc _ = _ |- _ => rename P into Pc end.

Section P.
Context {T : Type} {A : Arith T}.
Context (cf : config T).

(** ** C72 *)
Lemma typical_step : forall l m m', step_tr cf m l m' ->
  sh_typical (mp_sh m') = sh_typical (mp_sh m) \/
  l = Spin /\ exists p odom sc scans w k k' score corr cov,
    sp_pc (mp_spin m) = SMatch p odom /\ nth_error (sh_heap (mp_sh m)) p = Some sc /\ graph_scans (mp_sh m) = Ok scans /\
    rolling_window (cf_depth cf) scans = Ok w /\ sp_local (mp_spin m) = Some k /\ add_scans (en_eig cf) (matcher_reset k) w = Ok k' /\
    match_scan (en_fuel cf) k' sc pose0 (en_garbage cf) = Ok (score, corr, cov) /\
    sh_typical (mp_sh m') = smooth_response (sh_typical (mp_sh m)) score.
Proof.
  intros l m m' H. destruct H as [e s' sp' Id D|s' sp' D|s' l' D|s' p' D]; cbn [mp_sh].
  - left. destruct D; try reflexivity. rewrite configure_eq. reflexivity.
  - destruct D; try (left; reflexivity); try (left; destruct upd; reflexivity).
    right. split; [reflexivity|].
    match goal with K : add_scans _ (matcher_reset ?a) _ = Ok ?b |- _ => exists p, odom, sc, scans, w, a, b, score, corr, cov end.
    repeat split; assumption.
  - left. destruct D; try reflexivity. destruct (put_all_frame (sh_scans (mp_sh m)) scans' (mp_sh m)) as [h E]. rewrite E. reflexivity.
  - left. destruct D; reflexivity.
Qed.

Lemma typical_init : forall m, mapper_init cf = Ok m -> sh_typical (mp_sh m) = nopp (nlit 1 2).
Proof. intros m H. unfold mapper_init in H. apply bind_ok in H. destruct H as (f & F & H). injection H as <-. destruct (cf_file cf); reflexivity. Qed.

Lemma typical_reach : forall (P Q : T -> Prop), P (nopp (nlit 1 2)) -> (forall t x, P t -> Q x -> P (smooth_response t x)) ->
  forall m, reach_if cf (scored cf Q) m -> P (sh_typical (mp_sh m)).
Proof.
  intros P Q P0 PS m R. induction R as [m I|m l m' R IH G S].
  - rewrite (typical_init m I). exact P0.
  - apply step_cases in S. destruct (typical_step l m m' S) as [->|(-> & p & odom & sc & scans & w & k & k' & score & corr & cov & K)]; [exact IH|].
    destruct K as (K1 & K2 & K3 & K4 & K5 & K6 & K7 & ->). apply PS; [exact IH|].
    apply (G eq_refl p odom sc scans w k k' score corr cov); assumption.
Qed.

Lemma undecided_after : forall (l : looper T) c, match lp_pc (after_candidate l c) with
  LCorrect _ _ _ _ _ | LMake _ _ _ _ | LPushLock _ _ | LPush _ _ => False | _ => True end.
Proof. intros l c. destruct (after_candidate_pc l c) as (pc & -> & ->). cbn. destruct (_ =? 0)%Z; exact I. Qed.

(** A typical response that no score can beat and no smoothing can leave. *)
Lemma closed_closure : forall (P : T -> Prop), (forall t x, P t -> P (smooth_response t x)) -> (forall t x, P t -> nlt x t = false) ->
  forall ls m m', exec cf m ls = Ok m' -> P (sh_typical (mp_sh m)) -> undecided m ->
    P (sh_typical (mp_sh m')) /\ undecided m' /\ exists new, sh_trace (mp_sh m') = new ++ sh_trace (mp_sh m) /\ Forall no_closure new.
Proof.
  intros P PS PN. induction ls as [|l ls IH]; intros m m' E H U.
  - cbn in E. injection E as <-. split; [exact H|]. split; [exact U|]. exists []. split; [reflexivity|constructor].
  - cbn [exec] in E. destruct (step cf l m) as [[m1|f]|] eqn:S; try discriminate E.
    2:{ apply (IH m m'); assumption. }
    cbn [bind] in E. apply step_cases in S.
    assert (H1 : P (sh_typical (mp_sh m1))).
    { destruct (typical_step l m m1 S) as [->|(-> & p & odom & sc & scans & w & k & k' & score & corr & cov & K)]; [exact H|].
      destruct K as (_ & _ & _ & _ & _ & _ & _ & ->). apply PS. exact H. }
    assert (U1 : undecided m1 /\ exists new, sh_trace (mp_sh m1) = new ++ sh_trace (mp_sh m) /\ Forall no_closure new).
    { clear IH E. destruct S as [e s' sp' Id D|s' sp' D|s' l' D|s' p' D]; cbn [mp_sh mp_loop] in *; unfold undecided in *; cbn [mp_loop] in *.
      - split; [exact U|]. exists []. split; [|constructor]. destruct D; try reflexivity. rewrite configure_eq. reflexivity.
      - split; [exact U|]. destruct D; try grow. destruct upd; grow.
      - destruct D; rename_pc; rewrite Pc in U; cbn [lp_pc lat next_scan] in *; try contradiction; try (split; [exact I|grow]).
        + rewrite Pc. split; [exact I|grow].
        + rewrite (PN _ score H) in *. discriminate.
        + split; [apply undecided_after|grow].
        + split; [apply undecided_after|grow].
        + destruct (put_all_frame (sh_scans (mp_sh m)) scans' (mp_sh m)) as [h Eh]. rewrite Eh. split; [exact I|grow].
      - split; [exact U|]. destruct D; grow. }
    destruct U1 as (U1 & new1 & E1 & N1). destruct (IH m1 m' E H1 U1) as (H2 & U2 & new2 & E2 & N2).
    split; [exact H2|]. split; [exact U2|]. exists (new2 ++ new1). split; [rewrite E2, E1; apply app_assoc|].
    apply Forall_app. split; assumption.
Qed.

(** ** C79 *)

(** The last scan of the graph has the pose of the robot. *)
Definition tip (s : shared T) (p : nat) : Prop :=
  exists bp back, nth_error (rev (sh_scans s)) 0 = Some bp /\ bp <> p /\ nth_error (sh_heap s) bp = Some back /\ s_pose back = sh_robot s.

Definition tip_place (s : shared T) (pc : spin_pc T) : Prop :=
  match pc with
  | SIdle => sh_scans s = [] \/ tip s (List.length (sh_heap s))
  | SMatch p odom => sh_scans s = [] \/
      tip s p /\ exists sc, nth_error (sh_heap s) p = Some sc /\ s_pose sc = odom_guess (sh_robot s) (sh_odom s) odom
  | SMake p _ _ | SConsLock p _ _ | SConsPush p _ _ => tip s p
  | SScanLock _ _ | SScanPush _ _ => True
  | SPoseLock p _ true | SPoseWrite p _ true => nth_error (rev (sh_scans s)) 0 = Some p
  | STrack _ _ | SPoseLock _ _ false | SPoseWrite _ _ false => sh_scans s = []
  | _ => False
  end.

Definition tip_inv (m : mapper T) : Prop :=
  (sh_enable (mp_sh m) = false -> sh_scans (mp_sh m) = [] /\
     (in_laser (sp_pc (mp_spin m)) = true -> match sp_pc (mp_spin m) with STrack _ _ | SPoseLock _ _ false | SPoseWrite _ _ false => True | _ => False end)) /\
  tip_place (mp_sh m) (sp_pc (mp_spin m)).

Lemma nth_app_keep : forall {X} (l k : list X) i x, nth_error l i = Some x -> nth_error (l ++ k) i = Some x.
Proof. intros X l k i x H. rewrite nth_error_app1; [exact H|]. apply nth_error_Some. rewrite H. discriminate. Qed.

Lemma tip_step : use_filter cf = false -> forall l m m', laser_only m l -> tip_inv m -> step_tr cf m l m' -> tip_inv m'.
Proof.
  intros UF l m m' G (I1 & I2) H. destruct H as [e s' sp' Id D|s' sp' D|s' l' D|s' p' D]; [| |contradiction G|].
  - cbn [laser_only] in G. destruct e as [e| |]; try contradiction G. rewrite Id in I1, I2. cbn [tip_place in_laser] in I1, I2.
    unfold tip_inv. cbn [mp_sh mp_spin]. inversion D; subst.
    + match goal with P : sp_pc sp' = SIdle |- _ => rewrite P end. cbn [sh_enable sh_scans set_global in_laser tip_place]. split; [|exact I2].
      intro E. split; [apply I1; exact E|discriminate].
    + match goal with P : sp_pc sp' = run_pc _ _ _ _ _ |- _ => rewrite P end. unfold run_pc. rewrite UF.
      cbn [sh_enable sh_scans set_global set_heap].
      destruct (sh_enable (mp_sh m)) eqn:En.
      * split; [discriminate|]. cbn [tip_place sh_scans set_heap set_global]. destruct I2 as [I2|(bp & back & K1 & K2 & K3 & K4)]; [left; exact I2|].
        right. split; [exists bp, back; cbn [sh_scans sh_heap sh_robot set_heap set_global]; repeat split; try assumption; apply nth_app_keep; assumption|].
        eexists. split; [cbn [sh_heap set_heap set_global]; rewrite nth_error_app2, Nat.sub_diag by lia; reflexivity|].
        match goal with Gs : guess_pose _ _ _ = Some _ |- _ => unfold guess_pose in Gs;
          destruct (sh_scans (mp_sh m)); [discriminate K1|]; destruct (small_motion _ _ _ _); [discriminate Gs|]; injection Gs as <- end.
        reflexivity.
      * split; [intros _; split; [apply I1; reflexivity|intros _; exact I]|]. cbn. apply I1. reflexivity.
  - unfold tip_inv. cbn [mp_sh mp_spin].
    destruct D; match goal with P : sp_pc (mp_spin m) = _ |- _ => rewrite P in I1, I2 end; cbn [tip_place in_laser] in I1, I2; try contradiction;
      cbn [at_pc sp_pc with_local in_laser tip_place sh_enable sh_scans put set_heap set_typical set_glock unlock_g set_plock unlock_p note set_cons set_scans].
    + (* first scan *) split; [|exact I]. intro E. destruct (I1 E) as [_ F]. contradiction (F eq_refl).
    + (* match *) split; [intro E; destruct (I1 E) as [_ F]; contradiction (F eq_refl)|].
      destruct I2 as [I2|((bp & back & K1 & K2 & K3 & K4) & _)]; [contradiction|].
      exists bp, back. cbn [sh_scans sh_heap sh_robot put set_heap set_typical]. repeat split; try assumption.
      rewrite nth_error_list_set. destruct (Nat.eqb_spec p bp) as [->|_]; [contradiction K2; reflexivity|]. exact K3.
    + split; [intro E; destruct (I1 E) as [_ F]; contradiction (F eq_refl)|]. exact I2.
    + split; [intro E; destruct (I1 E) as [_ F]; contradiction (F eq_refl)|]. exact I2.
    + split; [intro E; destruct (I1 E) as [_ F]; contradiction (F eq_refl)|]. exact I.
    + split; [intro E; destruct (I1 E) as [_ F]; contradiction (F eq_refl)|]. exact I.
    + split; [intro E; destruct (I1 E) as [_ F]; contradiction (F eq_refl)|]. rewrite rev_app_distr. reflexivity.
    + split; [intro E; split; [apply I1; exact E|intros _; exact I]|]. exact I2.
    + destruct upd; (split; [intro E; split; [apply I1; exact E|]|exact I2]).
      * destruct (I1 E) as [_ F]. contradiction (F eq_refl).
      * intros _. exact I.
    + destruct upd; cbn [sh_enable sh_scans set_flag set_robot set_odom]; (split; [intro E; split; [apply I1; exact E|discriminate]|]).
      * right. exists p, sc. cbn [sh_scans sh_heap sh_robot unlock_p set_plock note set_flag set_robot set_odom]. repeat split; try assumption.
        intro E. subst p. match goal with N : nth_error (sh_heap _) (List.length _) = Some _ |- _ => apply (proj2 (nth_error_None _ _)) || idtac end.
        apply Nat.lt_irrefl with (List.length (sh_heap (mp_sh m))). apply nth_error_Some.
        match goal with N : nth_error (sh_heap _) (List.length _) = Some _ |- _ => rewrite N end. discriminate.
      * left. exact I2.
  - destruct (pub_frame cf m _ (T_pub cf m s' p' D)) as ((E1 & E2 & E3) & (E4 & E5) & E6 & _ & _ & E7 & _).
    unfold tip_inv in *. cbn [mp_sh mp_spin] in *. rewrite E7, E2. split; [exact I1|].
    unfold tip_place, tip in *. rewrite E1, E2, E4, E5. exact I2.
Qed.

Lemma tip_reach : use_filter cf = false -> cf_file cf = None -> forall m, reach_if cf laser_only m -> tip_inv m.
Proof.
  intros UF NF m R. induction R as [m I|m l m' R IH G S].
  - unfold mapper_init in I. apply bind_ok in I. destruct I as (f & F & I). rewrite NF in I. injection I as <-. unfold tip_inv. cbn.
    split; [intros _; split; [reflexivity|discriminate]|left; reflexivity].
  - apply step_cases in S. apply (tip_step UF l m m' G IH S).
Qed.

Lemma step_constraint : use_filter cf = false -> cf_file cf = None -> forall m p odom m1 m2, reach_if cf laser_only m ->
  sp_pc (mp_spin m) = SMatch p odom -> sh_scans (mp_sh m) <> [] -> step cf Spin m = Some (Ok m1) -> step cf Spin m1 = Some (Ok m2) ->
  exists sc k score corr cov back c, nth_error (sh_heap (mp_sh m)) p = Some sc /\ s_pose sc = odom_guess (sh_robot (mp_sh m)) (sh_odom (mp_sh m)) odom /\
    sp_local (mp_spin m2) = Some k /\ match_scan (en_fuel cf) k sc pose0 (en_garbage cf) = Ok (score, corr, cov) /\
    s_pose back = sh_robot (mp_sh m) /\ sp_pc (mp_spin m2) = SConsLock p odom c /\
    c = make_constraint back (scan_set_pose sc (add_correction (s_pose sc) corr)) cov.
Proof.
  intros UF NF m p odom m1 m2 R Pc NE S1 S2. pose proof (tip_reach UF NF m R) as (_ & I2). rewrite Pc in I2. cbn [tip_place] in I2.
  destruct I2 as [I2|((bp & back & K1 & K2 & K3 & K4) & sc & K5 & K6)]; [contradiction|].
  apply step_cases in S1. apply step_cases in S2. inversion S1 as [|s1 sp1 D1| |]; subst. 
  destruct D1; match goal with P : sp_pc (mp_spin m) = _ |- _ => rewrite Pc in P; try discriminate P end; [contradiction|].
  match goal with P : SMatch _ _ = SMatch _ _ |- _ => injection P as <- <- end.
  match goal with Q : nth_error (sh_heap (mp_sh m)) p = Some ?x |- _ => lazymatch x with sc => fail | _ => rewrite K5 in Q; injection Q as <- end end.
  inversion S2 as [|s2 sp2 D2| |]; subst. cbn [mp_sh mp_spin] in D2.
  inversion D2; subst; match goal with P : sp_pc (at_pc _ _) = _ |- _ => cbn [at_pc sp_pc] in P; try discriminate P end.
  match goal with P : SMake _ _ _ = SMake _ _ _ |- _ => injection P as <- <- <- end.
  cbn [sh_scans sh_heap put set_heap set_typical] in *.
  match goal with Q : nth_error (rev (sh_scans (mp_sh m))) 0 = Some ?x |- _ => lazymatch x with bp => fail | _ => rewrite K1 in Q; injection Q as <- end end.
  repeat match goal with Q : nth_error (list_set _ _ _) _ = Some _ |- _ => rewrite nth_error_list_set in Q end.
  destruct (Nat.eqb_spec p bp) as [->|_]; [contradiction K2; reflexivity|].
  rewrite Nat.eqb_refl in *.
  assert (Lp : (p <? List.length (sh_heap (mp_sh m)))%nat = true) by (apply Nat.ltb_lt, nth_error_Some; rewrite K5; discriminate).
  rewrite Lp in *. cbn [andb] in *.
  repeat match goal with Q : Some _ = Some _ |- _ => injection Q as <- end.
  match goal with Q : nth_error (sh_heap (mp_sh m)) bp = Some ?x |- _ => lazymatch x with back => fail | _ => rewrite K3 in Q; injection Q as <- end end.
  match goal with Q : match_scan _ ?k _ _ _ = Ok (?score, ?corr, ?cov) |- _ => exists sc, k, score, corr, cov, back end.
  eexists. split; [exact K5|]. split; [exact K6|]. split; [reflexivity|]. split; [assumption|]. split; [exact K4|].
  split; [reflexivity|]. reflexivity.
Qed.
End P.
