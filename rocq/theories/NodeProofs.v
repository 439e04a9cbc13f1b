(** What the callbacks learn from laser messages (C82-C84). *)

From Coq Require Import ZArith List Bool String Lia.
From Verif Require Import Outcome Arith TypesModel ScanModel MatcherModel ConstraintModel
  SolverModel GraphModel OccGridModel MotionModel FilterModel LaserModel MapperModel SpecMapper SpecNode
  NdtProofs MapperProofs MapperSteps MapperInv1.
Import ListNotations.
Local Open Scope outcome_scope.

Section P.
Context {T : Type} {A : Arith T}.
Context (cf : config T).

Definition mount (sp : spin T) : string * pose T * bool := (sp_frame sp, sp_laser sp, sp_inverted sp).
Definition tilted (t : pose_msg T) : bool :=
  nlt (nlit 2 100) (nabs (ps_qx t)) || nlt (nlit 2 100) (nabs (ps_qy t)).
Definition new_limit (r : T) (e : laser_ev T) : T := if nlt r nzero then lr_range_max (le_msg e) else r.

(** The matcher a matcher came from, but for its map. *)
Definition settings (k : matcher T) : matcher T := matcher_reset k.

Lemma add_scans_settings : forall eig (k k' : matcher T) scans, add_scans eig k scans = Ok k' -> settings k' = settings k.
Proof.
  intros eig k k' scans H. unfold add_scans in H. cbv zeta in H. apply bind_ok in H. destruct H as (g0 & _ & H).
  apply bind_ok in H. destruct H as (g1 & _ & H). injection H as <-. reflexivity.
Qed.

Lemma settings_same : forall k k' : matcher T, settings k = settings k' -> same_settings k k'.
Proof. intros [] [] H. unfold settings, matcher_reset, with_ndt in H. cbn in H. injection H as -> -> -> -> -> -> ->. repeat split. Qed.

(** Delivering a laser message. *)
Lemma laser_learns : forall s sp e s' sp', laser_begin cf s sp e = Ok (s', sp') ->
  sp_range_max sp' = new_limit (sp_range_max sp) e /\ sp_filter sp' = sp_filter sp /\
  ((sp_frame sp <> EmptyString \/ le_laser e = None) /\ mount sp' = mount sp /\ sp_local sp' = sp_local sp /\
     sh_global s' = sh_global s \/
   exists t k g, sp_frame sp = EmptyString /\ le_laser e = Some t /\
     mount sp' = (le_frame e, from_msg t, tilted t || sp_inverted sp) /\
     k = en_local cf (sp_range_max sp') /\ sp_local sp' = Some k /\
     sh_global s' = Some g /\ settings g = settings (en_global cf (sp_range_max sp'))).
Proof.
  intros s sp e s' sp' H. unfold laser_begin in H. cbv zeta in H. apply bind_ok in H. destruct H as (r & L & H).
  assert (K : match r with
    | None => s' = s /\ sp' = learn_range sp (le_msg e)
    | Some (s1, sp1) => sh_global s' = sh_global s1 /\ exists pc, sp' = at_pc sp1 pc
    end).
  { destruct r as [[s1 sp1]|]; [|injection H as <- <-; split; reflexivity].
    assert (stop : Ok (s1, sp1) = Ok (s', sp') -> sh_global s' = sh_global s1 /\ exists pc, sp' = at_pc sp1 pc).
    { intro J. injection J as <- <-. split; [reflexivity|]. exists (sp_pc sp1). destruct sp1; reflexivity. }
    destruct (sh_init s1); [|apply stop; exact H].
    destruct (le_start e) as [start|]; [|apply stop; exact H].
    destruct (guess_pose cf s1 (from_msg start)) as [guess|]; [|apply stop; exact H].
    apply bind_ok in H. destruct H as (ns & _ & H).
    destruct (le_end e ns) as [end_|]; [|apply stop; exact H].
    apply bind_ok in H. destruct H as (pts & _ & H). unfold alloc in H. cbv beta iota zeta in H. injection H as <- <-.
    split; [reflexivity|]. eexists. reflexivity. }
  clear H. unfold learn_laser in L. cbn [sp_frame learn_range sp_range_max sp_pc sp_laser sp_inverted sp_filter] in L.
  destruct (String.eqb_spec (sp_frame sp) "") as [E|E].
  - destruct (le_laser e) as [t|] eqn:Et.
    + destruct (use_filter cf || negb (sh_enable s)) eqn:U.
      * apply bind_ok in L. destruct L as (scans & G & L). apply bind_ok in L. destruct L as (g & M & L).
        injection L as <-. destruct K as (K1 & pc & ->). cbn [sh_global set_global] in K1.
        split; [reflexivity|]. split; [reflexivity|]. right.
        exists t, (en_local cf (new_limit (sp_range_max sp) e)), g. repeat split; try assumption.
        rewrite (add_scans_settings _ _ _ _ M). reflexivity.
      * injection L as <-. destruct K as (K1 & pc & ->). cbn [sh_global set_global] in K1.
        split; [reflexivity|]. split; [reflexivity|]. right.
        exists t, (en_local cf (new_limit (sp_range_max sp) e)), (en_global cf (new_limit (sp_range_max sp) e)).
        repeat split; assumption.
    + injection L as <-. destruct K as (-> & ->). split; [reflexivity|]. split; [reflexivity|]. left.
      split; [right; reflexivity|]. repeat split.
  - injection L as <-. destruct K as (K1 & pc & ->). split; [reflexivity|]. split; [reflexivity|]. left.
    split; [left; exact E|]. repeat split. exact K1.
Qed.

(** Every other step. *)
Definition same_learned (m m' : mapper T) : Prop :=
  mount (mp_spin m') = mount (mp_spin m) /\ sp_range_max (mp_spin m') = sp_range_max (mp_spin m).

Lemma other_learns : forall l m m', (forall e, l <> Deliver (EvLaser e)) -> step_tr cf m l m' -> same_learned m m'.
Proof.
  intros l m m' N H. destruct H as [e s' sp' Id D|s' sp' D|s' l' D|s' p' D]; [| | |]; cbn.
  - destruct D; try (split; reflexivity); exfalso; apply (N e); reflexivity.
  - destruct D; split; reflexivity.
  - split; reflexivity.
  - split; reflexivity.
Qed.

Lemma step_laser_inv : forall e m m', step cf (Deliver (EvLaser e)) m = Some (Ok m') ->
  laser_begin cf (mp_sh m) (mp_spin m) e = Ok (mp_sh m', mp_spin m') /\ mp_loop m' = mp_loop m /\ mp_pub m' = mp_pub m /\
  sp_pc (mp_spin m) = SIdle.
Proof.
  intros e m m' H. cbn [step] in H. unfold deliver in H. destruct (sp_pc (mp_spin m)) eqn:I; try discriminate H.
  cbn [option_map] in H. injection H as H. apply bind_ok in H. destruct H as ([s sp] & E & H). injection H as <-.
  split; [exact E|]. repeat split.
Qed.

Definition is_laser_b (l : label T) : option (laser_ev T) := match l with Deliver (EvLaser e) => Some e | _ => None end.
Lemma received_cons : forall l ls m m', step cf l m = Some (Ok m') ->
  received_from cf m (l :: ls) = match is_laser_b l with Some e => [e] | None => [] end ++ received_from cf m' ls.
Proof.
  intros l ls m m' H. cbn [received_from]. rewrite H. destruct l as [[e|e|a f]| | |]; reflexivity.
Qed.
Lemma is_laser_none : forall l : label T, is_laser_b l = None -> forall e, l <> Deliver (EvLaser e).
Proof. intros l H e ->. discriminate H. Qed.

(** Induction along a run, with the messages received. *)
Lemma received_ind (R : mapper T -> list (laser_ev T) -> mapper T -> Prop) :
  (forall m, R m [] m) ->
  (forall e m m1 es m', step cf (Deliver (EvLaser e)) m = Some (Ok m1) -> R m1 es m' -> R m (e :: es) m') ->
  (forall l m m1 es m', (forall e, l <> Deliver (EvLaser e)) -> step cf l m = Some (Ok m1) -> R m1 es m' -> R m es m') ->
  forall ls m m', exec cf m ls = Ok m' -> R m (received_from cf m ls) m'.
Proof.
  intros H0 H1 H2. induction ls as [|l ls IH]; intros m m' E; cbn [exec] in E.
  - injection E as <-. apply H0.
  - destruct (step cf l m) as [o|] eqn:S.
    + apply bind_ok in E. destruct E as (m1 & -> & E). rewrite (received_cons l ls m m1 S). specialize (IH m1 m' E).
      destruct (is_laser_b l) as [e|] eqn:L.
      * destruct l as [[e0|e0|a f]| | |]; try discriminate L. injection L as ->. cbn [app]. apply (H1 e m m1); assumption.
      * cbn [app]. apply (H2 l m m1); [apply is_laser_none; exact L|exact S|exact IH].
    + cbn [received_from]. rewrite S. apply IH. exact E.
Qed.

Definition mount_after (mt : string * pose T * bool) (o : option (laser_ev T)) : string * pose T * bool :=
  match o with
  | None => mt
  | Some e => match le_laser e with Some t => (le_frame e, from_msg t, tilted t || snd mt) | None => mt end
  end.

Lemma mount_exec : forall ls m m', exec cf m ls = Ok m' -> Forall named (received_from cf m ls) ->
  mount (mp_spin m') = if String.eqb (sp_frame (mp_spin m)) "" then mount_after (mount (mp_spin m)) (first_mounted (received_from cf m ls))
                       else mount (mp_spin m).
Proof.
  intros ls m m' E. revert ls m m' E.
  apply (received_ind (fun m es m' => Forall named es -> mount (mp_spin m') =
    if String.eqb (sp_frame (mp_spin m)) "" then mount_after (mount (mp_spin m)) (first_mounted es) else mount (mp_spin m))).
  - intros m _. destruct (String.eqb (sp_frame (mp_spin m)) ""); reflexivity.
  - intros e m m1 es m' S IH F. inversion F as [|? ? N F']; subst. specialize (IH F'). rewrite IH. clear IH.
    destruct (step_laser_inv e m m1 S) as (B & _).
    destruct (laser_learns _ _ _ _ _ B) as (_ & _ & [(O & M & _)|(t & k & g & Fr & L & M & _)]).
    + assert (Fr : sp_frame (mp_spin m1) = sp_frame (mp_spin m)) by (unfold mount in M; congruence).
      rewrite Fr, M. destruct (String.eqb_spec (sp_frame (mp_spin m)) "") as [Q|Q]; [|reflexivity].
      destruct O as [O|O]; [contradiction|]. unfold first_mounted. cbn [find]. unfold mounted at 2. rewrite O. reflexivity.
    + assert (Fr1 : sp_frame (mp_spin m1) = le_frame e) by (unfold mount in M; congruence).
      rewrite Fr1, Fr. cbn [String.eqb]. unfold first_mounted. cbn [find].
      assert (Me : mounted e = true) by (unfold mounted; rewrite L; reflexivity). rewrite Me.
      destruct (String.eqb_spec (le_frame e) "") as [Q|Q]; [contradiction (N Me Q)|].
      rewrite M. unfold mount_after. rewrite L. reflexivity.
  - intros l m m1 es m' Nl S IH F. rewrite (IH F). destruct (other_learns l m m1 Nl (step_cases cf l m m1 S)) as [M _].
    assert (Fr : sp_frame (mp_spin m1) = sp_frame (mp_spin m)) by (unfold mount in M; congruence).
    rewrite Fr, M. reflexivity.
Qed.

(** The range limit. *)
Lemma limit_exec : forall ls m m', exec cf m ls = Ok m' ->
  Forall (fun e => nlt (lr_range_max (le_msg e)) nzero = false) (received_from cf m ls) ->
  sp_range_max (mp_spin m') = if nlt (sp_range_max (mp_spin m)) nzero
                              then match received_from cf m ls with [] => sp_range_max (mp_spin m) | e :: _ => lr_range_max (le_msg e) end
                              else sp_range_max (mp_spin m).
Proof.
  apply (received_ind (fun m es m' => Forall (fun e => nlt (lr_range_max (le_msg e)) nzero = false) es ->
    sp_range_max (mp_spin m') = if nlt (sp_range_max (mp_spin m)) nzero
      then match es with [] => sp_range_max (mp_spin m) | e :: _ => lr_range_max (le_msg e) end else sp_range_max (mp_spin m))).
  - intros m _. destruct (nlt (sp_range_max (mp_spin m)) nzero); reflexivity.
  - intros e m m1 es m' S IH F. inversion F as [|? ? N F']; subst. rewrite (IH F').
    destruct (step_laser_inv e m m1 S) as (B & _). destruct (laser_learns _ _ _ _ _ B) as (R & _). rewrite R. unfold new_limit.
    destruct (nlt (sp_range_max (mp_spin m)) nzero) eqn:Q; [rewrite N|rewrite Q]; reflexivity.
  - intros l m m1 es m' Nl S IH F. rewrite (IH F). destruct (other_learns l m m1 Nl (step_cases cf l m m1 S)) as [_ R].
    rewrite R. reflexivity.
Qed.

(** The settings of the matchers. *)
Definition matchers_ok (m : mapper T) : Prop :=
  let r := sp_range_max (mp_spin m) in
  (forall k, sp_local (mp_spin m) = Some k -> settings k = settings (en_local cf r)) /\
  (forall k, sh_global (mp_sh m) = Some k -> settings k = settings (en_global cf r)) /\
  (sp_frame (mp_spin m) = EmptyString -> sp_local (mp_spin m) = None /\ sh_global (mp_sh m) = None).

Lemma other_matchers : forall l m m', (forall e, l <> Deliver (EvLaser e)) -> step_tr cf m l m' -> matchers_ok m -> matchers_ok m'.
Proof.
  intros l m m' N H (M1 & M2 & M3). pose proof (other_learns l m m' N H) as [Mo R]. unfold matchers_ok. rewrite R.
  assert (Fr : sp_frame (mp_spin m') = sp_frame (mp_spin m)) by (unfold mount in Mo; congruence). rewrite Fr. clear Mo.
  assert (keep : sp_local (mp_spin m') = sp_local (mp_spin m) -> sh_global (mp_sh m') = sh_global (mp_sh m) ->
    (forall k, sp_local (mp_spin m') = Some k -> settings k = settings (en_local cf (sp_range_max (mp_spin m)))) /\
    (forall k, sh_global (mp_sh m') = Some k -> settings k = settings (en_global cf (sp_range_max (mp_spin m)))) /\
    (sp_frame (mp_spin m) = EmptyString -> sp_local (mp_spin m') = None /\ sh_global (mp_sh m') = None)).
  { intros -> ->. repeat split; try assumption; apply M3; assumption. }
  destruct H as [e s' sp' Id D|s' sp' D|s' l' D|s' p' D]; cbn [mp_spin mp_sh] in *.
  - destruct D; try (exfalso; apply (N e); reflexivity); try (apply keep; reflexivity; fail).
    apply keep; [reflexivity|]. unfold configure_begin. cbn [fst snd].
    destruct (has_bit a ENABLE_MAPPING); [reflexivity|]. destruct (has_bit a DISABLE_MAPPING); reflexivity.
  - destruct D; try (apply keep; reflexivity); try (apply keep; cbn; [reflexivity|]; destruct upd; reflexivity).
    cbn [sp_local at_pc with_local sh_global put set_heap set_typical]. split; [|split].
    + intros k K. injection K as <-. unfold settings in *. match goal with H : add_scans _ _ _ = Ok _ |- _ => apply add_scans_settings in H; unfold settings in H; rewrite H end.
      rewrite <- (M1 _ ltac:(eassumption)). reflexivity.
    + exact M2.
    + intro E. destruct (M3 E) as [L _]. congruence.
  - destruct D; try (apply keep; reflexivity).
    + cbn [sh_global unlock_g set_global set_glock]. split; [exact M1|]. split.
      * intros k K. injection K as <-. match goal with H : add_scans _ _ _ = Ok _ |- _ => apply add_scans_settings in H; rewrite H end.
        rewrite <- (M2 _ ltac:(eassumption)). reflexivity.
      * intro E. destruct (M3 E) as [_ L]. congruence.
    + apply keep; [reflexivity|]. cbn. destruct (put_all_frame (sh_scans (mp_sh m)) scans' (mp_sh m)) as (h & ->). reflexivity.
  - destruct D; apply keep; reflexivity.
Qed.

Definition sound (e : laser_ev T) : Prop := named e /\ nlt (lr_range_max (le_msg e)) nzero = false.
Lemma matchers_exec : forall ls m m', exec cf m ls = Ok m' -> Forall sound (received_from cf m ls) ->
  matchers_ok m -> (sp_frame (mp_spin m) <> EmptyString -> nlt (sp_range_max (mp_spin m)) nzero = false) -> matchers_ok m'.
Proof.
  apply (received_ind (fun m es m' => Forall sound es ->
    matchers_ok m -> (sp_frame (mp_spin m) <> EmptyString -> nlt (sp_range_max (mp_spin m)) nzero = false) -> matchers_ok m')).
  - intros m _ H _. exact H.
  - intros e m m1 es m' S IH F M K. inversion F as [|? ? [Na N] F']; subst.
    destruct (step_laser_inv e m m1 S) as (B & _). destruct (laser_learns _ _ _ _ _ B) as (R & _ & [(O & Mo & L & G)|(t & k & g & Fr & L & Mo & Ek & Lo & G & Se)]).
    + assert (Fr : sp_frame (mp_spin m1) = sp_frame (mp_spin m)) by (unfold mount in Mo; congruence).
      apply IH; [exact F'| |].
      * destruct M as (M1 & M2 & M3). unfold matchers_ok. rewrite L, G, Fr.
        destruct (string_dec (sp_frame (mp_spin m)) EmptyString) as [Q|Q].
        -- destruct (M3 Q) as [-> ->]. repeat split; discriminate.
        -- rewrite R. unfold new_limit. rewrite (K Q). repeat split; try assumption; contradiction.
      * rewrite Fr, R. unfold new_limit. intro Q. destruct (nlt (sp_range_max (mp_spin m)) nzero) eqn:W; [exact N|exact W].
    + assert (Fr1 : sp_frame (mp_spin m1) = le_frame e) by (unfold mount in Mo; congruence).
      apply IH; [exact F'| |].
      * unfold matchers_ok. rewrite Lo, G. split; [|split].
        -- intros k0 J. injection J as <-. subst k. reflexivity.
        -- intros k0 J. injection J as <-. exact Se.
        -- intro Q. exfalso. apply (Na ltac:(unfold mounted; rewrite L; reflexivity)). rewrite <- Fr1. exact Q.
      * rewrite R. unfold new_limit. intro Q. destruct (nlt (sp_range_max (mp_spin m)) nzero) eqn:W; [exact N|exact W].
  - intros l m m1 es m' Nl S IH F M K. pose proof (other_learns l m m1 Nl (step_cases cf l m m1 S)) as [Mo R].
    assert (Fr : sp_frame (mp_spin m1) = sp_frame (mp_spin m)) by (unfold mount in Mo; congruence).
    apply IH; [exact F| |rewrite Fr, R; exact K]. apply (other_matchers l m m1 Nl (step_cases cf l m m1 S) M).
Qed.

Lemma matchers_init : forall m, mapper_init cf = Ok m -> matchers_ok m /\ sp_frame (mp_spin m) = EmptyString /\
  mount (mp_spin m) = (EmptyString, pose0, false) /\ sp_range_max (mp_spin m) = cf_range_max cf.
Proof.
  intros m H. destruct (init_cases cf m H) as (s & f & -> & _ & Es). cbv zeta in Es.
  assert (G : sh_global s = None) by (rewrite Es; destruct (cf_file cf); reflexivity).
  unfold matchers_ok. cbn. rewrite G. repeat split; discriminate.
Qed.

(** The same for whole runs. *)
Lemma run_received : forall ls m, run cf ls = Ok m -> exists m0, mapper_init cf = Ok m0 /\ exec cf m0 ls = Ok m /\
  received cf ls = received_from cf m0 ls.
Proof.
  intros ls m H. unfold run in H. apply bind_ok in H. destruct H as (m0 & I & E). exists m0.
  split; [exact I|]. split; [exact E|]. unfold received. rewrite I. reflexivity.
Qed.

Lemma mount_run : forall ls m, run cf ls = Ok m -> Forall named (received cf ls) ->
  mount (mp_spin m) = mount_after (EmptyString, pose0, false) (first_mounted (received cf ls)).
Proof.
  intros ls m H F. destruct (run_received ls m H) as (m0 & I & E & R). rewrite R in *.
  destruct (matchers_init m0 I) as (_ & Fr & Mo & _). rewrite (mount_exec ls m0 m E F), Fr, Mo. reflexivity.
Qed.

Lemma limit_run : forall ls m, run cf ls = Ok m ->
  Forall (fun e => nlt (lr_range_max (le_msg e)) nzero = false) (received cf ls) ->
  sp_range_max (mp_spin m) = if nlt (cf_range_max cf) nzero
    then match received cf ls with [] => cf_range_max cf | e :: _ => lr_range_max (le_msg e) end else cf_range_max cf.
Proof.
  intros ls m H F. destruct (run_received ls m H) as (m0 & I & E & R). rewrite R in *.
  destruct (matchers_init m0 I) as (_ & _ & _ & Rm). rewrite (limit_exec ls m0 m E F), Rm. reflexivity.
Qed.

Lemma settings_run : forall ls m, run cf ls = Ok m -> Forall sound (received cf ls) ->
  (forall k, sp_local (mp_spin m) = Some k -> same_settings k (en_local cf (sp_range_max (mp_spin m)))) /\
  (forall k, sh_global (mp_sh m) = Some k -> same_settings k (en_global cf (sp_range_max (mp_spin m)))).
Proof.
  intros ls m H F. destruct (run_received ls m H) as (m0 & I & E & R). rewrite R in *.
  destruct (matchers_init m0 I) as (M & Fr & _).
  assert (M' : matchers_ok m) by (apply (matchers_exec ls m0 m E F M); intro Q; contradiction (Q Fr)).
  destruct M' as (M1 & M2 & _). split; intros k K; apply settings_same; [apply M1|apply M2]; exact K.
Qed.

End P.
