(** What the loop closure thread adds to the graph (C70). *)

From Coq Require Import ZArith List Bool String Lia.
From Verif Require Import Outcome Arith TypesModel ScanModel MatcherModel ConstraintModel
  SolverModel GraphModel OccGridModel MotionModel FilterModel LaserModel MapperModel SpecMapper
  NdtProofs MatcherProofs GraphProofs MapperProofs MapperSteps MapperInv1 MapperInv2 MapperInv3.
Import ListNotations.

Section P.
Context {T : Type} {A : Arith T}.
Context (cf : config T).

(** Observations that are not about loop closure. *)
Definition quiet (o : obs T) : Prop :=
  match o with ObMatch _ _ _ _ _ => False | ObConstraint ALoop _ => False | _ => True end.

Lemma quiet_step : forall l m m', step_tr cf m l m' -> l <> Loop ->
  exists new, sh_trace (mp_sh m') = new ++ sh_trace (mp_sh m) /\ Forall quiet new /\ mp_loop m' = mp_loop m.
Proof.
  intros l m m' H NL. destruct H as [e s' sp' Id D|s' sp' D|s' l' D|s' p' D]; cbn [mp_sh mp_loop].
  - exists []. split; [|split; [constructor|reflexivity]]. destruct D; try reflexivity. rewrite configure_eq. reflexivity.
  - destruct D; try (exists []; split; [reflexivity|split; [constructor|reflexivity]]);
      try (eexists [_]; split; [reflexivity|split; [constructor; [exact I|constructor]|reflexivity]]).
    + exists [ObPoses (s_pose sc) odom]. split; [destruct upd; reflexivity|split; [constructor; [exact I|constructor]|reflexivity]].
    + exists [ObConstraint APose c; ObScan APose p]. split; [reflexivity|split; [constructor; [exact I|constructor; [exact I|constructor]]|reflexivity]].
  - contradiction NL. reflexivity.
  - destruct D; try (exists []; split; [reflexivity|split; [constructor|reflexivity]]);
      (eexists [_]; split; [reflexivity|split; [constructor; [exact I|constructor]|reflexivity]]).
Qed.

Definition limit_ := cf_search_limit cf.

Definition accepted_in (tr : list (obs T)) (d i : Z) : Prop :=
  exists score typical, In (ObMatch d i score typical true) tr /\ nfinite score = true /\ nlt score typical = true.

Definition place (tr : list (obs T)) (l : looper T) : Prop :=
  match lp_pc l with
  | LCand c | LRegion c _ | LMatch c _ _ =>
    (Z.of_nat (matches (lp_done l) tr) + lc_left c = limit_ /\ 1 <= lc_left c)%Z
  | LCorrect c i _ _ _ | LMake c i _ _ =>
    (Z.of_nat (matches (lp_done l) tr) + lc_left c = limit_ + 1 /\ 1 <= lc_left c)%Z /\ accepted_in tr (lp_done l) (Z.of_nat i)
  | LPushLock c k | LPush c k =>
    (Z.of_nat (matches (lp_done l) tr) + lc_left c = limit_ + 1 /\ 1 <= lc_left c)%Z /\ accepted_in tr (lp_done l) (c_begin k)
  | LFlag c => (Z.of_nat (matches (lp_done l) tr) + lc_left c = limit_ + 1 /\ 1 <= lc_left c)%Z
  | _ => matches (lp_done l) tr = 0%nat
  end.

Definition loop_inv (m : mapper T) : Prop :=
  let tr := sh_trace (mp_sh m) in
  closures_vetted (cf_depth cf) tr /\ matches_in_order tr /\
  (forall d i score typical ok, In (ObMatch d i score typical ok) tr -> (d <= lp_done (mp_loop m))%Z) /\
  (forall d, (Z.of_nat (matches d tr) <= limit_)%Z) /\ place tr (mp_loop m).

Lemma accepted_more : forall new tr d i, accepted_in tr d i -> accepted_in (new ++ tr) d i.
Proof. intros new tr d i (s & t & I & R). exists s, t. split; [apply in_or_app; right; exact I|exact R]. Qed.

Lemma matches_quiet : forall d new tr, Forall quiet new -> matches d (new ++ tr) = matches d tr.
Proof.
  intros d new tr H. induction H as [|o new Q F IH]; [reflexivity|]. unfold matches in *. cbn [app filter].
  destruct o; try exact IH. contradiction Q.
Qed.

Lemma vetted_more : forall depth (o : obs T) tr, closures_vetted depth tr -> (forall c, o = ObConstraint ALoop c -> vetted depth tr c) ->
  closures_vetted depth (o :: tr).
Proof.
  intros depth o tr H N newer c older E. destruct newer as [|x newer]; cbn [app] in E.
  - injection E as E1 E2. subst. apply N. reflexivity.
  - injection E as _ E. exact (H newer c older E).
Qed.
Lemma order_more : forall (o : obs T) tr, matches_in_order tr ->
  (forall d i score typical ok, o = ObMatch d i score typical ok -> forall d' i' score' typical' ok', In (ObMatch d' i' score' typical' ok') tr -> (d' <= d)%Z) ->
  matches_in_order (o :: tr).
Proof.
  intros o tr H N newer d i score typical ok older E. destruct newer as [|x newer]; cbn [app] in E.
  - injection E as E1 E2. subst. exact (N d i score typical ok eq_refl).
  - injection E as _ E. exact (H newer d i score typical ok older E).
Qed.
Lemma vetted_quiet : forall depth new (tr : list (obs T)), closures_vetted depth tr -> Forall quiet new -> closures_vetted depth (new ++ tr).
Proof.
  intros depth new tr H F. induction F as [|o new Q F IH]; [exact H|]. cbn [app]. apply vetted_more; [exact IH|].
  intros c ->. contradiction Q.
Qed.
Lemma order_quiet : forall new (tr : list (obs T)), matches_in_order tr -> Forall quiet new -> matches_in_order (new ++ tr).
Proof.
  intros new tr H F. induction F as [|o new Q F IH]; [exact H|]. cbn [app]. apply order_more; [exact IH|].
  intros d i score typical ok ->. contradiction Q.
Qed.
Lemma in_quiet : forall new (tr : list (obs T)) d i score typical ok, Forall quiet new -> In (ObMatch d i score typical ok) (new ++ tr) ->
  In (ObMatch d i score typical ok) tr.
Proof.
  intros new tr d i score typical ok F H. apply in_app_or in H. destruct H as [H|H]; [|exact H].
  rewrite Forall_forall in F. apply F in H. contradiction H.
Qed.

Lemma no_matches : forall (d : Z) (tr : list (obs T)), (forall d' i score typical ok, In (ObMatch d' i score typical ok) tr -> (d' < d)%Z) -> matches d tr = 0%nat.
Proof.
  intros d tr H. unfold matches. induction tr as [|o tr IH]; [reflexivity|].
  assert (IH' : List.length (filter (is_match d) tr) = 0%nat) by (apply IH; intros; eapply H; right; eassumption).
  destruct o as [| | | | | |d' i s t ok| | | | | ]; cbn [filter is_match]; try exact IH'.
  destruct (Z.eqb_spec d' d) as [E|E]; [|exact IH']. pose proof (H d' i s t ok (or_introl eq_refl)). lia.
Qed.

Lemma place_more : forall new tr l, place tr l -> Forall quiet new -> place (new ++ tr) l.
Proof.
  intros new tr l H F. unfold place in *. rewrite (matches_quiet _ _ _ F).
  destruct (lp_pc l); try exact H; destruct H as [H1 H2]; (split; [exact H1|apply accepted_more; exact H2]).
Qed.

Lemma quiet_inv : forall s s' sp sp' l p p' new, loop_inv (mkMapper s sp l p) -> sh_trace s' = new ++ sh_trace s -> Forall quiet new ->
  loop_inv (mkMapper s' sp' l p').
Proof.
  intros s s' sp sp' l p p' new (H1 & H2 & H3 & H4 & H5) E F. unfold loop_inv. cbn [mp_sh mp_loop] in *. rewrite E.
  split; [apply vetted_quiet; assumption|]. split; [apply order_quiet; assumption|].
  split; [intros d i sc ty ok I; apply in_quiet in I; [exact (H3 _ _ _ _ _ I)|exact F]|].
  split; [intro d; rewrite matches_quiet by exact F; apply H4|]. apply place_more; assumption.
Qed.

(** The same observations, another place in the loop. *)
Lemma moved_inv : forall s s' sp p l l' new, loop_inv (mkMapper s sp l p) -> sh_trace s' = new ++ sh_trace s -> Forall quiet new ->
  (lp_done l <= lp_done l')%Z -> place (sh_trace s') l' -> loop_inv (mkMapper s' sp l' p).
Proof.
  intros s s' sp p l l' new (H1 & H2 & H3 & H4 & H5) E F L P. unfold loop_inv. cbn [mp_sh mp_loop] in *. rewrite E in *.
  split; [apply vetted_quiet; assumption|]. split; [apply order_quiet; assumption|].
  split; [intros d i sc ty ok I; apply in_quiet in I; [pose proof (H3 _ _ _ _ _ I); lia|exact F]|].
  split; [intro d; rewrite matches_quiet by exact F; apply H4|exact P].
Qed.

Context (depth_ok : (0 <= cf_depth cf)%Z) (search_ok : search_in_range (en_search cf)).
Context (limit_ok : (1 <= limit_ < 2 ^ 64)%Z).

Lemma matches_bound : forall (tr : list (obs T)) d, (0 <= Z.of_nat (matches d tr))%Z.
Proof. intros. lia. Qed.

(** After a candidate was dealt with. *)
Lemma after_candidate_place : forall tr l c n, (forall d i score typical ok, In (ObMatch d i score typical ok) tr -> (d <= lp_done l)%Z) ->
  (0 <= lp_done l < lc_num c)%Z -> (lc_num c < 2 ^ 31)%Z ->
  n = matches (lp_done l) tr -> (Z.of_nat n + lc_left c = limit_ + 1)%Z -> (1 <= lc_left c)%Z ->
  place tr (after_candidate l c) /\ (lp_done l <= lp_done (after_candidate l c))%Z.
Proof.
  intros tr l c n H3 D B -> E L. unfold after_candidate. rewrite (wrap64_small (lc_left c - 1)) by lia.
  destruct (Z.eqb_spec (lc_left c - 1) 0) as [Z0|Z0].
  - unfold next_scan, place. cbn [lp_pc lp_done]. rewrite wrap64_small by lia. split; [|lia].
    apply no_matches. intros d' i sc ty ok I. apply H3 in I. lia.
  - unfold lat, place. cbn [lp_pc lp_done lc_left]. lia.
Qed.

Lemma count_one : forall (tr : list (obs T)) d d' i score typical ok, matches d (ObMatch d' i score typical ok :: tr) =
  ((if (d' =? d)%Z then 1 else 0) + matches d tr)%nat.
Proof. intros. unfold matches. cbn [filter is_match]. destruct (d' =? d)%Z; reflexivity. Qed.

Lemma matched_inv : forall s sp p l l' i score typical ok, loop_inv (mkMapper s sp l p) ->
  (Z.of_nat (matches (lp_done l) (sh_trace s)) < limit_)%Z -> (lp_done l <= lp_done l')%Z ->
  place (sh_trace (note s (ObMatch (lp_done l) i score typical ok))) l' ->
  loop_inv (mkMapper (note s (ObMatch (lp_done l) i score typical ok)) sp l' p).
Proof.
  intros s sp p l l' i score typical ok (H1 & H2 & H3 & H4 & H5) C L P. unfold loop_inv. cbn [mp_sh mp_loop sh_trace note] in *.
  split; [apply vetted_more; [exact H1|discriminate]|].
  split.
  { apply order_more; [exact H2|]. intros d i0 sc ty ok0 E. injection E as <- _ _ _ _. exact H3. }
  split.
  { intros d i0 sc ty ok0 [E|I]; [injection E as <- _ _ _ _; exact L|]. pose proof (H3 _ _ _ _ _ I). lia. }
  split; [|exact P]. intro d. rewrite count_one. destruct (Z.eqb_spec (lp_done l) d) as [E|E]; [subst d; lia|exact (H4 d)].
Qed.

Lemma loop_inv_step : forall s sp l p s' l', (num_scans s < 2 ^ 31)%Z -> ids_ok s -> loop_ok cf s l ->
  loop_inv (mkMapper s sp l p) -> loop_tr cf s l s' l' -> loop_inv (mkMapper s' sp l' p).
Proof.
  intros s sp l p s' l' B Ids (D0 & O) I D. pose proof I as I0. destruct I0 as (V1 & V2 & V3 & V4 & V5). cbn [mp_sh mp_loop] in V1, V2, V3, V4, V5.
  assert (same : forall new, sh_trace s' = new ++ sh_trace s -> Forall quiet new -> (lp_done l <= lp_done l')%Z -> place (sh_trace s') l' -> loop_inv (mkMapper s' sp l' p))
    by (intros new E F L P; apply (moved_inv s s' sp p l l' new); assumption).
  unfold place in V5.
  destruct D; match goal with P : lp_pc l = _ |- _ => rewrite P in V5, O; rename P into Pc end.
  - (* asleep *) apply (same []); [reflexivity|constructor|lia|]. unfold place. rewrite Pc. exact V5.
  - apply (same []); [reflexivity|constructor|cbn [lat lp_done]; lia|exact V5].
  - apply (same []); [reflexivity|constructor|cbn [lat lp_done]; lia|exact V5].
  - apply (same []); [reflexivity|constructor|cbn [lat lp_done]; lia|exact V5].
  - (* count *) assert (Fd : (lp_done l <= first_done cf l)%Z).
    { unfold first_done. destruct (Z.leb_spec (lp_done l) (cf_depth cf)); [rewrite wrap64_small|]; lia. }
    apply (same []); [reflexivity|constructor|exact Fd|]. unfold place. cbn [lp_pc lp_done].
    destruct (Z.eq_dec (lp_done l) (first_done cf l)) as [E|E]; [rewrite <- E; exact V5|].
    apply no_matches. intros d' i sc ty ok J. apply V3 in J. lia.
  - apply (same []); [reflexivity|constructor|cbn [lat lp_done]; lia|exact V5].
  - apply (same []); [reflexivity|constructor|cbn [lat lp_done]; lia|exact V5].
  - apply (same []); [reflexivity|constructor|cbn [lat lp_done]; lia|exact V5].
  - (* fetch *) apply (same []); [reflexivity|constructor|cbn [lat lp_done]; lia|]. unfold place, lat. cbn [lp_pc lp_done lc_left unlock_g set_glock sh_trace].
    rewrite V5. fold limit_. cbn [Z.of_nat]. lia.
  - (* no candidate left *) destruct O as (K1 & K2 & K3 & _). apply (same []); [reflexivity|constructor| |];
      unfold next_scan; cbn [lp_done]; [rewrite wrap64_small; lia|]. unfold place. cbn [lp_pc lp_done]. rewrite wrap64_small by lia.
    apply no_matches. intros d' i sc ty ok J. apply V3 in J. lia.
  - apply (same []); [reflexivity|constructor|cbn [lat lp_done]; lia|exact V5].
  - apply (same []); [reflexivity|constructor|cbn [lat lp_done]; lia|exact V5].
  - apply (same []); [reflexivity|constructor|cbn [lat lp_done]; lia|exact V5].
  - (* accepted *) apply (matched_inv s sp p l); [exact I|lia|cbn [lat lp_done]; lia|].
    unfold place, lat. cbn [lp_pc lp_done sh_trace note ctx_new lc_left]. rewrite count_one, Z.eqb_refl. split; [lia|].
    exists score, (sh_typical s). split; [left; reflexivity|split; assumption].
  - (* rejected *) destruct O as ((K1 & K2 & _) & _).
    destruct (after_candidate_place (sh_trace (note s (ObMatch (lp_done l) (Z.of_nat i) score (sh_typical s) false))) l c (1 + matches (lp_done l) (sh_trace s))%nat) as [P1 P2].
    + cbn [sh_trace note]. intros d i0 sc0 ty ok [E|J]; [injection E as <- _ _ _ _; lia|exact (V3 _ _ _ _ _ J)].
    + lia.
    + exact K1.
    + cbn [sh_trace note]. rewrite count_one, Z.eqb_refl. reflexivity.
    + lia.
    + lia.
    + apply (matched_inv s sp p l); [exact I|lia|exact P2|exact P1].
  - (* corrected *) apply (same [ObMove (lc_scan c) q]); [reflexivity|constructor; [exact Logic.I|constructor]|cbn [lat lp_done]; lia|].
    apply (place_more [ObMove (lc_scan c) q] (sh_trace s) (lat l (LMake c i cand cov)) V5). constructor; [exact Logic.I|constructor].
  - (* constraint made *) destruct O as (_ & _ & K3).
    apply (same []); [reflexivity|constructor|cbn [lat lp_done]; lia|]. destruct V5 as [W1 W2]. split; [exact W1|].
    cbn [lp_done lat c_begin]. unfold k, make_constraint. cbn [c_begin]. rewrite (has_id_at _ _ _ _ K3) by assumption. exact W2.
  - apply (same []); [reflexivity|constructor|cbn [lat lp_done]; lia|exact V5].
  - (* pushed *) destruct O as (_ & K1 & K2 & K3). destruct V5 as [W1 (sc & ty & W2 & W3)].
    unfold loop_inv. cbn [mp_sh mp_loop sh_trace note set_cons lat lp_done].
    assert (Nn : forall d, matches d (ObConstraint ALoop k :: sh_trace s) = matches d (sh_trace s)) by reflexivity.
    split.
    { apply vetted_more; [exact V1|]. intros c0 E. injection E as <-. split; [exact K3|]. split; [lia|]. split; [lia|].
      rewrite K2. exists sc, ty. split; [exact W2|exact W3]. }
    split; [apply order_more; [exact V2|discriminate]|].
    split; [intros d i sc0 ty0 ok [E|J]; [discriminate E|exact (V3 _ _ _ _ _ J)]|].
    split; [intro d; rewrite Nn; apply V4|]. unfold place. cbn [lp_pc lp_done]. rewrite Nn. exact W1.
  - (* flag *) destruct O as (K1 & K2 & _).
    destruct (after_candidate_place (sh_trace s) l c (matches (lp_done l) (sh_trace s)) V3) as [P1 P2]; try lia; try reflexivity.
    apply (same []); [reflexivity|constructor|exact P2|exact P1].
  - apply (same []); [reflexivity|constructor|cbn [lat lp_done]; lia|exact V5].
  - apply (same []); [reflexivity|constructor|cbn [lat lp_done]; lia|exact V5].
  - apply (same []); [reflexivity|constructor|cbn [lat lp_done]; lia|exact V5].
  - (* optimised *) assert (E : sh_trace (put_all s (sh_scans s) scans') = sh_trace s).
    { destruct (put_all_frame (sh_scans s) scans' s) as [h E]. rewrite E. reflexivity. }
    apply (same [ObOptimize (List.length scans)]);
      [cbn [unlock_g set_glock set_flag note sh_trace]; rewrite E; reflexivity|constructor; [exact Logic.I|constructor]|cbn [lp_done]; lia|].
    unfold place. cbn [lp_pc lp_done unlock_g set_glock set_flag note sh_trace]. rewrite E. exact V5.
Qed.

Lemma loop_reach : numbered_start cf -> forall m, reach_if cf (tame cf) m -> loop_inv m.
Proof.
  intro start. apply (reach_if_and cf (tame cf) loop_inv (id_inv cf)); [apply id_reach; assumption| |].
  - intros m H. apply init_cases in H. destruct H as (s & f & -> & _ & ->). unfold loop_inv. cbn [mp_sh mp_loop].
    assert (Q : exists new, sh_trace match cf_file cf with
      | Some file => load_graph cf (mkShared [] [] [] false None None pose0 pose0 (nopp (nlit 1 2)) (cf_enable cf) true None []) file
      | None => mkShared [] [] [] false None None pose0 pose0 (nopp (nlit 1 2)) (cf_enable cf) true None [] end = new /\ Forall quiet new).
    { destruct (cf_file cf); eexists; (split; [reflexivity|]); [constructor; [exact I|constructor]|constructor]. }
    destruct Q as (new & E & F).
    assert (E' : forall s0 : shared T, s0 = s0) by reflexivity.
    match goal with |- closures_vetted _ ?t /\ _ => replace t with (new ++ []) end.
    2: { rewrite app_nil_r, <- E. destruct (cf_file cf); reflexivity. }
    assert (N : forall d, matches d (new ++ []) = 0%nat) by (intro d; rewrite matches_quiet by exact F; reflexivity).
    split; [apply vetted_quiet; [|exact F]; intros [|x newer] c older Q; discriminate Q|].
    split; [apply order_quiet; [|exact F]; intros [|x newer] d i sc ty ok older Q; discriminate Q|].
    split; [intros d i sc ty ok J; apply in_quiet in J; [contradiction J|exact F]|].
    split; [intro d; rewrite N; lia|]. unfold place. cbn [lp_pc]. apply N.
  - intros l m m' [B Ld] (Ids & Sp & Lo) H St.
    destruct l as [e| | |].
    + destruct (quiet_step _ _ _ St) as (new & E & F & L); [discriminate|]. destruct m as [s sp l p], m' as [s' sp' l' p']. cbn [mp_sh mp_loop] in *. subst l'.
      apply (quiet_inv s s' sp sp' l p p' new); assumption.
    + destruct (quiet_step _ _ _ St) as (new & E & F & L); [discriminate|]. destruct m as [s sp l p], m' as [s' sp' l' p']. cbn [mp_sh mp_loop] in *. subst l'.
      apply (quiet_inv s s' sp sp' l p p' new); assumption.
    + inversion St as [| |s' l' D|]; subst. destruct m as [s sp l p]. cbn [mp_sh mp_loop mp_spin mp_pub] in *. apply (loop_inv_step s sp l p); assumption.
    + destruct (quiet_step _ _ _ St) as (new & E & F & L); [discriminate|]. destruct m as [s sp l p], m' as [s' sp' l' p']. cbn [mp_sh mp_loop] in *. subst l'.
      apply (quiet_inv s s' sp sp' l p p' new); assumption.
Qed.

End P.
