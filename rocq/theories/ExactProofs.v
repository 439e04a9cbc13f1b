(** While no scan of the graph is moved, every constraint fits (C177). *)

From Coq Require Import ZArith List Bool String Lia.
From Verif Require Import Outcome Arith TypesModel ScanModel MatcherModel ConstraintModel
  SolverModel GraphModel OccGridModel MotionModel FilterModel LaserModel MapperModel SpecMapper SpecMapper2 SpecMapper4 SpecExact
  NdtProofs MapperProofs MapperSteps MapperInv1 MapperInv2 MapperInv3 MapperInv9.
Import ListNotations.
Local Open Scope outcome_scope.

Section P.
Context {T : Type} {A : Arith T}.
Context (P : constraint T -> pose T -> pose T -> Prop).
Context (made_fits : forall from to cov, P (make_constraint from to cov) (s_pose from) (s_pose to)).
Context (cf : config T).
Context (depth_ok : (0 <= cf_depth cf)%Z) (search_ok : search_in_range (en_search cf)).

(** The scans of the graph, with the one that is about to be added. *)
Definition soon (m : mapper T) : list nat :=
  sh_scans (mp_sh m) ++ match sp_pc (mp_spin m) with SScanLock p _ | SScanPush p _ => [p] | _ => [] end.
Definition fits_at (h : list (scan T)) (ps : list nat) (c : constraint T) : Prop :=
  (0 <= c_begin c)%Z /\ (0 <= c_end c)%Z /\
  exists p q a b, nth_error ps (Z.to_nat (c_begin c)) = Some p /\ nth_error ps (Z.to_nat (c_end c)) = Some q /\
    nth_error h p = Some a /\ nth_error h q = Some b /\ P c (s_pose a) (s_pose b).
Definition exact_inv (m : mapper T) : Prop :=
  let s := mp_sh m in
  Forall (fits_at (sh_heap s) (soon m)) (sh_cons s) /\
  match sp_pc (mp_spin m) with
  | SConsLock p _ c | SConsPush p _ c => exists bp a b, nth_error (sh_scans s) (List.length (sh_scans s) - 1) = Some bp /\
      nth_error (sh_heap s) bp = Some a /\ nth_error (sh_heap s) p = Some b /\ P c (s_pose a) (s_pose b)
  | _ => True
  end /\
  match lp_pc (mp_loop m) with LMake _ _ _ _ | LPushLock _ _ | LPush _ _ => False | _ => True end.

Lemma fits_more h x ps ys c : fits_at h ps c -> fits_at (h ++ x) (ps ++ ys) c.
Proof.
  intros (B & E & p & q & a & b & H1 & H2 & H3 & H4 & H5). split; [exact B|]. split; [exact E|]. exists p, q, a, b.
  rewrite !nth_error_app1 by (apply nth_error_Some; congruence). repeat split; assumption.
Qed.
Lemma fits_all_more h x ps ys cs : Forall (fits_at h ps) cs -> Forall (fits_at (h ++ x) (ps ++ ys)) cs.
Proof. apply Forall_impl. intro c. apply fits_more. Qed.

Lemma fits_all_set h ps cs k v : ~ In k ps -> Forall (fits_at h ps) cs -> Forall (fits_at (list_set h k v) ps) cs.
Proof.
  intros N. apply Forall_impl. intros c (B & E & p & q & a & b & H1 & H2 & H3 & H4 & H5). split; [exact B|]. split; [exact E|].
  exists p, q, a, b. rewrite !nth_error_list_set.
  assert (Kp : (k =? p)%nat = false) by (apply Nat.eqb_neq; intros ->; apply N; exact (nth_error_In _ _ H1)).
  assert (Kq : (k =? q)%nat = false) by (apply Nat.eqb_neq; intros ->; apply N; exact (nth_error_In _ _ H2)).
  rewrite Kp, Kq. cbn [andb]. repeat split; assumption.
Qed.

(** The scan of the callback is not in the graph yet. *)
Lemma outside (s : shared T) p : ids_ok s -> has_id s p (num_scans s) -> ~ In p (sh_scans s).
Proof.
  intros I1 H J. apply In_nth_error in J. destruct J as [i J].
  pose proof (has_id_unique _ _ _ _ (I1 _ _ J) H) as E. unfold num_scans in E.
  assert (i < List.length (sh_scans s))%nat by (apply nth_error_Some; congruence). lia.
Qed.

Lemma load_fits (s : shared T) file : fits P (graph_load (cf_use_bary cf) file) ->
  Forall (fits_at (sh_heap (load_graph cf s file)) (sh_scans (load_graph cf s file))) (sh_cons (load_graph cf s file)).
Proof.
  intro F. unfold load_graph. cbn [sh_scans sh_heap sh_cons note set_cons set_scans set_heap].
  revert F. unfold fits. apply Forall_impl. intros c (B & E & a & b & H1 & H2 & H3). split; [exact B|]. split; [exact E|].
  set (more := gr_scans _) in *.
  assert (at_ : forall i x, nth_error more i = Some x -> exists p, nth_error (seq (List.length (sh_heap s)) (List.length more)) i = Some p /\ nth_error (sh_heap s ++ more) p = Some x).
  { intros i x Hx. destruct (nth_error (seq (List.length (sh_heap s)) (List.length more)) i) as [p|] eqn:Es.
    - exists p. split; [reflexivity|]. apply seq_nth_in in Es. destruct Es as (sc & Z1 & Z2). rewrite Z1. rewrite Hx in Z2. symmetry. exact Z2.
    - apply nth_error_None in Es. rewrite seq_length in Es. assert (i < List.length more)%nat by (apply nth_error_Some; congruence). lia. }
  destruct (at_ _ _ H1) as (p & P1 & P2). destruct (at_ _ _ H2) as (q & Q1 & Q2). exists p, q, a, b. repeat split; assumption.
Qed.

Lemma exact_step l m m' : unclosed P cf m l -> id_inv cf m -> exact_inv m -> step_tr cf m l m' -> exact_inv m'.
Proof.
  intros (Ch & NoL & Ld) (I1 & I3 & I4) (F & Pc & Lp) H. pose proof H as H0. destruct H as [e s' sp' Id D|s' sp' D|s' l' D|s' p' D].
  - unfold exact_inv, soon in *. cbn [mp_sh mp_spin mp_loop] in *. rewrite Id in *. rewrite app_nil_r in F.
    assert (keep : forall x, sh_scans s' = sh_scans (mp_sh m) -> sh_cons s' = sh_cons (mp_sh m) -> sh_heap s' = sh_heap (mp_sh m) ++ x ->
      match sp_pc sp' with SScanLock _ _ | SScanPush _ _ | SConsLock _ _ _ | SConsPush _ _ _ => False | _ => True end ->
      Forall (fits_at (sh_heap s') (sh_scans s' ++ match sp_pc sp' with SScanLock p _ | SScanPush p _ => [p] | _ => [] end)) (sh_cons s') /\
      match sp_pc sp' with SConsLock p _ c | SConsPush p _ c => exists bp a b, nth_error (sh_scans s') (List.length (sh_scans s') - 1) = Some bp /\
        nth_error (sh_heap s') bp = Some a /\ nth_error (sh_heap s') p = Some b /\ P c (s_pose a) (s_pose b) | _ => True end /\
      match lp_pc (mp_loop m) with LMake _ _ _ _ | LPushLock _ _ | LPush _ _ => False | _ => True end).
    { intros x E1 E2 E3 N. rewrite E1, E2, E3. split; [apply fits_all_more; exact F|]. split; [|exact Lp]. destruct (sp_pc sp'); try exact I; contradiction. }
    destruct D.
    + apply (keep []); [reflexivity|reflexivity|symmetry; apply app_nil_r|]. match goal with Q : sp_pc sp' = SIdle |- _ => rewrite Q end. exact I.
    + apply (keep [sc]); [reflexivity|reflexivity|reflexivity|]. match goal with Q : sp_pc sp' = _ |- _ => rewrite Q end.
      unfold run_pc. destruct (use_filter cf), (sh_enable (mp_sh m)); exact I.
    + apply (keep []); [reflexivity|reflexivity|symmetry; apply app_nil_r|]. rewrite Id. exact I.
    + apply (keep []); [reflexivity|reflexivity|symmetry; apply app_nil_r|exact I].
    + apply (keep []); [reflexivity|reflexivity|symmetry; apply app_nil_r|exact I].
    + apply (keep []); [reflexivity|reflexivity|symmetry; apply app_nil_r|exact I].
    + rewrite configure_eq in *. cbn [fst snd] in *. apply (keep []); [reflexivity|reflexivity|symmetry; apply app_nil_r|].
      cbn [at_pc sp_pc]. destruct (Z.testbit a 2), (Z.testbit a 3); exact I.
  - unfold exact_inv, soon in *. cbn [mp_sh mp_spin mp_loop] in *.
    destruct D; match goal with Q : sp_pc (mp_spin m) = _ |- _ => rewrite Q in I3, F, Pc; pose proof Q as Q0 end; cbn [spin_ok] in I3; cbn [at_pc sp_pc] in *;
      rewrite ?app_nil_r in *; try (split; [exact F|split; [exact Pc|exact Lp]]).
    + (* filter *) split; [|split; [exact I|exact Lp]]. apply fits_all_set; [exact (outside (mp_sh m) p I1 I3)|exact F].
    + (* first *) split; [|split; [exact I|exact Lp]]. rewrite <- (app_nil_r (sh_heap (mp_sh m))). apply fits_all_more. exact F.
    + (* match *) split; [|split; [exact I|exact Lp]]. apply fits_all_set; [exact (outside (mp_sh m) p I1 I3)|exact F].
    + (* make *) split; [exact F|]. split; [|exact Lp]. match goal with R : nth_error (rev _) 0 = Some bp |- _ => apply last_index in R; exists bp, back, sc end.
      split; [assumption|]. split; [assumption|]. split; [assumption|]. apply made_fits.
    + (* cons push *) split; [|split; [exact I|exact Lp]]. destruct I3 as (J1 & J2 & J3 & J4).
      cbn [sh_cons sh_scans sh_heap unlock_g set_glock note set_cons]. apply Forall_app. split.
      * rewrite <- (app_nil_r (sh_heap (mp_sh m))). apply fits_all_more. exact F.
      * constructor; [|constructor]. destruct Pc as (bp & a & b & E1 & E2 & E3 & E4). unfold num_scans in *.
        split; [lia|]. split; [lia|]. exists bp, p, a, b. rewrite J2, J3.
        split; [rewrite nth_error_app1 by lia; replace (Z.to_nat (Z.of_nat (List.length (sh_scans (mp_sh m))) - 1)) with (List.length (sh_scans (mp_sh m)) - 1)%nat by lia; exact E1|].
        split; [rewrite Nat2Z.id, nth_error_app2, Nat.sub_diag by lia; reflexivity|]. repeat split; assumption.
    + (* track *) split; [|split; [exact I|exact Lp]]. apply fits_all_set; [exact (outside (mp_sh m) p I1 I3)|exact F].
    + (* pose write *) destruct upd; (split; [exact F|split; [exact I|exact Lp]]).
    + (* initial pose *) split; [|split; [exact I|exact Lp]].
      match goal with Gr : the_graph cf _ = Ok g |- _ => destruct (the_graph_length _ _ _ Gr) as (Lg & _ & Gs) end.
      assert (Li : (i < List.length (gr_scans g))%nat).
      { match goal with Fn : find_nearest _ _ _ _ _ = Ok (i :: rest) |- _ => apply (nearest_bound _ _ _ _ _ _ i search_ok Fn) end. left. reflexivity. }
      match goal with Fr : nth_error (_ ++ _) i = Some from |- _ => rewrite nth_error_app1 in Fr by exact Li; rename Fr into Fr0 end.
      pose proof (ids_numbered _ _ I1 Gs i from Fr0) as Fid. destruct (graph_scans_nth' _ _ _ _ Gs Fr0) as (fp & Ep & Eh).
      cbn [sh_cons sh_scans sh_heap unlock_g set_glock note set_cons set_scans set_heap]. apply Forall_app. split.
      * apply fits_all_more. exact F.
      * constructor; [|constructor]. unfold fits_at.
        change (c_begin c) with (s_id from). change (c_end c) with (num_scans (mp_sh m)). rewrite Fid. unfold num_scans.
        split; [lia|]. split; [lia|]. exists fp, p, from, sc. rewrite !Nat2Z.id.
        split; [rewrite nth_error_app1 by (apply nth_error_Some; congruence); exact Ep|].
        split; [rewrite nth_error_app2, Nat.sub_diag by lia; reflexivity|].
        split; [rewrite nth_error_app1 by (apply nth_error_Some; congruence); exact Eh|].
        split; [unfold p; rewrite nth_error_app2, Nat.sub_diag by lia; reflexivity|]. apply made_fits.
    + (* load *) split; [|split; [exact I|exact Lp]]. exact (load_fits (mp_sh m) file (Ld eq_refl file Q0)).
  - specialize (NoL eq_refl). unfold exact_inv, soon in *. cbn [mp_sh mp_spin mp_loop] in *.
    assert (after : forall (l : looper T) c, match lp_pc (after_candidate l c) with LMake _ _ _ _ | LPushLock _ _ | LPush _ _ => False | _ => True end).
    { intros l0 c0. unfold after_candidate. destruct (_ =? 0)%Z; exact I. }
    destruct D; match goal with Q : lp_pc (mp_loop m) = _ |- _ => rewrite Q in NoL, Lp end; try contradiction;
      (split; [exact F|split; [exact Pc|first [exact I|apply after|idtac]]]).
    match goal with Q : lp_pc (mp_loop m) = _ |- _ => rewrite Q end. exact I.
  - apply pub_frame in H0. cbn [mp_sh] in H0. destruct H0 as ((F1 & F2 & F3) & _). unfold exact_inv, soon in *. cbn [mp_sh mp_spin mp_loop].
    rewrite F1, F2, F3. split; [exact F|split; [exact Pc|exact Lp]].
Qed.

Lemma exact_reach : fitting_start P cf -> forall m, reach_if cf (unclosed P cf) m -> exact_inv m.
Proof.
  intros [Cs Fs].
  assert (ids : forall m, reach_if cf (unclosed P cf) m -> id_inv cf m).
  { intros m R. apply (chain_reach cf depth_ok search_ok Cs). apply (reach_if_mono cf (unclosed P cf)); [intros m0 l U; apply U|exact R]. }
  apply (reach_if_and cf (unclosed P cf) exact_inv (id_inv cf) ids); [|intros l m m' O J I H; apply (exact_step l m m'); assumption].
  intros m H. apply init_cases in H. destruct H as (s & f & -> & _ & ->). unfold exact_inv, soon. cbn [mp_sh mp_spin mp_loop sp_pc lp_pc].
  split; [|split; exact I]. rewrite app_nil_r. destruct (cf_file cf) as [file|] eqn:E.
  - exact (load_fits (mkShared [] [] [] false None None pose0 pose0 (nopp (nlit 1 2)) (cf_enable cf) true None []) file (Fs file eq_refl)).
  - constructor.
Qed.

Theorem exact_graph : fitting_start P cf -> forall m, reach_if cf (unclosed P cf) m -> ~ half_added m ->
  exists g, the_graph cf (mp_sh m) = Ok g /\ spanning g /\ fits P g.
Proof.
  intros St m R N. pose proof (exact_reach St m R) as (F & _).
  destruct (graph_spanning cf depth_ok search_ok (proj1 St) m) as (g & G & Sp); [apply (reach_if_mono cf (unclosed P cf)); [intros m0 l U; apply U|exact R]|exact N|].
  exists g. split; [exact G|]. split; [exact Sp|]. destruct (the_graph_length _ _ _ G) as (L & C & Gs). unfold fits. rewrite C.
  assert (E : soon m = sh_scans (mp_sh m)).
  { unfold soon. destruct (sp_pc (mp_spin m)) eqn:Q; try (apply app_nil_r); exfalso; apply N; [left|right]; eauto. }
  rewrite E in F. revert F. apply Forall_impl. intros c (B1 & B2 & p & q & a & b & H1 & H2 & H3 & H4 & H5). split; [exact B1|]. split; [exact B2|].
  exists a, b. destruct (graph_scans_nth _ _ _ _ Gs H1) as (a' & A2 & A1). destruct (graph_scans_nth _ _ _ _ Gs H2) as (b' & B4 & B3).
  rewrite H3 in A1. injection A1 as <-. rewrite H4 in B3. injection B3 as <-. repeat split; assumption.
Qed.

(** A map that fits still does after saving and loading. *)
Lemma fits_saved (g g' : graph T) : Forall2 (fun s s' => s_pose s = s_pose s') (gr_scans g') (gr_scans g) -> gr_constraints g' = gr_constraints g -> fits P g -> fits P g'.
Proof.
  intros S E F. unfold fits in *. rewrite E. revert F. apply Forall_impl. intros c (B1 & B2 & a & b & H1 & H2 & H3). split; [exact B1|]. split; [exact B2|].
  assert (at_ : forall i x, nth_error (gr_scans g) i = Some x -> exists y, nth_error (gr_scans g') i = Some y /\ s_pose y = s_pose x).
  { clear - S. induction S as [|y x l l' Exy S IH]; intros i z H; [destruct i; discriminate H|]. destruct i as [|i]; [injection H as <-; exists y; split; [reflexivity|exact Exy]|exact (IH i z H)]. }
  destruct (at_ _ _ H1) as (a' & A1 & A2). destruct (at_ _ _ H2) as (b' & B3 & B4). exists a', b'. rewrite A2, B4. repeat split; assumption.
Qed.
End P.
