(** Constraints that fit unless a loop closure moved one of their scans (C178). *)

From Coq Require Import ZArith List Bool String Lia.
From Verif Require Import Outcome Arith TypesModel ScanModel MatcherModel ConstraintModel
  SolverModel GraphModel OccGridModel MotionModel FilterModel LaserModel MapperModel SpecMapper SpecMapper2 SpecMapper4 SpecExact SpecClosed
  NdtProofs MapperProofs MapperSteps MapperInv1 MapperInv2 MapperInv3 MapperInv9.
Import ListNotations.
Local Open Scope outcome_scope.

Section P.
Context {T : Type} {A : Arith T}.
Context (P : constraint T -> pose T -> pose T -> Prop).
Context (made_fits : forall from to cov, P (make_constraint from to cov) (s_pose from) (s_pose to)).
Context (cf : config T).
Context (depth_ok : (0 <= cf_depth cf)%Z) (search_ok : search_in_range (en_search cf)).

Context (M : nat -> Prop).

(** The scans of the graph, with the one that is about to be added. *)
Definition soon (m : mapper T) : list nat :=
  sh_scans (mp_sh m) ++ match sp_pc (mp_spin m) with SScanLock p _ | SScanPush p _ => [p] | _ => [] end.
Definition fits_at (h : list (scan T)) (ps : list nat) (c : constraint T) : Prop :=
  (0 <= c_begin c)%Z /\ (0 <= c_end c)%Z /\
  exists p q a b, nth_error ps (Z.to_nat (c_begin c)) = Some p /\ nth_error ps (Z.to_nat (c_end c)) = Some q /\
    nth_error h p = Some a /\ nth_error h q = Some b /\ (P c (s_pose a) (s_pose b) \/ M p \/ M q).
(** The scan the loop closure thread is working on is in the graph; it was moved when
    a constraint is added. *)
Definition loop_at (ps : list nat) (l : looper T) : Prop :=
  match lp_pc l with
  | LCand c | LRegion c _ | LMatch c _ _ | LCorrect c _ _ _ _ | LFlag c => nth_error ps (Z.to_nat (lp_done l)) = Some (lc_scan c)
  | LMake c _ _ _ | LPushLock c _ | LPush c _ => nth_error ps (Z.to_nat (lp_done l)) = Some (lc_scan c) /\ M (lc_scan c)
  | _ => True
  end.
Definition closed_inv (m : mapper T) : Prop :=
  let s := mp_sh m in
  Forall (fits_at (sh_heap s) (soon m)) (sh_cons s) /\
  match sp_pc (mp_spin m) with
  | SConsLock p _ c | SConsPush p _ c => exists bp a b, nth_error (sh_scans s) (List.length (sh_scans s) - 1) = Some bp /\
      nth_error (sh_heap s) bp = Some a /\ nth_error (sh_heap s) p = Some b /\ (P c (s_pose a) (s_pose b) \/ M bp \/ M p)
  | _ => True
  end /\ loop_at (sh_scans s) (mp_loop m).

Lemma fits_more h x ps ys c : fits_at h ps c -> fits_at (h ++ x) (ps ++ ys) c.
Proof.
  intros (B & E & p & q & a & b & H1 & H2 & H3 & H4 & H5). split; [exact B|]. split; [exact E|]. exists p, q, a, b.
  rewrite !nth_error_app1 by (apply nth_error_Some; congruence). repeat split; assumption.
Qed.
Lemma fits_all_more h x ps ys cs : Forall (fits_at h ps) cs -> Forall (fits_at (h ++ x) (ps ++ ys)) cs.
Proof. apply Forall_impl. intro c. apply fits_more. Qed.

Lemma fits_all_set h ps cs k v : ~ In k ps -> Forall (fits_at h ps) cs -> Forall (fits_at (list_set h k v) ps) cs.
Proof.
  intros N. apply Forall_impl. intros c (B & E & p & q & a & b & H1 & H2 & H3 & H4 & H5). split; [exact B|]. split; [exact E|].
  exists p, q, a, b. rewrite !nth_error_list_set.
  assert (Kp : (k =? p)%nat = false) by (apply Nat.eqb_neq; intros ->; apply N; exact (nth_error_In _ _ H1)).
  assert (Kq : (k =? q)%nat = false) by (apply Nat.eqb_neq; intros ->; apply N; exact (nth_error_In _ _ H2)).
  rewrite Kp, Kq. cbn [andb]. repeat split; assumption.
Qed.

Lemma set_read (h : list (scan T)) k v p a : nth_error h p = Some a -> exists a', nth_error (list_set h k v) p = Some a' /\ (a' = a \/ p = k).
Proof.
  intro H. rewrite nth_error_list_set. destruct (k =? p)%nat eqn:E; cbn [andb]; [|exists a; split; [exact H|left; reflexivity]].
  apply Nat.eqb_eq in E. destruct (_ <? _)%nat eqn:L; [exists v; split; [reflexivity|right; symmetry; exact E]|exists a; split; [exact H|left; reflexivity]].
Qed.

(** The scan of the callback is not in the graph yet. *)
Lemma outside (s : shared T) p : ids_ok s -> has_id s p (num_scans s) -> ~ In p (sh_scans s).
Proof.
  intros I1 H J. apply In_nth_error in J. destruct J as [i J].
  pose proof (has_id_unique _ _ _ _ (I1 _ _ J) H) as E. unfold num_scans in E.
  assert (i < List.length (sh_scans s))%nat by (apply nth_error_Some; congruence). lia.
Qed.

Lemma load_fits (s : shared T) file : fits P (graph_load (cf_use_bary cf) file) ->
  Forall (fits_at (sh_heap (load_graph cf s file)) (sh_scans (load_graph cf s file))) (sh_cons (load_graph cf s file)).
Proof.
  intro F. unfold load_graph. cbn [sh_scans sh_heap sh_cons note set_cons set_scans set_heap].
  revert F. unfold fits. apply Forall_impl. intros c (B & E & a & b & H1 & H2 & H3). split; [exact B|]. split; [exact E|].
  set (more := gr_scans _) in *.
  assert (at_ : forall i x, nth_error more i = Some x -> exists p, nth_error (seq (List.length (sh_heap s)) (List.length more)) i = Some p /\ nth_error (sh_heap s ++ more) p = Some x).
  { intros i x Hx. destruct (nth_error (seq (List.length (sh_heap s)) (List.length more)) i) as [p|] eqn:Es.
    - exists p. split; [reflexivity|]. apply seq_nth_in in Es. destruct Es as (sc & Z1 & Z2). rewrite Z1. rewrite Hx in Z2. symmetry. exact Z2.
    - apply nth_error_None in Es. rewrite seq_length in Es. assert (i < List.length more)%nat by (apply nth_error_Some; congruence). lia. }
  destruct (at_ _ _ H1) as (p & P1 & P2). destruct (at_ _ _ H2) as (q & Q1 & Q2). exists p, q, a, b. repeat (split; [assumption|]). left. exact H3.
Qed.

Lemma loop_at_more ps x l : loop_at ps l -> loop_at (ps ++ x) l.
Proof.
  assert (Q : forall i p, nth_error ps i = Some p -> nth_error (ps ++ x) i = Some p) by (intros i p H; rewrite nth_error_app1 by (apply nth_error_Some; congruence); exact H).
  unfold loop_at. destruct (lp_pc l); try exact (fun H => H); try apply Q; intros [H1 H2]; (split; [apply Q; exact H1|exact H2]).
Qed.

Lemma closed_step l m m' : (l = Loop -> forall c i cand corr cov, lp_pc (mp_loop m) = LCorrect c i cand corr cov -> M (lc_scan c)) -> unoptimized P cf m l -> id_inv cf m -> closed_inv m -> step_tr cf m l m' -> closed_inv m'.
Proof.
  intros Mc (Ch & NoL & Ld) (I1 & I3 & I4) (F & Pc & Lp) H. pose proof H as H0. destruct H as [e s' sp' Id D|s' sp' D|s' l' D|s' p' D].
  - unfold closed_inv, soon in *. cbn [mp_sh mp_spin mp_loop] in *. rewrite Id in *. rewrite app_nil_r in F.
    assert (keep : forall x, sh_scans s' = sh_scans (mp_sh m) -> sh_cons s' = sh_cons (mp_sh m) -> sh_heap s' = sh_heap (mp_sh m) ++ x ->
      match sp_pc sp' with SScanLock _ _ | SScanPush _ _ | SConsLock _ _ _ | SConsPush _ _ _ => False | _ => True end ->
      Forall (fits_at (sh_heap s') (sh_scans s' ++ match sp_pc sp' with SScanLock p _ | SScanPush p _ => [p] | _ => [] end)) (sh_cons s') /\
      match sp_pc sp' with SConsLock p _ c | SConsPush p _ c => exists bp a b, nth_error (sh_scans s') (List.length (sh_scans s') - 1) = Some bp /\
        nth_error (sh_heap s') bp = Some a /\ nth_error (sh_heap s') p = Some b /\ (P c (s_pose a) (s_pose b) \/ M bp \/ M p) | _ => True end /\
      loop_at (sh_scans s') (mp_loop m)).
    { intros x E1 E2 E3 N. rewrite E1, E2, E3. split; [apply fits_all_more; exact F|]. split; [|exact Lp]. destruct (sp_pc sp'); try exact I; contradiction. }
    destruct D.
    + apply (keep []); [reflexivity|reflexivity|symmetry; apply app_nil_r|]. match goal with Q : sp_pc sp' = SIdle |- _ => rewrite Q end. exact I.
    + apply (keep [sc]); [reflexivity|reflexivity|reflexivity|]. match goal with Q : sp_pc sp' = _ |- _ => rewrite Q end.
      unfold run_pc. destruct (use_filter cf), (sh_enable (mp_sh m)); exact I.
    + apply (keep []); [reflexivity|reflexivity|symmetry; apply app_nil_r|]. rewrite Id. exact I.
    + apply (keep []); [reflexivity|reflexivity|symmetry; apply app_nil_r|exact I].
    + apply (keep []); [reflexivity|reflexivity|symmetry; apply app_nil_r|exact I].
    + apply (keep []); [reflexivity|reflexivity|symmetry; apply app_nil_r|exact I].
    + rewrite configure_eq in *. cbn [fst snd] in *. apply (keep []); [reflexivity|reflexivity|symmetry; apply app_nil_r|].
      cbn [at_pc sp_pc]. destruct (Z.testbit a 2), (Z.testbit a 3); exact I.
  - unfold closed_inv, soon in *. cbn [mp_sh mp_spin mp_loop] in *.
    destruct D; match goal with Q : sp_pc (mp_spin m) = _ |- _ => rewrite Q in I3, F, Pc; pose proof Q as Q0 end; cbn [spin_ok] in I3; cbn [at_pc sp_pc] in *;
      rewrite ?app_nil_r in *; try (split; [exact F|split; [exact Pc|first [exact Lp|apply loop_at_more; exact Lp]]]).
    + (* filter *) split; [|split; [exact I|exact Lp]]. apply fits_all_set; [exact (outside (mp_sh m) p I1 I3)|exact F].
    + (* first *) split; [|split; [exact I|exact Lp]]. rewrite <- (app_nil_r (sh_heap (mp_sh m))). apply fits_all_more. exact F.
    + (* match *) split; [|split; [exact I|exact Lp]]. apply fits_all_set; [exact (outside (mp_sh m) p I1 I3)|exact F].
    + (* make *) split; [exact F|]. split; [|exact Lp]. match goal with R : nth_error (rev _) 0 = Some bp |- _ => apply last_index in R; exists bp, back, sc end.
      split; [assumption|]. split; [assumption|]. split; [assumption|]. left. apply made_fits.
    + (* cons push *) split; [|split; [exact I|exact Lp]]. destruct I3 as (J1 & J2 & J3 & J4).
      cbn [sh_cons sh_scans sh_heap unlock_g set_glock note set_cons]. apply Forall_app. split.
      * rewrite <- (app_nil_r (sh_heap (mp_sh m))). apply fits_all_more. exact F.
      * constructor; [|constructor]. destruct Pc as (bp & a & b & E1 & E2 & E3 & E4). unfold num_scans in *.
        split; [lia|]. split; [lia|]. exists bp, p, a, b. rewrite J2, J3.
        split; [rewrite nth_error_app1 by lia; replace (Z.to_nat (Z.of_nat (List.length (sh_scans (mp_sh m))) - 1)) with (List.length (sh_scans (mp_sh m)) - 1)%nat by lia; exact E1|].
        split; [rewrite Nat2Z.id, nth_error_app2, Nat.sub_diag by lia; reflexivity|]. repeat split; assumption.
    + (* track *) split; [|split; [exact I|exact Lp]]. apply fits_all_set; [exact (outside (mp_sh m) p I1 I3)|exact F].
    + (* pose write *) destruct upd; (split; [exact F|split; [exact I|exact Lp]]).
    + (* initial pose *) split; [|split; [exact I|apply loop_at_more; exact Lp]].
      match goal with Gr : the_graph cf _ = Ok g |- _ => destruct (the_graph_length _ _ _ Gr) as (Lg & _ & Gs) end.
      assert (Li : (i < List.length (gr_scans g))%nat).
      { match goal with Fn : find_nearest _ _ _ _ _ = Ok (i :: rest) |- _ => apply (nearest_bound _ _ _ _ _ _ i search_ok Fn) end. left. reflexivity. }
      match goal with Fr : nth_error (_ ++ _) i = Some from |- _ => rewrite nth_error_app1 in Fr by exact Li; rename Fr into Fr0 end.
      pose proof (ids_numbered _ _ I1 Gs i from Fr0) as Fid. destruct (graph_scans_nth' _ _ _ _ Gs Fr0) as (fp & Ep & Eh).
      cbn [sh_cons sh_scans sh_heap unlock_g set_glock note set_cons set_scans set_heap]. apply Forall_app. split.
      * apply fits_all_more. exact F.
      * constructor; [|constructor]. unfold fits_at.
        change (c_begin c) with (s_id from). change (c_end c) with (num_scans (mp_sh m)). rewrite Fid. unfold num_scans.
        split; [lia|]. split; [lia|]. exists fp, p, from, sc. rewrite !Nat2Z.id.
        split; [rewrite nth_error_app1 by (apply nth_error_Some; congruence); exact Ep|].
        split; [rewrite nth_error_app2, Nat.sub_diag by lia; reflexivity|].
        split; [rewrite nth_error_app1 by (apply nth_error_Some; congruence); exact Eh|].
        split; [unfold p; rewrite nth_error_app2, Nat.sub_diag by lia; reflexivity|]. left. apply made_fits.
    + (* load *) destruct (Ld eq_refl file Q0) as [Sl Fi]. split; [|split; [exact I|unfold loop_at; rewrite Sl; exact I]]. exact (load_fits (mp_sh m) file Fi).
  - specialize (NoL eq_refl). specialize (Mc eq_refl). unfold closed_inv, soon in *. cbn [mp_sh mp_spin mp_loop] in *.
    assert (after : forall (l : looper T) c ps, nth_error ps (Z.to_nat (lp_done l)) = Some (lc_scan c) -> loop_at ps (after_candidate l c)).
    { intros l0 c0 ps H. unfold after_candidate, loop_at. destruct (_ =? 0)%Z; cbn; [exact I|exact H]. }
    unfold loop_at in Lp. unfold loop_ok in I4.
    destruct D; match goal with Q : lp_pc (mp_loop m) = _ |- _ => rewrite Q in NoL, Lp, I4; pose proof Q as Q0 end; try (contradiction NoL; reflexivity);
      try (split; [exact F|split; [exact Pc|first [apply after; first [exact Lp|apply Lp]|unfold loop_at; cbn; first [exact I|exact Lp|rewrite Q0; exact I|idtac]]]]).
    + (* fetch *) assumption.
    + (* correct *) specialize (Mc _ _ _ _ _ Q0). cbn [sh_heap sh_scans sh_cons note put set_heap]. split; [|split].
      * revert F. apply Forall_impl. intros k (B & E & p1 & p2 & a & b & X1 & X2 & X3 & X4 & X5). split; [exact B|]. split; [exact E|].
        destruct (set_read (sh_heap (mp_sh m)) (lc_scan c) (scan_set_pose sc q) p1 a X3) as (a' & A1 & A2).
        destruct (set_read (sh_heap (mp_sh m)) (lc_scan c) (scan_set_pose sc q) p2 b X4) as (b' & B1 & B2).
        exists p1, p2, a', b'. repeat (split; [assumption|]).
        destruct A2 as [->| ->]; [|right; left; exact Mc]. destruct B2 as [->| ->]; [exact X5|right; right; exact Mc].
      * destruct (sp_pc (mp_spin m)); try exact I; destruct Pc as (bp & a & b & X1 & X3 & X4 & X5);
        destruct (set_read (sh_heap (mp_sh m)) (lc_scan c) (scan_set_pose sc q) bp a X3) as (a' & A1 & A2);
        destruct (set_read (sh_heap (mp_sh m)) (lc_scan c) (scan_set_pose sc q) p b X4) as (b' & B1 & B2);
        (exists bp, a', b'; repeat (split; [assumption|]);
        destruct A2 as [->| ->]; [destruct B2 as [->| ->]; [exact X5|right; right; exact Mc]|right; left; exact Mc]).
      * split; [exact Lp|exact Mc].
    + (* push *) destruct I4 as (D0 & _ & Bk & Ek & _). destruct Lp as [Lp Mo]. cbn [sh_heap sh_scans sh_cons note set_cons]. split; [|split; [exact Pc|exact Lp]].
      apply Forall_app. split; [exact F|]. constructor; [|constructor]. split; [lia|]. split; [lia|].
      assert (Ld2 : (Z.to_nat (lp_done (mp_loop m)) < List.length (sh_scans (mp_sh m)))%nat) by (apply nth_error_Some; congruence).
      destruct (nth_error (sh_scans (mp_sh m)) (Z.to_nat (c_begin k))) as [p1|] eqn:E1; [|apply nth_error_None in E1; lia].
      destruct (I1 _ _ E1) as (a & A1 & _). destruct (I1 _ _ Lp) as (b & B1 & _). rewrite Ek.
      exists p1, (lc_scan c), a, b. rewrite !nth_error_app1 by (apply nth_error_Some; congruence). repeat (split; [assumption|]). right. right. exact Mo.
  - apply pub_frame in H0. cbn [mp_sh] in H0. destruct H0 as ((F1 & F2 & F3) & _). unfold closed_inv, soon in *. cbn [mp_sh mp_spin mp_loop].
    rewrite F1, F2, F3. split; [exact F|split; [exact Pc|exact Lp]].
Qed.

End P.

Section Q.
Context {T : Type} {A : Arith T}.
Context (P : constraint T -> pose T -> pose T -> Prop).
Context (made_fits : forall from to cov, P (make_constraint from to cov) (s_pose from) (s_pose to)).
Context (cf : config T).
Context (depth_ok : (0 <= cf_depth cf)%Z) (search_ok : search_in_range (en_search cf)).

Lemma closed_weaken (M M' : nat -> Prop) m : (forall p, M p -> M' p) -> closed_inv P M m -> closed_inv P M' m.
Proof.
  intros W (F & Pc & Lp). split; [|split].
  - revert F. apply Forall_impl. intros c (B & E & p & q & a & b & H1 & H2 & H3 & H4 & H5). split; [exact B|]. split; [exact E|].
    exists p, q, a, b. repeat (split; [assumption|]). destruct H5 as [H5|[H5|H5]]; [left; exact H5|right; left; apply W; exact H5|right; right; apply W; exact H5].
  - destruct (sp_pc (mp_spin m)); try exact I; destruct Pc as (bp & a & b & H1 & H3 & H4 & H5); (exists bp, a, b; repeat (split; [assumption|]);
      destruct H5 as [H5|[H5|H5]]; [left; exact H5|right; left; apply W; exact H5|right; right; apply W; exact H5]).
  - revert Lp. unfold loop_at. destruct (lp_pc (mp_loop m)); try exact (fun H => H); intros [H1 H2]; (split; [exact H1|apply W; exact H2]).
Qed.

(** Moved, and not one of the first scans. *)
Definition late (m : mapper T) (p : nat) : Prop :=
  moved (sh_trace (mp_sh m)) p /\ exists k, has_id (mp_sh m) p k /\ (cf_depth cf < k)%Z.

Lemma late_step l m m' : id_inv cf m -> step_tr cf m l m' -> (forall p, late m p -> late m' p) /\
  (l = Loop -> forall c i cand corr cov, lp_pc (mp_loop m) = LCorrect c i cand corr cov -> late m' (lc_scan c)).
Proof.
  intros (I1 & I3 & I4) H. pose proof (step_ids cf l m m' H) as G. split.
  - intros p ((q & M) & k & K & L). destruct (step_ext cf l m m' H) as (new & E & _). split.
    + exists q. rewrite E. apply in_or_app. right. exact M.
    + exists k. split; [apply G; exact K|exact L].
  - intros -> c i cand corr cov Q. unfold loop_ok in I4. rewrite Q in I4. destruct I4 as (_ & (_ & _ & C1 & C2 & _) & _). split; [|exists (lp_done (mp_loop m)); split; [apply G; exact C2|exact C1]].
    inversion H as [| |s' l' D|]; subst. destruct D; try congruence. rewrite Q in H0. injection H0 as <- <- <- <- <-. eexists. left. reflexivity.
Qed.

Lemma closed_reach : fitting_start P cf -> forall m, reach_if cf (unoptimized P cf) m -> closed_inv P (late m) m.
Proof.
  intros [Cs Fs].
  assert (ids : forall m, reach_if cf (unoptimized P cf) m -> id_inv cf m).
  { intros m R. apply (chain_reach cf depth_ok search_ok Cs). apply (reach_if_mono cf (unoptimized P cf)); [intros m0 l U; apply U|exact R]. }
  apply (reach_if_and cf (unoptimized P cf) (fun m => closed_inv P (late m) m) (id_inv cf) ids).
  - intros m H. apply init_cases in H. destruct H as (s & f & -> & _ & ->). unfold closed_inv, soon. cbn [mp_sh mp_spin mp_loop sp_pc lp_pc].
    split; [|split; exact I]. rewrite app_nil_r. destruct (cf_file cf) as [file|] eqn:E.
    + exact (load_fits P cf _ (mkShared [] [] [] false None None pose0 pose0 (nopp (nlit 1 2)) (cf_enable cf) true None []) file (Fs file eq_refl)).
    + constructor.
  - intros l m m' O J K H. destruct (late_step l m m' J H) as [W C]. apply (closed_step P made_fits cf depth_ok search_ok (late m') l m m' C O J); [|exact H].
    exact (closed_weaken _ _ m W K).
Qed.

Theorem closed_graph : fitting_start P cf -> forall m, reach_if cf (unoptimized P cf) m -> ~ half_added m ->
  exists g, the_graph cf (mp_sh m) = Ok g /\ spanning g /\ Forall (says_unless_moved P (cf_depth cf) (mp_sh m)) (gr_constraints g).
Proof.
  intros St m R N. pose proof (closed_reach St m R) as (F & _).
  assert (R' : reach_if cf (chained cf) m) by (apply (reach_if_mono cf (unoptimized P cf)); [intros m0 l U; apply U|exact R]).
  destruct (chain_reach cf depth_ok search_ok (proj1 St) m R') as ((I1 & _) & _).
  destruct (graph_spanning cf depth_ok search_ok (proj1 St) m R' N) as (g & G & Sp).
  exists g. split; [exact G|]. split; [exact Sp|]. destruct (the_graph_length _ _ _ G) as (L & C & Gs). rewrite C.
  assert (E : soon m = sh_scans (mp_sh m)).
  { unfold soon. destruct (sp_pc (mp_spin m)) eqn:Q; try (apply app_nil_r); exfalso; apply N; [left|right]; eauto. }
  rewrite E in F. revert F. apply Forall_impl. intros c (B1 & B2 & p & q & a & b & H1 & H2 & H3 & H4 & H5). split; [exact B1|]. split; [exact B2|].
  exists p, q, a, b. repeat (split; [assumption|]).
  assert (index : forall i r, (0 <= i)%Z -> nth_error (sh_scans (mp_sh m)) (Z.to_nat i) = Some r -> late m r -> (cf_depth cf < i)%Z /\ moved (sh_trace (mp_sh m)) r).
  { intros i r Hi Hr (Mv & k & K1 & K2). split; [|exact Mv]. pose proof (has_id_unique _ _ _ _ (I1 _ _ Hr) K1) as U. lia. }
  destruct H5 as [H5|[H5|H5]]; [left; exact H5|right; left; exact (index _ _ B1 H1 H5)|right; right; exact (index _ _ B2 H2 H5)].
Qed.
End Q.
