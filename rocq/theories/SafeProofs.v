(** Which failures are possible: the functions the node calls. *)

From Coq Require Import ZArith List Bool String Lia.
From Verif Require Import Outcome Arith TypesModel CellModel ScanModel NdtModel MatcherModel ConstraintModel
  SolverModel GraphModel OccGridModel KdModel MotionModel FilterModel LaserModel MapperModel SpecMapper SpecMapper4 SpecSafe
  NdtProofs MatcherProofs FilterProofs.
Import ListNotations.
Local Open Scope outcome_scope.

(** Only numeric failures. *)
Definition num_only {X : Type} (o : outcome X) : Prop := forall f, o = Fault f -> numeric f.

Lemma num_ok : forall {X} (x : X), num_only (Ok x).
Proof. intros X x f H. discriminate H. Qed.
Lemma num_bind : forall {X Y} (o : outcome X) (k : X -> outcome Y), num_only o -> (forall x, o = Ok x -> num_only (k x)) -> num_only (bind o k).
Proof.
  intros X Y o k H1 H2 f H. apply bind_fault in H. destruct H as [H|(x & E & H)]; [exact (H1 f H)|exact (H2 x E f H)].
Qed.
Lemma num_foldM : forall {S X} (I : S -> Prop) (f : S -> X -> outcome S) xs s, I s ->
  (forall s x s', I s -> In x xs -> f s x = Ok s' -> I s') -> (forall s x, I s -> In x xs -> num_only (f s x)) -> num_only (foldM f s xs).
Proof.
  intros S X I f xs s H0 H1 H2 e H. revert s e H0 H. apply (foldM_fault I numeric f xs H1). intros s x e J K. exact (H2 s x J K e).
Qed.
Lemma num_mapM : forall {X Y} (f : X -> outcome Y) xs, (forall x, In x xs -> num_only (f x)) -> num_only (mapM f xs).
Proof.
  intros X Y f xs. induction xs as [|x xs IH]; intro H; [apply num_ok|]. cbn [mapM]. apply num_bind; [apply H; left; reflexivity|].
  intros y _. apply num_bind; [apply IH; intros z J; apply H; right; exact J|]. intros ys _. apply num_ok.
Qed.
Lemma num_cast : forall {X} (o : outcome X), (forall f, o = Fault f -> f = BadCast) -> num_only o.
Proof. intros X o H f E. rewrite (H f E). exact I. Qed.
Lemma num_vec : forall {X} (v : list X) i, (0 <= i < Z.of_nat (List.length v))%Z -> num_only (vec_get v i).
Proof. intros X v i H f E. destruct (vec_get_ok v i H) as (x & E' & _). congruence. Qed.

Section P.
Context {T : Type} {A : Arith T}.

(** ** The NDT and the matcher *)
Definition grid_ok (k : matcher T) : Prop := forall g, k_ndt k = Some g -> ndt_wf g.

Lemma add_scans_num : forall eig (k : matcher T) scans, cells_fit k scans -> num_only (add_scans eig k scans).
Proof.
  intros eig k scans C. unfold add_scans. apply num_bind.
  - intros f H. unfold ndt_new in H. apply bind_fault in H. destruct H as [H|(sx & _ & H)]; [rewrite (cast_unsigned_fault _ _ _ H); exact I|].
    apply bind_fault in H. destruct H as [H|(sy & _ & H)]; [rewrite (cast_unsigned_fault _ _ _ H); exact I|discriminate H].
  - intros g0 N. pose proof (ndt_new_wf _ _ _ _ _ _ N (C g0 N)) as W. apply num_bind; [|intros g1 _; apply num_ok].
    apply (num_foldM ndt_wf); [exact W| |].
    + intros a x b Wa _ E. exact (same_geom_wf a b (ndt_add_scan_geom a b x E) Wa).
    + intros a x Wa _. apply num_cast. intros f. exact (ndt_add_scan_fault a x f Wa).
Qed.

Lemma add_scans_grid : forall eig (k k' : matcher T) scans, cells_fit k scans -> add_scans eig k scans = Ok k' -> grid_ok k'.
Proof.
  intros eig k k' scans C H. unfold add_scans in H. apply bind_ok in H. destruct H as (g0 & N & H). apply bind_ok in H. destruct H as (g1 & F & H).
  injection H as <-. pose proof (ndt_new_wf _ _ _ _ _ _ N (C g0 N)) as W. intros g E. cbn [k_ndt with_ndt] in E. injection E as <-.
  apply (same_geom_wf g1); [apply ndt_compute_geom|].
  revert g0 g1 W N F. intros g0 g1 W _ F. apply (foldM_inv ndt_wf ndt_add_scan scans) with (s := g0); [|exact W|exact F].
  intros a x b Wa _ E. exact (same_geom_wf a b (ndt_add_scan_geom a b x E) Wa).
Qed.

(** The beams selected from a scan are beams of the scan. *)
Definition beams_in (k : matcher T) (pts : list (point T)) : Prop :=
  forall i idx, (0 <= i < beams_used k pts)%Z -> beam_index (scan_step_size k pts) i = Ok idx -> (0 <= idx < Z.of_nat (List.length pts))%Z.

Lemma beam_range : forall (u : Z) i, In i (map Z.of_nat (seq 0 (Z.to_nat u))) -> (0 <= i < u)%Z.
Proof. intros u i H. apply in_map_iff in H. destruct H as (k & <- & H). apply in_seq in H. lia. Qed.

Lemma one_beam : forall k pts i, beams_in k pts -> In i (map Z.of_nat (seq 0 (Z.to_nat (beams_used k pts)))) ->
  forall {X} (c : point T -> outcome X), (forall q, num_only (c q)) ->
  num_only (idx <- beam_index (scan_step_size k pts) i ;; q <- vec_get pts idx ;; c q).
Proof.
  intros k pts i B J X c C. apply num_bind; [apply num_cast; intros f; apply cast_unsigned_fault|].
  intros idx E. apply num_bind; [apply num_vec; apply (B i idx); [apply beam_range; exact J|exact E]|]. intros q _. apply C.
Qed.

Lemma beam_points_num : forall k pts, beams_in k pts -> num_only (beam_points k pts).
Proof.
  intros k pts B. unfold beam_points. apply num_mapM. intros i J.
  apply num_bind; [apply num_cast; intros f; apply cast_unsigned_fault|].
  intros idx E. apply num_vec; apply (B i idx); [apply beam_range; exact J|exact E].
Qed.

Lemma score_points_num : forall k pts p, grid_ok k -> beams_in k pts -> num_only (score_points k pts p).
Proof.
  intros k pts p G B. unfold score_points. destruct (k_ndt k) as [g|] eqn:E; [|apply num_ok].
  apply num_bind; [|intros x _; apply num_ok]. apply (num_foldM (fun _ => True)); [exact I|intros; exact I|]. intros s i _ J.
  apply (one_beam k pts i B J). intro q. apply num_bind; [|intros l _; apply num_ok].
  apply num_cast. intros f. apply ndt_likelihood_fault. apply G. exact E.
Qed.

Lemma loop_values_num : forall fuel (d size res : T), num_only (loop_values fuel d size res).
Proof.
  intro fuel. induction fuel as [|n IH]; intros d size res; cbn [loop_values]; [intros f H; injection H as <-; exact I|].
  destruct (nlt d size); [|apply num_ok]. apply num_bind; [apply IH|intros ds _; apply num_ok].
Qed.

Lemma match_scan_num : forall fuel k sc p cov, grid_ok k -> beams_in k (s_pts sc) -> num_only (match_scan fuel k sc p cov).
Proof.
  intros fuel k sc p cov G B. unfold match_scan. destruct (k_ndt k) as [g|] eqn:E; [|apply num_ok].
  apply num_bind; [apply loop_values_num|]. intros dths _. apply num_bind; [apply loop_values_num|]. intros ds _.
  apply num_bind; [|intros w _; apply num_ok]. apply (num_foldM (fun _ => True)); [exact I|intros; exact I|]. intros w dth _ _.
  apply num_bind; [apply beam_points_num; exact B|]. intros bp _.
  apply (num_foldM (fun _ => True)); [exact I|intros; exact I|]. intros w1 dx _ _.
  apply (num_foldM (fun _ => True)); [exact I|intros; exact I|]. intros w2 dy _ _.
  unfold match_step. apply num_bind; [|intros l _; apply num_ok]. apply num_cast. intros f. apply ndt_likelihood_points_fault. apply G. exact E.
Qed.

(** ** The particle filter *)
Definition filter_ok (f : pfilter T) : Prop :=
  List.length (pf_wts f) = List.length (pf_parts f) /\ (1 <= pf_min f)%Z /\ (1 <= Z.of_nat (List.length (pf_parts f)))%Z.

Lemma with_weights_ok : forall (ps : list (vec3 T)) (ws : list T), List.length ws = List.length ps -> exists r, with_weights ps ws = Ok r.
Proof.
  intro ps. induction ps as [|p ps IH]; intros [|w ws] H; try discriminate H; [exists []; reflexivity|].
  cbn in H. injection H as H. destruct (IH ws H) as (r & E). cbn [with_weights]. rewrite E. eexists. reflexivity.
Qed.
Lemma update_stats_ok : forall f : pfilter T, List.length (pf_wts f) = List.length (pf_parts f) ->
  exists f', update_stats f = Ok f' /\ List.length (pf_wts f') = List.length (pf_wts f) /\ pf_parts f' = pf_parts f /\ pf_min f' = pf_min f /\ pf_max f' = pf_max f.
Proof.
  intros f H. unfold update_stats.
  destruct (with_weights_ok (pf_parts f) (map (fun w => ndiv w (fold_left nadd (pf_wts f) nzero)) (pf_wts f))) as (r & E); [rewrite map_length; exact H|].
  rewrite E. cbn [bind]. eexists. split; [reflexivity|]. cbn [pf_wts pf_parts pf_min pf_max]. rewrite map_length. auto.
Qed.
Lemma map_i_length : forall {X Y} (g : nat -> X -> Y) l i, List.length (map_i g i l) = List.length l.
Proof. intros X Y g l. induction l as [|x l IH]; intro i; [reflexivity|]. cbn [map_i List.length]. rewrite IH. reflexivity. Qed.

Lemma filter_new_ok : forall mn mx mo, (1 <= mn)%Z -> exists f : pfilter T, filter_new mn mx mo = Ok f /\ filter_ok f.
Proof.
  intros mn mx mo H. unfold filter_new.
  match goal with |- context [update_stats ?x] => destruct (update_stats_ok x) as (f & E & L & P & M & _) end; [cbn [pf_wts pf_parts]; rewrite !repeat_length; reflexivity|].
  exists f. split; [exact E|]. unfold filter_ok. rewrite L, P, M. cbn [pf_wts pf_parts pf_min]. rewrite !repeat_length. lia.
Qed.
Lemma filter_init_ok : forall nrm x y th sx sy sth (f : pfilter T), filter_ok f -> exists f', filter_init nrm x y th sx sy sth f = Ok f' /\ filter_ok f'.
Proof.
  intros nrm x y th sx sy sth f (H1 & H2 & H3). unfold filter_init. cbv zeta.
  match goal with |- context [update_stats ?x] => destruct (update_stats_ok x) as (f' & E & L & P & M & _) end; [cbn [pf_wts pf_parts with_parts]; rewrite repeat_length; reflexivity|].
  exists f'. split; [exact E|]. unfold filter_ok. rewrite L, P, M. cbn [pf_wts pf_parts pf_min with_parts]. rewrite repeat_length, map_i_length. lia.
Qed.
Lemma filter_update_ok : forall nrm dx dy dth (f : pfilter T), filter_ok f ->
  exists f', filter_update nrm dx dy dth f = Ok f' /\ filter_ok f' /\ List.length (pf_parts f') = List.length (pf_parts f).
Proof.
  intros nrm dx dy dth f (H1 & H2 & H3). unfold filter_update.
  match goal with |- context [update_stats ?x] => destruct (update_stats_ok x) as (f' & E & L & P & M & _) end;
    [cbn [pf_wts pf_parts with_parts]; unfold motion_sample; rewrite map_i_length; exact H1|].
  exists f'. split; [exact E|]. unfold filter_ok. rewrite L, P, M. cbn [pf_wts pf_parts pf_min with_parts]. unfold motion_sample. rewrite map_i_length.
  repeat split; lia.
Qed.
Lemma filter_measure_num : forall score (f : pfilter T), filter_ok f -> (forall p, num_only (score p)) -> num_only (filter_measure score f) /\
  forall f', filter_measure score f = Ok f' -> filter_ok f' /\ List.length (pf_parts f') = List.length (pf_parts f).
Proof.
  intros score f (H1 & H2 & H3) S. unfold filter_measure. rewrite H1, Nat.ltb_irrefl.
  assert (U : forall ws, mapM (fun p => score (mkPose (v0 p) (v1 p) (v2 p))) (pf_parts f) = Ok ws ->
    exists f', update_stats (with_parts f (pf_parts f) (ws ++ skipn (List.length (pf_parts f)) (pf_wts f))) = Ok f' /\ filter_ok f' /\
      List.length (pf_parts f') = List.length (pf_parts f)).
  { intros ws E. apply mapM_length in E.
    match goal with |- context [update_stats ?x] => destruct (update_stats_ok x) as (f' & E' & L & P & M & _) end.
    - cbn [pf_wts pf_parts with_parts]. rewrite app_length, skipn_length. lia.
    - exists f'. split; [exact E'|]. unfold filter_ok. rewrite L, P, M. cbn [pf_wts pf_parts pf_min with_parts]. rewrite app_length, skipn_length. lia. }
  split.
  - apply num_bind; [apply num_mapM; intros p _; apply S|]. intros ws E. destruct (U ws E) as (f' & E' & _). rewrite E'. apply num_ok.
  - intros f' H. apply bind_ok in H. destruct H as (ws & E & H). destruct (U ws E) as (f2 & E' & R). rewrite E' in H. injection H as <-. exact R.
Qed.
Lemma resample_loop_num : forall draws (ps : list (vec3 T)) (ws : list T) mn mx err z acc tree m,
  List.length ws = List.length ps -> Forall (fun i => 0 <= i < Z.of_nat (List.length ps))%Z draws ->
  num_only (resample_loop draws ps ws mn mx err z acc tree m).
Proof.
  intro draws. induction draws as [|i draws IH]; intros ps ws mn mx err z acc tree m L F; simpl; destruct (_ <? _)%Z; try apply num_ok.
  - intros f H. injection H as <-. exact I.
  - inversion F as [|? ? Fi F']; subst. apply num_bind; [apply num_vec; exact Fi|]. intros p _.
    apply num_bind; [apply num_vec; rewrite L; exact Fi|]. intros w _.
    apply num_bind; [intros f H; destruct (kd_add_fault _ _ _ _ _ H) as [->| ->]; exact I|]. intros t' _.
    apply num_bind; [destruct (1 <? _)%nat; [apply num_cast; intros f; apply kld_bound_fault|apply num_ok]|]. intros m' _.
    destruct (_ <=? _)%Z; [apply num_ok|]. apply IH; assumption.
Qed.
Lemma resample_loop_some : forall draws (ps : list (vec3 T)) (ws : list T) mn mx err z acc tree m r, (1 <= mn)%Z ->
  resample_loop draws ps ws mn mx err z acc tree m = Ok r -> (1 <= Z.of_nat (List.length r))%Z.
Proof.
  intro draws. induction draws as [|i draws IH]; intros ps ws mn mx err z acc tree m r M H; simpl in H;
    (destruct (Z.ltb_spec (Z.of_nat (List.length acc)) (Z.max mn m)) as [C|C]; [|injection H as <-; lia]).
  - discriminate H.
  - apply bind_ok in H. destruct H as (p & _ & H). apply bind_ok in H. destruct H as (w & _ & H). apply bind_ok in H. destruct H as (t' & _ & H).
    apply bind_ok in H. destruct H as (m' & _ & H). destruct (_ <=? _)%Z; [|exact (IH _ _ _ _ _ _ _ _ _ _ M H)].
    injection H as <-. rewrite app_length. cbn [List.length]. lia.
Qed.
Lemma filter_resample_num : forall draws err z (f : pfilter T), filter_ok f -> Forall (fun i => 0 <= i < Z.of_nat (List.length (pf_parts f)))%Z draws ->
  num_only (filter_resample draws err z f) /\ forall f', filter_resample draws err z f = Ok f' -> filter_ok f'.
Proof.
  intros draws err z f (H1 & H2 & H3) D. unfold filter_resample. destruct (dist_ok (pf_wts f)); [|split; [intros e H; injection H as <-; exact I|discriminate]].
  assert (U : forall acc : list (vec3 T * T), exists f', update_stats (with_parts f (map fst acc) (map snd acc)) = Ok f' /\ List.length (pf_wts f') = List.length (pf_parts f') /\
    List.length (pf_parts f') = List.length acc /\ pf_min f' = pf_min f).
  { intro acc. match goal with |- context [update_stats ?x] => destruct (update_stats_ok x) as (f' & E' & L & P & M & _) end.
    - cbn [pf_wts pf_parts with_parts]. rewrite !map_length. reflexivity.
    - exists f'. split; [exact E'|]. rewrite L, P, M. cbn [pf_wts pf_parts pf_min with_parts]. rewrite !map_length. auto. }
  split.
  - apply num_bind; [apply resample_loop_num; assumption|]. intros acc _. destruct (U acc) as (f' & E & _). rewrite E. apply num_ok.
  - intros f' H. apply bind_ok in H. destruct H as (acc & E & H). destruct (U acc) as (f2 & E2 & L1 & L2 & L3). rewrite E2 in H. injection H as <-.
    split; [exact L1|]. rewrite L2, L3. split; [exact H2|]. exact (resample_loop_some _ _ _ _ _ _ _ _ _ _ _ H2 E).
Qed.

(** ** The laser callback *)
Lemma sweep_num : forall n (dt : T), num_only (sweep_ns n dt).
Proof.
  intros n dt f H. unfold sweep_ns, cast_int64 in H. match type of H with context [ntrunc ?x] => destruct (ntrunc x) as [z|] end; [destruct (_ && _)%bool|];
    try discriminate H; injection H as <-; exact I.
Qed.
Lemma scan_points_num : forall inv (r : T) laser odom e m, lr_ranges m <> [] -> num_only (scan_points inv r laser odom e m).
Proof.
  intros inv r laser odom e m N. unfold scan_points. destruct inv; [|apply num_ok].
  destruct (List.length (lr_ranges m)) as [|k] eqn:L; [destruct (lr_ranges m); [contradiction|discriminate L]|].
  match goal with |- num_only (inverted_points _ _ _ ?t ?per _) => generalize t, per end. intros t per.
  assert (K : (k < List.length (lr_ranges m))%nat) by lia. clear L. induction k as [|k IH]; cbn [inverted_points]; [apply num_ok|].
  apply num_bind; [apply num_vec; lia|]. intros x _. apply num_bind; [apply IH; lia|]. intros more _. destruct (skipped r x); apply num_ok.
Qed.
Lemma window_ok : forall {X} depth (scans : list X), (9 <= depth)%Z -> (Z.of_nat (List.length scans) < 2 ^ 31)%Z -> exists before w, rolling_window depth scans = Ok w /\ scans = before ++ w.
Proof.
  intros X depth scans D B. unfold rolling_window. set (n := Z.of_nat (List.length scans)) in *.
  destruct (Z.leb_spec n depth) as [C|C].
  - destruct (Z.leb_spec 0 n) as [_|E]; [|unfold n in E; lia]. exists [], scans. split; reflexivity.
  - rewrite wrap64_small by lia. destruct (Z.leb_spec (n - 10) n) as [_|E]; [|lia].
    exists (firstn (Z.to_nat (n - 10)) scans), (skipn (Z.to_nat (n - 10)) scans). split; [reflexivity|]. symmetry. apply firstn_skipn.
Qed.

End P.
