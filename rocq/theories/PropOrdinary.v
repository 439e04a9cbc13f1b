(** Property C155: a node whose numbers are of an ordinary size never fails. *)

From Coq Require Import ZArith Reals List Bool String Lia Lra.
From Flocq Require Import Core BinarySingleNaN.
From Verif Require Import Outcome Arith TypesModel CellModel ScanModel NdtModel MatcherModel ConstraintModel
  SolverModel GraphModel OccGridModel KdModel MotionModel FilterModel LaserModel MapperModel SpecMapper SpecMapper2 SpecMapper4 SpecSafe SpecGraph
  SpecPlace64 SpecAngle64 SpecMapSafe64 SpecWeights64 SpecResample64 SpecFilterSafe64 SpecOrdinary
  NdtProofs MatcherProofs FilterProofs FilterProofs2 GraphProofs MapperProofs MapperSteps MapperInv1 MapperInv2 MapperInv3 MapperInv5 MapperInv6 MapperInv9 MapperInv10 SafeProofs SafeInv
  PropLaser PropMapSafe64 PropStart PropWeights64 PropResample64 PropFilterSafe64 MapperWitness2 PropMapper3 PropSafe B64Lemmas NearestB64 PropAngle64 HalfAngle.
Import ListNotations.
Local Open Scope outcome_scope.
Local Open Scope R_scope.

(** ** Outcomes without numeric failures *)
Definition quiet {X} (o : outcome X) : Prop := forall f, o = Fault f -> ~ numeric f.
Lemma quiet_ok {X} (x : X) : quiet (Ok x). Proof. intros f H. discriminate H. Qed.
Lemma quiet_bind {X Y} (o : outcome X) (k : X -> outcome Y) : quiet o -> (forall x, o = Ok x -> quiet (k x)) -> quiet (bind o k).
Proof. intros Q K f H. apply bind_fault in H. destruct H as [H|(x & E & H)]; [exact (Q f H)|exact (K x E f H)]. Qed.
Lemma quiet_exists {X} (o : outcome X) : (exists x, o = Ok x) -> quiet o.
Proof. intros (x & ->). apply quiet_ok. Qed.
Lemma quiet_vec {X} (v : list X) i : quiet (vec_get v i).
Proof.
  unfold vec_get. destruct (_ <? 0)%Z; [intros f H; injection H as <-; intro N; exact N|].
  destruct (nth_error v (Z.to_nat i)); [apply quiet_ok|intros f H; injection H as <-; intro N; exact N].
Qed.
Lemma quiet_mapM {X Y} (f : X -> outcome Y) xs : (forall x, quiet (f x)) -> quiet (mapM f xs).
Proof.
  intro H. induction xs as [|x xs IH]; cbn [mapM]; [apply quiet_ok|].
  apply quiet_bind; [apply H|]. intros y _. apply quiet_bind; [exact IH|]. intros ys _. apply quiet_ok.
Qed.

(** ** Matchers *)
Lemma loop_values_more (lm : libm) (size res : b64) (n : nat) : forall d ds, loop_values (A := BA lm) n d size res = Ok ds ->
  forall n', (n <= n')%nat -> loop_values (A := BA lm) n' d size res = Ok ds.
Proof.
  induction n as [|n IH]; intros d ds H n' L; [discriminate H|]. destruct n' as [|n']; [lia|]. cbn [loop_values] in *.
  destruct (nlt d size); [|exact H]. apply bind_ok in H. destruct H as (ds' & E & H). rewrite (IH _ _ E n' ltac:(lia)). exact H.
Qed.

Lemma match_fuel (lm : libm) (n n' : nat) (k : matcher b64) (s : scan b64) (p : pose b64) (cov : mat3 b64) (ds1 ds2 : list b64) :
  loop_values (A := BA lm) n (nopp (Arith := BA lm) (k_lin_size k)) (k_lin_size k) (k_lin_res k) = Ok ds1 ->
  loop_values (A := BA lm) n (nopp (Arith := BA lm) (k_ang_size k)) (k_ang_size k) (k_ang_res k) = Ok ds2 -> (n <= n')%nat ->
  match_scan (A := BA lm) n' k s p cov = match_scan (A := BA lm) n k s p cov.
Proof.
  intros H1 H2 L. unfold match_scan. destruct (k_ndt k); [|reflexivity].
  rewrite (loop_values_more lm _ _ n _ _ H2 n' L), (loop_values_more lm _ _ n _ _ H1 n' L), H1, H2. reflexivity.
Qed.

(** ** What the steps do to the matchers and to the filter *)
Section Pair.
Context {T : Type} {A : Arith T} (cf : config T) (Bt : matcher T -> Prop) (Gd : pfilter T -> Prop).

Definition fine_pair (s : shared T) (sp : spin T) : Prop :=
  (forall k, sp_local sp = Some k -> Bt k) /\ (forall k, sh_global s = Some k -> Bt k) /\ (forall f, sp_filter sp = Some f -> Gd f).

Definition new_matchers (s : shared T) (r : T) : Prop :=
  Bt (en_local cf r) /\ Bt (en_global cf r) /\
  (forall scans g, graph_scans s = Ok scans -> add_scans (en_eig cf) (en_global cf r) scans = Ok g -> Bt g).

Lemma learn_fine s sp e s1 sp1 : fine_pair s sp -> new_matchers s (sp_range_max sp) ->
  learn_laser cf s sp e = Ok (Some (s1, sp1)) -> fine_pair s1 sp1.
Proof.
  intros (Q1 & Q2 & Q3) (Bl & Bg & C) H. unfold learn_laser in H.
  destruct (sp_frame sp =? "")%string; [|injection H as <- <-; exact (conj Q1 (conj Q2 Q3))].
  destruct (le_laser e) as [t|]; [|discriminate H]. cbv zeta in H.
  destruct (use_filter cf || negb (sh_enable s)).
  - apply bind_ok in H. destruct H as (scans & G & H). apply bind_ok in H. destruct H as (g' & Ma & H). injection H as <- <-.
    split; [|split]; cbn [sp_local sp_filter sh_global set_global].
    + intros k E. injection E as <-. exact Bl.
    + intros k E. injection E as <-. exact (C scans g' G Ma).
    + exact Q3.
  - injection H as <- <-. split; [|split]; cbn [sp_local sp_filter sh_global set_global].
    + intros k E. injection E as <-. exact Bl.
    + intros k E. injection E as <-. exact Bg.
    + exact Q3.
Qed.

Lemma laser_fine s sp e s' sp' : fine_pair s sp -> new_matchers s (range_of sp e) ->
  laser_begin cf s sp e = Ok (s', sp') -> fine_pair s' sp'.
Proof.
  intros Q R H. unfold laser_begin in H. apply bind_ok in H. destruct H as (r & L & H).
  destruct r as [[s1 sp1]|]; [|injection H as <- <-; exact Q].
  assert (Q1 : fine_pair s1 sp1) by (apply (learn_fine s (learn_range sp (le_msg e)) e); [exact Q|exact R|exact L]).
  destruct (sh_init s1); [|injection H as <- <-; exact Q1].
  destruct (le_start e) as [start|]; [|injection H as <- <-; exact Q1].
  destruct (guess_pose cf s1 (from_msg start)) as [guess|]; [|injection H as <- <-; exact Q1].
  apply bind_ok in H. destruct H as (ns & _ & H).
  destruct (le_end e ns) as [end_|]; [|injection H as <- <-; exact Q1].
  apply bind_ok in H. destruct H as (pts & _ & H). unfold alloc in H. cbv beta iota zeta in H. injection H as <- <-. exact Q1.
Qed.

Lemma pose_fine s sp e s' sp' : fine_pair s sp ->
  (forall x y th sx sy sth f f', sp_filter sp = Some f -> filter_init (pe_normal e) x y th sx sy sth f = Ok f' -> Gd f') ->
  pose_begin s sp e = Ok (s', sp') -> fine_pair s' sp'.
Proof.
  intros Q K H. unfold pose_begin in H.
  destruct (sh_enable s && sh_init s); [injection H as <- <-; exact Q|].
  destruct (negb (pe_frame e =? "map")%string); [injection H as <- <-; exact Q|].
  destruct (pe_odom e) as [t|]; [|injection H as <- <-; exact Q].
  destruct (sp_filter sp) as [f|] eqn:F.
  - apply bind_ok in H. destruct H as (f' & E & H). injection H as <- <-. destruct Q as (Q1 & Q2 & Q3).
    split; [exact Q1|split; [exact Q2|]]. intros k J. cbn [sp_filter at_pc with_filter] in J. injection J as <-.
    exact (K _ _ _ _ _ _ f f' eq_refl E).
  - destruct (sh_enable s); injection H as <- <-; exact Q.
Qed.

Lemma pair_step m l m' : (9 <= cf_depth cf)%Z -> (num_scans (mp_sh m) < 2 ^ 31)%Z -> fine_pair (mp_sh m) (mp_spin m) ->
  (forall e, l = Deliver (EvLaser e) -> new_matchers (mp_sh m) (range_of (mp_spin m) e)) ->
  (forall e x y th sx sy sth f f', l = Deliver (EvPose e) -> sp_filter (mp_spin m) = Some f -> filter_init (pe_normal e) x y th sx sy sth f = Ok f' -> Gd f') ->
  (forall p odom n d s' sp' f', l = Spin -> sp_pc (mp_spin m) = SFilter p odom n d -> filter_callback cf (mp_sh m) (mp_spin m) p n d = Ok (s', sp') -> sp_filter sp' = Some f' -> Gd f') ->
  (forall k k' scans before some after, Bt k -> graph_scans (mp_sh m) = Ok scans -> scans = before ++ some ++ after -> add_scans (en_eig cf) (matcher_reset k) some = Ok k' -> Bt k') ->
  step cf l m = Some (Ok m') -> fine_pair (mp_sh m') (mp_spin m').
Proof.
  intros Dp Nb F Hl Hp Hf Ha H.
  destruct l as [e| | |]; cbn [step] in H.
  - destruct (deliver cf (mp_sh m) (mp_spin m) e) as [o|] eqn:E; [|discriminate H]. cbn [option_map] in H. injection H as H.
    apply bind_ok in H. destruct H as ([s sp] & -> & H). injection H as <-. cbn [mp_sh mp_spin]. unfold deliver in E.
    destruct (sp_pc (mp_spin m)); try discriminate E. injection E as E. destruct e as [e|e|a file].
    + exact (laser_fine (mp_sh m) (mp_spin m) e s sp F (Hl e eq_refl) E).
    + refine (pose_fine (mp_sh m) (mp_spin m) e s sp F _ E). intros x y th sx sy sth f f'. exact (Hp e x y th sx sy sth f f' eq_refl).
    + rewrite configure_eq in E. injection E as <- <-. exact F.
  - destruct (spin_step cf (mp_sh m) (mp_spin m)) as [o|] eqn:E; [|discriminate H]. cbn [option_map] in H. injection H as H.
    apply bind_ok in H. destruct H as ([s sp] & -> & H). injection H as <-. cbn [mp_sh mp_spin].
    destruct (sp_pc (mp_spin m)) as [|p odom n d| | | | | | | | | | | | | | | | | | ] eqn:Pc; [unfold spin_step in E; rewrite Pc in E; discriminate E|idtac|..].
    { unfold spin_step in E. rewrite Pc in E. injection E as E. apply bind_ok in E. destruct E as ([s1 sp1] & E & K). injection K as <- <-.
      pose proof (Hf p odom n d s1 sp1) as K. destruct F as (F1 & F2 & _). split; [|split]; cbn [sp_local sp_filter at_pc].
      - unfold filter_callback in E. apply bind_ok in E. destruct E as (sc & _ & E). destruct (sp_filter (mp_spin m)); [|discriminate E].
        cbv zeta in E. apply bind_ok in E. destruct E as (f1 & _ & E). destruct (sh_global (mp_sh m)); [|discriminate E].
        apply bind_ok in E. destruct E as (f2 & _ & E). apply bind_ok in E. destruct E as (f3 & _ & E). injection E as <- <-. exact F1.
      - unfold filter_callback in E. apply bind_ok in E. destruct E as (sc & _ & E). destruct (sp_filter (mp_spin m)); [|discriminate E].
        cbv zeta in E. apply bind_ok in E. destruct E as (f1 & _ & E). destruct (sh_global (mp_sh m)) eqn:Eg; [|discriminate E].
        apply bind_ok in E. destruct E as (f2 & _ & E). apply bind_ok in E. destruct E as (f3 & _ & E). injection E as <- <-.
        cbn [sh_global put set_heap]. rewrite Eg. exact F2.
      - intros f' J. exact (K f' eq_refl eq_refl E J). }
    all: apply spin_cases in E; destruct E; try congruence; try exact F.
    + (* match *) destruct F as (F1 & F2 & F3). split; [|split]; cbn [sp_local sp_filter with_local at_pc sh_global put set_heap set_typical]; [|exact F2|exact F3].
      intros k J. injection J as <-.
      match goal with Ma : add_scans _ (matcher_reset ?k0) ?w = Ok _, Lo : sp_local _ = Some ?k0, W : rolling_window _ ?sc = Ok ?w, Gs : graph_scans _ = Ok ?sc |- _ =>
        destruct (SafeProofs.window_ok (cf_depth cf) sc) as (before & w' & Ew & Sg);
        [exact Dp|apply mapM_length in Gs; unfold num_scans in Nb; lia|]; rewrite Ew in W; injection W as ->;
        refine (Ha k0 _ sc before w [] (F1 k0 Lo) Gs _ Ma); rewrite app_nil_r; exact Sg end.
    + match goal with |- context [if ?b then _ else _] => destruct b end; exact F.
  - destruct (loop_step cf (mp_sh m) (mp_loop m)) as [o|] eqn:E; [|discriminate H]. cbn [option_map] in H. injection H as H.
    apply bind_ok in H. destruct H as ([s lo] & -> & H). injection H as <-. cbn [mp_sh mp_spin]. apply loop_cases in E.
    destruct E; try exact F.
    + destruct F as (F1 & F2 & F3). split; [exact F1|split; [|exact F3]]. cbn [sh_global unlock_g set_glock set_global]. intros k J. injection J as <-.
      match goal with Ma : add_scans _ (matcher_reset ?k0) ?w = Ok _, Lo : sh_global _ = Some ?k0, W : region _ _ ?sc = Ok ?w, Gs : graph_scans _ = Ok ?sc |- _ =>
        unfold region in W; destruct (_ <=? _)%nat in W; [|discriminate W]; injection W as W;
        match type of W with firstn ?n (skipn ?b _) = _ => destruct (segment sc b n) as (x & y & Sg) end; rewrite W in Sg;
        exact (Ha k0 _ sc x w y (F2 k0 Lo) Gs Sg Ma) end.
    + match goal with |- context [put_all ?a ?b ?c] => destruct (put_all_frame b c a) as (h & ->) end. exact F.
  - destruct (pub_step cf (mp_sh m) (mp_pub m)) as [o|] eqn:E; [|discriminate H]. cbn [option_map] in H. injection H as H.
    apply bind_ok in H. destruct H as ([s lo] & -> & H). injection H as <-. cbn [mp_sh mp_spin]. apply pub_cases in E.
    destruct E; exact F.
Qed.

Lemma init_pair m : (forall mn mx mo f, cf_filter cf = Some (mn, mx, mo) -> filter_new mn mx mo = Ok f -> Gd f) ->
  mapper_init cf = Ok m -> fine_pair (mp_sh m) (mp_spin m).
Proof.
  intros S H. pose proof (init_cases cf m H) as (s & f & E & _ & Es). unfold fine_pair. rewrite E. cbn [mp_sh mp_spin sp_local sp_filter].
  assert (G : sh_global s = None) by (rewrite Es; destruct (cf_file cf); reflexivity). rewrite G.
  split; [discriminate|split; [discriminate|]]. intros g J. subst f. unfold mapper_init in H. apply bind_ok in H. destruct H as (f & F & H).
  destruct (cf_filter cf) as [[[mn mx] mo]|].
  - apply bind_ok in F. destruct F as (f0 & F & F'). injection F' as <-. apply (S mn mx mo f0 eq_refl) in F.
    injection H as H. rewrite E in H. apply (f_equal (fun x => sp_filter (mp_spin x))) in H. cbn [mp_spin sp_filter] in H. injection H as <-. exact F.
  - injection F as <-. injection H as H. rewrite E in H. apply (f_equal (fun x => sp_filter (mp_spin x))) in H. discriminate H.
Qed.
End Pair.

(** ** Steps without numeric failures *)
Section Steps.
Context {T : Type} {A : Arith T} (cf : config T).
Notation qf o := (forall f, o = Some (Fault f) -> ~ numeric f).

Lemma quiet_some {X} (o : outcome X) : quiet o -> qf (Some o).
Proof. intros Q f H. injection H as H. exact (Q f H). Qed.
Lemma quiet_lock_g {X} (s : shared T) t (k : shared T -> X) : qf (lock_g s t k).
Proof. intros f H. exfalso. revert H. apply lock_g_nofault. Qed.
Lemma quiet_lock_p {X} (s : shared T) t (k : shared T -> X) : qf (lock_p s t k).
Proof. intros f H. exfalso. revert H. apply lock_p_nofault. Qed.
Lemma quiet_graph_scans (s : shared T) : quiet (graph_scans s).
Proof. apply quiet_mapM. intro p. apply quiet_vec. Qed.
Lemma quiet_the_graph (s : shared T) : quiet (the_graph cf s).
Proof. apply quiet_bind; [apply quiet_graph_scans|intros; apply quiet_ok]. Qed.
Lemma quiet_nearest g (sc : scan T) d limit : quiet (find_nearest (en_search cf) g sc d limit).
Proof.
  unfold find_nearest. apply quiet_bind; [|intros; apply quiet_ok]. apply quiet_mapM. intro i. apply quiet_bind; [apply quiet_vec|intros; apply quiet_ok].
Qed.
Lemma quiet_points inv (r : T) laser odom e m : quiet (scan_points inv r laser odom e m).
Proof.
  unfold scan_points. cbv zeta. destruct inv; [|apply quiet_ok]. destruct (List.length (lr_ranges m)) as [|k]; [intros f H; injection H as <-; intro N; exact N|].
  match goal with |- quiet (inverted_points _ _ _ ?t ?per _) => generalize t, per end. intros t per.
  induction k as [|k IH]; cbn [inverted_points]; [apply quiet_ok|].
  apply quiet_bind; [apply quiet_vec|]. intros x _. apply quiet_bind; [exact IH|]. intros more _. destruct (skipped r x); apply quiet_ok.
Qed.
Lemma quiet_get_msg g ms : quiet (graph_get_msg (T := T) g ms).
Proof.
  unfold graph_get_msg. apply quiet_bind; [|intros; apply quiet_ok]. generalize (ms ++ map node_marker (gr_scans g), 0%Z).
  induction (gr_constraints g) as [|c cs IH]; intro acc; cbn [foldM]; [apply quiet_ok|]. apply quiet_bind; [|intros x _; apply IH].
  apply quiet_bind; [|intros; apply quiet_ok]. unfold edge_marker. apply quiet_bind; [apply quiet_vec|]. intros b _. apply quiet_bind; [apply quiet_vec|intros; apply quiet_ok].
Qed.
Lemma quiet_null {X} : quiet (Fault NullDeref : outcome X).
Proof. intros f H. injection H as <-. intro N. exact N. Qed.
Lemma quiet_bounds {X} : quiet (Fault OutOfBounds : outcome X).
Proof. intros f H. injection H as <-. intro N. exact N. Qed.
Lemma quiet_region i r (scans : list (scan T)) : quiet (region i r scans).
Proof. unfold region. destruct (_ <=? _)%nat; [apply quiet_ok|]. intros f H. injection H as <-. intro N. exact N. Qed.
Lemma quiet_window {X} d (scans : list X) : quiet (rolling_window d scans).
Proof. unfold rolling_window. destruct (_ <=? d)%Z; destruct (_ <=? _)%Z; try apply quiet_ok; intros f H; injection H as <-; intro N; exact N. Qed.

Lemma deliver_quiet s sp e :
  (forall le scans, e = EvLaser le -> sp_frame sp = EmptyString -> use_filter cf = true \/ sh_enable s = false -> graph_scans s = Ok scans ->
     quiet (add_scans (en_eig cf) (en_global cf (range_of sp le)) scans)) ->
  (forall le, e = EvLaser le -> quiet (sweep_ns (List.length (lr_ranges (le_msg le))) (le_time_inc le))) ->
  (forall pe f x y th sx sy sth, e = EvPose pe -> sp_filter sp = Some f -> quiet (filter_init (pe_normal pe) x y th sx sy sth f)) ->
  qf (deliver cf s sp e).
Proof.
  intros Ha Hs Hp. unfold deliver. destruct (sp_pc sp); try (intros f H; discriminate H). apply quiet_some. destruct e as [e|e|a file].
  - unfold laser_begin. apply quiet_bind.
    + unfold learn_laser. change (sp_frame (learn_range sp (le_msg e))) with (sp_frame sp). destruct (String.eqb_spec (sp_frame sp) "") as [Ef|_]; [|apply quiet_ok].
      destruct (le_laser e) as [t|]; [|apply quiet_ok]. cbv zeta. destruct (use_filter cf || negb (sh_enable s)) eqn:Eu; [|apply quiet_ok].
      apply quiet_bind; [apply quiet_graph_scans|]. intros scans G. apply quiet_bind; [|intros; apply quiet_ok].
      apply (Ha e scans eq_refl Ef); [|exact G]. apply orb_prop in Eu. destruct Eu as [Eu|Eu]; [left; exact Eu|right; destruct (sh_enable s); [discriminate Eu|reflexivity]].
    + intros [[s1 sp1]|] _; [|apply quiet_ok]. destruct (sh_init s1); [|apply quiet_ok]. destruct (le_start e) as [start|]; [|apply quiet_ok].
      destruct (guess_pose cf s1 (from_msg start)); [|apply quiet_ok]. apply quiet_bind; [exact (Hs e eq_refl)|]. intros ns _. destruct (le_end e ns); [|apply quiet_ok].
      apply quiet_bind; [apply quiet_points|]. intros pts _. unfold alloc. apply quiet_ok.
  - unfold pose_begin. destruct (sh_enable s && sh_init s); [apply quiet_ok|]. destruct (negb _); [apply quiet_ok|]. destruct (pe_odom e) as [t|]; [|apply quiet_ok].
    destruct (sp_filter sp) as [f|] eqn:F; [|destruct (sh_enable s); apply quiet_ok].
    cbv zeta. apply quiet_bind; [|intros; apply quiet_ok]. exact (Hp e f _ _ _ _ _ _ eq_refl eq_refl).
  - rewrite configure_eq. apply quiet_ok.
Qed.

Lemma spin_quiet s sp :
  (forall p odom n d, sp_pc sp = SFilter p odom n d -> quiet (filter_callback cf s sp p n d)) ->
  (forall p odom k scans w, sp_pc sp = SMatch p odom -> sh_scans s <> [] -> sp_local sp = Some k -> graph_scans s = Ok scans -> rolling_window (cf_depth cf) scans = Ok w ->
     quiet (add_scans (en_eig cf) (matcher_reset k) w) /\
     forall k' sc, add_scans (en_eig cf) (matcher_reset k) w = Ok k' -> deref (sh_heap s) p = Ok sc ->
       quiet (score_scan k' sc) /\ quiet (match_scan (en_fuel cf) k' sc pose0 (en_garbage cf))) ->
  (forall p odom g sc, sp_pc sp = STrack p odom -> sh_global s = Some g -> deref (sh_heap s) p = Ok sc ->
       quiet (score_scan g sc) /\ quiet (match_scan (en_fuel cf) g sc pose0 (en_garbage cf))) ->
  qf (spin_step cf s sp).
Proof.
  intros Hf Hm Ht. unfold spin_step.
  destruct (sp_pc sp) as [|p odom n d|p odom|p odom cov|p odom c|p odom c|p odom|p odom|p odom|p odom upd|p odom upd|e odom|e odom|r o|r o|r o|file|file| |] eqn:Pc;
    try (intros f H; discriminate H); try apply quiet_lock_g; try apply quiet_lock_p; try (apply quiet_some; apply quiet_ok).
  - apply quiet_some. apply quiet_bind; [exact (Hf p odom n d eq_refl)|]. intros [s' sp'] _. apply quiet_ok.
  - destruct (sh_scans s) as [|b bs] eqn:Es; [apply quiet_some; apply quiet_ok|]. apply quiet_some. apply quiet_bind; [|intros [[s' sp'] cov] _; apply quiet_ok].
    unfold local_match. apply quiet_bind; [apply quiet_graph_scans|]. intros scans G. apply quiet_bind; [apply quiet_window|]. intros w W.
    destruct (sp_local sp) as [k|] eqn:Ek; [|apply quiet_null]. destruct (Hm p odom k scans w eq_refl ltac:(discriminate) eq_refl G W) as [Qa Qm].
    apply quiet_bind; [exact Qa|]. intros k' Ma. apply quiet_bind; [apply quiet_vec|]. intros sc E. destruct (Qm k' sc Ma E) as [Q1 Q2].
    apply quiet_bind; [exact Q1|]. intros u _. apply quiet_bind; [exact Q2|]. intros [[score corr] cov] _. apply quiet_ok.
  - apply quiet_some. apply quiet_bind; [destruct (rev (sh_scans s)); [apply quiet_bounds|apply quiet_vec]|]. intros back _.
    apply quiet_bind; [apply quiet_vec|intros; apply quiet_ok].
  - apply quiet_some. apply quiet_bind; [|intros; apply quiet_ok]. unfold track_match. apply quiet_bind; [apply quiet_vec|]. intros sc E.
    destruct (sh_global s) as [g|] eqn:Eg; [|apply quiet_null]. destruct (Ht p odom g sc eq_refl eq_refl E) as [Q1 Q2].
    apply quiet_bind; [exact Q1|]. intros u _. apply quiet_bind; [exact Q2|]. intros [[score corr] cov] _. apply quiet_ok.
  - apply quiet_some. apply quiet_bind; [apply quiet_vec|]. intros; apply quiet_ok.
  - apply quiet_some. apply quiet_bind; [|intros [s' ok] _; apply quiet_ok]. unfold pose_graph. apply quiet_bind; [apply quiet_the_graph|]. intros g _. cbv zeta.
    apply quiet_bind; [apply quiet_nearest|]. intros near _. destruct near as [|i rest]; [apply quiet_ok|]. unfold alloc. cbv beta iota zeta.
    apply quiet_bind; [apply quiet_vec|intros; apply quiet_ok].
  - apply quiet_some. apply quiet_bind; [apply quiet_the_graph|intros; apply quiet_ok].
Qed.

Lemma loop_quiet s lo :
  (forall c i scans reg g, lp_pc lo = LRegion c i -> graph_scans s = Ok scans -> region i (rolling_start cf lo) scans = Ok reg -> sh_global s = Some g ->
     quiet (add_scans (en_eig cf) (matcher_reset g) reg)) ->
  (forall c i cand g sc, lp_pc lo = LMatch c i cand -> sh_global s = Some g -> deref (sh_heap s) (lc_scan c) = Ok sc ->
     quiet (match_scan (en_fuel cf) g sc pose0 (en_garbage cf))) ->
  (lp_pc lo = LOptRun -> forall f, loop_step cf s lo <> Some (Fault f)) ->
  qf (loop_step cf s lo).
Proof.
  intros Hr Hm Ho. destruct (lp_pc lo) as [| | |num new|num new|num new|c|c i|c i cand|c i cand corr cov|c i cand cov|c k|c k|c|num new| |] eqn:Pc;
    [..|intros f H; exfalso; exact (Ho eq_refl f H)]; unfold loop_step; rewrite Pc;
    try apply quiet_lock_g; try (apply quiet_some; apply quiet_ok).
  - apply quiet_some. apply quiet_bind; [apply quiet_vec|]. intros p _. apply quiet_bind; [apply quiet_vec|]. intros sc _.
    apply quiet_bind; [apply quiet_the_graph|]. intros g _. apply quiet_bind; [apply quiet_nearest|intros; apply quiet_ok].
  - destruct (lc_rest c) as [|i rest]; [apply quiet_some; apply quiet_ok|apply quiet_lock_g].
  - apply quiet_some. apply quiet_bind; [apply quiet_graph_scans|]. intros scans G. apply quiet_bind; [apply quiet_vec|]. intros cand _.
    apply quiet_bind; [apply quiet_vec|]. intros candidate _. destruct (s_pts candidate); [apply quiet_ok|].
    apply quiet_bind; [apply quiet_region|]. intros reg R. destruct (sh_global s) as [g|] eqn:Eg; [|apply quiet_null].
    apply quiet_bind; [exact (Hr c i scans reg g eq_refl G R eq_refl)|intros; apply quiet_ok].
  - apply quiet_some. apply quiet_bind; [apply quiet_vec|]. intros sc E. destruct (sh_global s) as [g|] eqn:Eg; [|apply quiet_null].
    apply quiet_bind; [exact (Hm c i cand g sc eq_refl eq_refl E)|]. intros [[score corr] cov] _. cbv zeta. destruct (_ && _); apply quiet_ok.
  - apply quiet_some. apply quiet_bind; [apply quiet_vec|intros; apply quiet_ok].
  - apply quiet_some. apply quiet_bind; [apply quiet_vec|]. intros x _. apply quiet_bind; [apply quiet_vec|intros; apply quiet_ok].
Qed.

Lemma pub_quiet s p : pb_pc p <> PGrid -> qf (pub_step cf s p).
Proof.
  intro D. unfold pub_step. destruct (pb_pc p) as [| | | | | | | | |r|r o] eqn:Pc; try apply quiet_lock_g; try apply quiet_lock_p; try (apply quiet_some; apply quiet_ok).
  - contradiction D; reflexivity.
  - apply quiet_some. apply quiet_bind; [apply quiet_the_graph|]. intros g _. apply quiet_bind; [apply quiet_get_msg|intros; apply quiet_ok].
Qed.
End Steps.


Section P.
Context (lm : libm) (M N P : R) (cf : config b64).
Context (Tr : accurate_trig lm) (Fm : exact_fmod lm) (M1 : 1 <= M <= bpow radix2 26) (N1 : 1 <= N) (P1 : 0 <= P) (PN : P + 2 * N <= M).
Context (Su : suitable lm M cf).
Local Existing Instance BA | 0.
Let A : Arith b64 := BA lm.
Local Existing Instance A.

Lemma HM : usual_size M.
Proof.
  split.
  - apply Rle_trans with 1; [change 1 with (bpow radix2 0); apply bpow_le; lia|lra].
  - apply Rle_trans with (1 := proj2 M1). apply bpow_le. lia.
Qed.

Definition built (k : matcher b64) : Prop :=
  matcher_suits lm M (en_fuel cf) k /\
  (k_ndt k = None \/ exists k0 scans, matcher_suits lm M (en_fuel cf) k0 /\ scans <> [] /\ Forall (scan_upto M) scans /\ add_scans (en_eig cf) k0 scans = Ok k).

Lemma suits_ndt (k : matcher b64) g : matcher_suits lm M (en_fuel cf) k -> matcher_suits lm M (en_fuel cf) (with_ndt k g).
Proof. intro H. exact H. Qed.

Lemma no_scans (k : matcher b64) : matcher_suits lm M (en_fuel cf) k -> forall k', add_scans (en_eig cf) k [] <> Ok k'.
Proof.
  intros ((_ & R1 & _) & R2 & _) k' H. unfold A in H. rewrite (C15_every_cell_size_refuted lm (en_eig cf) k) in H; [discriminate H|].
  split; [exact R1|]. apply Rle_trans with (1 := R2). apply bpow_le. lia.
Qed.

Lemma suits_add (k k' : matcher b64) scans : matcher_suits lm M (en_fuel cf) k -> Forall (scan_upto M) scans -> add_scans (en_eig cf) k scans = Ok k' -> built k'.
Proof.
  intros S F E. split.
  - unfold add_scans in E. apply bind_ok in E. destruct E as (g0 & _ & E). apply bind_ok in E. destruct E as (g1 & _ & E). injection E as <-. exact S.
  - right. exists k, scans. split; [exact S|]. split; [|split; [exact F|exact E]].
    intros ->. exact (no_scans _ S k' E).
Qed.
Lemma built_add (k k' : matcher b64) scans : built k -> Forall (scan_upto M) scans -> add_scans (en_eig cf) (matcher_reset k) scans = Ok k' -> built k'.
Proof. intros [S _]. exact (suits_add (matcher_reset k) k' scans (suits_ndt k None S)). Qed.

Lemma add_ok (k : matcher b64) scans : matcher_suits lm M (en_fuel cf) k -> scans <> [] -> Forall (scan_upto M) scans -> exists k', add_scans (en_eig cf) k scans = Ok k'.
Proof. intros S Ne F. apply (C145_build lm M); [exact Tr|exact HM|exact (proj1 S)|exact Ne|exact F]. Qed.

Definition fine_scan (sc : scan b64) : Prop :=
  scan_upto M sc /\ upto (bpow radix2 400) (poth (s_pose sc)) /\ (Z.of_nat (List.length (s_pts sc)) <= 2 ^ 52)%Z.

Lemma score_ok (k : matcher b64) (pts : list (point b64)) (p : pose b64) : built k -> Forall (point_upto M) pts -> (Z.of_nat (List.length pts) <= 2 ^ 52)%Z ->
  pose_upto M p -> exists v, score_points k pts p = Ok v.
Proof.
  intros [S [E|(k0 & scans & S0 & Ne & F & E)]] Q L Hp.
  - unfold score_points. rewrite E. eexists. reflexivity.
  - apply (C145_score lm M (en_eig cf) k0 k scans); try assumption; [exact HM|apply S0|apply S0].
Qed.

Lemma match_ok (k : matcher b64) (sc : scan b64) (p : pose b64) (cov : mat3 b64) : built k -> fine_scan sc ->
  exists r, match_scan (en_fuel cf) k sc p cov = Ok r.
Proof.
  intros [S [E|(k0 & scans & S0 & Ne & F & E)]] (Q & H & L).
  - unfold match_scan. rewrite E. eexists. reflexivity.
  - destruct S0 as (S1 & S2 & S3 & S4 & S5 & _).
    destruct (C145_match lm M (en_eig cf) k0 k scans sc Tr HM S1 Ne F E Q H S3 L S4 S5) as (n & W).
    destruct S as (_ & _ & _ & _ & _ & (ds1 & L1) & (ds2 & L2)).
    destruct (W (S n + en_fuel cf)%nat p cov ltac:(lia)) as (r & Er). exists r.
    rewrite (match_fuel lm (en_fuel cf) (S n + en_fuel cf) k sc p cov ds1 ds2 L1 L2 ltac:(lia)) in Er. exact Er.
Qed.

(** ** The invariant *)
Definition fine_inv (m : mapper b64) : Prop :=
  (forall k, sp_local (mp_spin m) = Some k -> built k) /\ (forall k, sh_global (mp_sh m) = Some k -> built k) /\
  (forall f, sp_filter (mp_spin m) = Some f -> good f).

Lemma scans_fine (s : shared b64) (scans : list (scan b64)) : (forall p sc, nth_error (sh_heap s) p = Some sc -> fine_scan sc) ->
  graph_scans s = Ok scans -> Forall fine_scan scans.
Proof.
  intros H G. apply Forall_forall. intros sc I. apply In_nth_error in I. destruct I as (i & E).
  destruct (graph_scans_nth' s scans i sc G E) as (p & _ & Hp). exact (H p sc Hp).
Qed.

Lemma fine_upto (scans : list (scan b64)) : Forall fine_scan scans -> Forall (scan_upto M) scans.
Proof. apply Forall_impl. intros sc H. apply H. Qed.

Lemma Forall_sub {X} (Q : X -> Prop) (a b c : list X) : Forall Q (a ++ b ++ c) -> Forall Q b.
Proof. rewrite !Forall_app. tauto. Qed.

Lemma learned (r : b64) : upto M r -> 0 <= B2R r -> built (en_local cf r) /\ built (en_global cf r).
Proof.
  intros U L. destruct Su as (_ & _ & Fr & H). destruct (H r U L) as [H1 H2]. destruct (Fr r) as [F1 F2].
  split; (split; [assumption|left; assumption]).
Qed.

Lemma cells_ok (k : matcher b64) (scans : list (scan b64)) : matcher_suits lm M (en_fuel cf) k -> Forall (scan_upto M) scans -> cells_fit k scans.
Proof.
  intros S F. destruct scans as [|s0 rest].
  - intros g E. exfalso. apply (no_scans k S (with_ndt k (Some (ndt_compute (en_eig cf) g)))). unfold add_scans. cbv zeta in E. rewrite E. reflexivity.
  - destruct (build_placed lm M (en_eig cf) k (s0 :: rest) Tr HM (proj1 S) ltac:(discriminate) F) as (g & E & Pl & _).
    intros g0 E0. unfold add_scans in E. cbv zeta in E0. fold A in E. rewrite E0 in E. cbn [bind] in E.
    apply bind_ok in E. destruct E as (g1 & E1 & E). injection E as E.
    assert (G : same_geom g0 g).
    { rewrite <- E. apply same_geom_trans with g1; [|apply ndt_compute_geom]. clear - E1. revert g0 E1.
      induction (s0 :: rest) as [|s l IH]; intros g0 E1; cbn [foldM] in E1; [injection E1 as <-; apply same_geom_refl|].
      apply bind_ok in E1. destruct E1 as (h & Eh & E1). apply same_geom_trans with h; [exact (ndt_add_scan_geom _ _ _ Eh)|exact (IH _ E1)]. }
    apply (same_geom_wf g g0) in Pl; [|apply same_geom_sym; exact G]. apply Pl.
Qed.

(** ** The conditions of C103 follow *)
Context (Sr : search_in_range (en_search cf)) (Ch : chained_start cf) (Go : good_start cf).

Lemma sane_cf : sane cf.
Proof. destruct Su as (D & F & _). split; [exact D|]. destruct (cf_filter cf) as [[[mn mx] mo]|]; [lia|exact I]. Qed.
Lemma fresh_cf : fresh_matchers cf.
Proof. apply Su. Qed.

Notation ord := (ordinary lm M N P cf).
Notation invs := (all_reach cf sane_cf Sr Go fresh_cf (beams_in_b64 lm)).

Lemma filter_steps m p odom normal draws f g sc : fine_inv m -> ord m Spin -> sp_pc (mp_spin m) = SFilter p odom normal draws ->
  sp_filter (mp_spin m) = Some f -> sh_global (mp_sh m) = Some g -> nth_error (sh_heap (mp_sh m)) p = Some sc ->
  let d := robot_delta (sh_robot (mp_sh m)) (s_pose sc) in
  exists f1 f2 f3, filter_update normal (v0 d) (v1 d) (v2 d) f = Ok f1 /\ filter_measure (score_points g (s_pts sc)) f1 = Ok f2 /\
    filter_resample draws (cf_kld_err cf) (cf_kld_z cf) f2 = Ok f3 /\ good f3 /\
    Forall (fun i => 0 <= i < Z.of_nat (List.length (pf_parts f)))%Z draws.
Proof.
  intros (_ & B & G) O Pc Ef Eg Es d. pose proof (B g Eg) as Bg. pose proof (G f Ef) as Gf. clear B G.
  destruct (or_step _ _ _ _ _ _ _ O p odom normal draws f g sc eq_refl Pc Ef Eg Es) as [Nn K]. fold d in K.
  pose proof (or_particles _ _ _ _ _ _ _ O f Ef) as Pf. destruct (or_scans _ _ _ _ _ _ _ O p sc Es) as (Us & _ & Ls).
  assert (U : P + 6 * N <= bpow radix2 28).
  { apply Rle_trans with (3 * M); [lra|]. replace 28%Z with (26 + 2)%Z by lia. rewrite bpow_plus. change (bpow radix2 2) with 4. pose proof (bpow_ge_0 radix2 26). destruct M1. lra. }
  destruct (step_sound lm N P f (FUpdate normal (v0 d) (v1 d) (v2 d)) Tr Fm N1 P1 ltac:(lra) (conj Gf Pf) Nn) as (f1 & E1 & S1).
  cbn [filter_step] in E1. destruct (K f1 E1) as [(K1 & K2) K3].
  assert (C2 : call_ok64 N f1 (FMeasure (score_points g (s_pts sc)))).
  { split; [|exact K2]. intros q Hq. destruct S1 as [_ S1]. rewrite Forall_forall in S1. destruct (S1 q Hq) as ((F0 & B0) & (F1 & B1) & F2 & _).
    destruct (score_ok g (s_pts sc) (mkPose (v0 q) (v1 q) (v2 q)) Bg (proj2 Us) Ls) as (v & Ev).
    { split; [split; [exact F0|cbn; lra]|]. split; [split; [exact F1|cbn; lra]|exact F2]. }
    exists v. split; [exact Ev|]. exact (K1 q v Hq Ev). }
  destruct (step_sound lm N (P + 2 * N) f1 _ Tr Fm N1 ltac:(lra) ltac:(lra) S1 C2) as (f2 & E2 & S2). cbn [filter_step] in E2.
  destruct (step_sound lm N (P + 2 * N + 2 * N) f2 _ Tr Fm N1 ltac:(lra) ltac:(lra) S2 (K3 f2 E2)) as (f3 & E3 & S3). cbn [filter_step] in E3.
  exists f1, f2, f3. split; [exact E1|]. split; [exact E2|]. split; [exact E3|]. split; [apply S3|].
  destruct (K3 f2 E2) as (_ & _ & D). eapply Forall_impl; [|exact D]. cbv beta. intros i (I0 & w & Hw & _). split; [exact I0|].
  assert (L : List.length (pf_parts f2) = List.length (pf_parts f)).
  { destruct (filter_update_ok (A := BA lm) normal (v0 d) (v1 d) (v2 d) f) as (f1' & E1' & _ & L1).
    - destruct Gf as ((Q1 & _) & Q2 & _ & Q3). split; [exact Q1|]. split; lia.
    - unfold A in E1. rewrite E1 in E1'. injection E1' as <-. rewrite <- L1. unfold filter_measure in E2. destruct (_ <? _)%nat; [discriminate E2|].
      apply bind_ok in E2. destruct E2 as (ws & _ & E2). apply (stats_parts lm) in E2. rewrite E2. reflexivity. }
  pose proof (nth_error_Some (pf_wts f2) (Z.to_nat i)) as Hs. rewrite Hw in Hs.
  assert (Z.to_nat i < List.length (pf_wts f2))%nat by (apply Hs; discriminate).
  rewrite (proj1 (proj1 (proj1 S2))), L in H. lia.
Qed.

Lemma ordinary_careful m l : all_inv cf m -> filter_pc cf m -> fine_inv m -> ord m l -> careful cf m l.
Proof.
  intros I U F O. constructor.
  - exact (or_separate _ _ _ _ _ _ _ O).
  - exact (or_markers _ _ _ _ _ _ _ O).
  - exact (or_started _ _ _ _ _ _ _ O).
  - intros k scans some K G (before & after & E).
    pose proof (fine_upto scans (scans_fine (mp_sh m) scans (or_scans _ _ _ _ _ _ _ O) G)) as Us. rewrite E in Us. apply Forall_sub in Us.
    apply cells_ok; [|exact Us]. destruct F as (F1 & F2 & _). destruct K as [K|[K|(e & El & ->)]].
    + apply (F1 k K).
    + apply (F2 k K).
    + destruct (or_laser _ _ _ _ _ _ _ O e El) as (_ & _ & R1 & R2). exact (proj1 (proj2 (learned _ R1 R2))).
  - intros p sc E. apply (or_scans _ _ _ _ _ _ _ O p sc E).
  - intros e E. apply (or_laser _ _ _ _ _ _ _ O e E).
  - intros -> p odom n draws f Pc Ef. destruct (al_id cf m I) as (_ & I2 & _). rewrite Pc in I2. cbn [spin_ok] in I2. destruct I2 as (sc & Es & _).
    destruct (laser_matchers cf m I) as [Gl _]; [rewrite Pc; reflexivity|]. destruct (sh_global (mp_sh m)) as [g|] eqn:Eg; [|contradiction Gl; reflexivity].
    destruct (filter_steps m p odom n draws f g sc F O Pc Ef Eg Es) as (f1 & f2 & f3 & _ & _ & _ & _ & D). exact D.
Qed.

Lemma init_fine m : mapper_init cf = Ok m -> fine_inv m.
Proof.
  intro H. apply (init_pair cf built good m); [|exact H]. intros mn mx mo f E Ef. destruct Su as (_ & S & _). rewrite E in S.
  exact (new_good lm mn mx mo f (proj1 S) (proj2 S) Ef).
Qed.

Lemma fine_step m l m' : all_inv cf m -> filter_pc cf m -> fine_inv m -> ord m l -> step cf l m = Some (Ok m') -> fine_inv m'.
Proof.
  intros Inv U F O H.
  assert (G : forall scans, graph_scans (mp_sh m) = Ok scans -> Forall (scan_upto M) scans).
  { intros scans Gs. apply fine_upto. exact (scans_fine (mp_sh m) scans (or_scans _ _ _ _ _ _ _ O) Gs). }
  refine (pair_step cf built good m l m' _ _ F _ _ _ _ H).
  - destruct Su. lia.
  - apply (or_separate _ _ _ _ _ _ _ O).
  - intros e ->. destruct (or_laser _ _ _ _ _ _ _ O e eq_refl) as (_ & _ & R1 & R2). destruct (learned _ R1 R2) as [Bl Bg].
    split; [exact Bl|split; [exact Bg|]]. intros scans g Gs Ma. exact (suits_add _ _ _ (proj1 Bg) (G scans Gs) Ma).
  - intros e x y th sx sy sth f f' -> Ef E. exact (step_good lm f (FInit (pe_normal e) x y th sx sy sth) f' (proj2 (proj2 F) f Ef) I E).
  - intros p odom n d s' sp' f' -> Pc E Ef'. destruct (al_id cf m Inv) as (_ & I2 & _). rewrite Pc in I2. cbn [spin_ok] in I2. destruct I2 as (sc & Es & _).
    destruct (laser_matchers cf m Inv) as [Gl _]; [rewrite Pc; reflexivity|].
    unfold filter_callback in E. pose proof Es as Es'. apply deref_nth in Es'. rewrite Es' in E. cbn [bind] in E.
    destruct (sp_filter (mp_spin m)) as [f|] eqn:Ef; [|discriminate E]. destruct (sh_global (mp_sh m)) as [g|] eqn:Eg; [|contradiction Gl; reflexivity].
    destruct (filter_steps m p odom n d f g sc F O Pc Ef Eg Es) as (f1 & f2 & f3 & E1 & E2 & E3 & G3 & _). cbv zeta in E, E1.
    rewrite E1 in E. cbn [bind] in E. rewrite E2 in E. cbn [bind] in E. rewrite E3 in E. cbn [bind] in E.
    assert (Some f3 = Some f') as Hs. { rewrite <- Ef'. apply (f_equal (fun o => match o with Ok (_, x) => sp_filter x | Fault _ => None end)) in E. exact E. }
    injection Hs as <-. exact G3.
  - intros k k' scans before some after Bk Gs E Ma. refine (built_add k k' some Bk _ Ma). pose proof (G scans Gs) as Us. rewrite E in Us. exact (Forall_sub _ _ _ _ Us).
Qed.

Lemma ordinary_reach m : reach_if cf ord m -> reach_if cf (careful cf) m /\ fine_inv m.
Proof.
  induction 1 as [m E|m l m' R [IH F] O E]; [split; [apply reach_init; exact E|apply init_fine; exact E]|].
  pose proof (invs m IH) as Inv. pose proof (filter_pc_reach cf m IH) as U.
  pose proof (ordinary_careful m l Inv U F O) as C. split; [exact (reach_step cf _ m l m' IH C E)|exact (fine_step m l m' Inv U F O E)].
Qed.

Lemma window_some {X} (depth : Z) (scans w : list X) : (9 <= depth)%Z -> (Z.of_nat (List.length scans) < 2 ^ 31)%Z -> scans <> [] ->
  rolling_window depth scans = Ok w -> w <> [].
Proof.
  intros D B Ne H. unfold rolling_window in H. set (n := Z.of_nat (List.length scans)) in *.
  destruct (Z.leb_spec n depth) as [C|C].
  - destruct (Z.leb_spec 0 n) as [_|E]; [|unfold n in E; lia]. injection H as <-. exact Ne.
  - rewrite wrap64_small in H by lia. destruct (Z.leb_spec (n - 10) n) as [_|E]; [|lia]. injection H as <-.
    intro E. apply (f_equal (@List.length X)) in E. rewrite skipn_length in E. cbn [List.length] in E. unfold n in *. lia.
Qed.

Lemma region_some (i : nat) (r : Z) (scans reg : list (scan b64)) : (i < List.length scans)%nat -> (Z.of_nat i < r)%Z -> region i r scans = Ok reg ->
  reg <> [] /\ exists before after, scans = before ++ reg ++ after.
Proof.
  intros L Hr H. unfold region in H. destruct (Z.ltb_spec (Z.of_nat i) r) as [_|E]; [|lia]. destruct (Nat.leb_spec (i + 1) (List.length scans)) as [_|E]; [|lia].
  injection H as <-. split; [|apply segment]. intro E. apply (f_equal (@List.length (scan b64))) in E. rewrite firstn_length, skipn_length in E. cbn [List.length] in E.
  destruct (Nat.ltb_spec 0 i); lia.
Qed.

Theorem ordinary_no_fault m l f : reach_if cf ord m -> ord m l -> ~ drawing m l -> step cf l m <> Some (Fault f).
Proof.
  intros R O D H. destruct (ordinary_reach m R) as [Rc F]. pose proof (invs m Rc) as Inv. pose proof (filter_pc_reach cf m Rc) as U.
  pose proof (ordinary_careful m l Inv U F O) as C.
  pose proof (only_numeric cf sane_cf Sr Ch Go fresh_cf (beams_in_b64 lm) m l f Rc C D H) as Num.
  assert (Nb : (num_scans (mp_sh m) < 2 ^ 31)%Z) by apply (or_separate _ _ _ _ _ _ _ O).
  assert (D9 : (9 <= cf_depth cf)%Z) by apply Su.
  assert (G : forall scans, graph_scans (mp_sh m) = Ok scans -> Forall (scan_upto M) scans).
  { intros scans Gs. apply fine_upto. exact (scans_fine (mp_sh m) scans (or_scans _ _ _ _ _ _ _ O) Gs). }
  assert (Sc : forall p sc, deref (sh_heap (mp_sh m)) p = Ok sc -> fine_scan sc).
  { intros p sc E. apply deref_nth in E. exact (or_scans _ _ _ _ _ _ _ O p sc E). }
  assert (Qm : forall k sc, built k -> fine_scan sc -> quiet (score_scan k sc) /\ quiet (match_scan (en_fuel cf) k sc pose0 (en_garbage cf))).
  { intros k sc Bk Fs. split; apply quiet_exists; [|exact (match_ok k sc _ _ Bk Fs)]. destruct Fs as ((Q1 & Q2) & _ & Q3). exact (score_ok k (s_pts sc) (s_pose sc) Bk Q2 Q3 Q1). }
  assert (Ls : forall scans, graph_scans (mp_sh m) = Ok scans -> List.length scans = List.length (sh_scans (mp_sh m))).
  { intros scans Gs. apply mapM_length in Gs. lia. }
  pose proof F as (F1 & F2 & F3).
  destruct l as [e| | |]; cbn [step] in H.
  - destruct (deliver cf (mp_sh m) (mp_spin m) e) as [o|] eqn:E; [|discriminate H]. cbn [option_map] in H.
    assert (o = Fault f) as ->. { destruct o as [[s sp]|f']; [discriminate H|]. cbn [bind] in H. congruence. }
    revert Num. revert f E H. intros f E _. revert f E. apply deliver_quiet.
    + intros le scans -> Ef Eu Gs. apply quiet_exists. destruct (or_laser _ _ _ _ _ _ _ O le eq_refl) as (_ & _ & R1 & R2).
      apply add_ok; [apply (learned _ R1 R2)| |exact (G scans Gs)]. intros ->. apply (or_map _ _ _ _ _ _ _ O le eq_refl Ef).
      * destruct Eu as [Eu|Eu]; [left|right; exact Eu]. unfold use_filter in Eu. destruct (cf_filter cf); [discriminate|discriminate Eu].
      * specialize (Ls [] Gs). destruct (sh_scans (mp_sh m)); [reflexivity|discriminate Ls].
    + intros le ->. apply quiet_exists. exact (proj1 (proj2 (or_laser _ _ _ _ _ _ _ O le eq_refl))).
    + intros pe f x y th sx sy sth -> Ef. apply quiet_exists.
      destruct (step_sound lm N P f (FInit (pe_normal pe) x y th sx sy sth) Tr Fm N1 P1) as (f' & E & _).
      * apply Rle_trans with M; [exact PN|]. apply Rle_trans with (1 := proj2 M1). apply bpow_le. lia.
      * split; [exact (F3 f Ef)|exact (or_particles _ _ _ _ _ _ _ O f Ef)].
      * exact (or_init _ _ _ _ _ _ _ O pe f eq_refl Ef).
      * exists f'. exact E.
  - destruct (spin_step cf (mp_sh m) (mp_spin m)) as [o|] eqn:E; [|discriminate H]. cbn [option_map] in H.
    assert (o = Fault f) as ->. { destruct o as [[s sp]|f']; [discriminate H|]. cbn [bind] in H. congruence. }
    revert Num. revert f E H. intros f E _. revert f E. apply spin_quiet.
    + intros p odom n d Pc. destruct (al_id cf m Inv) as (_ & I2 & _). rewrite Pc in I2. cbn [spin_ok] in I2. destruct I2 as (sc & Es & _).
      unfold filter_callback. pose proof Es as Es'. apply deref_nth in Es'. rewrite Es'. cbn [bind].
      destruct (sp_filter (mp_spin m)) as [f|] eqn:Ef; [|apply quiet_null]. destruct (sh_global (mp_sh m)) as [g|] eqn:Eg.
      * destruct (filter_steps m p odom n d f g sc F O Pc Ef Eg Es) as (f1 & f2 & f3 & E1 & E2 & E3 & _). cbv zeta in E1 |- *.
        rewrite E1. cbn [bind]. rewrite E2. cbn [bind]. rewrite E3. cbn [bind]. apply quiet_ok.
      * exfalso. destruct (laser_matchers cf m Inv) as [Gl _]; [rewrite Pc; reflexivity|]. exact (Gl Eg).
    + intros p odom k scans w Pc Ne Ek Gs W. pose proof (F1 k Ek) as Bk.
      assert (Ln : (Z.of_nat (List.length scans) < 2 ^ 31)%Z) by (rewrite (Ls scans Gs); exact Nb).
      assert (Nw : w <> []).
      { apply (window_some (cf_depth cf) scans w D9 Ln); [|exact W]. intros ->. specialize (Ls [] Gs). destruct (sh_scans (mp_sh m)); [contradiction Ne; reflexivity|discriminate Ls]. }
      assert (Uw : Forall (scan_upto M) w).
      { destruct (SafeProofs.window_ok (cf_depth cf) scans D9 Ln) as (before & w' & Ew & Sg). rewrite Ew in W. injection W as ->. pose proof (G scans Gs) as Us. rewrite Sg in Us. apply Forall_app in Us. apply Us. }
      split; [apply quiet_exists; exact (add_ok (matcher_reset k) w (suits_ndt k None (proj1 Bk)) Nw Uw)|].
      intros k' sc Ma E. exact (Qm k' sc (built_add k k' w Bk Uw Ma) (Sc p sc E)).
    + intros p odom g sc Pc Eg E. exact (Qm g sc (F2 g Eg) (Sc p sc E)).
  - destruct (loop_step cf (mp_sh m) (mp_loop m)) as [o|] eqn:E; [|discriminate H]. cbn [option_map] in H.
    assert (o = Fault f) as ->. { destruct o as [[s sp]|f']; [discriminate H|]. cbn [bind] in H. congruence. }
    revert Num. revert f E H. intros f E _. revert f E. apply loop_quiet.
    + intros c i scans reg g Pc Gs Rg Eg. destruct (al_id cf m Inv) as (_ & _ & _ & I3). destruct (al_wf cf m Inv) as (_ & W2). rewrite Pc in I3, W2. cbn [counted] in W2.
      destruct I3 as [(K1 & K2 & K3 & _) K4].
      assert (Li : (i < List.length (sh_scans (mp_sh m)))%nat) by (unfold num_scans in *; lia).
      rewrite (rolling_value cf) in Rg by lia. destruct (region_some i (lp_done (mp_loop m) - cf_depth cf) scans reg ltac:(rewrite (Ls scans Gs); exact Li) K4 Rg) as (Nr & before & after & Sg).
      apply quiet_exists. apply (add_ok (matcher_reset g) reg (suits_ndt g None (proj1 (F2 g Eg))) Nr). pose proof (G scans Gs) as Us. rewrite Sg in Us. exact (Forall_sub _ _ _ _ Us).
    + intros c i cand g sc Pc Eg E. exact (proj2 (Qm g sc (F2 g Eg) (Sc _ sc E))).
    + intros Pc f E. assert (Rs : reach_if cf separate m) by (apply (reach_if_mono cf (careful cf)); [intros m0 l0 C0; apply (ca_separate cf _ _ C0)|exact Rc]).
      destruct (optimizer_runs cf (Dp cf sane_cf) Sr Ch Go m Rs Nb Pc) as (m' & S). cbn [step] in S. rewrite E in S. discriminate S.
  - destruct (pub_step cf (mp_sh m) (mp_pub m)) as [o|] eqn:E; [|discriminate H]. cbn [option_map] in H.
    assert (o = Fault f) as ->. { destruct o as [[s sp]|f']; [discriminate H|]. cbn [bind] in H. congruence. }
    revert Num. revert f E H. intros f E _. revert f E. apply pub_quiet. intro Pc. apply D. split; [reflexivity|exact Pc].
Qed.
End P.

(** The node starts and no step of it fails. *)
Theorem C155_no_failure (lm : libm) (M N P : R) (cf : config b64) :
  accurate_trig lm -> exact_fmod lm -> 1 <= M <= bpow radix2 26 -> 1 <= N -> 0 <= P -> P + 2 * N <= M -> suitable lm M cf ->
  search_in_range (en_search cf) -> chained_start (A := BA lm) cf -> good_start (A := BA lm) cf ->
  (exists m, mapper_init (A := BA lm) cf = Ok m) /\
  forall m l f, reach_if (A := BA lm) cf (ordinary lm M N P cf) m -> ordinary lm M N P cf m l -> ~ drawing m l ->
    step (A := BA lm) cf l m <> Some (Fault f).
Proof.
  intros Tr Fm M1 N1 P1 PN Su Sr Ch Go. split.
  - apply (C103_node_starts (A := BA lm)). exact (sane_cf lm M cf Su).
  - intros m l f. exact (ordinary_no_fault lm M N P cf Tr Fm M1 N1 P1 PN Su Sr Ch Go m l f).
Qed.
Print Assumptions C155_no_failure.

(** ** Witness: the run of C103, a map of eleven scans whose loop is closed and
    which is optimized; then another laser message comes in.  The math library
    has correctly rounded trigonometry and an exact fmod. *)
Definition tidy (lm : libm) : libm := easy (with_nearest (with_fmod lm)).

Lemma half_value : B2R half64 = 1 / 2 /\ is_finite half64 = true.
Proof. unfold half64, b64_of. split; [|reflexivity]. vm_compute B2R. unfold F2R. cbn. lra. Qed.

Lemma tidy_trig (lm : libm) : accurate_trig (tidy lm).
Proof.
  intros x F. destruct (nearest_accurate (with_fmod lm) x F) as [Hc Hs]. destruct half_value as [Vh Fh].
  unfold tidy, easy. cbn [lm_cos lm_sin]. destruct (is0 x) eqn:Z0.
  { destruct x as [s| | |]; try discriminate Z0. cbn [B2R]. rewrite cos_0, sin_0. destruct (b64_ofZ 1 ltac:(lia)) as [V1 F1]. unfold z64. rewrite V1.
    pose proof (bpow_ge_0 radix2 (-52)). rewrite !Rminus_diag_eq, Rabs_R0 by reflexivity. repeat split; try assumption. }
  assert (E : forall y, is_finite y = true -> beq x y = true -> B2R x = B2R y).
  { intros y Fy H. unfold beq in H. rewrite Beqb_correct in H by assumption. destruct (Req_bool_spec (B2R x) (B2R y)) as [E|_]; [exact E|discriminate H]. }
  assert (C : B2R (b64_of 7904560997432656 (-53)) = 7904560997432656 / 9007199254740992 /\ is_finite (b64_of 7904560997432656 (-53)) = true).
  { split; [|reflexivity]. vm_compute B2R. unfold F2R. cbn. lra. }
  assert (S : B2R (b64_of 8636562708039152 (-54)) = 8636562708039152 / 18014398509481984 /\ is_finite (b64_of 8636562708039152 (-54)) = true).
  { split; [|reflexivity]. vm_compute B2R. unfold F2R. cbn. lra. }
  assert (S' : B2R (b64_of (-8636562708039152) (-54)) = - (8636562708039152 / 18014398509481984) /\ is_finite (b64_of (-8636562708039152) (-54)) = true).
  { split; [|reflexivity]. vm_compute B2R. unfold F2R. cbn. lra. }
  split.
  - destruct (beq (Babs x) half64) eqn:B; [|exact Hc]. split; [apply C|]. rewrite (proj1 C).
    assert (A : Rabs (B2R x) = 1 / 2).
    { unfold beq in B. rewrite Beqb_correct in B; [|rewrite is_finite_Babs; exact F|exact Fh]. rewrite B2R_Babs, Vh in B.
      destruct (Req_bool_spec (Rabs (B2R x)) (1 / 2)) as [E1|_]; [exact E1|discriminate B]. }
    assert (Cc : cos (B2R x) = cos (1 / 2)).
    { rewrite <- A. unfold Rabs. destruct (Rcase_abs (B2R x)); [rewrite cos_neg|]; reflexivity. }
    rewrite Cc. exact cos_half.
  - destruct (beq x half64) eqn:B; [|destruct (beq x (Bopp half64)) eqn:B2; [|exact Hs]].
    + split; [apply S|]. rewrite (proj1 S), (E _ Fh B), Vh. exact sin_half.
    + split; [apply S'|]. rewrite (proj1 S'), (E (Bopp half64) eq_refl B2), B2R_Bopp, Vh, sin_neg.
      replace (- (8636562708039152 / 18014398509481984) - - sin (1 / 2)) with (- (8636562708039152 / 18014398509481984 - sin (1 / 2))) by ring.
      rewrite Rabs_Ropp. exact sin_half.
Qed.

Lemma tidy_fmod (lm : libm) : exact_fmod (tidy lm).
Proof.
  intros x y Fx Fy Y. unfold tidy, easy. cbn [lm_fmod with_nearest with_fmod]. destruct (Bltb (Babs x) y) eqn:B; [|apply fmod64_exact; assumption].
  rewrite Bltb_correct in B; [|rewrite is_finite_Babs; exact Fx|exact Fy]. rewrite B2R_Babs in B.
  destruct (Rlt_bool_spec (Rabs (B2R x)) (B2R y)) as [L|_]; [|discriminate B].
  split; [exact Fx|]. split; [exists 0%Z; ring|]. split; [|nra]. pose proof (Rabs_pos (B2R x)). rewrite (Rabs_pos_eq (B2R y)) by lra. exact L.
Qed.

Definition small (x : b64) : bool := is_finite x && Bleb (Babs x) (z64 1000).
Lemma small_upto x : small x = true -> upto 1000 x.
Proof.
  intro H. apply andb_prop in H. destruct H as [F H]. split; [exact F|].
  destruct (b64_ofZ 1000 ltac:(lia)) as [V F1]. rewrite Bleb_correct in H; [|rewrite is_finite_Babs; exact F|exact F1].
  destruct (Rle_bool_spec (B2R (Babs x)) (B2R (z64 1000))) as [L|_]; [|discriminate H]. rewrite B2R_Babs in L. unfold z64 in L. rewrite V in L. exact L.
Qed.

Definition small_scan (sc : scan b64) : bool :=
  small (pox (s_pose sc)) && small (poy (s_pose sc)) && small (poth (s_pose sc)) && forallb (fun q => small (px q) && small (py q)) (s_pts sc) &&
  (Z.of_nat (List.length (s_pts sc)) <=? 2 ^ 52)%Z.
Lemma small_scan_fine sc : small_scan sc = true -> fine_scan 1000 sc.
Proof.
  intro H. unfold small_scan in H. do 4 (apply andb_prop in H; let J := fresh "J" in destruct H as [H J]).
  apply small_upto in H, J2, J1. apply Z.leb_le in J. split; [|split; [|exact J]].
  - split; [split; [exact H|split; [exact J2|apply J1]]|]. apply Forall_forall. intros q I. rewrite forallb_forall in J0. specialize (J0 q I). apply andb_prop in J0.
    destruct J0 as [Q1 Q2]. split; apply small_upto; assumption.
  - split; [apply J1|]. apply Rle_trans with (1 := proj2 J1). apply Rle_trans with (bpow radix2 10); [change (bpow radix2 10) with 1024; lra|apply bpow_le; lia].
Qed.

(** A node without a particle filter. *)
Definition ordinary_b (lm : libm) (cf : config b64) (m : mapper b64) (l : label b64) : bool :=
  careful_b (A := BA lm) cf m l && forallb small_scan (sh_heap (mp_sh m)) &&
  match sp_filter (mp_spin m) with None => true | Some _ => false end &&
  match l with
  | Deliver (EvLaser e) =>
      match lr_ranges (le_msg e) with [] => false | _ => true end &&
      match sweep_ns (A := BA lm) (List.length (lr_ranges (le_msg e))) (le_time_inc e) with Ok _ => true | Fault _ => false end &&
      small (range_used m e) && Bleb (z64 0) (range_used m e) &&
      match sh_scans (mp_sh m) with [] => false | _ => true end
  | _ => true
  end.

Lemma ordinary_sound (lm : libm) (N P : R) (cf : config b64) m l : ordinary_b lm cf m l = true -> ordinary lm 1000 N P cf m l.
Proof.
  intro H. unfold ordinary_b in H. apply andb_prop in H. destruct H as [H L]. apply andb_prop in H. destruct H as [H Ef]. apply andb_prop in H. destruct H as [C Hs].
  apply (careful_sound (A := BA lm)) in C. destruct (sp_filter (mp_spin m)) as [f|] eqn:Fl; [discriminate Ef|]. clear Ef.
  assert (La : forall e, l = Deliver (EvLaser e) -> lr_ranges (le_msg e) <> [] /\
    (exists ns, sweep_ns (A := BA lm) (List.length (lr_ranges (le_msg e))) (le_time_inc e) = Ok ns) /\ upto 1000 (range_used m e) /\ 0 <= B2R (range_used m e) /\ sh_scans (mp_sh m) <> []).
  { intros e ->. do 4 (apply andb_prop in L; let J := fresh "J" in destruct L as [L J]).
    split; [intro E; rewrite E in L; discriminate L|]. split; [destruct (sweep_ns _ _) as [ns|]; [exists ns; reflexivity|discriminate J2]|].
    apply small_upto in J1. split; [exact J1|]. split; [|intro E; rewrite E in J; discriminate J].
    rewrite Bleb_correct in J0; [|reflexivity|apply J1]. destruct (Rle_bool_spec (B2R (z64 0)) (B2R (range_used m e))) as [Q|_]; [|discriminate J0].
    unfold z64 in Q. rewrite (proj1 (b64_ofZ 0 ltac:(lia))) in Q. exact Q. }
  constructor.
  - apply (ca_separate _ _ _ C).
  - apply (ca_markers _ _ _ C).
  - apply (ca_started _ _ _ C).
  - intros p sc E. apply nth_error_In in E. rewrite forallb_forall in Hs. exact (small_scan_fine sc (Hs sc E)).
  - intros e E. destruct (La e E) as (L1 & L2 & L3 & L4 & _). repeat split; try assumption; apply L3.
  - intros e E _ _. apply (La e E).
  - intros f Ef. rewrite Fl in Ef. discriminate Ef.
  - intros e f _ Ef. rewrite Fl in Ef. discriminate Ef.
  - intros p odom normal draws f g sc _ _ Ef. rewrite Fl in Ef. discriminate Ef.
Qed.

Lemma ok_exists {X} (o : outcome X) : (match o with Ok _ => true | Fault _ => false end) = true -> exists x, o = Ok x.
Proof. destruct o as [x|f]; [exists x; reflexivity|discriminate]. Qed.

Lemma matcher64_suits (lm : libm) : matcher_suits lm 1000 10 matcher64.
Proof.
  destruct half_value as [Vh Fh]. destruct (b64_ofZ 4 ltac:(lia)) as [V4 F4], (b64_ofZ 2 ltac:(lia)) as [V2 F2], (b64_ofZ 1 ltac:(lia)) as [V1 F1].
  assert (B400 : 1024 <= bpow radix2 400) by (change 1024 with (bpow radix2 10); apply bpow_le; lia).
  assert (B51 : 0 < bpow radix2 (-51) <= 1) by (split; [apply bpow_gt_0|change 1 with (bpow radix2 0); apply bpow_le; lia]).
  assert (U : forall M x, B2R half64 <= M -> x = half64 -> upto M x) by (intros M x L ->; split; [exact Fh|rewrite Vh, Rabs_pos_eq by lra; rewrite Vh in L; exact L]).
  unfold matcher_suits, fits_map, sane_window, matcher64, z64. cbn [k_resolution k_range k_beams k_lin_size k_lin_res k_ang_size k_ang_res].
  rewrite V4, V2, V1, Vh in *. repeat split; try assumption; try lra; try lia; try (rewrite ?V2, ?Vh, ?V1, Rabs_pos_eq by lra; lra).
  - apply ok_exists. vm_compute. reflexivity.
  - apply ok_exists. vm_compute. reflexivity.
Qed.

Definition ordinary_end (lm : libm) (m : mapper b64) : bool :=
  ordinary_b (easy lm) (cf11 lm) m (Deliver (beam64 [z64 1] 2 0)) && optimized m.
Lemma ordinary_run_checked (lm : libm) : run_ok (easy lm) (cf11 lm) (ordinary_b (easy lm) (cf11 lm)) safe_run = true.
Proof. vm_compute. reflexivity. Qed.
Lemma ordinary_run_ends (lm : libm) : exists m, run (A := BA (easy lm)) (cf11 lm) safe_run = Ok m /\ ordinary_end lm m = true.
Proof. apply ends64_in. vm_compute. reflexivity. Qed.

Example C155_nonvacuous (lm : libm) : exists cf m,
  accurate_trig (tidy lm) /\ exact_fmod (tidy lm) /\ suitable (tidy lm) 1000 cf /\ search_in_range (en_search cf) /\
  chained_start (A := BA (tidy lm)) cf /\ good_start (A := BA (tidy lm)) cf /\
  reach_if (A := BA (tidy lm)) cf (ordinary (tidy lm) 1000 1 998 cf) m /\ (exists n, In (ObOptimize n) (sh_trace (mp_sh m))) /\
  ordinary (tidy lm) 1000 1 998 cf m (Deliver (beam64 [z64 1] 2 0)) /\ ~ drawing m (Deliver (beam64 [z64 1] 2 0)).
Proof.
  unfold tidy. set (lm' := with_nearest (with_fmod lm)). destruct (ordinary_run_ends lm') as (m & E & H). exists (cf11 lm'), m.
  split; [apply tidy_trig|]. split; [apply tidy_fmod|]. split.
  { split; [cbn; lia|]. split; [exact I|]. split; [intro r; split; reflexivity|]. intros r _ _. split; exact (matcher64_suits (easy lm')). }
  split; [exact search64_in_range|]. split; [apply cf11_chained|]. split; [apply cf11_good|].
  split; [exact (run_reach (easy lm') (cf11 lm') _ _ safe_run m (ordinary_sound (easy lm') 1 998 (cf11 lm')) (ordinary_run_checked lm') E)|].
  apply andb_prop in H. destruct H as [H1 H2]. split.
  - apply existsb_exists in H2. destruct H2 as (o & I & O). destruct o; try discriminate O. exists n. exact I.
  - split; [exact (ordinary_sound (easy lm') 1 998 (cf11 lm') m _ H1)|]. intros [J _]. discriminate J.
Qed.
