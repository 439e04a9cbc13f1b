(** Property C117: resuming a map at a given pose. *)

From Coq Require Import ZArith List Bool Lia.
From Flocq Require Import Core BinarySingleNaN.
From Verif Require Import Outcome Arith SpecOrigin TypesModel ScanModel MatcherModel ConstraintModel GraphModel LaserModel MapperModel
  SpecLaser SpecMapper SpecMapper2 SpecMapper4 SpecNode SpecWeigh NdtProofs LaserProofs NodeProofs3 MapperWitness2 PropWeigh PropNode.
Import ListNotations.

(** C117 is false: only the last ten scans of the graph count, wherever the robot
    was put.  Whatever the map around it looks like, the match is the same. *)
Theorem C117_blind_refuted : forall {T} {A : Arith T} (cf : config T) (m m' : mapper T) g g' old old' recent sc score corr cov,
  the_graph cf (mp_sh m) = Ok g -> the_graph cf (mp_sh m') = Ok g' -> sp_local (mp_spin m') = sp_local (mp_spin m) ->
  gr_scans g = old ++ recent -> gr_scans g' = old' ++ recent -> List.length recent = 10%nat ->
  (0 <= cf_depth cf)%Z -> (cf_depth cf < Z.of_nat (List.length (gr_scans g)) < 2 ^ 64)%Z -> (cf_depth cf < Z.of_nat (List.length (gr_scans g')) < 2 ^ 64)%Z ->
  matched_locally cf m sc score corr cov -> matched_locally cf m' sc score corr cov.
Proof.
  intros T A cf m m' g g' old old' recent sc score corr cov G G' L E E' N D B B' (g0 & w & k & k' & u & G0 & W & K & K' & U & M).
  rewrite G in G0. injection G0 as <-. exists g', w, k, k', u. split; [exact G'|]. rewrite L.
  assert (Wr : forall l : list (scan T), (cf_depth cf < Z.of_nat (List.length (l ++ recent)) < 2 ^ 64)%Z -> rolling_window (cf_depth cf) (l ++ recent) = Ok recent).
  { intros l Bl. rewrite app_length, N in Bl. rewrite rolling_window_ten by (rewrite ?app_length, ?N; lia). unfold last_n. rewrite app_length, N.
    replace (List.length l + 10 - 10)%nat with (List.length l) by lia. rewrite skipn_app, skipn_all, Nat.sub_diag. reflexivity. }
  rewrite E, Wr in W by (rewrite <- E; exact B). injection W as <-.
  split; [rewrite E'; apply Wr; rewrite <- E'; exact B'|]. repeat split; assumption.
Qed.
Print Assumptions C117_blind_refuted.

(** A map of eleven scans is loaded; the robot is put where the first was taken
    and sees what it saw, but the next constraint cannot be weighed. *)
Definition far_scans : list (bag_msg b64) := map (fun i => scan64 (Z.of_nat i) (z64 8) (z64 0) cross) (seq 1 10).
Definition old_map : list (bag_msg b64) := scan64 0 (z64 0) (z64 0) cross :: far_scans.
Definition resume : list (label b64) :=
  [Deliver (beam64 [z64 1] 0 0); Deliver (pose_ev64 (z64 0) (z64 0) 0 0)] ++ repeat Spin 5 ++
  [Deliver (beam64 [z64 1] (-1) 0)] ++ repeat Spin 8.

Definition nan3 (m : mat3 b64) : bool :=
  match m with
  | mkMat3 B754_nan B754_nan B754_nan B754_nan B754_nan B754_nan B754_nan B754_nan B754_nan => true
  | _ => false
  end.
Lemma nan3_eq : forall m, nan3 m = true -> m = nan_matrix.
Proof.
  intros [x0 x1 x2 x3 x4 x5 x6 x7 x8] H. unfold nan3 in H.
  destruct x0; try discriminate H; destruct x1; try discriminate H; destruct x2; try discriminate H; destruct x3; try discriminate H;
  destruct x4; try discriminate H; destruct x5; try discriminate H; destruct x6; try discriminate H; destruct x7; try discriminate H;
  destruct x8; try discriminate H. reflexivity.
Qed.

(** The scan added last: number twelve, with a point where scan zero has one. *)
Definition at_point (p : pose b64) (x y : b64) : bool := Beqb (Bplus mode_NE (pox p) x) (z64 0) && Beqb (Bplus mode_NE (poy p) y) (z64 0) && Beqb (poth p) (z64 0).
Definition resumed_b (cf : config b64) (m : mapper b64) : bool :=
  match sh_cons (mp_sh m), the_graph cf (mp_sh m) with
  | [c; c'], Ok g =>
    nan3 (c_information c') && (c_begin c =? 0)%Z && (c_end c =? 11)%Z && (c_begin c' =? 11)%Z && (c_end c' =? 12)%Z &&
    match nth_error (gr_scans g) 0, nth_error (gr_scans g) 12 with
    | Some s0, Some s12 =>
      match s_pts s0, s_pts s12 with
      | [_; _; _; _; p0], [p] => Beqb (px p0) (z64 0) && Beqb (py p0) (z64 0) && at_point (s_pose s0) (px p0) (py p0) &&
          at_point (s_pose s12) (px p) (py p)
      | _, _ => false
      end
    | _, _ => false
    end
  | _, _ => false
  end.
Lemma resumed_run : forall lm, ends64 (run (A := BA (easy lm)) (cf64 lm 10 1 0 None true (Some old_map)) resume)
  (resumed_b (cf64 lm 10 1 0 None true (Some old_map))) = true.
Proof. intro lm. vm_compute. reflexivity. Qed.

Theorem C117_resumed_refuted : forall lm : libm, let cf := cf64 lm 10 1 0 None true (Some old_map) in
  exists m g s0 s12 p0 p c, reachable (A := BA (easy lm)) cf m /\ the_graph cf (mp_sh m) = Ok g /\
  nth_error (gr_scans g) 0 = Some s0 /\ nth_error (gr_scans g) 12 = Some s12 /\ In p0 (s_pts s0) /\ s_pts s12 = [p] /\
  at_point (s_pose s0) (px p0) (py p0) = true /\ at_point (s_pose s12) (px p) (py p) = true /\
  In c (gr_constraints g) /\ c_end c = 12%Z /\ ~ weighable (easy lm) c.
Proof.
  intros lm cf. destruct (ends64_in _ _ (resumed_run lm)) as (m & E & H). unfold resumed_b in H. fold cf in E, H.
  destruct (sh_cons (mp_sh m)) as [|c [|c' [|]]] eqn:Ec; try discriminate H.
  destruct (the_graph cf (mp_sh m)) as [g|] eqn:G; [|discriminate H].
  apply andb_prop in H. destruct H as [H H1]. apply andb_prop in H. destruct H as [H H2]. apply Z.eqb_eq in H2.
  apply andb_prop in H. destruct H as [H _]. apply andb_prop in H. destruct H as [H _]. apply andb_prop in H. destruct H as [H _].
  destruct (nth_error (gr_scans g) 0) as [s0|] eqn:E0; [|discriminate H1]. destruct (nth_error (gr_scans g) 12) as [s12|] eqn:E12; [|discriminate H1].
  destruct (s_pts s0) as [|q0 [|q1 [|q2 [|q3 [|p0 [|]]]]]] eqn:P0; try discriminate H1.
  destruct (s_pts s12) as [|p [|]] eqn:P12; try discriminate H1.
  apply andb_prop in H1. destruct H1 as [H1 H4]. apply andb_prop in H1. destruct H1 as [_ H3].
  exists m, g, s0, s12, p0, p, c'. split; [exists resume; exact E|]. split; [exact G|]. split; [exact E0|]. split; [exact E12|].
  split; [rewrite P0; do 4 right; left; reflexivity|]. split; [exact P12|]. split; [exact H3|]. split; [exact H4|].
  split; [|split; [exact H2|apply nan_not_weighable, nan3_eq, H]].
  unfold the_graph in G. destruct (graph_scans (mp_sh m)); [|discriminate G]. injection G as <-. cbn [gr_constraints]. rewrite Ec. right. left. reflexivity.
Qed.
Print Assumptions C117_resumed_refuted.

(** What holds: a map of at most rolling_depth scans is used as a whole. *)
Theorem C117_small_map_partial : forall {T} {A : Arith T} (cf : config T) (m : mapper T) sc score corr cov,
  matched_locally cf m sc score corr cov -> forall g, the_graph cf (mp_sh m) = Ok g ->
  (Z.of_nat (List.length (gr_scans g)) <= cf_depth cf)%Z ->
  exists k k', sp_local (mp_spin m) = Some k /\ add_scans (en_eig cf) (matcher_reset k) (gr_scans g) = Ok k' /\
    match_scan (en_fuel cf) k' sc origin (en_garbage cf) = Ok (score, corr, cov).
Proof.
  intros T A cf m sc score corr cov (g0 & w & k & k' & u & G0 & W & K & K' & U & M) g G B.
  rewrite G in G0. injection G0 as <-. rewrite rolling_window_all in W by exact B. injection W as <-.
  exists k, k'. repeat split; assumption.
Qed.
Print Assumptions C117_small_map_partial.

(** A map of one scan against which the next one is matched. *)
Example C117_nonvacuous : forall lm : libm, let cf := cf64 lm 10 1 0 None true None in
  exists m g guess pts score corr cov,
  reachable (A := BA (easy lm)) cf m /\ the_graph cf (mp_sh m) = Ok g /\ gr_scans g <> [] /\ (Z.of_nat (List.length (gr_scans g)) <= cf_depth cf)%Z /\
  matched_locally (A := BA (easy lm)) cf m (fresh_scan (A := BA (easy lm)) (Z.of_nat (List.length (gr_scans g))) guess pts) score corr cov.
Proof.
  intros lm cf. pose (e := beam_ev [z64 1] 2 0).
  destruct (ends64_in (run (A := BA (easy lm)) cf (firstn 17 laser_schedule))
    (fun m => match ready (A := BA (easy lm)) cf m e with
      | Some (_, guess, pts) =>
        match the_graph cf (mp_sh m) with
        | Ok g =>
          match gr_scans g, local_ready (A := BA (easy lm)) cf m (fresh_scan (A := BA (easy lm)) (Z.of_nat (List.length (gr_scans g))) guess pts) with
          | _ :: _, Some _ => (Z.of_nat (List.length (gr_scans g)) <=? 10)%Z
          | _, _ => false
          end
        | _ => false
        end
      | None => false
      end)) as (m & E & H); [vm_compute; reflexivity|].
  destruct (ready (A := BA (easy lm)) cf m e) as [[[start guess] pts]|] eqn:R; [|discriminate H].
  destruct (the_graph cf (mp_sh m)) as [g|] eqn:G; [|discriminate H].
  destruct (local_ready cf m _) as [[[score corr] cov]|] eqn:L; [|destruct (gr_scans g); discriminate H].
  exists m, g, guess, pts, score, corr, cov.
  split; [exists (firstn 17 laser_schedule); exact E|]. split; [exact G|].
  assert (N : gr_scans g <> [] /\ (Z.of_nat (List.length (gr_scans g)) <= 10)%Z).
  { destruct (gr_scans g); [discriminate H|]. split; [discriminate|apply Z.leb_le; exact H]. }
  split; [apply N|]. split; [apply N|]. apply local_ready_sound. exact L.
Qed.
