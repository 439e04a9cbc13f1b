(** Property C116: the optimizer after a constraint that weighs nothing. *)

From Coq Require Import ZArith List Bool Lia.
From Flocq Require Import Core BinarySingleNaN.
From Verif Require Import Outcome Arith TypesModel ScanModel NdtModel MatcherModel ConstraintModel SolverModel GraphModel MapperModel
  SpecSolver SpecMapper SpecMapper4 SpecWeigh NdtProofs SolverProofs MapperSteps MapperInv1 MapperWitness2 PropMapper3 PropSolver PropWeigh.
Import ListNotations.

Section Stuck.
Context (lm : libm).
Let A : Arith b64 := BA lm.
Local Existing Instance A.

Lemma pose_vec_pose : forall v : vec3 b64, pose_vec (vec_pose v) = v.
Proof. intros [x y z]. reflexivity. Qed.

Lemma unweighable_unusable : forall ids (c : constraint b64) b, block_for ids c b -> ~ weighable lm c -> unusable lm b.
Proof.
  intros ids c b (E1 & E2 & _) W x y F. apply W. exists (vec_pose x), (vec_pose y). unfold constraint_residual.
  rewrite E1, E2 in F. rewrite !pose_vec_pose. exact F.
Qed.
Lemma weighable_usable : forall ids (c : constraint b64) b, block_for ids c b -> weighable lm c -> ~ unusable lm b.
Proof.
  intros ids c b (E1 & E2 & _) (x & y & F) U. apply (U (pose_vec x) (pose_vec y)). rewrite E1, E2. exact F.
Qed.

Lemma exists_block : forall ids cs bs, Forall2 (block_for ids) cs bs ->
  (exists c, In c cs /\ ~ weighable lm c) -> Exists (unusable lm) bs.
Proof.
  intros ids cs bs F. induction F as [|c b cs bs P F IH]; intros (c' & I & W); [contradiction I|].
  destruct I as [->|I]; [apply Exists_cons_hd; eapply unweighable_unusable; eassumption|apply Exists_cons_tl, IH; exists c'; split; assumption].
Qed.

Lemma optimize_keeps_blocks : forall ceres st cs scans b st' scans' (P : block b64 -> Prop),
  optimize ceres st cs scans = Ok (b, st', scans') -> Exists P (sv_blocks st) -> Exists P (sv_blocks st').
Proof.
  intros ceres st cs scans b st' scans' P O E. destruct (optimize_inv _ _ _ _ _ _ _ O) as [(_ & _ & -> & _)|(_ & p & Pr & Q)]; [exact E|].
  cbv zeta in Q. destruct Q as (_ & -> & _). cbn [sv_blocks]. destruct (prepare_inv _ _ _ _ Pr) as (bs & s & -> & _).
  apply Exists_app. left. exact E.
Qed.

Lemma optimize_stuck : forall ceres st cs scans b st' scans', rejects_unusable lm ceres -> Exists (unusable lm) (sv_blocks st) ->
  optimize ceres st cs scans = Ok (b, st', scans') -> b = false /\ scans' = scans.
Proof.
  intros ceres st cs scans b st' scans' R E O. destruct (optimize_inv _ _ _ _ _ _ _ O) as [(-> & -> & _ & ->)|(_ & p & Pr & Q)]; [split; reflexivity|].
  cbv zeta in Q. destruct (prepare_inv _ _ _ _ Pr) as (bs & s & Eb & _).
  rewrite R in Q by (rewrite Eb; apply Exists_app; left; exact E). destruct Q as (-> & _ & ->). split; reflexivity.
Qed.

Lemma optimize_sticks : forall ceres st cs scans b st' scans', scans <> [] ->
  (exists c, In c (skipn (sv_num st) cs) /\ ~ weighable lm c) ->
  optimize ceres st cs scans = Ok (b, st', scans') -> Exists (unusable lm) (sv_blocks st').
Proof.
  intros ceres st cs scans b st' scans' N W O. destruct (optimize_inv _ _ _ _ _ _ _ O) as [(-> & _)|(_ & p & Pr & Q)]; [contradiction N; reflexivity|].
  cbv zeta in Q. destruct Q as (_ & -> & _). cbn [sv_blocks]. destruct (prepare_inv _ _ _ _ Pr) as (bs & s & -> & F & _).
  apply Exists_app. right. apply (exists_block _ _ _ F W).
Qed.

Lemma run_sticks : forall ceres calls st st', optimize_run ceres st calls = Ok st' ->
  Exists (unusable lm) (sv_blocks st) -> Exists (unusable lm) (sv_blocks st').
Proof.
  intros ceres. induction calls as [|[cs scans] calls IH]; intros st st' H E; cbn [optimize_run] in H; [injection H as <-; exact E|].
  apply bind_ok in H. destruct H as ([[b st1] sc1] & O & H). apply (IH st1 st' H). eapply optimize_keeps_blocks; eassumption.
Qed.

(** C116 is false: once an optimisation was handed one constraint that cannot be
    weighed, every later one fails and moves nothing, with whatever map. *)
Theorem C116_solver_refuted : forall (ceres : ceres_oracle b64) (st st1 st2 st3 : solver b64) cs scans b sc1 calls cs' scans' b' sc',
  rejects_unusable lm ceres -> scans <> [] -> (exists c, In c (skipn (sv_num st) cs) /\ ~ weighable lm c) ->
  optimize ceres st cs scans = Ok (b, st1, sc1) -> optimize_run ceres st1 calls = Ok st2 ->
  optimize ceres st2 cs' scans' = Ok (b', st3, sc') -> b' = false /\ sc' = scans'.
Proof.
  intros ceres st st1 st2 st3 cs scans b sc1 calls cs' scans' b' sc' R N W O H O'.
  apply (optimize_stuck _ _ _ _ _ _ _ R) with (2 := O'). apply (run_sticks _ _ _ _ H). apply (optimize_sticks _ _ _ _ _ _ _ N W O).
Qed.
Print Assumptions C116_solver_refuted.

(** ** The node *)
Definition stuck (m : mapper b64) : Prop := Exists (unusable lm) (sv_blocks (lp_solver (mp_loop m))).

Lemma stuck_step : forall (cf : config b64) l m m', stuck m -> step_tr cf m l m' -> stuck m'.
Proof.
  intros cf l m m' H St. unfold stuck in *. destruct St as [e s' sp' _ _|s' sp' _|s' l' D|s' p' _]; cbn [mp_loop]; try exact H.
  destruct D; cbn [lat next_scan lp_solver]; try exact H; try (unfold after_candidate; destruct (_ =? 0)%Z; exact H).
  eapply optimize_keeps_blocks; eassumption.
Qed.

Lemma list_set_same : forall {X} (l : list X) n x, nth_error l n = Some x -> list_set l n x = l.
Proof.
  intros X. induction l as [|y l IH]; intros [|n] x E; cbn in *; try discriminate E; [injection E as ->; reflexivity|].
  f_equal. apply IH. exact E.
Qed.
Lemma put_all_same : forall ps (s : shared b64) scans, mapM (deref (sh_heap s)) ps = Ok scans -> put_all s ps scans = s.
Proof.
  induction ps as [|p ps IH]; intros s scans H; cbn [mapM] in H; [injection H as <-; reflexivity|].
  apply bind_ok in H. destruct H as (x & D & H). apply bind_ok in H. destruct H as (xs & M & H). injection H as <-.
  unfold put_all. cbn [combine fold_left fst snd]. fold (put_all (put s p x) ps xs).
  assert (E : put s p x = s). { apply deref_nth in D. unfold put. rewrite (list_set_same _ _ _ D). destruct s; reflexivity. }
  rewrite E. apply IH. exact M.
Qed.

Lemma stuck_optimizes : forall (cf : config b64) m m', rejects_unusable lm (en_ceres cf) -> stuck m -> optimizing m ->
  step cf Loop m = Some (Ok m') -> the_graph cf (mp_sh m') = the_graph cf (mp_sh m) /\ ~ optimizing m'.
Proof.
  intros cf m m' R H O S. apply step_cases in S. inversion S as [| |s' l' D Hl Hm'|]; subst m'; clear S.
  unfold optimizing in *. destruct D; try congruence.
  match goal with E : optimize _ _ _ _ = Ok _ |- _ => destruct (optimize_stuck _ _ _ _ _ _ _ R H E) as (-> & ->) end.
  cbn [mp_sh mp_loop lp_pc]. split; [|discriminate]. rewrite put_all_same by assumption. reflexivity.
Qed.
End Stuck.

(** The same for the node: from a state whose solver was handed such a constraint
    no schedule of laser messages, services and threads ever leads to an
    optimisation that changes the map. *)
Theorem C116_node_refuted : forall (lm : libm) (cf : config b64) (m : mapper b64), rejects_unusable lm (en_ceres cf) ->
  Exists (unusable lm) (sv_blocks (lp_solver (mp_loop m))) ->
  forall ls m1 m2, exec (A := BA lm) cf m ls = Ok m1 -> optimizing m1 -> step (A := BA lm) cf Loop m1 = Some (Ok m2) ->
  the_graph cf (mp_sh m2) = the_graph cf (mp_sh m1).
Proof.
  intros lm cf m R H ls m1 m2 E O S.
  assert (K : stuck lm m1) by (apply (exec_inv (A := BA lm) cf (stuck lm) (fun l a b => stuck_step lm cf l a b) ls m m1 H E)).
  destruct (stuck_optimizes lm cf m1 m2 R K O S) as (G & _). exact G.
Qed.
Print Assumptions C116_node_refuted.

(** ** What holds *)
(** As long as every constraint can be weighed, every block handed to Ceres can. *)
Theorem C116_weighable_partial : forall (lm : libm) (ceres : ceres_oracle b64) calls (st : solver b64) cs scans p,
  growing [] [] (calls ++ [(cs, scans)]) ->
  optimize_run (A := BA lm) ceres solver_new calls = Ok st -> prepare (A := BA lm) st cs scans = Ok p ->
  Forall (weighable lm) cs -> ~ Exists (unusable lm) (sv_blocks p).
Proof.
  intros lm ceres calls st cs scans p G H Pr W E.
  pose proof (C55_every_constraint_once (A := BA lm) ceres calls cs scans st p G H Pr) as F.
  clear - F W E. induction F as [|c b cs bs P F IH]; [inversion E|].
  inversion W as [|? ? W1 W2]; subst. inversion E as [? ? U|? ? U]; subst; [exact (weighable_usable lm _ _ _ P W1 U)|exact (IH W2 U)].
Qed.
Print Assumptions C116_weighable_partial.

(** ** Witnesses *)
(** A Ceres that evaluates the errors at the poses it starts from. *)
Definition finite_b (v : vec3 b64) : bool := is_finite (v0 v) && is_finite (v1 v) && is_finite (v2 v).
Definition evaluating (lm : libm) : ceres_oracle b64 := fun blocks _ ns =>
  (forallb (fun b => match nodes_find ns (rb_begin b), nodes_find ns (rb_end b) with
     | Some x, Some y => finite_b (residual (A := BA lm) (rb_transform b) (rb_factor b) x y) | _, _ => false end) blocks, ns).
Lemma evaluating_rejects : forall lm, rejects_unusable lm (evaluating lm).
Proof.
  intros lm blocks const ns E. unfold evaluating. cbn [fst]. apply not_true_iff_false. intro H. rewrite forallb_forall in H.
  apply Exists_exists in E. destruct E as (b & I & U). specialize (H b I).
  destruct (nodes_find ns (rb_begin b)) as [x|]; [|discriminate H]. destruct (nodes_find ns (rb_end b)) as [y|]; [|discriminate H].
  unfold finite_b in H. apply andb_prop in H. destruct H as [H H3]. apply andb_prop in H. destruct H as [H1 H2].
  apply (U x y). repeat split; assumption.
Qed.

Definition cf_evaluating (lm : libm) : config b64 :=
  mkConfig b64 (z64 1) (z64 1) 9 false (z64 4) 1 1 None (z64 1) (z64 1) false (z64 2) (z64 1) (z64 1) (Some chain11)
    eig64 search64 (evaluating (easy lm)) 10 (mat3_zero (A := BA lm)) (fun _ => matcher64) (fun _ => matcher64).

Definition nan_block (b : block b64) : bool :=
  match rb_factor b with
  | mkMat3 B754_nan _ _ B754_nan B754_nan _ B754_nan B754_nan B754_nan => true
  | _ => false
  end.
Lemma nan_block_unusable : forall lm b, nan_block b = true -> unusable lm b.
Proof.
  intros lm b H x y (F & _). unfold nan_block in H. unfold residual in F. destruct (rb_factor b) as [x0 x1 x2 x3 x4 x5 x6 x7 x8].
  destruct x0; try discriminate H. unfold mat3_vec in F. cbn [a00 a01 a02 v0 nmul nadd BA] in F.
  rewrite mul_nan_l, !add_nan_l in F. discriminate F.
Qed.

(** The robot drives out of its map: the loop it closed before is never
    optimised away again. *)
Definition out_of_map : list (label b64) := start11 ++ more11 ++ loops 40.
Lemma stuck_run : forall lm, ends64 (run (A := BA (easy lm)) (cf_evaluating lm) out_of_map)
  (fun m => existsb nan_block (sv_blocks (lp_solver (mp_loop m)))) = true.
Proof. intro lm. vm_compute. reflexivity. Qed.

Example C116_node_nonvacuous : forall lm : libm, rejects_unusable (easy lm) (en_ceres (cf_evaluating lm)) /\
  exists m, reachable (A := BA (easy lm)) (cf_evaluating lm) m /\ Exists (unusable (easy lm)) (sv_blocks (lp_solver (mp_loop m))).
Proof.
  intro lm. split; [apply evaluating_rejects|]. destruct (ends64_in _ _ (stuck_run lm)) as (m & E & H). exists m.
  split; [exists out_of_map; exact E|]. apply existsb_exists in H. destruct H as (b & I & B).
  apply Exists_exists. exists b. split; [exact I|]. apply nan_block_unusable. exact B.
Qed.

Definition bad_edge : constraint b64 := mkConstraint 0 1 (mkVec3 (z64 1) (z64 0) (z64 0)) nan_matrix true.
Definition good_edge : constraint b64 :=
  mkConstraint 0 1 (mkVec3 (z64 1) (z64 0) (z64 0)) (mkMat3 (z64 1) (z64 0) (z64 0) (z64 0) (z64 1) (z64 0) (z64 0) (z64 0) (z64 1)) true.
Definition pair64 : list (scan b64) := [mkScan 0 true (mkPose (z64 0) (z64 0) (z64 0)) (mkPose (z64 0) (z64 0) (z64 0)) [];
  mkScan 1 true (mkPose (z64 1) (z64 0) (z64 0)) (mkPose (z64 0) (z64 0) (z64 0)) []].
Definition outcomes (lm : libm) (c1 c2 : list (constraint b64)) : option (bool * bool) :=
  match optimize (A := BA lm) (evaluating lm) solver_new c1 pair64 with
  | Ok (b, st, _) => match optimize (A := BA lm) (evaluating lm) st c2 pair64 with Ok (b', _, _) => Some (b, b') | Fault _ => None end
  | Fault _ => None
  end.
(** Optimising the good edge succeeds; with the bad one it fails, and then also
    for the good one alone. *)
Example C116_nonvacuous : forall lm : libm, ~ weighable (easy lm) bad_edge /\ weighable (easy lm) good_edge /\
  outcomes (easy lm) [good_edge] [good_edge] = Some (true, true) /\
  outcomes (easy lm) [bad_edge] [good_edge] = Some (false, false) /\ outcomes (easy lm) [good_edge] [good_edge; bad_edge] = Some (true, false).
Proof.
  intro lm. split; [apply nan_not_weighable; reflexivity|].
  split; [exists (mkPose (z64 0) (z64 0) (z64 0)), (mkPose (z64 1) (z64 0) (z64 0)); vm_compute; repeat split; reflexivity|].
  repeat split; vm_compute; reflexivity.
Qed.
