(** Who writes the shared data, and under which mutex. *)

From Coq Require Import ZArith List Bool Lia.
From Verif Require Import Outcome Arith TypesModel NdtProofs ScanModel MatcherModel ConstraintModel SolverModel GraphModel
  MotionModel FilterModel LaserModel MapperModel SpecMapper SpecMapper4 MapperSteps MapperInv1 MapperInv2 MapperInv6 MapperInv10.
Import ListNotations.

Section P.
Context {T : Type} {A : Arith T} (cf : config T).

Lemma held : forall t o, is_some t o = true -> o = Some t.
Proof. intros [] [[]|]; try discriminate; reflexivity. Qed.

Lemma deliver_writes : forall e s sp s' sp', deliver_tr cf s sp e s' sp' ->
  sh_scans s' = sh_scans s /\ sh_cons s' = sh_cons s /\ (exists more, sh_heap s' = sh_heap s ++ more) /\ sh_robot s' = sh_robot s /\ sh_odom s' = sh_odom s.
Proof.
  intros e s sp s' sp' D. destruct D; try rewrite configure_eq; repeat split; try (exists []; symmetry; apply app_nil_r); try (eexists; reflexivity).
Qed.

Lemma graph_writes : forall l m m', lock_inv m -> step_tr cf m l m' -> graph_changed m m' -> exists t, l = thread t /\ sh_glock (mp_sh m) = Some t.
Proof.
  intros l m m' (K1 & K2 & _) H C. destruct H as [e s' sp' Id D|s' sp' D|s' l' D|s' p' D]; unfold graph_changed in C; cbn [mp_sh] in C.
  - exfalso. destruct (deliver_writes _ _ _ _ _ D) as (E1 & E2 & _). rewrite E1, E2 in C. destruct C as [C|C]; apply C; reflexivity.
  - exists TSpin. split; [reflexivity|]. apply held.
    destruct D; match goal with P : sp_pc (mp_spin m) = _ |- _ => rewrite P in K1 end; try exact K1;
      exfalso; try (destruct upd); destruct C as [C|C]; apply C; reflexivity.
  - exists TLoop. split; [reflexivity|]. apply held.
    destruct D; match goal with P : lp_pc (mp_loop m) = _ |- _ => rewrite P in K2 end; try exact K2;
      exfalso; destruct C as [C|C]; apply C; reflexivity.
  - exfalso. destruct D; destruct C as [C|C]; apply C; reflexivity.
Qed.

Lemma app_kept : forall {X} (h more : list X) p, (p < List.length h)%nat -> nth_error (h ++ more) p = nth_error h p.
Proof. intros X h more p L. apply nth_error_app1. exact L. Qed.
Lemma put_kept : forall (s : shared T) p q v, p <> q -> nth_error (sh_heap (put s p v)) q = nth_error (sh_heap s) q.
Proof. intros s p q v N. unfold put. cbn [sh_heap set_heap]. rewrite nth_error_list_set. destruct (Nat.eqb_spec p q) as [E|E]; [contradiction (N E)|reflexivity]. Qed.

Lemma scan_writes : forall l m m' p, lock_inv m -> heap_inv m -> step_tr cf m l m' -> scan_changed m m' p ->
  (exists t, l = thread t /\ sh_glock (mp_sh m) = Some t) \/
  (l = Loop /\ exists q, sh_trace (mp_sh m') = ObMove p q :: sh_trace (mp_sh m)).
Proof.
  intros l m m' p (K1 & K2 & _) [HI Ap] H [Ip C].
  assert (Lp : (p < List.length (sh_heap (mp_sh m)))%nat) by (rewrite Forall_forall in HI; apply HI; exact Ip).
  destruct H as [e s' sp' Id D|s' sp' D|s' l' D|s' p' D]; cbn [mp_sh] in *.
  - exfalso. destruct (deliver_writes _ _ _ _ _ D) as (_ & _ & (more & E) & _). apply C. rewrite E. apply app_kept. exact Lp.
  - left. exists TSpin. split; [reflexivity|]. apply held.
    destruct D; match goal with P : sp_pc (mp_spin m) = _ |- _ => rewrite P in K1, Ap end; cbn [apart] in Ap; try exact K1;
      exfalso; try (destruct upd); apply C; try reflexivity; (etransitivity; [apply put_kept; intros ->; apply Ap; exact Ip|reflexivity]).
  - destruct (loop_g (lp_pc (mp_loop m))) eqn:G.
    + left. exists TLoop. split; [reflexivity|]. apply held. exact K2.
    + destruct D; match goal with P : lp_pc (mp_loop m) = _ |- _ => rewrite P in G end; try discriminate G; try (exfalso; apply C; reflexivity).
      right. split; [reflexivity|]. destruct (Nat.eq_dec (lc_scan c) p) as [<-|N]; [eexists; reflexivity|].
      exfalso. apply C. apply put_kept. exact N.
  - exfalso. destruct D; apply C; reflexivity.
Qed.

Lemma pose_writes : forall l m m', lock_inv m -> step_tr cf m l m' -> poses_changed m m' ->
  l = Spin /\ (sh_plock (mp_sh m) = Some TSpin \/ initial_pose_stored m).
Proof.
  intros l m m' (_ & _ & _ & K & _) H C. destruct H as [e s' sp' Id D|s' sp' D|s' l' D|s' p' D]; unfold poses_changed in C; cbn [mp_sh] in C.
  - exfalso. destruct (deliver_writes _ _ _ _ _ D) as (_ & _ & _ & E1 & E2). rewrite E1, E2 in C. destruct C as [C|C]; apply C; reflexivity.
  - split; [reflexivity|].
    destruct D; match goal with P : sp_pc (mp_spin m) = _ |- _ => rewrite P in K; rename P into Pc end;
      try (left; apply held; exact K); try (right; unfold initial_pose_stored; rewrite Pc; eauto; fail);
      exfalso; destruct C as [C|C]; apply C; reflexivity.
  - exfalso. destruct D; try (destruct C as [C|C]; apply C; reflexivity).
    destruct (put_all_frame (sh_scans (mp_sh m)) scans' (mp_sh m)) as [h Eh]. rewrite Eh in C. destruct C as [C|C]; apply C; reflexivity.
  - exfalso. destruct D; destruct C as [C|C]; apply C; reflexivity.
Qed.

Theorem graph_guarded : forall m l m', reachable cf m -> step cf l m = Some (Ok m') -> graph_changed m m' ->
  exists t, l = thread t /\ sh_glock (mp_sh m) = Some t.
Proof. intros m l m' R H C. apply step_cases in H. apply (graph_writes l m m'); [apply (lock_inv_reachable cf m R)|exact H|exact C]. Qed.
Theorem scans_guarded : forall m l m' p, reachable cf m -> step cf l m = Some (Ok m') -> scan_changed m m' p ->
  (exists t, l = thread t /\ sh_glock (mp_sh m) = Some t) \/ (l = Loop /\ exists q, sh_trace (mp_sh m') = ObMove p q :: sh_trace (mp_sh m)).
Proof.
  intros m l m' p R H C. apply step_cases in H.
  apply (scan_writes l m m'); [apply (lock_inv_reachable cf m R)|apply (heap_reachable cf m R)|exact H|exact C].
Qed.
Theorem poses_guarded : forall m l m', reachable cf m -> step cf l m = Some (Ok m') -> poses_changed m m' ->
  l = Spin /\ (sh_plock (mp_sh m) = Some TSpin \/ initial_pose_stored m).
Proof. intros m l m' R H C. apply step_cases in H. apply (pose_writes l m m'); [apply (lock_inv_reachable cf m R)|exact H|exact C]. Qed.
End P.
