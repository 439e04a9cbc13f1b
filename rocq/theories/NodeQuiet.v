(** Infinite fair executions: after a finite schedule the node has nothing left to
    do but to publish transforms. *)

From Coq Require Import ZArith List Bool String Lia.
From Verif Require Import Outcome Arith TypesModel ScanModel MatcherModel ConstraintModel
  SolverModel GraphModel OccGridModel MotionModel FilterModel LaserModel MapperModel SpecMapper SpecMapper2 SpecNode
  NdtProofs MapperProofs MapperSteps MapperInv1 NodeLive.
Import ListNotations.
Local Open Scope outcome_scope.

Section P.
Context {T : Type} {A : Arith T}.
Context (cf : config T).

Definition quiet_loop (m : mapper T) : bool :=
  let l := mp_loop m in
  (cf_depth cf <? num_scans (mp_sh m))%Z && (num_scans (mp_sh m) <=? lp_done l)%Z &&
  match lp_pc l with
  | LSleep | LCountLock => match sh_glock (mp_sh m) with None => true | _ => false end
  | LCount => match sh_glock (mp_sh m) with Some TLoop => true | _ => false end
  | LNext num new | LOpt num new => match sh_glock (mp_sh m) with None => (num <=? lp_done l)%Z && negb new | _ => false end
  | _ => false
  end.
Definition quiet_pub (m : mapper T) : bool :=
  match pb_pc (mp_pub m) with
  | PTop | PTf | PPoseLock | PSend _ _ => match sh_plock (mp_sh m) with None => true | _ => false end
  | PReadRobot | PReadOdom _ => match sh_plock (mp_sh m) with Some TPub => true | _ => false end
  | _ => false
  end.
Definition quiet (m : mapper T) : bool :=
  match sp_pc (mp_spin m) with SIdle => true | _ => false end && negb (sh_flag (mp_sh m)) && quiet_loop m && quiet_pub m.

Definition unchanged (m m' : mapper T) : Prop :=
  sh_scans (mp_sh m') = sh_scans (mp_sh m) /\ sh_enable (mp_sh m') = sh_enable (mp_sh m).

Lemma quiet_loop_step : forall m, quiet m = true -> exists m', step cf Loop m = Some (Ok m') /\ quiet m' = true /\ unchanged m m'.
Proof.
  intros m Q. unfold quiet in *. apply andb_true_iff in Q. destruct Q as [Q Qp]. apply andb_true_iff in Q. destruct Q as [Q Ql].
  unfold quiet_loop in Ql. apply andb_true_iff in Ql. destruct Ql as [Qn Ql].
  pose proof Qn as Qn'. apply andb_true_iff in Qn'. destruct Qn' as [Q1 Q2]. apply Z.ltb_lt in Q1. apply Z.leb_le in Q2.
  cbn [step]. unfold loop_step.
  destruct (lp_pc (mp_loop m)) eqn:P; try discriminate Ql; cbn [option_map bind lock_g].
  - destruct (sh_glock (mp_sh m)) eqn:G; [discriminate Ql|]. eexists. split; [reflexivity|]. split; [|split; reflexivity].
    change (quiet_pub _) with (quiet_pub m). cbn [mp_spin mp_sh]. rewrite Q, Qp. cbn [andb]. rewrite andb_true_r.
    destruct (sh_enable (mp_sh m)); unfold quiet_loop; cbn [mp_sh mp_loop lat lp_done lp_pc]; rewrite Qn; [|rewrite P]; rewrite G; reflexivity.
  - unfold lock_g. destruct (sh_glock (mp_sh m)) eqn:G; [discriminate Ql|]. eexists. split; [reflexivity|]. split; [|split; reflexivity].
    change (quiet_pub _) with (quiet_pub m). cbn [mp_spin mp_sh sh_flag set_glock]. rewrite Q, Qp. cbn [andb]. rewrite andb_true_r.
    unfold quiet_loop, num_scans in *. cbn [mp_sh mp_loop lat lp_done lp_pc set_glock sh_glock sh_scans]. rewrite Qn. reflexivity.
  - eexists. split; [reflexivity|]. split; [|split; reflexivity].
    change (quiet_pub _) with (quiet_pub m). cbn [mp_spin mp_sh unlock_g sh_flag set_glock]. rewrite Q, Qp. cbn [andb]. rewrite andb_true_r.
    destruct (Z.leb_spec (num_scans (mp_sh m)) (cf_depth cf)); [lia|].
    destruct (Z.leb_spec (lp_done (mp_loop m)) (cf_depth cf)); [lia|].
    unfold quiet_loop, num_scans in *. cbn [mp_sh mp_loop lat lp_done lp_pc unlock_g set_glock sh_glock sh_scans negb]. rewrite Qn.
    apply Z.leb_le in Q2. rewrite Q2. reflexivity.
  - destruct (sh_glock (mp_sh m)) eqn:G; [discriminate Ql|]. apply andb_true_iff in Ql. destruct Ql as [Q3 Q4].
    eexists. split; [reflexivity|]. split; [|split; reflexivity].
    change (quiet_pub _) with (quiet_pub m). cbn [mp_spin mp_sh]. rewrite Q, Qp. cbn [andb]. rewrite andb_true_r.
    pose proof Q3 as Q5. apply Z.leb_le in Q5. destruct (Z.ltb_spec (lp_done (mp_loop m)) num); [lia|].
    unfold quiet_loop. cbn [mp_sh mp_loop lat lp_done lp_pc]. rewrite Qn, G, Q3, Q4. reflexivity.
  - destruct (sh_glock (mp_sh m)) eqn:G; [discriminate Ql|]. apply andb_true_iff in Ql. destruct Ql as [Q3 Q4]. apply negb_true_iff in Q4. subst new.
    eexists. split; [reflexivity|]. split; [|split; reflexivity].
    change (quiet_pub _) with (quiet_pub m). cbn [mp_spin mp_sh andb]. rewrite Q, Qp. cbn [andb]. rewrite andb_true_r.
    unfold quiet_loop. cbn [mp_sh mp_loop lat lp_done lp_pc]. rewrite Qn, G. reflexivity.
Qed.

Lemma quiet_pub_step : forall m, (0 <= cf_depth cf)%Z -> quiet m = true -> exists m', step cf Pub m = Some (Ok m') /\ quiet m' = true /\ unchanged m m'.
Proof.
  intros m D Q. unfold quiet in *. apply andb_true_iff in Q. destruct Q as [Q Qp]. apply andb_true_iff in Q. destruct Q as [Q Ql].
  assert (Ne : sh_scans (mp_sh m) <> []).
  { unfold quiet_loop in Ql. apply andb_true_iff in Ql. destruct Ql as [Ql _]. apply andb_true_iff in Ql. destruct Ql as [Ql _]. apply Z.ltb_lt in Ql.
    unfold num_scans in Ql. intro E. rewrite E in Ql. cbn in Ql. lia. }
  unfold quiet_pub in Qp. apply andb_true_iff in Q. destruct Q as [Q Qf]. pose proof Qf as Qf'. apply negb_true_iff in Qf'.
  cbn [step]. unfold pub_step.
  destruct (pb_pc (mp_pub m)) eqn:P; try discriminate Qp; cbn [option_map bind].
  - rewrite Qf'. eexists. split; [reflexivity|]. split; [|split; reflexivity].
    change (quiet_loop _) with (quiet_loop m). cbn [mp_spin mp_sh]. rewrite Q, Qf, Ql. unfold quiet_pub. cbn [mp_pub mp_sh pat pb_pc]. exact Qp.
  - destruct (sh_scans (mp_sh m)) as [|x xs] eqn:E; [contradiction Ne; reflexivity|].
    eexists. split; [reflexivity|]. split; [|split; reflexivity].
    change (quiet_loop _) with (quiet_loop m). cbn [mp_spin mp_sh]. rewrite Q, Qf, Ql. unfold quiet_pub. cbn [mp_pub mp_sh pat pb_pc]. exact Qp.
  - unfold lock_p. destruct (sh_plock (mp_sh m)) eqn:G; [discriminate Qp|].
    eexists. split; [reflexivity|]. split; [|split; reflexivity].
    change (quiet_loop _) with (quiet_loop m). cbn [mp_spin mp_sh set_plock sh_flag]. rewrite Q, Qf, Ql. reflexivity.
  - eexists. split; [reflexivity|]. split; [|split; reflexivity].
    change (quiet_loop _) with (quiet_loop m). cbn [mp_spin mp_sh]. rewrite Q, Qf, Ql. unfold quiet_pub. cbn [mp_pub mp_sh pat pb_pc]. exact Qp.
  - eexists. split; [reflexivity|]. split; [|split; reflexivity].
    change (quiet_loop _) with (quiet_loop m). cbn [mp_spin mp_sh unlock_p set_plock sh_flag]. rewrite Q, Qf, Ql. reflexivity.
  - eexists. split; [reflexivity|]. split; [|split; reflexivity].
    change (quiet_loop _) with (quiet_loop m). cbn [mp_spin mp_sh note sh_flag]. rewrite Q, Qf, Ql. unfold quiet_pub. cbn [mp_pub mp_sh pat pb_pc note sh_plock]. exact Qp.
Qed.

(** A finite schedule, then the two threads in turn. *)
Definition then_quiet (ls : list (label T)) (n : nat) : label T :=
  if (n <? List.length ls)%nat then nth n ls Loop else if Nat.even n then Loop else Pub.

Definition state_at (m0 : mapper T) (lb : nat -> label T) (n : nat) : mapper T :=
  match exec cf m0 (map lb (seq 0 n)) with Ok m => m | Fault _ => m0 end.

Lemma seq_last : forall n, seq 0 (S n) = seq 0 n ++ [n].
Proof. intro n. rewrite seq_S. reflexivity. Qed.

Lemma exec_prefix : forall ls ls' m m', exec cf m (ls ++ ls') = Ok m' -> exists m1, exec cf m ls = Ok m1.
Proof. intros ls ls' m m' E. rewrite exec_app in E. apply bind_ok in E. destruct E as (m1 & E & _). exists m1. exact E. Qed.

Section Run.
Context (ls : list (label T)) (m0 m : mapper T).
Context (D : (0 <= cf_depth cf)%Z) (I : mapper_init cf = Ok m0) (E : exec cf m0 ls = Ok m) (Q : quiet m = true).
Let lb := then_quiet ls.
Let st := state_at m0 lb.

Lemma prefix_labels : forall n, (n <= List.length ls)%nat -> map lb (seq 0 n) = firstn n ls.
Proof.
  intros n H. induction n as [|n IH]; [reflexivity|]. rewrite seq_last, map_app, IH by lia. cbn [map].
  unfold lb, then_quiet. destruct (Nat.ltb_spec n (List.length ls)); [|lia].
  clear -H0. revert n H0. induction ls as [|x l IH]; intros n H; [cbn in H; lia|].
  destruct n as [|n]; [reflexivity|]. cbn [firstn nth app]. f_equal. apply IH. cbn in H. lia.
Qed.
Lemma runs_ok : forall n, exists m', exec cf m0 (map lb (seq 0 n)) = Ok m' /\ ((List.length ls <= n)%nat -> quiet m' = true /\ unchanged m m').
Proof.
  intro n. destruct (Nat.le_gt_cases n (List.length ls)) as [H|H].
  - rewrite prefix_labels by exact H. rewrite <- (firstn_skipn n ls) in E. pose proof E as E'. apply exec_prefix in E'. destruct E' as (m1 & E1).
    exists m1. split; [exact E1|]. intro H'. assert (N : n = List.length ls) by lia. subst n. rewrite firstn_all in *. rewrite skipn_all, app_nil_r in E.
    rewrite E in E1. injection E1 as <-. split; [exact Q|split; reflexivity].
  - induction H as [|n H (m1 & E1 & R)]; rewrite seq_last, map_app; cbn [map]; rewrite exec_app.
    + rewrite prefix_labels by lia. rewrite firstn_all, E. cbn [bind exec].
      assert (K : lb (List.length ls) = Loop \/ lb (List.length ls) = Pub).
      { unfold lb, then_quiet. rewrite Nat.ltb_irrefl. destruct (Nat.even _); auto. }
      destruct K as [-> | ->].
      * destruct (quiet_loop_step m Q) as (m' & S1 & S2 & S3). exists m'. rewrite S1. split; [reflexivity|]. intros _. split; assumption.
      * destruct (quiet_pub_step m D Q) as (m' & S1 & S2 & S3). exists m'. rewrite S1. split; [reflexivity|]. intros _. split; assumption.
    + rewrite E1. cbn [bind exec]. destruct (R ltac:(lia)) as (Q1 & U1 & U2).
      assert (K : lb n = Loop \/ lb n = Pub).
      { unfold lb, then_quiet. destruct (Nat.ltb_spec n (List.length ls)); [lia|]. destruct (Nat.even _); auto. }
      destruct (quiet_loop_step m1 Q1) as (m2 & S1 & S2 & S3 & S4). destruct (quiet_pub_step m1 D Q1) as (m3 & S5 & S6 & S7 & S8).
      destruct K as [K|K].
      * rewrite K, S1. exists m2. split; [reflexivity|]. intros _. split; [exact S2|split; congruence].
      * rewrite K, S5. exists m3. split; [reflexivity|]. intros _. split; [exact S6|split; congruence].
Qed.

Lemma st_exec : forall n, exec cf m0 (map lb (seq 0 n)) = Ok (st n).
Proof. intro n. destruct (runs_ok n) as (m' & H & _). unfold st, state_at. rewrite H. reflexivity. Qed.
Lemma st_prefix : forall n, (n <= List.length ls)%nat -> exec cf m0 (firstn n ls) = Ok (st n).
Proof. intros n H. rewrite <- prefix_labels by exact H. apply st_exec. Qed.
Lemma st_quiet : forall n, (List.length ls <= n)%nat -> quiet (st n) = true /\ unchanged m (st n).
Proof.
  intros n H. destruct (runs_ok n) as (m' & R & K). rewrite st_exec in R. injection R as <-. apply K. exact H.
Qed.
Lemma st_lives : lives cf st lb.
Proof.
  intro n. pose proof (st_exec (S n)) as H. rewrite seq_last, map_app, exec_app, st_exec in H. cbn [bind map exec] in H.
  destruct (step cf (lb n) (st n)) as [[m1|f]|] eqn:Sp; cbn [bind] in H; [left|discriminate H|right]; injection H as H; rewrite H; [reflexivity|split; reflexivity].
Qed.
Lemma lb_loop : forall n, (List.length ls <= 2 * n)%nat -> lb (2 * n)%nat = Loop.
Proof.
  intros n H. unfold lb, then_quiet. destruct (Nat.ltb_spec (2 * n) (List.length ls)); [lia|].
  rewrite Nat.even_mul. reflexivity.
Qed.
Lemma lb_pub : forall n, (List.length ls <= 2 * n + 1)%nat -> lb (2 * n + 1)%nat = Pub.
Proof.
  intros n H. unfold lb, then_quiet. destruct (Nat.ltb_spec (2 * n + 1) (List.length ls)); [lia|].
  rewrite Nat.even_add, Nat.even_mul. reflexivity.
Qed.
Lemma st_fair : fair cf st lb.
Proof.
  intros t O n. destruct t; cbn [thread] in *.
  - destruct (O (List.length ls)) as (k & Hk & Sk). exfalso. apply Sk. destruct (st_quiet k Hk) as [Qk _].
    unfold quiet in Qk. cbn [step]. unfold spin_step. destruct (sp_pc (mp_spin (st k))); try discriminate Qk. reflexivity.
  - exists (2 * (n + List.length ls))%nat. split; [lia|]. split; [apply lb_loop; lia|].
    destruct (quiet_loop_step _ (proj1 (st_quiet (2 * (n + List.length ls)) ltac:(lia)))) as (m' & S1 & _). rewrite S1. discriminate.
  - exists (2 * (n + List.length ls) + 1)%nat. split; [lia|]. split; [apply lb_pub; lia|].
    destruct (quiet_pub_step _ D (proj1 (st_quiet (2 * (n + List.length ls) + 1) ltac:(lia)))) as (m' & S1 & _). rewrite S1. discriminate.
Qed.
Lemma st_init : mapper_init cf = Ok (st 0).
Proof. exact I. Qed.
Lemma lb_prefix : forall n, (n < List.length ls)%nat -> lb n = nth n ls Loop.
Proof. intros n H. unfold lb, then_quiet. destruct (Nat.ltb_spec n (List.length ls)); [reflexivity|lia]. Qed.
Lemma lb_after : forall n, (List.length ls <= n)%nat -> lb n = Loop \/ lb n = Pub.
Proof. intros n H. unfold lb, then_quiet. destruct (Nat.ltb_spec n (List.length ls)); [lia|]. destruct (Nat.even n); auto. Qed.

End Run.
End P.
