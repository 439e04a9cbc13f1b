(** C100: stopping the node. *)

From Coq Require Import ZArith List Bool String Lia.
From Flocq Require Import Core BinarySingleNaN.
From Verif Require Import Outcome Arith TypesModel ScanModel MatcherModel ConstraintModel
  SolverModel GraphModel OccGridModel MotionModel FilterModel LaserModel MapperModel SpecMapper SpecMapper2 SpecNode
  MapperSteps MapperInv1 MapperInv2 MapperWitness2 NodeLive NodeFair LifeModel SpecLife LifeProofs.
Import ListNotations.
Local Open Scope outcome_scope.

(** The node of an execution with starting and stopping is a node of the model
    without. *)
Theorem C100_same_node : forall {T} {A : Arith T} (cf : config T) f, life_reachable cf f -> reachable cf (lf_node f).
Proof. intros T A cf f H. apply (life_reach_inv cf f H). Qed.
Print Assumptions C100_same_node.

(** Once the destructor has returned no thread runs and no mutex is held. *)
Theorem C100_nothing_runs : forall {T} {A : Arith T} (cf : config T) f, life_reachable cf f -> lf_dtor f = Gone ->
  (forall l, life_step cf (Node l) f = None) /\ sh_glock (mp_sh (lf_node f)) = None /\ sh_plock (mp_sh (lf_node f)) = None.
Proof.
  intros T A cf f H G. pose proof (life_reach_inv cf f H) as V. pose proof V as (R & I2 & I3 & I4 & I5 & I6 & I7).
  pose proof (I5 (or_intror G)) as P. pose proof (I6 G) as Q. split.
  - intros [e| | |]; cbn [life_step]; rewrite ?G, ?P, ?Q; reflexivity.
  - assert (N : forall x, owner x (lf_node f) = None).
    { intro x. destruct (owner x (lf_node f)) as [t|] eqn:O; [|reflexivity]. apply (owner_busy cf x t f V) in O.
      destruct t; cbn in O; [destruct O as [O _]| |]; congruence. }
    split; [apply (N true)|apply (N false)].
Qed.
Print Assumptions C100_nothing_runs.

(** Without [rclcpp::shutdown()] the destructor does not return. *)
Theorem C100_destructor_hangs : forall {T} {A : Arith T} (cf : config T) f ms f', life_reachable cf f -> lf_ok f = true -> no_shutdown ms ->
  life_exec cf f ms = Ok f' -> lf_dtor f' <> Gone.
Proof.
  intros T A cf f ms f' H K N E G. pose proof (life_exec_inv cf _ _ _ E (life_reach_inv cf f H)) as (_ & _ & _ & _ & _ & I6 & I7).
  apply (stays_ok cf _ _ _ E N) in K. destruct (I7 K) as [X _]. apply X. apply I6. exact G.
Qed.
Print Assumptions C100_destructor_hangs.

(** After [rclcpp::shutdown()] both threads end, and the destructor returns. *)
Theorem C100_threads_end : forall {T} {A : Arith T} (cf : config T) st lb, life_init cf = Ok (st 0) -> life_lives cf st lb -> life_fair cf st lb ->
  (forall n, (num_scans (mp_sh (lf_node (st n))) < 2 ^ 64)%Z) -> (exists n, lf_ok (st n) = false) ->
  exists k, forall n, (k <= n)%nat -> lf_loop (st n) = Ended /\ lf_pub (st n) = Ended.
Proof.
  intros T A cf st lb S0 L F B (n & D).
  destruct (pub_ends cf st lb S0 L F n D) as (k1 & E1). destruct (loop_ends cf st lb S0 L F B n D) as (k2 & E2).
  exists (Nat.max k1 k2). intros j Hj. split.
  - apply (loop_ended_stays cf st lb L k2 j); [lia|exact E2].
  - apply (pub_ended_stays cf st lb L k1 j); [lia|exact E1].
Qed.
Print Assumptions C100_threads_end.

Theorem C100_unload_partial : forall {T} {A : Arith T} (cf : config T) st lb, life_init cf = Ok (st 0) -> life_lives cf st lb -> life_fair cf st lb ->
  (forall n, (num_scans (mp_sh (lf_node (st n))) < 2 ^ 64)%Z) -> (exists n, lf_ok (st n) = false) -> (exists n, lf_dtor (st n) <> Alive) ->
  exists k, lf_dtor (st k) = Gone.
Proof.
  intros T A cf st lb S0 L F B (n & D) (n' & C). apply (destroyed cf st lb S0 L F B n D n' C).
Qed.
Print Assumptions C100_unload_partial.

(** ** A fair execution in which the destructor was called and never returns *)
Section Hang.
Context {T : Type} {A : Arith T}.
Context (cf : config T) (m0 : mapper T) (I0 : mapper_init cf = Ok m0) (F0 : cf_file cf = None) (E0 : cf_enable cf = false).

Fixpoint turn (n : nat) : nat := match n with O => 0 | S k => match turn k with 4 => 0 | r => S r end end.
Lemma turn_is : forall n, turn (5 * n) = 0%nat.
Proof.
  induction n as [|n IH]; [reflexivity|]. replace (5 * S n)%nat with (S (S (S (S (S (5 * n)))))) by lia. cbn [turn]. rewrite IH. reflexivity.
Qed.
Lemma turn_add : forall n, turn (5 * n + 1) = 1%nat /\ turn (5 * n + 2) = 2%nat /\ turn (5 * n + 3) = 3%nat /\ turn (5 * n + 4) = 4%nat.
Proof.
  intro n. rewrite !(Nat.add_comm (5 * n)). cbn [Nat.add turn]. rewrite turn_is. repeat split.
Qed.

Definition publishing : mapper T := mkMapper (mp_sh m0) (mp_spin m0) (mp_loop m0) (pat (mp_pub m0) PTf).
Definition hang_st (n : nat) : life T :=
  match n with
  | O => mkLife m0 true AtTest AtTest Alive
  | S k =>
    match turn k with
    | 0 => mkLife m0 true AtTest AtTest JoinPub
    | 1 => mkLife m0 true Inside AtTest JoinPub
    | 2 => mkLife m0 true Inside Inside JoinPub
    | 3 => mkLife m0 true AtTest Inside JoinPub
    | _ => mkLife publishing true AtTest Inside JoinPub
    end
  end.
Definition hang_lb (n : nat) : move T :=
  match n with
  | O => Destroy
  | S k => match turn k with 0 => Test TLoop | 1 => Test TPub | 2 => Node Loop | _ => Node Pub end
  end.

Lemma hang_loop : step cf Loop m0 = Some (Ok m0).
Proof. destruct (init_cases cf _ I0) as (s & f & -> & _ & Es). rewrite F0, E0 in Es. cbn in Es. rewrite Es. reflexivity. Qed.
Lemma hang_pub : step cf Pub m0 = Some (Ok publishing) /\ step cf Pub publishing = Some (Ok m0).
Proof.
  unfold publishing. destruct (init_cases cf _ I0) as (s & f & -> & _ & Es). rewrite F0, E0 in Es. cbn in Es. rewrite Es. split; reflexivity.
Qed.
Lemma hang_pcs : sp_pc (mp_spin m0) = SIdle /\ lp_pc (mp_loop m0) = LSleep /\ pb_pc (mp_pub m0) = PTop.
Proof. destruct (init_cases cf _ I0) as (s & f & -> & _). repeat split. Qed.

Lemma hang_next : forall n, life_step cf (hang_lb n) (hang_st n) = Some (Ok (hang_st (S n))).
Proof.
  destruct hang_pcs as (P1 & P2 & P3). destruct hang_pub as (H1 & H2).
  intros [|n].
  - cbn. rewrite P1. reflexivity.
  - cbn [hang_lb hang_st turn]. destruct (turn n) as [|[|[|[|[|r]]]]] eqn:R; cbn [life_step lf_loop lf_pub lf_dtor lf_ok lf_node];
      try reflexivity; rewrite ?hang_loop, ?H1, ?H2; cbn [option_map bind after_body]; rewrite ?P2, ?P3; try reflexivity.
    exfalso. assert (B : forall k, (turn k <= 4)%nat) by (induction k as [|k IH]; [cbn; lia|cbn [turn]; destruct (turn k) as [|[|[|[|[|?]]]]]; lia]).
    specialize (B n). lia.
Qed.
Lemma hang_lives : life_lives cf hang_st hang_lb.
Proof. intro n. left. apply hang_next. Qed.
Lemma hang_idle : forall n, sp_pc (mp_spin (lf_node (hang_st n))) = SIdle.
Proof.
  destruct hang_pcs as (P1 & _). intros [|n]; [exact P1|]. cbn [hang_st]. destruct (turn n) as [|[|[|[|r]]]]; exact P1.
Qed.
Lemma hang_joins : forall n, lf_dtor (hang_st n) = match n with O => Alive | _ => JoinPub end /\ lf_pub (hang_st n) <> Ended.
Proof. intros [|n]; [split; [reflexivity|discriminate]|]. cbn [hang_st]. destruct (turn n) as [|[|[|[|r]]]]; split; try reflexivity; discriminate. Qed.
Lemma hang_acts : forall n, life_acts cf hang_st hang_lb (hang_lb n) n.
Proof. intro n. split; [reflexivity|]. rewrite hang_next. discriminate. Qed.
Lemma hang_fair : life_fair cf hang_st hang_lb.
Proof.
  intros mv O n. destruct (turn_add n) as (R1 & R2 & R3 & R4). pose proof (turn_is n) as R0.
  destruct mv as [[e| | |]|[]| |].
  - destruct (O 0%nat) as (k & _ & []).
  - exfalso. destruct (O 0%nat) as (k & _ & E). cbn in E. pose proof (hang_idle k) as P. unfold spin_step in E. rewrite P in E.
    destruct (lf_dtor (hang_st k)); apply E; reflexivity.
  - exists (S (5 * n + 2)). split; [lia|]. pose proof (hang_acts (S (5 * n + 2))) as Q. unfold hang_lb at 2 in Q. rewrite R2 in Q. exact Q.
  - exists (S (5 * n + 3)). split; [lia|]. pose proof (hang_acts (S (5 * n + 3))) as Q. unfold hang_lb at 2 in Q. rewrite R3 in Q. exact Q.
  - destruct (O 0%nat) as (k & _ & E). contradiction E. reflexivity.
  - exists (S (5 * n)). split; [lia|]. pose proof (hang_acts (S (5 * n))) as Q. unfold hang_lb at 2 in Q. rewrite R0 in Q. exact Q.
  - exists (S (5 * n + 1)). split; [lia|]. pose proof (hang_acts (S (5 * n + 1))) as Q. unfold hang_lb at 2 in Q. rewrite R1 in Q. exact Q.
  - destruct (O 0%nat) as (k & _ & []).
  - exfalso. destruct (O 0%nat) as (k & _ & C & E). destruct (hang_joins k) as [D P]. cbn in E. rewrite D in *. destruct k; [contradiction C; reflexivity|].
    destruct (lf_pub (hang_st (S k))); try (apply E; reflexivity). apply P. reflexivity.
Qed.
End Hang.

Theorem C100_unload_refuted : forall lm, exists (cf : config b64) st lb,
  life_init (A := BA (easy lm)) cf = Ok (st 0) /\ life_lives (A := BA (easy lm)) cf st lb /\ life_fair (A := BA (easy lm)) cf st lb /\
  (forall n, sh_scans (mp_sh (lf_node (st n))) = []) /\ lf_dtor (st 1%nat) = JoinPub /\ forall n, lf_dtor (st n) <> Gone.
Proof.
  intro lm. set (cf := cf64 lm 10 3 25 None false None). exists cf.
  assert (X : ends64 (mapper_init (A := BA (easy lm)) cf) (fun _ => true) = true) by (vm_compute; reflexivity).
  apply ends64_in in X. destruct X as (m0 & I & _).
  exists (hang_st m0), (hang_lb (T := b64)).
  split; [unfold life_init; rewrite I; reflexivity|].
  split; [apply hang_lives; [exact I|reflexivity|reflexivity]|].
  split; [apply hang_fair; [exact I|reflexivity|reflexivity]|].
  split; [|split; [reflexivity|]].
  - assert (Z : sh_scans (mp_sh m0) = []) by (destruct (init_cases (A := BA (easy lm)) cf _ I) as (s & f & -> & _ & Es); cbv zeta in Es; change (cf_file cf) with (@None (list (bag_msg b64))) in Es; rewrite Es; reflexivity).
    intros [|n]; [exact Z|]. cbn [hang_st]. destruct (turn n) as [|[|[|[|r]]]]; exact Z.
  - intro n. destruct (hang_joins m0 n) as [E _]. rewrite E. destruct n; discriminate.
Qed.
Print Assumptions C100_unload_refuted.

(** ** A fair execution that ends *)
Section Ends.
Context {T : Type} {A : Arith T}.
Context (cf : config T) (f0 f1 : life T) (ms : list (move T)).
Context (I0 : life_init cf = Ok f0) (E1 : life_exec cf f0 ms = Ok f1) (G1 : lf_dtor f1 = Gone).
Context (Sm : forall n f, life_exec cf f0 (firstn n ms) = Ok f -> (num_scans (mp_sh (lf_node f)) < 2 ^ 64)%Z).

Definition end_lb (n : nat) : move T := nth n ms Destroy.
Definition end_st (n : nat) : life T := match life_exec cf f0 (firstn n ms) with Ok f => f | Fault _ => f0 end.

Lemma life_exec_app : forall a b f, life_exec cf f (a ++ b) = (f' <- life_exec cf f a ;; life_exec cf f' b).
Proof.
  induction a as [|mv a IH]; intros b f; [reflexivity|]. cbn [app life_exec]. destruct (life_step cf mv f) as [[f'|x]|]; cbn [bind]; auto.
Qed.
Lemma end_ok : forall n, life_exec cf f0 (firstn n ms) = Ok (end_st n).
Proof.
  intro n. unfold end_st. pose proof E1 as E. rewrite <- (firstn_skipn n ms), life_exec_app in E. destruct (life_exec cf f0 (firstn n ms)); [reflexivity|discriminate E].
Qed.
Lemma end_gone : forall n, (List.length ms <= n)%nat -> end_st n = f1.
Proof. intros n H. unfold end_st. rewrite firstn_all2 by exact H. rewrite E1. reflexivity. Qed.
Lemma firstn_last : forall {X} n (l : list X) d, (n < List.length l)%nat -> firstn (S n) l = firstn n l ++ [nth n l d].
Proof.
  intros X n l. revert n. induction l as [|x l IH]; intros n d H; [cbn in H; lia|]. destruct n as [|n]; [reflexivity|].
  cbn [nth app]. rewrite firstn_cons. rewrite (IH n d) by (cbn in H; lia). reflexivity.
Qed.
Lemma end_lives : life_lives cf end_st end_lb.
Proof.
  intro n. destruct (Nat.lt_ge_cases n (List.length ms)) as [H|H].
  - pose proof (end_ok (S n)) as E. rewrite (firstn_last n ms Destroy H), life_exec_app, end_ok in E. cbn [bind life_exec] in E.
    unfold end_lb. destruct (life_step cf (nth n ms Destroy) (end_st n)) as [[f|x]|]; cbn [bind] in E; [left|discriminate E|right]; injection E as ->.
    + reflexivity.
    + split; reflexivity.
  - right. rewrite !end_gone by lia. split; [|reflexivity]. unfold end_lb. rewrite nth_overflow by exact H. cbn. rewrite G1. reflexivity.
Qed.
Lemma end_reachable : life_reachable cf f1.
Proof. exists ms. unfold life_run. rewrite I0. exact E1. Qed.
Lemma end_fair : life_fair cf end_st end_lb.
Proof.
  intros mv O. exfalso. destruct (O (List.length ms)) as (k & Hk & C). rewrite (end_gone k Hk) in C.
  pose proof (C100_nothing_runs cf f1 end_reachable G1) as (N & _).
  pose proof (life_reach_inv cf f1 end_reachable) as (_ & _ & _ & _ & I5 & I6 & _).
  pose proof (I5 (or_intror G1)) as P. pose proof (I6 G1) as Q.
  destruct mv as [[e| | |]|[]| |]; cbn [can_move] in C; try exact C; try (apply C; apply N).
  - apply C. reflexivity.
  - apply C. cbn. rewrite Q. reflexivity.
  - apply C. cbn. rewrite P. reflexivity.
  - apply (proj2 C). cbn. rewrite G1. reflexivity.
Qed.
Lemma end_light : forall n, (num_scans (mp_sh (lf_node (end_st n))) < 2 ^ 64)%Z.
Proof. intro n. apply (Sm n). apply end_ok. Qed.
End Ends.

(** The context is shut down in the middle of a loop closure and of a round of the
    publisher. *)
Definition stop_schedule : list (move b64) :=
  Node (Deliver (beam64 [] 0 0)) :: Test TLoop :: Test TPub :: repeat (Node Loop) 8 ++ repeat (Node Pub) 2 ++ [Shutdown; Destroy] ++ repeat (Node Loop) 40 ++ repeat (Node Pub) 20
  ++ repeat (Node Loop) 40 ++ [Test TLoop; Test TPub; Destroy; Destroy].
Definition life64 (o : outcome (life b64)) (P : life b64 -> bool) : bool := match o with Ok f => P f | Fault _ => false end.
Lemma life64_in : forall o P, life64 o P = true -> exists f, o = Ok f /\ P f = true.
Proof. intros [m|f] P H; [exists m; split; [reflexivity|exact H]|discriminate H]. Qed.
Definition gone64 (f : life b64) : bool := match lf_dtor f with Gone => true | _ => false end.
Definition midway64 (f : life b64) : bool :=
  match lf_dtor f, lp_pc (mp_loop (lf_node f)), pb_pc (mp_pub (lf_node f)) with JoinPub, LMatch _ _ _, PGridLock => negb (lf_ok f) | _, _, _ => false end.
Fixpoint life_light (lm : libm) (cf : config b64) (f : life b64) (ms : list (move b64)) : bool :=
  (num_scans (mp_sh (lf_node f)) <? 2 ^ 64)%Z &&
  match ms with
  | [] => true
  | mv :: rest =>
    match life_step (A := BA (easy lm)) cf mv f with
    | None => life_light lm cf f rest
    | Some (Ok f') => life_light lm cf f' rest
    | Some (Fault _) => true
    end
  end.
Lemma life_light_sound : forall lm cf ms f n f', life_light lm cf f ms = true -> life_exec (A := BA (easy lm)) cf f (firstn n ms) = Ok f' ->
  (num_scans (mp_sh (lf_node f')) < 2 ^ 64)%Z.
Proof.
  intros lm cf. induction ms as [|mv ms IH]; intros f n f' H E; cbn [life_light] in H; apply andb_true_iff in H; destruct H as [H0 H]; apply Z.ltb_lt in H0.
  - rewrite firstn_nil in E. injection E as <-. exact H0.
  - destruct n as [|n]; [injection E as <-; exact H0|]. cbn [firstn life_exec] in E.
    destruct (life_step (A := BA (easy lm)) cf mv f) as [[f2|x]|]; cbn [bind] in E; [apply (IH f2 n f' H E)|discriminate E|apply (IH f n f' H E)].
Qed.

Example C100_nonvacuous : forall lm, let cf := cf64 lm 0 1 0 None true (Some two_scans) in exists st lb,
  life_init (A := BA (easy lm)) cf = Ok (st 0) /\ life_lives (A := BA (easy lm)) cf st lb /\ life_fair (A := BA (easy lm)) cf st lb /\
  (forall n, (num_scans (mp_sh (lf_node (st n))) < 2 ^ 64)%Z) /\
  exists n, lf_ok (st n) = false /\ lf_dtor (st n) = JoinPub /\
    (exists c i p, lp_pc (mp_loop (lf_node (st n))) = LMatch c i p) /\ pb_pc (mp_pub (lf_node (st n))) = PGridLock.
Proof.
  intros lm cf.
  assert (X : life64 (life_init (A := BA (easy lm)) cf) (fun _ => true) = true) by (vm_compute; reflexivity).
  apply life64_in in X. destruct X as (f0 & I0 & _).
  assert (R : forall ms, life_exec (A := BA (easy lm)) cf f0 ms = life_run (A := BA (easy lm)) cf ms) by (intro ms; unfold life_run; rewrite I0; reflexivity).
  assert (X : life64 (life_run (A := BA (easy lm)) cf stop_schedule) gone64 = true) by (vm_compute; reflexivity).
  apply life64_in in X. destruct X as (f1 & E1 & G1). rewrite <- R in E1.
  assert (G : lf_dtor f1 = Gone) by (unfold gone64 in G1; destruct (lf_dtor f1); try discriminate G1; reflexivity).
  assert (B : life64 (life_init (A := BA (easy lm)) cf) (fun f => life_light lm cf f stop_schedule) = true) by (vm_compute; reflexivity).
  rewrite I0 in B. cbn [life64] in B.
  assert (X : life64 (life_run (A := BA (easy lm)) cf (firstn 15 stop_schedule)) midway64 = true) by (vm_compute; reflexivity).
  apply life64_in in X. destruct X as (f2 & E2 & M2). rewrite <- R in E2.
  exists (end_st (A := BA (easy lm)) cf f0 stop_schedule), (end_lb stop_schedule).
  split; [exact I0|]. split; [apply (end_lives cf f0 f1); assumption|]. split; [apply (end_fair cf f0 f1); assumption|]. split.
  - apply (end_light cf f0 f1); [assumption|]. intros n f E. apply (life_light_sound lm cf stop_schedule f0 n f B E).
  - exists 15%nat. unfold end_st. rewrite E2. unfold midway64 in M2.
    destruct (lf_dtor f2); try discriminate M2. destruct (lp_pc (mp_loop (lf_node f2))) eqn:P; try discriminate M2.
    destruct (pb_pc (mp_pub (lf_node f2))); try discriminate M2. apply negb_true_iff in M2. split; [exact M2|]. split; [reflexivity|]. split; [|reflexivity].
    eexists _, _, _. reflexivity.
Qed.
