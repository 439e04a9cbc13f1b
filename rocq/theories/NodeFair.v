(** Fair executions: mutexes are released, callbacks, publisher rounds and loop
    closure passes end. *)

From Coq Require Import ZArith List Bool String Lia Classical Arith.Wf_nat.
From Verif Require Import Outcome Arith TypesModel ScanModel MatcherModel ConstraintModel
  SolverModel GraphModel OccGridModel MotionModel FilterModel LaserModel MapperModel SpecMapper SpecMapper2 SpecNode
  NdtProofs MapperProofs MapperSteps MapperInv1 MapperInv2 MapperInv3 NodeProofs NodeProofs2 NodeLive.
Import ListNotations.
Local Open Scope outcome_scope.

Section P.
Context {T : Type} {A : Arith T}.
Context (cf : config T).

(** The graph mutex ([true]) or the pose mutex. *)
Definition owner (x : bool) (m : mapper T) : option tid := if x then sh_glock (mp_sh m) else sh_plock (mp_sh m).
Definition hold_rank (t : tid) (m : mapper T) : nat :=
  match t with
  | TSpin => 0
  | TLoop => match lp_pc (mp_loop m) with LPush _ _ => 1 | _ => 0 end
  | TPub => match pb_pc (mp_pub m) with PReadRobot => 1 | _ => 0 end
  end.
Definition same_place (t : tid) (m m' : mapper T) : Prop :=
  match t with
  | TSpin => mp_spin m' = mp_spin m
  | TLoop => mp_loop m' = mp_loop m
  | TPub => mp_pub m' = mp_pub m
  end.
Lemma same_place_refl : forall t m, same_place t m m.
Proof. intros [] m; reflexivity. Qed.
Lemma same_place_trans : forall t m1 m2 m3, same_place t m1 m2 -> same_place t m2 m3 -> same_place t m1 m3.
Proof. intros [] m1 m2 m3; cbn; congruence. Qed.

Definition at_work (t : tid) (m : mapper T) : Prop := ~ (t = TSpin /\ sp_pc (mp_spin m) = SIdle).

Lemma other_place : forall t l m m', step_tr cf m l m' -> l <> thread t -> at_work t m -> same_place t m m'.
Proof.
  intros t l m m' H N W. destruct H as [e s' sp' Id D|s' sp' D|s' l' D|s' p' D]; destruct t; cbn in *; try reflexivity;
    try (contradiction N; reflexivity).
  exfalso. apply W. split; [reflexivity|exact Id].
Qed.

Lemma owner_works : forall t x m, lock_inv m -> owner x m = Some t -> at_work t m.
Proof.
  intros t x m (I1 & _ & _ & I4 & _) O [-> Q]. rewrite Q in *. destruct x; cbn in O; rewrite O in *; cbn in *; discriminate.
Qed.
Lemma owner_holds : forall t x m, owner x m = Some t -> holds t m.
Proof. intros t x m H. destruct x; [left|right]; exact H. Qed.

Lemma is_some_iff : forall t o, is_some t o = true <-> o = Some t.
Proof. intros [] [[]|]; cbn; split; congruence. Qed.

(** Only the owner lets go of a mutex. *)
Lemma owner_other : forall x t l m m', lock_inv m -> step_tr cf m l m' -> l <> thread t -> owner x m = Some t -> owner x m' = Some t.
Proof.
  intros x t l m m' I H N O. pose proof (lock_inv_step cf _ _ _ I H) as J.
  pose proof (other_place t l m m' H N (owner_works t x m I O)) as E.
  destruct I as (I1 & I2 & I3 & I4 & I5 & I6). destruct J as (J1 & J2 & J3 & J4 & J5 & J6).
  destruct x, t; cbn [owner same_place] in *; apply is_some_iff;
    rewrite ?J1, ?J2, ?J3, ?J4, ?J5, ?J6, ?E; rewrite O in *; cbn in *; congruence.
Qed.

(** The owner lets go with its first or second step. *)
Lemma owner_own : forall x t m m', lock_inv m -> step_tr cf m (thread t) m' -> owner x m = Some t ->
  owner x m' = None \/ (owner x m' = Some t /\ (hold_rank t m' < hold_rank t m)%nat).
Proof.
  intros x t m m' I H O. pose proof I as (I1 & I2 & I3 & I4 & I5 & I6).
  destruct x, t; cbn [owner thread] in *; rewrite O in *; cbn in *;
    inversion H as [e s' sp' Id D|s' sp' D|s' l' D|s' p' D]; subst; cbn [mp_sh hold_rank mp_loop mp_pub] in *;
    try discriminate.
  - destruct D; match goal with E : sp_pc _ = _ |- _ => rewrite E in * end; cbn in *; try discriminate; left; reflexivity.
  - destruct D; match goal with E : lp_pc _ = _ |- _ => rewrite E in * end; cbn in *; try discriminate; try (left; reflexivity).
    right. split; [assumption|lia].
  - destruct D; match goal with E : pb_pc _ = _ |- _ => rewrite E in * end; cbn in *; try discriminate; left; reflexivity.
  - destruct D; match goal with E : sp_pc _ = _ |- _ => rewrite E in * end; cbn in *; try discriminate; left; try reflexivity.
  - destruct D; match goal with E : pb_pc _ = _ |- _ => rewrite E in * end; cbn in *; try discriminate; try (left; reflexivity).
    right. split; [assumption|lia].
Qed.

(** A thread that cannot move waits for a mutex that has an owner. *)
Definition wants (t : tid) (x : bool) (m : mapper T) : Prop :=
  match t with
  | TSpin => spin_wants (sp_pc (mp_spin m)) = Some x
  | TLoop => loop_wants (lp_pc (mp_loop m)) = true /\ x = true
  | TPub => pub_wants (pb_pc (mp_pub m)) = Some x
  end.
Lemma waits : forall t m, at_work t m -> step cf (thread t) m = None -> exists x t', wants t x m /\ owner x m = Some t'.
Proof.
  intros t m W H. destruct t; cbn [thread step] in H; apply option_map_none in H.
  - unfold spin_step in H. cbn [wants]. destruct (sp_pc (mp_spin m)) eqn:P; try discriminate H; cbn [spin_wants];
      try (destruct (sh_scans (mp_sh m)); discriminate H).
    { exfalso. apply W. split; [reflexivity|exact P]. }
    all: first [apply lock_g_none in H; destruct H as (t' & H); exists true, t'; split; [reflexivity|exact H]|
                apply lock_p_none in H; destruct H as (t' & H); exists false, t'; split; [reflexivity|exact H]].
  - unfold loop_step in H. cbn [wants]. destruct (lp_pc (mp_loop m)) as [| | | | | |c| | | | | | | | | | ] eqn:P; try discriminate H; cbn [loop_wants];
      try (destruct (lc_rest c) eqn:R; [discriminate H|]);
      apply lock_g_none in H; destruct H as (t' & H); exists true, t'; (split; [split; reflexivity|exact H]).
  - unfold pub_step in H. cbn [wants]. destruct (pb_pc (mp_pub m)) eqn:P; try discriminate H; cbn [pub_wants];
    first [apply lock_g_none in H; destruct H as (t' & H); exists true, t'; split; [reflexivity|exact H]|
                apply lock_p_none in H; destruct H as (t' & H); exists false, t'; split; [reflexivity|exact H]].
Qed.
Lemma granted : forall t x m, wants t x m -> owner x m = None -> step cf (thread t) m <> None.
Proof.
  intros t x m W O H. destruct t; cbn [thread step] in H; apply option_map_none in H.
  - unfold spin_step in H. cbn [wants] in W. destruct (sp_pc (mp_spin m)) eqn:P; cbn [spin_wants] in W; try discriminate W;
      injection W as <-; cbn [owner] in O; unfold lock_g, lock_p in H; rewrite O in H; discriminate H.
  - unfold loop_step in H. cbn [wants] in W. destruct W as [W ->]. cbn [owner] in O.
    destruct (lp_pc (mp_loop m)) as [| | | | | |c| | | | | | | | | | ] eqn:P; cbn [loop_wants] in W; try discriminate W;
      try (destruct (lc_rest c) eqn:R; [discriminate W|]); unfold lock_g in H; rewrite O in H; discriminate H.
  - unfold pub_step in H. cbn [wants] in W. destruct (pb_pc (mp_pub m)) eqn:P; cbn [pub_wants] in W; try discriminate W;
      injection W as <-; cbn [owner] in O; unfold lock_g, lock_p in H; rewrite O in H; discriminate H.
Qed.
Lemma wants_same : forall t x m m', same_place t m m' -> wants t x m -> wants t x m'.
Proof. intros t x m m' E W. destruct t; cbn in *; rewrite E; exact W. Qed.
Lemma work_same : forall t m m', same_place t m m' -> at_work t m -> at_work t m'.
Proof. intros t m m' E W [-> Q]. cbn in E. rewrite E in Q. apply W. split; [reflexivity|exact Q]. Qed.

(** Case analysis on a step from the state [s], [p] to [s'], [p']. *)
Local Ltac cases D Es Ep :=
  match type of D with
  | _ _ _ ?s ?p => let s' := fresh "s'" in let p' := fresh "p'" in
      remember s as s' eqn:Es; remember p as p' eqn:Ep; destruct D; try congruence
  end.

Section Live.
Context (st : nat -> mapper T) (lb : nat -> label T).
Context (S0 : mapper_init cf = Ok (st 0)) (L : lives cf st lb) (Fa : fair cf st lb).

Lemma st_reachable : forall n, reachable cf (st n).
Proof.
  induction n as [|n (ls & E)].
  - exists []. unfold run. rewrite S0. reflexivity.
  - exists (ls ++ [lb n]). unfold run in *. rewrite S0 in *. cbn [bind] in *. rewrite (exec_app cf ls [lb n] _). rewrite E. cbn [bind exec].
    destruct (L n) as [H|[H1 H2]]; [rewrite H; reflexivity|]. rewrite H1, H2. reflexivity.
Qed.
Lemma st_lock : forall n, lock_inv (st n).
Proof. intro n. apply (lock_inv_reachable cf). apply st_reachable. Qed.

Lemma act_dec : forall t n, acts cf st lb (thread t) n \/ ~ acts cf st lb (thread t) n.
Proof. intros t n. apply classic. Qed.
Lemma act_step : forall t n, acts cf st lb (thread t) n -> step_tr cf (st n) (thread t) (st (S n)).
Proof.
  intros t n [E N]. destruct (L n) as [H|[H _]]; [|rewrite E in H; contradiction]. rewrite E in H. apply step_cases. exact H.
Qed.
Lemma no_act : forall t n, ~ acts cf st lb (thread t) n ->
  st (S n) = st n \/ (lb n <> thread t /\ step_tr cf (st n) (lb n) (st (S n))).
Proof.
  intros t n N. destruct (L n) as [H|[_ H]]; [right|left; exact H]. split; [|apply step_cases; exact H].
  intro E. apply N. split; [exact E|]. rewrite <- E, H. discriminate.
Qed.
Lemma no_act_same : forall t n, at_work t (st n) -> ~ acts cf st lb (thread t) n -> same_place t (st n) (st (S n)).
Proof.
  intros t n W N. destruct (no_act t n N) as [E|(E1 & E2)]; [rewrite E; apply same_place_refl|]. apply (other_place t _ _ _ E2 E1 W).
Qed.

Lemma weakly_fair : forall t n, exists k, (n <= k)%nat /\ (acts cf st lb (thread t) k \/ step cf (thread t) (st k) = None).
Proof.
  intros t n. apply NNPP. intro N.
  assert (O : often (fun n => step cf (thread t) (st n) <> None)).
  { intro k. exists (Nat.max n k). split; [lia|]. intro Q. apply N. exists (Nat.max n k). split; [lia|right; exact Q]. }
  destruct (Fa t O n) as (k & Hk & Ak). apply N. exists k. split; [exact Hk|left; exact Ak].
Qed.

(** The owner of a mutex moves next. *)
Lemma owner_acts : forall x t n, owner x (st n) = Some t -> exists k, (n <= k)%nat /\ acts cf st lb (thread t) k /\
  owner x (st k) = Some t /\ hold_rank t (st k) = hold_rank t (st n).
Proof.
  intros x t n O. destruct (weakly_fair t n) as (k & Hk & Q). remember (k - n)%nat as d eqn:D. revert n k O Hk Q D.
  induction d as [|d IH]; intros n k O Hk Q D.
  - assert (k = n) by lia. subst k. exists n. split; [lia|].
    destruct Q as [Q|Q]; [|contradiction (holder_moves cf _ _ (st_lock n) (owner_holds t x _ O))].
    split; [exact Q|]. split; [exact O|reflexivity].
  - destruct (act_dec t n) as [An|Nn]; [exists n; split; [lia|]; split; [exact An|]; split; [exact O|reflexivity]|].
    assert (O' : owner x (st (S n)) = Some t).
    { destruct (no_act t n Nn) as [E|(E1 & E2)]; [rewrite E; exact O|]. apply (owner_other x t _ _ _ (st_lock n) E2 E1 O). }
    assert (R' : hold_rank t (st (S n)) = hold_rank t (st n)).
    { pose proof (no_act_same t n (owner_works t x _ (st_lock n) O) Nn) as E. destruct t; cbn in E |- *; rewrite ?E; reflexivity. }
    destruct (IH (S n) k O' ltac:(lia) Q ltac:(lia)) as (j & Hj & Aj & Oj & Rj). exists j. split; [lia|]. split; [exact Aj|]. split; [exact Oj|congruence].
Qed.

Lemma freed : forall x t n, owner x (st n) = Some t -> exists k, (n <= k)%nat /\ owner x (st k) = None.
Proof.
  intros x t n O. remember (hold_rank t (st n)) as r eqn:R. revert n O R.
  induction r as [r IH] using lt_wf_ind. intros n O R.
  destruct (owner_acts x t n O) as (k & Hk & Ak & Ok & Rk).
  destruct (owner_own x t _ _ (st_lock k) (act_step t k Ak) Ok) as [F|(O' & Q)]; [exists (S k); split; [lia|exact F]|].
  destruct (IH (hold_rank t (st (S k))) ltac:(lia) (S k) O' eq_refl) as (j & Hj & Ej). exists j. split; [lia|exact Ej].
Qed.

Lemma comes_free : forall x n, exists k, (n <= k)%nat /\ owner x (st k) = None.
Proof.
  intros x n. destruct (owner x (st n)) as [t|] eqn:O; [apply (freed x t n O)|exists n; split; [lia|exact O]].
Qed.

(** A thread with something to do can move at some later moment. *)
Lemma will_move : forall t n, at_work t (st n) -> exists k, (n <= k)%nat /\ step cf (thread t) (st k) <> None.
Proof.
  intros t n W. destruct (classic (step cf (thread t) (st n) = None)) as [N|N]; [|exists n; split; [lia|exact N]].
  destruct (waits t _ W N) as (x & t' & Wa & O). destruct (comes_free x n) as (k & Hk & Fk).
  clear N O. remember (k - n)%nat as d eqn:D. revert n Hk D W Wa.
  induction d as [|d IH]; intros n Hk D W Wa.
  - assert (k = n) by lia. subst k. exists n. split; [lia|]. apply (granted t x _ Wa Fk).
  - destruct (classic (step cf (thread t) (st n) = None)) as [N|N]; [|exists n; split; [lia|exact N]].
    assert (NA : ~ acts cf st lb (thread t) n) by (intros [_ Q]; contradiction).
    pose proof (no_act_same t n W NA) as Sm.
    destruct (IH (S n) ltac:(lia) ltac:(lia) (work_same t _ _ Sm W) (wants_same t x _ _ Sm Wa)) as (j & Hj & Ej). exists j. split; [lia|exact Ej].
Qed.

Lemma acts_often : forall t, t <> TSpin -> often (acts cf st lb (thread t)).
Proof. intros t N. apply Fa. intro n. apply will_move. intros [E _]. contradiction. Qed.

Lemma idle_often : often (fun n => sp_pc (mp_spin (st n)) = SIdle).
Proof.
  intro n0. apply NNPP. intro N.
  assert (W : forall n, (n0 <= n)%nat -> at_work TSpin (st n)) by (intros n Hn [_ Q]; apply N; exists n; split; assumption).
  assert (O : often (acts cf st lb Spin)).
  { apply (Fa TSpin). intro n. destruct (will_move TSpin (Nat.max n0 n) (W _ (Nat.le_max_l _ _))) as (k & Hk & Ek). exists k. split; [lia|exact Ek]. }
  assert (M : forall n k, (n0 <= n)%nat -> (n <= k)%nat -> (spin_rank (sp_pc (mp_spin (st k))) <= spin_rank (sp_pc (mp_spin (st n))))%nat).
  { intros n k Hn Hk. induction Hk as [|k Hk IH]; [lia|]. destruct (act_dec TSpin k) as [Ak|Nk].
    - apply (act_step TSpin) in Ak. inversion Ak as [|s' sp' D| |]; subst. apply spin_rank_step in D. cbn [mp_spin]. lia.
    - pose proof (no_act_same TSpin k (W k ltac:(lia)) Nk) as E. cbn in E. rewrite E. exact IH. }
  assert (Z : forall r n, (n0 <= n)%nat -> (spin_rank (sp_pc (mp_spin (st n))) <= r)%nat -> False).
  { induction r as [|r IH]; intros n Hn Hr.
    - destruct (O n) as (k & Hk & Ak). apply (act_step TSpin) in Ak. inversion Ak as [|s' sp' D| |]; subst. apply spin_rank_step in D.
      specialize (M n k Hn Hk). lia.
    - destruct (O n) as (k & Hk & Ak). apply (act_step TSpin) in Ak. apply (IH (S k)); [lia|].
      inversion Ak as [|s' sp' D E1 E2| |]; subst. apply spin_rank_step in D. specialize (M n k Hn Hk). cbn [mp_spin]. lia. }
  apply (Z _ n0 (le_n _) (le_n _)).
Qed.

(** A thread with something to do moves next from where it is. *)
Lemma next_move : forall t n, at_work t (st n) -> exists k, (n <= k)%nat /\ acts cf st lb (thread t) k /\ same_place t (st n) (st k).
Proof.
  intros t n W.
  assert (E : exists k, (n <= k)%nat /\ acts cf st lb (thread t) k).
  { apply NNPP. intro N.
    assert (Q : forall k, (n <= k)%nat -> at_work t (st k)).
    { intros k Hk. induction Hk as [|k Hk IH]; [exact W|]. apply (work_same t (st k)); [|exact IH].
      apply no_act_same; [exact IH|]. intro Ak. apply N. exists k. split; assumption. }
    assert (O : often (acts cf st lb (thread t))).
    { apply (Fa t). intro j. destruct (will_move t (Nat.max n j) (Q _ (Nat.le_max_l _ _))) as (k & Hk & Ek). exists k. split; [lia|exact Ek]. }
    destruct (O n) as (k & Hk & Ak). apply N. exists k. split; assumption. }
  destruct E as (k & Hk & Ak). remember (k - n)%nat as d eqn:D. revert n W Hk D. induction d as [|d IH]; intros n W Hk D.
  - assert (k = n) by lia. subst k. exists n. split; [lia|]. split; [exact Ak|apply same_place_refl].
  - destruct (act_dec t n) as [An|Nn]; [exists n; split; [lia|]; split; [exact An|apply same_place_refl]|].
    pose proof (no_act_same t n W Nn) as Sm.
    destruct (IH (S n) (work_same t _ _ Sm W) ltac:(lia) ltac:(lia)) as (j & Hj & Aj & Ej). exists j. split; [lia|]. split; [exact Aj|].
    apply (same_place_trans t _ (st (S n))); assumption.
Qed.

Lemma pub_works : forall n, at_work TPub (st n).
Proof. intros n [E _]. discriminate E. Qed.
Lemma pub_moves : forall n, exists k, (n <= k)%nat /\ mp_pub (st k) = mp_pub (st n) /\ acts cf st lb Pub k /\
  pub_tr cf (mp_sh (st k)) (mp_pub (st n)) (mp_sh (st (S k))) (mp_pub (st (S k))).
Proof.
  intro n. destruct (next_move TPub n (pub_works n)) as (k & Hk & Ak & Ek). exists k. split; [exact Hk|]. split; [exact Ek|]. split; [exact Ak|].
  apply (act_step TPub) in Ak. inversion Ak as [| | |s' p' D E1 E2]; subst. cbn in Ek. rewrite <- Ek. exact D.
Qed.

Lemma top_often : often (fun n => pb_pc (mp_pub (st n)) = PTop).
Proof.
  intro n. remember (pub_rank (pb_pc (mp_pub (st n)))) as r eqn:R. revert n R.
  induction r as [r IH] using lt_wf_ind. intros n R.
  destruct (classic (pb_pc (mp_pub (st n)) = PTop)) as [Q|Q]; [exists n; split; [lia|exact Q]|].
  destruct (pub_moves n) as (k & Hk & _ & _ & D). apply pub_rank_step in D; [|exact Q]. rewrite <- R in D.
  destruct (IH _ D (S k) eq_refl) as (j & Hj & Ej). exists j. split; [lia|exact Ej].
Qed.

(** ** Publication *)
(** Only the publisher clears the flag. *)
Lemma flag_stays : forall l m m', step_tr cf m l m' -> l <> Pub -> sh_flag (mp_sh m) = true -> sh_flag (mp_sh m') = true.
Proof.
  intros l m m' H N F. destruct H as [e s' sp' Id D|s' sp' D|s' l' D|s' p' D]; cbn [mp_sh].
  - destruct D; try exact F. rewrite configure_eq. exact F.
  - destruct D; try exact F; try reflexivity. destruct upd; [reflexivity|exact F].
  - destruct D; try exact F; try reflexivity.
  - contradiction N. reflexivity.
Qed.

Lemma pub_moves_flag : forall n, sh_flag (mp_sh (st n)) = true -> exists k, (n <= k)%nat /\ mp_pub (st k) = mp_pub (st n) /\ sh_flag (mp_sh (st k)) = true /\
  pub_tr cf (mp_sh (st k)) (mp_pub (st n)) (mp_sh (st (S k))) (mp_pub (st (S k))).
Proof.
  intros n F. destruct (pub_moves n) as (k & Hk & Ek & Ak & D).
  remember (k - n)%nat as d eqn:Dd. revert n F Hk Ek D Dd. induction d as [|d IH]; intros n F Hk Ek D Dd.
  - assert (k = n) by lia. subst k. exists n. split; [lia|]. split; [reflexivity|]. split; [exact F|exact D].
  - destruct (act_dec TPub n) as [An|Nn].
    + exists n. split; [lia|]. split; [reflexivity|]. split; [exact F|].
      apply (act_step TPub) in An. inversion An as [| | |s' p' D' E1 E2]; subst. exact D'.
    + assert (F' : sh_flag (mp_sh (st (S n))) = true).
      { destruct (no_act TPub n Nn) as [E|(E1 & E2)]; [rewrite E; exact F|]. apply (flag_stays _ _ _ E2 E1 F). }
      pose proof (no_act_same TPub n (pub_works n) Nn) as Sm. cbn in Sm.
      rewrite <- Sm in Ek, D. destruct (IH (S n) F' ltac:(lia) Ek D ltac:(lia)) as (j & Hj & Ej & Fj & Dj).
      exists j. rewrite Sm in Ej, Dj. split; [lia|]. split; [exact Ej|]. split; [exact Fj|exact Dj].
Qed.

Definition both_published (n : nat) : Prop :=
  exists k j, (n <= k)%nat /\ map_published st k /\ (k < j)%nat /\ markers_published cf st j.

Lemma graph_ahead : forall n, pb_pc (mp_pub (st n)) = PGraph -> exists k, (n <= k)%nat /\ markers_published cf st k.
Proof.
  intros n P. destruct (pub_moves n) as (k & Hk & Ek & _ & D). exists k. split; [exact Hk|]. unfold markers_published.
  cases D Es Ep. exists g, ms. split; [assumption|reflexivity].
Qed.
Lemma graph_lock_ahead : forall n, pb_pc (mp_pub (st n)) = PGraphLock -> exists k, (n <= k)%nat /\ markers_published cf st k.
Proof.
  intros n P. destruct (pub_moves n) as (k & Hk & Ek & _ & D).
  assert (Q : pb_pc (mp_pub (st (S k))) = PGraph) by (cases D Es Ep; reflexivity).
  destruct (graph_ahead (S k) Q) as (j & Hj & Ej). exists j. split; [lia|exact Ej].
Qed.
Lemma grid_ahead : forall n, pb_pc (mp_pub (st n)) = PGrid -> both_published n.
Proof.
  intros n P. destruct (pub_moves n) as (k & Hk & Ek & _ & D).
  assert (Q : map_published st k /\ pb_pc (mp_pub (st (S k))) = PGraphLock).
  { unfold map_published. cases D Es Ep. split; [|reflexivity]. exists scans, m. split; [assumption|reflexivity]. }
  destruct Q as [Q1 Q2]. destruct (graph_lock_ahead (S k) Q2) as (j & Hj & Ej). exists k, j. split; [exact Hk|]. split; [exact Q1|]. split; [lia|exact Ej].
Qed.
Lemma ahead_of : forall n k, (n <= k)%nat -> both_published k -> both_published n.
Proof. intros n k H (i & j & Hi & R). exists i, j. split; [lia|exact R]. Qed.
Lemma grid_lock_ahead : forall n, pb_pc (mp_pub (st n)) = PGridLock -> both_published n.
Proof.
  intros n P. destruct (pub_moves n) as (k & Hk & Ek & _ & D). apply (ahead_of n (S k)); [lia|]. apply grid_ahead.
  cases D Es Ep; reflexivity.
Qed.
Lemma clear_ahead : forall n, pb_pc (mp_pub (st n)) = PClear -> both_published n.
Proof.
  intros n P. destruct (pub_moves n) as (k & Hk & Ek & _ & D). apply (ahead_of n (S k)); [lia|]. apply grid_lock_ahead.
  cases D Es Ep; reflexivity.
Qed.
Lemma flag_ahead : forall n, sh_flag (mp_sh (st n)) = true -> both_published n.
Proof.
  intro n. remember (pub_rank (pb_pc (mp_pub (st n)))) as r eqn:R. revert n R.
  induction r as [r IH] using lt_wf_ind. intros n R F.
  destruct (pb_pc (mp_pub (st n))) eqn:P;
    [|apply clear_ahead; exact P|apply grid_lock_ahead; exact P|apply grid_ahead; exact P|..];
    destruct (pub_moves_flag n F) as (k & Hk & Ek & Fk & D).
  { apply (ahead_of n (S k)); [lia|]. apply clear_ahead. cases D Es Ep. rewrite Fk. reflexivity. }
  all: apply (ahead_of n (S k)); [lia|]; apply (IH (pub_rank (pb_pc (mp_pub (st (S k)))))); [|reflexivity|cases D Es Ep; exact Fk];
    apply pub_rank_step in D; [rewrite P in D; rewrite R; exact D|rewrite P; discriminate].
Qed.

(** Transforms. *)
Lemma tf_ahead : forall n0, (forall k, (n0 <= k)%nat -> sh_scans (mp_sh (st k)) <> []) -> forall n, (n0 <= n)%nat ->
  exists k, (n <= k)%nat /\ tf_published st k.
Proof.
  intros n0 Ne.
  assert (K : forall r n, (n0 <= n)%nat -> r = pub_rank (pb_pc (mp_pub (st n))) -> pb_pc (mp_pub (st n)) <> PTop -> exists k, (n <= k)%nat /\ tf_published st k).
  { induction r as [r IH] using lt_wf_ind. intros n Hn R P.
    destruct (pub_moves n) as (k & Hk & Ek & _ & D).
    assert (Q : tf_published st k \/ pb_pc (mp_pub (st (S k))) <> PTop).
    { unfold tf_published. cases D Es Ep; try (right; cbn; discriminate).
      - right. specialize (Ne k ltac:(lia)). cbn. destruct (sh_scans (mp_sh (st k))); [contradiction Ne; reflexivity|discriminate].
      - left. exists r0, o, (map_to_odom r0 o). reflexivity. }
    destruct Q as [Q|Q]; [exists k; split; assumption|].
    apply pub_rank_step in D; [|exact P]. rewrite <- R in D.
    destruct (IH _ D (S k) ltac:(lia) eq_refl Q) as (j & Hj & Ej). exists j. split; [lia|exact Ej]. }
  intros n Hn. destruct (classic (pb_pc (mp_pub (st n)) = PTop)) as [P|P]; [|apply (K _ n Hn eq_refl P)].
  destruct (pub_moves n) as (k & Hk & Ek & _ & D).
  destruct (K _ (S k) ltac:(lia) eq_refl) as (j & Hj & Ej); [|exists j; split; [lia|exact Ej]].
  cases D Es Ep. destruct (sh_flag (mp_sh (st k))); discriminate.
Qed.

(** A scan added by a laser callback. *)
Lemma spin_moves : forall n, sp_pc (mp_spin (st n)) <> SIdle -> exists k, (n <= k)%nat /\
  spin_tr cf (mp_sh (st k)) (mp_spin (st n)) (mp_sh (st (S k))) (mp_spin (st (S k))).
Proof.
  intros n P. destruct (next_move TSpin n) as (k & Hk & Ak & Ek); [intros [_ Q]; contradiction|]. exists k. split; [exact Hk|].
  apply (act_step TSpin) in Ak. inversion Ak as [|s' sp' D E1 E2| |]; subst. cbn in Ek. rewrite <- Ek. exact D.
Qed.
Lemma added_step : forall l m m' p, step_tr cf m l m' -> sh_trace (mp_sh m') = ObScan ALaser p :: sh_trace (mp_sh m) ->
  In p (sh_scans (mp_sh m')) /\ exists q odom, sp_pc (mp_spin m') = SPoseLock q odom true.
Proof.
  assert (no : forall {X} (x : X) l, l = x :: l -> False) by (intros X x l E; apply (f_equal (@List.length X)) in E; cbn in E; lia).
  intros l m m' p H E. destruct H as [e s' sp' Id D|s' sp' D|s' l' D|s' p' D]; cbn [mp_sh mp_spin] in *.
  - exfalso. destruct D; try (apply no in E; exact E). rewrite configure_eq in E. apply no in E. exact E.
  - destruct D; cbn in E; try (exfalso; apply no in E; exact E); try discriminate E.
    + injection E as ->. cbn. split; [apply in_or_app; right; left; reflexivity|]. eexists _, _. reflexivity.
  - exfalso. destruct D; cbn in E; try (apply no in E; exact E); try discriminate E.
  - exfalso. destruct D; cbn in E; try (apply no in E; exact E); try discriminate E.
Qed.
Lemma added_flag : forall p n, scan_added st p n -> exists k, (S n <= k)%nat /\ sh_flag (mp_sh (st k)) = true.
Proof.
  intros p n Ad. assert (Q : exists q odom, sp_pc (mp_spin (st (S n))) = SPoseLock q odom true).
  { destruct (L n) as [H|[_ H]].
    - apply step_cases in H. apply (added_step _ _ _ p H Ad).
    - unfold scan_added in Ad. rewrite H in Ad. apply (f_equal (@List.length _)) in Ad. cbn in Ad. lia. }
  destruct Q as (q & odom & P). destruct (spin_moves (S n)) as (k & Hk & D); [rewrite P; discriminate|].
  assert (P' : sp_pc (mp_spin (st (S k))) = SPoseWrite q odom true) by (cases D Es Ep; cbn; congruence).
  destruct (spin_moves (S k)) as (j & Hj & D'); [rewrite P'; discriminate|].
  exists (S j). split; [lia|]. cases D' Es Ep.
  match goal with H : sp_pc _ = SPoseWrite _ _ upd |- _ => rewrite P' in H; injection H as _ _ <- end. reflexivity.
Qed.

End Live.
End P.
