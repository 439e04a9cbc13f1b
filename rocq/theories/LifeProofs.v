(** The threads end once the context is shut down; the destructor waits for them. *)

From Coq Require Import ZArith List Bool String Lia Classical Arith.Wf_nat.
From Verif Require Import Outcome Arith TypesModel ScanModel MatcherModel ConstraintModel
  SolverModel GraphModel OccGridModel MotionModel FilterModel LaserModel MapperModel SpecMapper SpecMapper2 SpecNode
  NdtProofs MapperProofs MapperSteps MapperInv1 MapperInv2 MapperInv3 NodeProofs NodeProofs2 NodeLive NodeFair LifeModel SpecLife.
Import ListNotations.
Local Open Scope outcome_scope.

Section P.
Context {T : Type} {A : Arith T}.
Context (cf : config T).

(** ** One move *)
Inductive life_tr (f : life T) : move T -> life T -> Prop :=
| T_call l m' : (exists e, l = Deliver e) \/ l = Spin -> lf_dtor f = Alive -> step cf l (lf_node f) = Some (Ok m') ->
    life_tr f (Node l) (mkLife m' (lf_ok f) (lf_loop f) (lf_pub f) Alive)
| T_loop m' : lf_loop f = Inside -> step cf Loop (lf_node f) = Some (Ok m') ->
    life_tr f (Node Loop) (mkLife m' (lf_ok f) (after_body m' TLoop) (lf_pub f) (lf_dtor f))
| T_pub m' : lf_pub f = Inside -> step cf Pub (lf_node f) = Some (Ok m') ->
    life_tr f (Node Pub) (mkLife m' (lf_ok f) (lf_loop f) (after_body m' TPub) (lf_dtor f))
| T_test_loop : lf_loop f = AtTest ->
    life_tr f (Test TLoop) (mkLife (lf_node f) (lf_ok f) (if lf_ok f then Inside else Ended) (lf_pub f) (lf_dtor f))
| T_test_pub : lf_pub f = AtTest ->
    life_tr f (Test TPub) (mkLife (lf_node f) (lf_ok f) (lf_loop f) (if lf_ok f then Inside else Ended) (lf_dtor f))
| T_shutdown : life_tr f Shutdown (mkLife (lf_node f) false (lf_loop f) (lf_pub f) (lf_dtor f))
| T_destroy : lf_dtor f = Alive -> sp_pc (mp_spin (lf_node f)) = SIdle ->
    life_tr f Destroy (mkLife (lf_node f) (lf_ok f) (lf_loop f) (lf_pub f) JoinPub)
| T_join_pub : lf_dtor f = JoinPub -> lf_pub f = Ended ->
    life_tr f Destroy (mkLife (lf_node f) (lf_ok f) (lf_loop f) (lf_pub f) JoinLoop)
| T_join_loop : lf_dtor f = JoinLoop -> lf_loop f = Ended ->
    life_tr f Destroy (mkLife (lf_node f) (lf_ok f) (lf_loop f) (lf_pub f) Gone).

Lemma life_cases : forall mv f f', life_step cf mv f = Some (Ok f') -> life_tr f mv f'.
Proof.
  intros mv f f' H.
  assert (om : forall l (k : mapper T -> life T), option_map (fun o => m <- o ;; Ok (k m)) (step cf l (lf_node f)) = Some (Ok f') ->
    exists m', step cf l (lf_node f) = Some (Ok m') /\ f' = k m').
  { intros l k Q. destruct (step cf l (lf_node f)) as [[m'|x]|]; cbn in Q; try discriminate Q. exists m'. split; [reflexivity|congruence]. }
  destruct mv as [l|t| |]; cbn [life_step] in H.
  - destruct l as [e| | |].
    + destruct (lf_dtor f) eqn:D; try discriminate H. apply om in H. destruct H as (m' & S & ->). apply T_call; eauto.
    + destruct (lf_dtor f) eqn:D; try discriminate H. apply om in H. destruct H as (m' & S & ->). apply T_call; eauto.
    + destruct (lf_loop f) eqn:D; try discriminate H. apply om in H. destruct H as (m' & S & ->). apply T_loop; assumption.
    + destruct (lf_pub f) eqn:D; try discriminate H. apply om in H. destruct H as (m' & S & ->). apply T_pub; assumption.
  - destruct t; [discriminate H| |].
    + destruct (lf_loop f) eqn:D; try discriminate H. injection H as <-. apply T_test_loop. exact D.
    + destruct (lf_pub f) eqn:D; try discriminate H. injection H as <-. apply T_test_pub. exact D.
  - injection H as <-. apply T_shutdown.
  - destruct (lf_dtor f) eqn:D; try discriminate H.
    + destruct (sp_pc (mp_spin (lf_node f))) eqn:P; try discriminate H. injection H as <-. apply T_destroy; assumption.
    + destruct (lf_pub f) eqn:P; try discriminate H. injection H as <-. rewrite <- P. apply T_join_pub; assumption.
    + destruct (lf_loop f) eqn:P; try discriminate H. injection H as <-. rewrite <- P. apply T_join_loop; assumption.
Qed.

(** ** What always holds *)
Definition life_inv (f : life T) : Prop :=
  reachable cf (lf_node f) /\
  (lf_loop f <> Inside -> lp_pc (mp_loop (lf_node f)) = LSleep) /\
  (lf_pub f <> Inside -> pb_pc (mp_pub (lf_node f)) = PTop) /\
  (lf_dtor f <> Alive -> sp_pc (mp_spin (lf_node f)) = SIdle) /\
  (lf_dtor f = JoinLoop \/ lf_dtor f = Gone -> lf_pub f = Ended) /\
  (lf_dtor f = Gone -> lf_loop f = Ended) /\
  (lf_ok f = true -> lf_loop f <> Ended /\ lf_pub f <> Ended).

Lemma reach_step : forall l m m', reachable cf m -> step cf l m = Some (Ok m') -> reachable cf m'.
Proof.
  intros l m m' (ls & E) S. exists (ls ++ [l]). unfold run in *. destruct (mapper_init cf) as [m0|]; [|discriminate E]. cbn [bind] in *.
  rewrite (exec_app cf ls [l] m0), E. cbn [bind exec]. rewrite S. reflexivity.
Qed.
Lemma after_loop : forall m : mapper T, after_body m TLoop <> Inside -> lp_pc (mp_loop m) = LSleep.
Proof. intros m H. cbn in H. destruct (lp_pc (mp_loop m)); congruence. Qed.
Lemma after_pub : forall m : mapper T, after_body m TPub <> Inside -> pb_pc (mp_pub m) = PTop.
Proof. intros m H. cbn in H. destruct (pb_pc (mp_pub m)); congruence. Qed.
Lemma after_not_ended : forall (m : mapper T) t, after_body m t <> Ended.
Proof. intros m []; cbn; [discriminate|destruct (lp_pc (mp_loop m)); discriminate|destruct (pb_pc (mp_pub m)); discriminate]. Qed.

Lemma not_loop_keeps : forall l m m', step cf l m = Some (Ok m') -> l <> Loop -> mp_loop m' = mp_loop m.
Proof. intros l m m' S N. apply step_cases in S. destruct S; try reflexivity. contradiction N. reflexivity. Qed.
Lemma not_pub_keeps : forall l m m', step cf l m = Some (Ok m') -> l <> Pub -> mp_pub m' = mp_pub m.
Proof. intros l m m' S N. apply step_cases in S. destruct S; try reflexivity. contradiction N. reflexivity. Qed.
Lemma threads_keep_spin : forall l m m', step cf l m = Some (Ok m') -> l = Loop \/ l = Pub -> mp_spin m' = mp_spin m.
Proof. intros l m m' S N. apply step_cases in S. destruct S; try reflexivity; destruct N; discriminate. Qed.

Lemma life_inv_tr : forall f mv f', life_inv f -> life_tr f mv f' -> life_inv f'.
Proof.
  intros f mv f' (I1 & I2 & I3 & I4 & I5 & I6 & I7) H.
  destruct H as [l m' Hl D S|m' D S|m' D S|D|D| |D P|D P|D P];
    (split; [|split; [|split; [|split; [|split; [|split]]]]]); cbn [lf_node lf_ok lf_loop lf_pub lf_dtor] in *;
    try exact I1; try exact I2; try exact I3; try exact I4; try exact I5; try exact I6; try exact I7;
    try (apply (reach_step _ _ _ I1 S)); try apply after_loop; try apply after_pub; try discriminate; try (intros [Q|Q]; discriminate Q).
  - intro Q. rewrite (not_loop_keeps _ _ _ S); [apply I2; exact Q|]. destruct Hl as [(e & ->)| ->]; discriminate.
  - intro Q. rewrite (not_pub_keeps _ _ _ S); [apply I3; exact Q|]. destruct Hl as [(e & ->)| ->]; discriminate.
  - intro Q. contradiction Q. reflexivity.
  - intro Q. rewrite (not_pub_keeps _ _ _ S); [apply I3; exact Q|discriminate].
  - intro Q. rewrite (threads_keep_spin _ _ _ S); [apply I4; exact Q|left; reflexivity].
  - intro Q. apply I6 in Q. congruence.
  - intro Q. split; [apply after_not_ended|apply I7; exact Q].
  - intro Q. rewrite (not_loop_keeps _ _ _ S); [apply I2; exact Q|discriminate].
  - intro Q. rewrite (threads_keep_spin _ _ _ S); [apply I4; exact Q|right; reflexivity].
  - intro Q. apply I5 in Q. congruence.
  - intro Q. split; [apply I7; exact Q|apply after_not_ended].
  - intros _. apply I2. rewrite D. discriminate.
  - intro Q. apply I6 in Q. congruence.
  - intro Q. rewrite Q. split; [discriminate|apply I7; exact Q].
  - intros _. apply I3. rewrite D. discriminate.
  - intro Q. apply I5 in Q. congruence.
  - intro Q. rewrite Q. split; [apply I7; exact Q|discriminate].
  - intros _. exact P.
  - intros _. apply I4. rewrite D. discriminate.
  - intros _. exact P.
  - intros _. apply I4. rewrite D. discriminate.
  - intros _. apply I5. left. exact D.
  - intros _. exact P.
Qed.

Lemma life_inv_init : forall f, life_init cf = Ok f -> life_inv f.
Proof.
  intros f H. unfold life_init in H. apply bind_ok in H. destruct H as (m & E & H). injection H as <-.
  assert (R : reachable cf m) by (exists []; unfold run; rewrite E; reflexivity).
  apply init_cases in E. destruct E as (s & g & -> & _).
  split; [exact R|]. cbn. repeat split; try discriminate; try (intros [Q|Q]; discriminate Q).
Qed.

Lemma life_exec_inv : forall ms f f', life_exec cf f ms = Ok f' -> life_inv f -> life_inv f'.
Proof.
  induction ms as [|mv ms IH]; intros f f' E I; cbn [life_exec] in E; [injection E as <-; exact I|].
  destruct (life_step cf mv f) as [[f1|x]|] eqn:S; cbn [bind] in E; [|discriminate E|apply (IH _ _ E I)].
  apply (IH _ _ E). apply (life_inv_tr f mv); [exact I|]. apply life_cases. exact S.
Qed.
Lemma life_reach_inv : forall f, life_reachable cf f -> life_inv f.
Proof.
  intros f (ms & E). unfold life_run in E. apply bind_ok in E. destruct E as (f0 & E0 & E).
  apply (life_exec_inv _ _ _ E). apply life_inv_init. exact E0.
Qed.

(** ** Without shutdown nothing ends *)
Lemma stays_ok : forall ms f f', life_exec cf f ms = Ok f' -> no_shutdown ms -> lf_ok f = true -> lf_ok f' = true.
Proof.
  induction ms as [|mv ms IH]; intros f f' E N K; cbn [life_exec] in E; [injection E as <-; exact K|].
  assert (N' : no_shutdown ms) by (intro Q; apply N; right; exact Q).
  destruct (life_step cf mv f) as [[f1|x]|] eqn:S; cbn [bind] in E; [|discriminate E|apply (IH _ _ E N' K)].
  apply (IH _ _ E N'). apply life_cases in S. destruct S; try exact K. exfalso. apply N. left. reflexivity.
Qed.

(** ** Fair executions *)
Section Live.
Context (st : nat -> life T) (lb : nat -> move T).
Context (S0 : life_init cf = Ok (st 0)) (L : life_lives cf st lb) (Fa : life_fair cf st lb).

Let nd (n : nat) : mapper T := lf_node (st n).
Let go (t : tid) (n : nat) : Prop := life_acts cf st lb (Node (thread t)) n.

Lemma st_inv : forall n, life_inv (st n).
Proof.
  induction n as [|n IH]; [apply life_inv_init; exact S0|]. destruct (L n) as [H|[_ H]]; [|rewrite H; exact IH].
  apply (life_inv_tr _ (lb n) _ IH). apply life_cases. exact H.
Qed.
Lemma nd_lock : forall n, lock_inv (nd n).
Proof. intro n. apply (lock_inv_reachable cf). apply st_inv. Qed.

(** The thread is in the middle of something. *)
Definition busy (t : tid) (f : life T) : Prop :=
  match t with
  | TSpin => lf_dtor f = Alive /\ sp_pc (mp_spin (lf_node f)) <> SIdle
  | TLoop => lf_loop f = Inside
  | TPub => lf_pub f = Inside
  end.
Lemma busy_works : forall t f, busy t f -> at_work t (lf_node f).
Proof. intros t f B [-> Q]. destruct B as [_ B]. contradiction. Qed.
Lemma busy_step : forall t f, busy t f -> life_step cf (Node (thread t)) f = None -> step cf (thread t) (lf_node f) = None.
Proof.
  intros t f B H. destruct t; cbn [busy thread life_step] in *; [destruct B as [B _]| |]; rewrite B in H; apply option_map_none in H; exact H.
Qed.
Lemma owner_busy : forall x t f, life_inv f -> owner x (lf_node f) = Some t -> busy t f.
Proof.
  intros x t f (R & I2 & I3 & I4 & _) O. apply (lock_inv_reachable cf) in R. pose proof (owner_works t x _ R O) as W.
  destruct R as (J1 & J2 & J3 & J4 & J5 & J6).
  destruct t; cbn [busy].
  - assert (sp_pc (mp_spin (lf_node f)) <> SIdle) by (intro Q; apply W; split; [reflexivity|exact Q]).
    split; [|assumption]. destruct (lf_dtor f) eqn:D; try reflexivity; exfalso; apply H; apply I4; discriminate.
  - destruct (lf_loop f) eqn:D; try reflexivity; exfalso;
      rewrite I2 in * by discriminate; destruct x; cbn [owner] in O; rewrite O in *; cbn in *; discriminate.
  - destruct (lf_pub f) eqn:D; try reflexivity; exfalso;
      rewrite I3 in * by discriminate; destruct x; cbn [owner] in O; rewrite O in *; cbn in *; discriminate.
Qed.

Lemma go_dec : forall t n, go t n \/ ~ go t n.
Proof. intros t n. apply classic. Qed.
Lemma go_step : forall t n, go t n -> step_tr cf (nd n) (thread t) (nd (S n)).
Proof.
  intros t n [E N]. destruct (L n) as [H|[H _]]; [|rewrite E in H; contradiction]. rewrite E in H. apply life_cases in H.
  unfold nd. inversion H as [l m' Hl D S|m' D S|m' D S|D|D| |D P|D P|D P]; subst; cbn [lf_node]; apply step_cases; try assumption;
    match goal with Q : _ = thread t |- _ => rewrite Q in S; exact S end.
Qed.
Lemma no_go : forall t n, ~ go t n -> nd (S n) = nd n \/ (exists l, l <> thread t /\ step_tr cf (nd n) l (nd (S n))).
Proof.
  intros t n N. destruct (L n) as [H|[_ H]]; [|left; unfold nd; rewrite H; reflexivity].
  assert (Q : lb n <> Node (thread t)).
  { intro E. apply N. split; [exact E|]. rewrite <- E, H. discriminate. }
  apply life_cases in H. unfold nd.
  inversion H as [l m' Hl D S E1 E2|m' D S E1 E2|m' D S E1 E2|D E1 E2|D E1 E2|E1 E2|D P E1 E2|D P E1 E2|D P E1 E2]; cbn [lf_node]; try (left; reflexivity);
    right; eexists; (split; [|apply step_cases; exact S]); congruence.
Qed.
Lemma no_go_same : forall t n, busy t (st n) -> ~ go t n -> same_place t (nd n) (nd (S n)).
Proof.
  intros t n W N. destruct (no_go t n N) as [E|(l & E1 & E2)]; [rewrite E; apply same_place_refl|].
  apply (other_place cf t _ _ _ E2 E1). apply busy_works. exact W.
Qed.
Lemma no_go_busy : forall t n, busy t (st n) -> ~ go t n -> busy t (st (S n)).
Proof.
  intros t n B N. pose proof (no_go_same t n B N) as Sm. destruct (L n) as [H|[_ H]]; [|rewrite H; exact B].
  assert (Q : lb n <> Node (thread t)).
  { intro E. apply N. split; [exact E|]. rewrite <- E, H. discriminate. }
  apply life_cases in H. unfold nd in Sm. revert B Sm Q H. generalize (st n) (lb n) (st (S n)). clear. intros f mv f' B Sm Q H.
  destruct H; destruct t; cbn [busy same_place lf_node lf_loop lf_pub lf_dtor thread] in *; try exact B; try congruence;
    try (rewrite Sm; split; [congruence|apply B]); try (destruct B; congruence).
Qed.

Lemma weakly_fair : forall t n, exists k, (n <= k)%nat /\ (go t k \/ life_step cf (Node (thread t)) (st k) = None).
Proof.
  intros t n. apply NNPP. intro N.
  assert (O : often (fun n => can_move cf (Node (thread t)) (st n))).
  { intro k. exists (Nat.max n k). split; [lia|]. assert (life_step cf (Node (thread t)) (st (Nat.max n k)) <> None) as Q.
    { intro Q. apply N. exists (Nat.max n k). split; [lia|right; exact Q]. }
    destruct t; exact Q. }
  destruct (Fa _ O n) as (k & Hk & Ak). apply N. exists k. split; [exact Hk|left; exact Ak].
Qed.

(** The owner of a mutex moves next. *)
Lemma owner_goes : forall x t n, owner x (nd n) = Some t -> exists k, (n <= k)%nat /\ go t k /\
  owner x (nd k) = Some t /\ hold_rank t (nd k) = hold_rank t (nd n).
Proof.
  intros x t n O. destruct (weakly_fair t n) as (k & Hk & Q). remember (k - n)%nat as d eqn:D. revert n k O Hk Q D.
  induction d as [|d IH]; intros n k O Hk Q D.
  - assert (k = n) by lia. subst k. exists n. split; [lia|].
    destruct Q as [Q|Q]; [|apply busy_step in Q; [contradiction (holder_moves cf _ _ (nd_lock n) (owner_holds t x _ O))|apply (owner_busy x); [apply st_inv|exact O]]].
    split; [exact Q|]. split; [exact O|reflexivity].
  - destruct (go_dec t n) as [An|Nn]; [exists n; split; [lia|]; split; [exact An|]; split; [exact O|reflexivity]|].
    assert (O' : owner x (nd (S n)) = Some t).
    { destruct (no_go t n Nn) as [E|(l & E1 & E2)]; [rewrite E; exact O|]. apply (owner_other cf x t _ _ _ (nd_lock n) E2 E1 O). }
    assert (R' : hold_rank t (nd (S n)) = hold_rank t (nd n)).
    { pose proof (no_go_same t n (owner_busy x t _ (st_inv n) O) Nn) as E. destruct t; cbn in E |- *; rewrite ?E; reflexivity. }
    destruct (IH (S n) k O' ltac:(lia) Q ltac:(lia)) as (j & Hj & Aj & Oj & Rj). exists j. split; [lia|]. split; [exact Aj|]. split; [exact Oj|congruence].
Qed.

Lemma is_freed : forall x t n, owner x (nd n) = Some t -> exists k, (n <= k)%nat /\ owner x (nd k) = None.
Proof.
  intros x t n O. remember (hold_rank t (nd n)) as r eqn:R. revert n O R.
  induction r as [r IH] using lt_wf_ind. intros n O R.
  destruct (owner_goes x t n O) as (k & Hk & Ak & Ok & Rk).
  destruct (owner_own cf x t _ _ (nd_lock k) (go_step t k Ak) Ok) as [F|(O' & Q)]; [exists (S k); split; [lia|exact F]|].
  destruct (IH (hold_rank t (nd (S k))) ltac:(lia) (S k) O' eq_refl) as (j & Hj & Ej). exists j. split; [lia|exact Ej].
Qed.
Lemma gets_free : forall x n, exists k, (n <= k)%nat /\ owner x (nd k) = None.
Proof.
  intros x n. destruct (owner x (nd n)) as [t|] eqn:O; [apply (is_freed x t n O)|exists n; split; [lia|exact O]].
Qed.

Lemma can_go : forall t n, busy t (st n) -> exists k, (n <= k)%nat /\ life_step cf (Node (thread t)) (st k) <> None.
Proof.
  intros t n W. destruct (classic (life_step cf (Node (thread t)) (st n) = None)) as [N|N]; [|exists n; split; [lia|exact N]].
  destruct (waits cf t _ (busy_works t _ W) (busy_step t _ W N)) as (x & t' & Wa & O). destruct (gets_free x n) as (k & Hk & Fk).
  clear N O. remember (k - n)%nat as d eqn:D. revert n Hk D W Wa.
  induction d as [|d IH]; intros n Hk D W Wa.
  - assert (k = n) by lia. subst k. exists n. split; [lia|]. intro Q. apply (granted cf t x _ Wa Fk). apply busy_step; assumption.
  - destruct (classic (life_step cf (Node (thread t)) (st n) = None)) as [N|N]; [|exists n; split; [lia|exact N]].
    assert (NA : ~ go t n) by (intros [_ Q]; contradiction).
    pose proof (no_go_same t n W NA) as Sm.
    destruct (IH (S n) ltac:(lia) ltac:(lia) (no_go_busy t n W NA) (wants_same t x _ _ Sm Wa)) as (j & Hj & Ej). exists j. split; [lia|exact Ej].
Qed.

(** A busy thread moves next from where it is. *)
Lemma next_go : forall t n, busy t (st n) -> exists k, (n <= k)%nat /\ go t k /\ busy t (st k) /\ same_place t (nd n) (nd k).
Proof.
  intros t n W.
  assert (E : exists k, (n <= k)%nat /\ go t k).
  { apply NNPP. intro N.
    assert (Q : forall k, (n <= k)%nat -> busy t (st k)).
    { intros k Hk. induction Hk as [|k Hk IH]; [exact W|]. apply no_go_busy; [exact IH|]. intro Ak. apply N. exists k. split; assumption. }
    assert (O : often (go t)).
    { apply (Fa (Node (thread t))). intro j. destruct (can_go t (Nat.max n j) (Q _ (Nat.le_max_l _ _))) as (k & Hk & Ek). exists k. split; [lia|].
      destruct t; exact Ek. }
    destruct (O n) as (k & Hk & Ak). apply N. exists k. split; assumption. }
  destruct E as (k & Hk & Ak). remember (k - n)%nat as d eqn:D. revert n W Hk D. induction d as [|d IH]; intros n W Hk D.
  - assert (k = n) by lia. subst k. exists n. split; [lia|]. split; [exact Ak|]. split; [exact W|apply same_place_refl].
  - destruct (go_dec t n) as [An|Nn]; [exists n; split; [lia|]; split; [exact An|]; split; [exact W|apply same_place_refl]|].
    pose proof (no_go_same t n W Nn) as Sm.
    destruct (IH (S n) (no_go_busy t n W Nn) ltac:(lia) ltac:(lia)) as (j & Hj & Aj & Bj & Ej). exists j. split; [lia|]. split; [exact Aj|]. split; [exact Bj|].
    apply (same_place_trans t _ (nd (S n))); assumption.
Qed.

Lemma after_go_loop : forall n, go TLoop n -> lf_loop (st (S n)) = after_body (nd (S n)) TLoop.
Proof.
  intros n [E N]. destruct (L n) as [H|[H _]]; [|rewrite E in H; contradiction]. rewrite E in H. apply life_cases in H.
  unfold nd. revert H. generalize (st n) (st (S n)). clear. intros f f' H. cbn [thread] in H. remember (Node Loop) as mv eqn:Q.
  destruct H as [l m' Hl D S|m' D S|m' D S|D|D| |D P|D P|D P]; try discriminate Q; [|reflexivity].
  exfalso. injection Q as ->. destruct Hl as [(e & X)|X]; discriminate X.
Qed.
Lemma after_go_pub : forall n, go TPub n -> lf_pub (st (S n)) = after_body (nd (S n)) TPub.
Proof.
  intros n [E N]. destruct (L n) as [H|[H _]]; [|rewrite E in H; contradiction]. rewrite E in H. apply life_cases in H.
  unfold nd. revert H. generalize (st n) (st (S n)). clear. intros f f' H. cbn [thread] in H. remember (Node Pub) as mv eqn:Q.
  destruct H as [l m' Hl D S|m' D S|m' D S|D|D| |D P|D P|D P]; try discriminate Q; [|reflexivity].
  exfalso. injection Q as ->. destruct Hl as [(e & X)|X]; discriminate X.
Qed.
Lemma loop_goes : forall n, lf_loop (st n) = Inside -> exists k, (n <= k)%nat /\
  loop_tr cf (mp_sh (nd k)) (mp_loop (nd n)) (mp_sh (nd (S k))) (mp_loop (nd (S k))) /\ lf_loop (st (S k)) = after_body (nd (S k)) TLoop.
Proof.
  intros n B. destruct (next_go TLoop n B) as (k & Hk & Ak & Bk & Ek). exists k. split; [exact Hk|]. split; [|apply after_go_loop; exact Ak].
  apply (go_step TLoop) in Ak. inversion Ak as [| |s' l' D E1 E2|]; subst. cbn in Ek. rewrite <- Ek. exact D.
Qed.
Lemma pub_goes : forall n, lf_pub (st n) = Inside -> exists k, (n <= k)%nat /\
  pub_tr cf (mp_sh (nd k)) (mp_pub (nd n)) (mp_sh (nd (S k))) (mp_pub (nd (S k))) /\ lf_pub (st (S k)) = after_body (nd (S k)) TPub.
Proof.
  intros n B. destruct (next_go TPub n B) as (k & Hk & Ak & Bk & Ek). exists k. split; [exact Hk|]. split; [|apply after_go_pub; exact Ak].
  apply (go_step TPub) in Ak. inversion Ak as [| | |s' l' D E1 E2]; subst. cbn in Ek. rewrite <- Ek. exact D.
Qed.

(** A round of the publisher ends. *)
Lemma pub_round : forall n, exists k, (n <= k)%nat /\ lf_pub (st k) <> Inside.
Proof.
  assert (late : forall r n, pub_rank (pb_pc (mp_pub (nd n))) = r -> pb_pc (mp_pub (nd n)) <> PTop -> exists k, (n <= k)%nat /\ lf_pub (st k) <> Inside).
  { induction r as [r IH] using lt_wf_ind. intros n R N.
    destruct (classic (lf_pub (st n) = Inside)) as [B|B]; [|exists n; split; [lia|exact B]].
    destruct (pub_goes n B) as (k & Hk & D & E). apply pub_rank_step in D; [|exact N]. rewrite R in D.
    destruct (classic (pb_pc (mp_pub (nd (S k))) = PTop)) as [Q|Q].
    - exists (S k). split; [lia|]. rewrite E. cbn. rewrite Q. discriminate.
    - destruct (IH _ D (S k) eq_refl Q) as (j & Hj & Ej). exists j. split; [lia|exact Ej]. }
  intro n. destruct (classic (lf_pub (st n) = Inside)) as [B|B]; [|exists n; split; [lia|exact B]].
  destruct (classic (pb_pc (mp_pub (nd n)) = PTop)) as [P|P]; [|apply (late _ n eq_refl P)].
  destruct (pub_goes n B) as (k & Hk & D & E).
  destruct (classic (pb_pc (mp_pub (nd (S k))) = PTop)) as [Q|Q].
  - exists (S k). split; [lia|]. rewrite E. cbn. rewrite Q. discriminate.
  - destruct (late _ (S k) eq_refl Q) as (j & Hj & Ej). exists j. split; [lia|exact Ej].
Qed.

(** A pass of the loop closure thread ends. *)
Context (Big : forall n, (num_scans (mp_sh (lf_node (st n))) < 2 ^ 64)%Z).

Lemma nd_pass : forall n, in_pass (mp_loop (nd n)).
Proof.
  induction n as [|n IH].
  - pose proof S0 as H. unfold life_init in H. apply bind_ok in H. destruct H as (m & E & H). injection H as H. unfold nd. rewrite <- H. cbn [lf_node].
    apply init_cases in E. destruct E as (s & g & -> & _). split; [cbn; lia|exact I].
  - destruct (go_dec TLoop n) as [An|Nn].
    + apply (go_step TLoop) in An. inversion An as [| |s' l' D E1 E2|]; subst. cbn [mp_loop]. apply (in_pass_tr cf _ _ _ _ (Big n) D IH).
    + destruct (no_go TLoop n Nn) as [E|(l & E1 & E2)]; [rewrite E; exact IH|].
      destruct E2; try exact IH. contradiction E1. reflexivity.
Qed.

Lemma loop_round : forall n, exists k, (n <= k)%nat /\ lf_loop (st k) <> Inside.
Proof.
  assert (late : forall a b c n, mu1 (mp_loop (nd n)) = a -> mu2 (mp_loop (nd n)) = b -> mu3 (mp_loop (nd n)) = c ->
    ~ early (lp_pc (mp_loop (nd n))) -> exists k, (n <= k)%nat /\ lf_loop (st k) <> Inside).
  { induction a as [a IHa] using lt_wf_ind. induction b as [b IHb] using lt_wf_ind. induction c as [c IHc] using lt_wf_ind.
    intros n Ea Eb Ec NE. destruct (classic (lf_loop (st n) = Inside)) as [B|B]; [|exists n; split; [lia|exact B]].
    destruct (loop_goes n B) as (k & Hk & D & E).
    destruct (mu_tr cf _ _ _ _ D (nd_pass n) NE) as [M|(NE' & [M|(E1 & [M|(E2 & M)])])].
    - exists (S k). split; [lia|]. rewrite E. cbn. rewrite M. discriminate.
    - rewrite Ea in M. destruct (IHa _ M _ _ (S k) eq_refl eq_refl eq_refl NE') as (j & Hj & Ej). exists j. split; [lia|exact Ej].
    - rewrite Eb in M. rewrite Ea in E1. destruct (IHb _ M _ (S k) E1 eq_refl eq_refl NE') as (j & Hj & Ej). exists j. split; [lia|exact Ej].
    - rewrite Ec in M. rewrite Ea in E1. rewrite Eb in E2. destruct (IHc _ M (S k) E1 E2 eq_refl NE') as (j & Hj & Ej). exists j. split; [lia|exact Ej]. }
  assert (cnt : forall n, lp_pc (mp_loop (nd n)) = LCount -> exists k, (n <= k)%nat /\ lf_loop (st k) <> Inside).
  { intros n P. destruct (classic (lf_loop (st n) = Inside)) as [B|B]; [|exists n; split; [lia|exact B]].
    destruct (loop_goes n B) as (k & Hk & D & E).
    destruct (count_step cf _ _ _ _ D P) as [Q|Q]; [exists (S k); split; [lia|]; rewrite E; cbn; rewrite Q; discriminate|].
    destruct (late _ _ _ (S k) eq_refl eq_refl eq_refl Q) as (j & Hj & Ej). exists j. split; [lia|exact Ej]. }
  assert (lck : forall n, lp_pc (mp_loop (nd n)) = LCountLock -> exists k, (n <= k)%nat /\ lf_loop (st k) <> Inside).
  { intros n P. destruct (classic (lf_loop (st n) = Inside)) as [B|B]; [|exists n; split; [lia|exact B]].
    destruct (loop_goes n B) as (k & Hk & D & E).
    destruct (cnt (S k) (count_lock_step cf _ _ _ _ D P)) as (j & Hj & Ej). exists j. split; [lia|exact Ej]. }
  intro n. destruct (lp_pc (mp_loop (nd n))) eqn:P; try (apply (late _ _ _ n eq_refl eq_refl eq_refl); rewrite P; cbn; tauto).
  - destruct (classic (lf_loop (st n) = Inside)) as [B|B]; [|exists n; split; [lia|exact B]].
    destruct (loop_goes n B) as (k & Hk & D & E).
    assert (Q : lp_pc (mp_loop (nd (S k))) = LSleep \/ lp_pc (mp_loop (nd (S k))) = LCountLock).
    { revert P D. generalize (mp_loop (nd n)) (mp_loop (nd (S k))). intros l l' P D. destruct D; try congruence; [left|right]; cbn; congruence. }
    destruct Q as [Q|Q]; [exists (S k); split; [lia|]; rewrite E; cbn; rewrite Q; discriminate|].
    destruct (lck (S k) Q) as (j & Hj & Ej). exists j. split; [lia|exact Ej].
  - apply lck. exact P.
  - apply cnt. exact P.
Qed.

(** ** After the shutdown *)
Context (N0 : nat) (Down : lf_ok (st N0) = false).
Lemma down : forall n, (N0 <= n)%nat -> lf_ok (st n) = false.
Proof.
  intros n H. induction H as [|n H IH]; [exact Down|]. destruct (L n) as [E|[_ E]]; [|rewrite E; exact IH].
  apply life_cases in E. destruct E; cbn [lf_ok]; try exact IH. reflexivity.
Qed.
Lemma pub_ended_stays : forall n k, (n <= k)%nat -> lf_pub (st n) = Ended -> lf_pub (st k) = Ended.
Proof.
  intros n k H E. induction H as [|k H IH]; [exact E|]. destruct (L k) as [Q|[_ Q]]; [|rewrite Q; exact IH].
  apply life_cases in Q. destruct Q; cbn [lf_pub]; try exact IH; congruence.
Qed.
Lemma loop_ended_stays : forall n k, (n <= k)%nat -> lf_loop (st n) = Ended -> lf_loop (st k) = Ended.
Proof.
  intros n k H E. induction H as [|k H IH]; [exact E|]. destruct (L k) as [Q|[_ Q]]; [|rewrite Q; exact IH].
  apply life_cases in Q. destruct Q; cbn [lf_loop]; try exact IH; congruence.
Qed.

Lemma pub_ends : exists k, lf_pub (st k) = Ended.
Proof.
  apply NNPP. intro N.
  assert (T1 : exists k, (N0 <= k)%nat /\ lf_pub (st k) = AtTest).
  { destruct (pub_round N0) as (k & Hk & E). exists k. split; [exact Hk|]. destruct (lf_pub (st k)) eqn:P; [reflexivity|contradiction E; reflexivity|].
    exfalso. apply N. exists k. exact P. }
  destruct T1 as (k & Hk & E).
  assert (K : forall n, (k <= n)%nat -> lf_pub (st n) = AtTest).
  { intros n H. induction H as [|n H IH]; [exact E|]. destruct (L n) as [Q|[_ Q]]; [|rewrite Q; exact IH].
    assert (lf_pub (st (S n)) <> Ended) as X by (intro X; apply N; exists (S n); exact X).
    pose proof (down n ltac:(lia)) as Dn.
    apply life_cases in Q. destruct Q; cbn [lf_pub] in *; try exact IH; try congruence. rewrite Dn in X. contradiction X. reflexivity. }
  destruct (Fa (Test TPub)) with (n := k) as (j & Hj & Ej & _).
  { intro n. exists (Nat.max k n). split; [lia|]. cbn. rewrite (K _ (Nat.le_max_l _ _)). discriminate. }
  apply N. exists (S j). pose proof (K j Hj) as Kj. pose proof (down j ltac:(lia)) as Dj. destruct (L j) as [Q|[Q _]]; rewrite Ej in Q.
  - apply life_cases in Q. inversion Q; subst. cbn [lf_pub]. rewrite Dj. reflexivity.
  - cbn in Q. rewrite Kj in Q. discriminate Q.
Qed.
Lemma loop_ends : exists k, lf_loop (st k) = Ended.
Proof.
  apply NNPP. intro N.
  assert (T1 : exists k, (N0 <= k)%nat /\ lf_loop (st k) = AtTest).
  { destruct (loop_round N0) as (k & Hk & E). exists k. split; [exact Hk|]. destruct (lf_loop (st k)) eqn:P; [reflexivity|contradiction E; reflexivity|].
    exfalso. apply N. exists k. exact P. }
  destruct T1 as (k & Hk & E).
  assert (K : forall n, (k <= n)%nat -> lf_loop (st n) = AtTest).
  { intros n H. induction H as [|n H IH]; [exact E|]. destruct (L n) as [Q|[_ Q]]; [|rewrite Q; exact IH].
    assert (lf_loop (st (S n)) <> Ended) as X by (intro X; apply N; exists (S n); exact X).
    pose proof (down n ltac:(lia)) as Dn.
    apply life_cases in Q. destruct Q; cbn [lf_loop] in *; try exact IH; try congruence. rewrite Dn in X. contradiction X. reflexivity. }
  destruct (Fa (Test TLoop)) with (n := k) as (j & Hj & Ej & _).
  { intro n. exists (Nat.max k n). split; [lia|]. cbn. rewrite (K _ (Nat.le_max_l _ _)). discriminate. }
  apply N. exists (S j). pose proof (K j Hj) as Kj. pose proof (down j ltac:(lia)) as Dj. destruct (L j) as [Q|[Q _]]; rewrite Ej in Q.
  - apply life_cases in Q. inversion Q; subst. cbn [lf_loop]. rewrite Dj. reflexivity.
  - cbn in Q. rewrite Kj in Q. discriminate Q.
Qed.

Context (N1 : nat) (Called : lf_dtor (st N1) <> Alive).
Lemma called : forall n, (N1 <= n)%nat -> lf_dtor (st n) <> Alive.
Proof.
  intros n H. induction H as [|n H IH]; [exact Called|]. destruct (L n) as [E|[_ E]]; [|rewrite E; exact IH].
  apply life_cases in E. destruct E; cbn [lf_dtor]; try exact IH; try discriminate. contradiction.
Qed.
Lemma destroyed : exists k, lf_dtor (st k) = Gone.
Proof.
  destruct pub_ends as (k1 & E1). destruct loop_ends as (k2 & E2).
  apply NNPP. intro N. set (k := Nat.max N1 (Nat.max k1 k2)).
  assert (En : forall n, (k <= n)%nat -> can_move cf Destroy (st n)).
  { intros n H. pose proof (pub_ended_stays k1 n ltac:(lia) E1) as P. pose proof (loop_ended_stays k2 n ltac:(lia) E2) as Q.
    pose proof (called n ltac:(lia)) as C. split; [exact C|]. cbn. rewrite P, Q. destruct (lf_dtor (st n)) eqn:D; try discriminate.
    - contradiction C. reflexivity.
    - exfalso. apply N. exists n. exact D. }
  assert (O : often (life_acts cf st lb Destroy)).
  { apply Fa. intro n. exists (Nat.max k n). split; [lia|]. apply En. lia. }
  assert (Go : forall n, (k <= n)%nat -> exists j, (n <= j)%nat /\ life_step cf Destroy (st j) = Some (Ok (st (S j)))).
  { intros n H. destruct (O n) as (j & Hj & E & X). exists j. split; [exact Hj|]. destruct (L j) as [Q|[Q _]]; rewrite E in Q; [exact Q|contradiction]. }
  assert (JL : forall n, (k <= n)%nat -> lf_dtor (st n) = JoinLoop -> False).
  { intros n H D. assert (K : forall j, (n <= j)%nat -> lf_dtor (st j) = JoinLoop).
    { intros j Hj. induction Hj as [|j Hj IH]; [exact D|]. assert (X : lf_dtor (st (S j)) <> Gone) by (intro X; apply N; exists (S j); exact X).
      destruct (L j) as [Q|[_ Q]]; [|rewrite Q; exact IH]. apply life_cases in Q. destruct Q; cbn [lf_dtor] in *; try exact IH; try congruence. }
    destruct (Go n H) as (j & Hj & E). specialize (K j Hj). apply life_cases in E. inversion E as [| | | | | |D' P E1' E2'|D' P E1' E2'|D' P E1' E2']; try congruence.
    apply N. exists (S j). rewrite <- E2'. reflexivity. }
  assert (JP : lf_dtor (st k) = JoinPub).
  { pose proof (called k ltac:(lia)). destruct (lf_dtor (st k)) eqn:D; try reflexivity; exfalso.
    - contradiction.
    - apply (JL k (le_n _) D).
    - apply N. exists k. exact D. }
  destruct (Go k (le_n _)) as (j & Hj & E).
  assert (K : lf_dtor (st j) = JoinPub).
  { clear E. induction Hj as [|j Hj IH]; [exact JP|]. assert (X : lf_dtor (st (S j)) <> JoinLoop) by (intro X; apply (JL (S j)); [lia|exact X]).
    destruct (L j) as [Q|[_ Q]]; [|rewrite Q; exact IH]. apply life_cases in Q. destruct Q; cbn [lf_dtor] in *; try exact IH; try congruence. }
  apply life_cases in E. inversion E as [| | | | | |D' P E1' E2'|D' P E1' E2'|D' P E1' E2']; try congruence.
  apply (JL (S j)); [lia|]. rewrite <- E2'. reflexivity.
Qed.

End Live.
End P.
