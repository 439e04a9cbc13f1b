(** The node comes to rest when no more messages arrive. *)

From Coq Require Import ZArith List Bool String Lia Classical.
From Verif Require Import Outcome Arith TypesModel ScanModel MatcherModel ConstraintModel
  SolverModel GraphModel OccGridModel MotionModel FilterModel LaserModel MapperModel SpecMapper SpecMapper2 SpecNode SpecRest
  NdtProofs MapperProofs MapperSteps MapperInv1 MapperInv2 NodeLive NodeFair PropNode2 MapperInv6.
Import ListNotations.
Local Open Scope outcome_scope.

Section P.
Context {T : Type} {A : Arith T}.
Context (cf : config T).

Lemma same_refl : forall s : shared T, same_state s s.
Proof. intro s. constructor; reflexivity. Qed.
Lemma same_trans : forall s1 s2 s3 : shared T, same_state s1 s2 -> same_state s2 s3 -> same_state s1 s3.
Proof. intros s1 s2 s3 [] []. constructor; congruence. Qed.

(** What the two threads leave alone while no callback runs. *)
Record kept (m m' : mapper T) : Prop := {
  k_spin : mp_spin m' = mp_spin m;
  k_scans : sh_scans (mp_sh m') = sh_scans (mp_sh m);
  k_enable : sh_enable (mp_sh m') = sh_enable (mp_sh m);
  k_robot : sh_robot (mp_sh m') = sh_robot (mp_sh m);
  k_odom : sh_odom (mp_sh m') = sh_odom (mp_sh m)
}.
Lemma kept_refl : forall m : mapper T, kept m m.
Proof. intro m. constructor; reflexivity. Qed.
Lemma kept_trans : forall m1 m2 m3 : mapper T, kept m1 m2 -> kept m2 m3 -> kept m1 m3.
Proof. intros m1 m2 m3 [] []. constructor; congruence. Qed.

Lemma idle_spin : forall (s : shared T) sp s' sp', sp_pc sp = SIdle -> spin_tr cf s sp s' sp' -> False.
Proof. intros s sp s' sp' I H. destruct H; congruence. Qed.

Lemma kept_step : forall l m m', (forall e, l <> Deliver e) -> sp_pc (mp_spin m) = SIdle -> step_tr cf m l m' ->
  kept m m' /\ ((exists s' l', loop_tr cf (mp_sh m) (mp_loop m) s' l' /\ m' = mkMapper s' (mp_spin m) l' (mp_pub m)) \/
                (exists s' p', pub_tr cf (mp_sh m) (mp_pub m) s' p' /\ m' = mkMapper s' (mp_spin m) (mp_loop m) p')).
Proof.
  intros l m m' N I H. destruct l as [e| | |].
  - contradiction (N e). reflexivity.
  - inversion H as [|s' sp' D| |]; subst. exfalso. exact (idle_spin _ _ _ _ I D).
  - pose proof (loop_frame cf m m' H) as (F1 & _ & F2 & F3 & _ & _ & F4 & _). destruct F2.
    split; [constructor; assumption|]. left. inversion H as [| |s' l' D|]; subst. exists s', l'. split; [exact D|reflexivity].
  - pose proof (pub_frame cf m m' H) as (F1 & F2 & F3 & _ & _ & F4 & _). destruct F1 as (_ & F1 & _), F2.
    split; [constructor; assumption|]. right. inversion H as [| | |s' p' D]; subst. exists s', p'. split; [exact D|reflexivity].
Qed.

(** ** The loop closure thread *)
Context (D : (0 <= cf_depth cf)%Z).
Section K.
Context (K : Z) (B : (K < 2 ^ 64)%Z).

(** Nothing is left to be considered. *)
Definition satisfied (l : looper T) : Prop := (K <= cf_depth cf)%Z \/ (cf_depth cf < lp_done l /\ K <= lp_done l)%Z.
(** A pass over [K] scans. *)
Definition passing (l : looper T) : Prop :=
  match lp_pc l with
  | LCountLock | LCount => True
  | LSleep | LOpt _ _ | LOptLock | LOptRun => satisfied l
  | LNext num _ => num = K /\ (cf_depth cf < lp_done l)%Z
  | LFetchLock num _ | LFetch num _ => num = K /\ (cf_depth cf < lp_done l < K)%Z
  | LCand c | LRegion c _ | LMatch c _ _ | LCorrect c _ _ _ _ | LMake c _ _ _ | LPushLock c _ | LPush c _ | LFlag c =>
    lc_num c = K /\ (cf_depth cf < lp_done l < K)%Z
  end.
Lemma passing_step : forall s l s' l', num_scans s = K -> loop_tr cf s l s' l' -> passing l -> passing l'.
Proof.
  intros s l s' l' Hk H J.
  assert (nx : forall new, (cf_depth cf < lp_done l < K)%Z -> passing (next_scan l K new)).
  { intros new Q. unfold passing, next_scan. cbn [lp_done lp_pc]. split; [reflexivity|]. rewrite wrap64_small by lia. lia. }
  unfold passing in J.
  destruct H; match goal with H : lp_pc _ = _ |- _ => rewrite H in J end;
    try (rewrite (proj1 J); apply nx; apply (proj2 J));
    try (unfold after_candidate; destruct (wrap64 (lc_left c - 1) =? 0)%Z; [rewrite (proj1 J); apply nx; apply (proj2 J)|]);
    unfold passing, satisfied in *; cbn [lp_done lp_pc lat lc_num ctx_new]; try exact J; try exact I.
  - rewrite H. exact J.
  - left. rewrite <- Hk. assumption.
  - split; [exact Hk|]. unfold first_done. destruct (Z.leb_spec (lp_done l) (cf_depth cf)); [|lia]. rewrite wrap64_small by lia. lia.
  - destruct J as [-> J]. split; [reflexivity|lia].
  - destruct J as [-> J]. right. lia.
Qed.

(** The thread does nothing of consequence. *)
Definition resting (en : bool) (l : looper T) : Prop :=
  (en = false /\ lp_pc l = LSleep) \/
  (satisfied l /\ match lp_pc l with LSleep | LCountLock | LCount => True | LNext num new | LOpt num new => num = K /\ new = false /\ (cf_depth cf < K)%Z | _ => False end).
Lemma resting_step : forall s l s' l', num_scans s = K -> resting (sh_enable s) l -> loop_tr cf s l s' l' ->
  resting (sh_enable s) l' /\ same_state s s' /\ sh_trace s' = sh_trace s.
Proof.
  intros s l s' l' Hk R H. unfold resting, satisfied in R.
  destruct H; match goal with H : lp_pc _ = _ |- _ => rewrite H in R end;
    (destruct R as [[R1 R2]|[R1 R2]]; [try congruence|try contradiction]);
    (split; [unfold resting, satisfied; cbn [lp_pc lp_done lat]|split; [constructor; reflexivity|reflexivity]]).
  - left. split; assumption.
  - left. split; assumption.
  - right. split; [exact R1|exact I].
  - right. split; [exact R1|exact I].
  - right. split; [exact R1|exact I].
  - right. assert (F : first_done cf l = lp_done l). { unfold first_done. destruct (Z.leb_spec (lp_done l) (cf_depth cf)); [lia|reflexivity]. }
    rewrite F. split; [exact R1|]. rewrite Hk in *. auto.
  - destruct R2 as (-> & -> & R2). lia.
  - right. split; [exact R1|exact R2].
  - right. split; [exact R1|exact I].
  - destruct R2 as (_ & R2 & _). discriminate R2.
Qed.
End K.

(** ** The publisher *)
Definition clearing (s : shared T) (p : publisher T) : Prop := pb_pc p <> PClear -> sh_flag s = false.
Lemma clearing_step : forall s p s' p', pub_tr cf s p s' p' -> clearing s p -> clearing s' p'.
Proof.
  intros s p s' p' H G. unfold clearing in *.
  destruct H; match goal with H : pb_pc _ = _ |- _ => rewrite H in G end; cbn [pat pb_pc sh_flag set_flag set_glock set_plock unlock_g unlock_p note];
    intro Q; try (apply G; discriminate); try reflexivity.
Qed.
Definition repeating (s : shared T) (p : publisher T) : Prop :=
  sh_flag s = false /\
  match pb_pc p with
  | PTop | PTf | PPoseLock | PReadRobot => True
  | PReadOdom r => r = sh_robot s
  | PSend r o => r = sh_robot s /\ o = sh_odom s
  | _ => False
  end.
Lemma repeating_step : forall s p s' p', pub_tr cf s p s' p' -> repeating s p ->
  repeating s' p' /\ same_state s s' /\
  (sh_trace s' = sh_trace s \/ sh_trace s' = ObTf (sh_robot s) (sh_odom s) (map_to_odom (sh_robot s) (sh_odom s)) :: sh_trace s).
Proof.
  intros s p s' p' H [F G].
  destruct H; match goal with H : pb_pc _ = _ |- _ => rewrite H in G end; try contradiction;
    (split; [unfold repeating; cbn [pat pb_pc sh_flag set_flag set_glock set_plock unlock_g unlock_p note sh_robot sh_odom]; split; [exact F|]|
     split; [constructor; reflexivity|try (left; reflexivity)]]); auto.
  - rewrite F. exact I.
  - destruct (sh_scans s); exact I.
  - destruct G as [-> ->]. right. reflexivity.
Qed.
Lemma repeating_same : forall s s' p, same_state s s' -> repeating s p -> repeating s' p.
Proof. intros s s' p [] [F G]. unfold repeating. split; [congruence|]. destruct (pb_pc p); intuition congruence. Qed.

Section Live.
Context (st : nat -> mapper T) (lb : nat -> label T).
Context (S0 : mapper_init cf = Ok (st 0)) (L : lives cf st lb) (Fa : fair cf st lb).
Context (Bg : forall n, (num_scans (mp_sh (st n)) < 2 ^ 64)%Z).
Context (n0 : nat) (Q0 : silent_from lb n0).

Section N1.
Context (n1 : nat) (H1 : (n0 <= n1)%nat) (Id : sp_pc (mp_spin (st n1)) = SIdle).

Lemma kept_from : forall n, (n1 <= n)%nat -> kept (st n1) (st n).
Proof.
  intros n Hn. induction Hn as [|n Hn IH]; [apply kept_refl|].
  apply (kept_trans _ (st n)); [exact IH|]. destruct (L n) as [H|[_ H]]; [|rewrite H; apply kept_refl].
  apply step_cases in H. apply (kept_step (lb n)); [intro e; apply Q0; lia| |exact H]. rewrite (k_spin _ _ IH). exact Id.
Qed.

Lemma moves : forall n, (n1 <= n)%nat -> st (S n) = st n \/
  (exists s' l', loop_tr cf (mp_sh (st n)) (mp_loop (st n)) s' l' /\ st (S n) = mkMapper s' (mp_spin (st n)) l' (mp_pub (st n))) \/
  (exists s' p', pub_tr cf (mp_sh (st n)) (mp_pub (st n)) s' p' /\ st (S n) = mkMapper s' (mp_spin (st n)) (mp_loop (st n)) p').
Proof.
  intros n Hn. destruct (L n) as [H|[_ H]]; [|left; exact H]. right.
  apply step_cases in H. apply (kept_step (lb n)) in H; [apply H|intro e; apply Q0; lia|]. rewrite (k_spin _ _ (kept_from n Hn)). exact Id.
Qed.
Let K := num_scans (mp_sh (st n1)).
Lemma count_same : forall n, (n1 <= n)%nat -> num_scans (mp_sh (st n)) = K.
Proof. intros n Hn. unfold K, num_scans. rewrite (k_scans _ _ (kept_from n Hn)). reflexivity. Qed.

(** An invariant of the loop closure thread that its own steps keep. *)
Lemma loop_keeps : forall (P : looper T -> Prop), (forall s l s' l', num_scans s = K -> loop_tr cf s l s' l' -> P l -> P l') ->
  forall n k, (n1 <= n)%nat -> (n <= k)%nat -> P (mp_loop (st n)) -> P (mp_loop (st k)).
Proof.
  intros P St n k Hn Hk H. induction Hk as [|k Hk IH]; [exact H|].
  destruct (moves k ltac:(lia)) as [->|[(s' & l' & M & ->)|(s' & p' & M & ->)]]; cbn [mp_loop]; try exact IH.
  apply (St _ _ _ _ (count_same k ltac:(lia)) M IH).
Qed.

Lemma rests : exists n2, (n1 <= n2)%nat /\ resting K (sh_enable (mp_sh (st n1))) (mp_loop (st n2)).
Proof.
  pose proof (C91_pass_finishes cf st lb S0 L Fa Bg) as Sl.
  destruct (Sl n1) as (n & Hn & Pn).
  destruct (sh_enable (mp_sh (st n1))) eqn:E; [|exists n; split; [exact Hn|left; split; [reflexivity|exact Pn]]].
  assert (W : at_work TLoop (st n)) by (intros [W _]; discriminate W).
  destruct (next_move cf st lb S0 L Fa TLoop n W) as (k & Hk & Ak & Ek). cbn [same_place] in Ek.
  assert (C : passing K (mp_loop (st (S k)))).
  { apply (act_step cf st lb L TLoop) in Ak. inversion Ak as [| |s' l' M E1 E2|]; subst. cbn [mp_loop].
    pose proof (k_enable _ _ (kept_from k ltac:(lia))) as Ee. rewrite <- Ek in Pn. destruct M; try congruence. exact I. }
  destruct (Sl (S k)) as (j & Hj & Pj). exists j. split; [lia|]. right. split; [|rewrite Pj; exact I].
  pose proof (loop_keeps (passing K) (fun s l s' l' => passing_step K (Bg n1) s l s' l') (S k) j) as J.
  specialize (J ltac:(lia) ltac:(lia) C). unfold passing in J. rewrite Pj in J. exact J.
Qed.

Section N2.
Context (n2 : nat) (H2 : (n1 <= n2)%nat) (Re : resting K (sh_enable (mp_sh (st n1))) (mp_loop (st n2))).
Lemma rests_on : forall n, (n2 <= n)%nat -> resting K (sh_enable (mp_sh (st n1))) (mp_loop (st n)).
Proof.
  intros n Hn. induction Hn as [|n Hn IH]; [exact Re|].
  destruct (moves n ltac:(lia)) as [->|[(s' & l' & M & ->)|(s' & p' & M & ->)]]; cbn [mp_loop]; try exact IH.
  rewrite <- (k_enable _ _ (kept_from n ltac:(lia))) in *. apply (resting_step K _ _ _ _ (count_same n ltac:(lia)) IH M).
Qed.
Lemma loop_same : forall n s' l', (n2 <= n)%nat -> loop_tr cf (mp_sh (st n)) (mp_loop (st n)) s' l' ->
  same_state (mp_sh (st n)) s' /\ sh_trace s' = sh_trace (mp_sh (st n)).
Proof.
  intros n s' l' Hn M. pose proof (rests_on n Hn) as R. rewrite <- (k_enable _ _ (kept_from n ltac:(lia))) in R.
  apply (resting_step K _ _ _ _ (count_same n ltac:(lia)) R M).
Qed.

Lemma clears : exists n3, (n2 <= n3)%nat /\ pb_pc (mp_pub (st n3)) = PTop /\ sh_flag (mp_sh (st n3)) = false.
Proof.
  destruct (top_often cf st lb S0 L Fa n2) as (n & Hn & Pn).
  destruct (pub_moves cf st lb S0 L Fa n) as (k & Hk & Ek & _ & M).
  assert (C : clearing (mp_sh (st (S k))) (mp_pub (st (S k)))).
  { remember (mp_sh (st (S k))) as s'. remember (mp_pub (st (S k))) as p'. destruct M; try congruence.
    unfold clearing. cbn [pat pb_pc]. destruct (sh_flag (mp_sh (st k))); [intro Q; contradiction Q; reflexivity|reflexivity]. }
  assert (C' : forall j, (S k <= j)%nat -> clearing (mp_sh (st j)) (mp_pub (st j))).
  { intros j Hj. induction Hj as [|j Hj IH]; [exact C|].
    destruct (moves j ltac:(lia)) as [->|[(s' & l' & M' & ->)|(s' & p' & M' & ->)]]; cbn [mp_sh mp_pub]; try exact IH.
    - destruct (loop_same j s' l' ltac:(lia) M') as [[] _]. unfold clearing in *. rewrite ss_flag. exact IH.
    - apply (clearing_step _ _ _ _ M' IH). }
  destruct (top_often cf st lb S0 L Fa (S k)) as (j & Hj & Pj). exists j. split; [lia|]. split; [exact Pj|].
  apply (C' j Hj). rewrite Pj. discriminate.
Qed.

Lemma rest_from : forall n3, (n2 <= n3)%nat -> pb_pc (mp_pub (st n3)) = PTop -> sh_flag (mp_sh (st n3)) = false -> at_rest st n3.
Proof.
  intros n3 H3 P3 F3.
  assert (R : forall n, (n3 <= n)%nat -> same_state (mp_sh (st n3)) (mp_sh (st n)) /\ repeating (mp_sh (st n)) (mp_pub (st n))).
  { intros n Hn. induction Hn as [|n Hn [IH1 IH2]].
    - split; [apply same_refl|]. unfold repeating. rewrite P3. split; [exact F3|exact I].
    - destruct (moves n ltac:(lia)) as [->|[(s' & l' & M & ->)|(s' & p' & M & ->)]]; cbn [mp_sh mp_pub]; try (split; assumption).
      + destruct (loop_same n s' l' ltac:(lia) M) as [Sa _]. split; [apply (same_trans _ (mp_sh (st n))); assumption|apply (repeating_same _ _ _ Sa IH2)].
      + destruct (repeating_step _ _ _ _ M IH2) as (R & Sa & _). split; [apply (same_trans _ (mp_sh (st n))); assumption|exact R]. }
  split; [exact F3|]. exists (map_to_odom (sh_robot (mp_sh (st n3))) (sh_odom (mp_sh (st n3)))). intros n Hn. destruct (R n Hn) as [R1 R2]. split; [exact R1|].
  destruct (moves n ltac:(lia)) as [->|[(s' & l' & M & ->)|(s' & p' & M & ->)]]; cbn [mp_sh]; [left; reflexivity| |].
  - left. apply (loop_same n s' l' ltac:(lia) M).
  - destruct (repeating_step _ _ _ _ M R2) as (_ & _ & E). rewrite <- (ss_robot _ _ R1), <- (ss_odom _ _ R1). exact E.
Qed.
End N2.
End N1.

Lemma comes_to_rest : exists N, (n0 <= N)%nat /\ at_rest st N /\ quiescent (st N).
Proof.
  destruct (idle_often cf st lb S0 L Fa n0) as (n1 & H1 & Id).
  destruct (rests n1 H1 Id) as (n2 & H2 & R).
  destruct (clears n1 H1 Id n2 H2 R) as (n3 & H3 & P3 & F3).
  exists n3. split; [lia|]. split; [apply (rest_from n1 H1 Id n2 H2 R n3 H3 P3 F3)|].
  split; [rewrite (k_spin _ _ (kept_from n1 H1 Id n3 ltac:(lia))); exact Id|]. split; [|exact P3].
  pose proof (rests_on n1 H1 Id n2 H2 R n3 H3) as Re. unfold closing. intro C.
  destruct Re as [[_ Re]|[_ Re]]; destruct (lp_pc (mp_loop (st n3))); try discriminate Re; contradiction.
Qed.

(** What was published last stays what was published last. *)
Lemma stays_shown : forall N, at_rest st N ->
  map_current (mp_sh (st N)) \/ pose_since_map (sh_trace (mp_sh (st N))) ->
  markers_current cf (mp_sh (st N)) \/ pose_since_markers (sh_trace (mp_sh (st N))) ->
  forall n, (N <= n)%nat ->
  (map_current (mp_sh (st n)) \/ pose_since_map (sh_trace (mp_sh (st n)))) /\
  (markers_current cf (mp_sh (st n)) \/ pose_since_markers (sh_trace (mp_sh (st n)))).
Proof.
  intros N (_ & tf & R) M1 M2 n Hn. induction Hn as [|n Hn [IH1 IH2]]; [split; assumption|].
  assert (E : exists new, sh_trace (mp_sh (st (S n))) = new ++ sh_trace (mp_sh (st n)) /\ Forall neither new).
  { destruct (R n Hn) as [_ [E|E]]; [exists []|eexists [_]]; (split; [exact E|repeat constructor]). }
  destruct E as (new & E & F). destruct (R n Hn) as [[] _]. destruct (R (S n) ltac:(lia)) as [R' _]. destruct R'.
  assert (Es : sh_scans (mp_sh (st (S n))) = sh_scans (mp_sh (st n))) by congruence.
  assert (Eg : graph_scans (mp_sh (st (S n))) = graph_scans (mp_sh (st n))) by (apply graph_scans_same; congruence).
  assert (Ec : sh_cons (mp_sh (st (S n))) = sh_cons (mp_sh (st n))) by congruence.
  split.
  - destruct IH1 as [IH|IH]; [left; apply (map_current_more _ _ new E F Es Eg IH)|right; rewrite E; apply (pose_map_more _ _ F IH)].
  - destruct IH2 as [IH|IH]; [left; apply (markers_current_more cf _ _ new E F Es Eg Ec IH)|right; rewrite E; apply (pose_markers_more _ _ F IH)].
Qed.
End Live.
End P.
