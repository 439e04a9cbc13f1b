(** The callbacks finish, the loop closure thread finishes its passes and
    considers every scan. *)

From Coq Require Import ZArith List Bool String Lia Arith.Wf_nat.
From Verif Require Import Outcome Arith TypesModel ScanModel MatcherModel ConstraintModel
  SolverModel GraphModel OccGridModel MotionModel FilterModel LaserModel MapperModel SpecMapper SpecMapper2 SpecNode
  NdtProofs MapperProofs MapperSteps MapperInv1 MapperInv2 MapperInv3 NodeProofs NodeProofs2.
Import ListNotations.
Local Open Scope outcome_scope.

Section P.
Context {T : Type} {A : Arith T}.
Context (cf : config T).

Lemma exec_app : forall ls ls' m, exec cf m (ls ++ ls') = (m' <- exec cf m ls ;; exec cf m' ls').
Proof.
  induction ls as [|l ls IH]; intros ls' m; [reflexivity|]. cbn [app exec].
  destruct (step cf l m) as [[m1|f]|]; cbn [bind]; [apply IH|reflexivity|apply IH].
Qed.

(** ** Callbacks *)
Definition spin_rank (pc : spin_pc T) : nat :=
  match pc with
  | SIdle => 0
  | SFilter _ _ _ _ => 3
  | SMatch _ _ => 8
  | SMake _ _ _ => 7
  | SConsLock _ _ _ => 6
  | SConsPush _ _ _ => 5
  | SScanLock _ _ => 4
  | SScanPush _ _ => 3
  | STrack _ _ => 3
  | SPoseLock _ _ _ => 2
  | SPoseWrite _ _ _ => 1
  | SGraphLock _ _ => 5
  | SGraph _ _ => 4
  | SInitRobot _ _ => 3
  | SInitOdom _ _ => 2
  | SInitDone _ _ => 1
  | SLoadLock _ => 2
  | SLoad _ => 1
  | SSaveLock => 2
  | SSave => 1
  end.

Lemma spin_rank_step : forall s sp s' sp', spin_tr cf s sp s' sp' -> (spin_rank (sp_pc sp') < spin_rank (sp_pc sp))%nat.
Proof.
  intros s sp s' sp' H. destruct H;
    match goal with H : sp_pc _ = _ |- _ => rewrite H end; cbn [sp_pc at_pc with_filter with_local spin_rank]; lia.
Qed.

Lemma spins_bound : forall ls m m', exec cf m ls = Ok m' -> no_calls ls ->
  (spins cf m ls + spin_rank (sp_pc (mp_spin m')) <= spin_rank (sp_pc (mp_spin m)))%nat.
Proof.
  induction ls as [|l ls IH]; intros m m' E N; cbn [exec spins] in *; [injection E as <-; lia|].
  assert (N' : no_calls ls) by (intros e I; apply (N e); right; exact I).
  destruct (step cf l m) as [o|] eqn:S; [|apply IH; assumption].
  apply bind_ok in E. destruct E as (m1 & -> & E). specialize (IH m1 m' E N').
  apply step_cases in S. destruct S as [e s' sp' I D|s' sp' D|s' l' D|s' p' D].
  - exfalso. apply (N e). left. reflexivity.
  - apply spin_rank_step in D. cbn [mp_spin] in IH. lia.
  - cbn [mp_spin] in IH. lia.
  - cbn [mp_spin] in IH. lia.
Qed.

Lemma spin_rank_max : forall pc, (spin_rank pc <= 8)%nat.
Proof. intros []; cbn; lia. Qed.

(** The executor is idle, waits for a mutex, or can move. *)
Lemma spin_progress : forall m, sp_pc (mp_spin m) <> SIdle -> step cf Spin m = None ->
  sh_glock (mp_sh m) <> None \/ sh_plock (mp_sh m) <> None.
Proof.
  intros m N H. cbn [step] in H. unfold spin_step in H.
  destruct (sp_pc (mp_spin m)); try (contradiction N; reflexivity); try discriminate H;
    try (unfold lock_g in H; left; destruct (sh_glock (mp_sh m)); [discriminate|discriminate H]);
    try (unfold lock_p in H; right; destruct (sh_plock (mp_sh m)); [discriminate|discriminate H]).
  destruct (sh_scans (mp_sh m)); discriminate H.
Qed.

(** ** Publisher rounds *)
Definition pub_rank (pc : pub_pc T) : nat :=
  match pc with
  | PTop => 0 | PClear => 10 | PGridLock => 9 | PGrid => 8 | PGraphLock => 7 | PGraph => 6 | PTf => 5
  | PPoseLock => 4 | PReadRobot => 3 | PReadOdom _ => 2 | PSend _ _ => 1
  end.
Lemma pub_rank_step : forall s p s' p', pub_tr cf s p s' p' -> pb_pc p <> PTop -> (pub_rank (pb_pc p') < pub_rank (pb_pc p))%nat.
Proof.
  intros s p s' p' H N. destruct H;
    match goal with H : pb_pc _ = _ |- _ => rewrite H in N |- * end; cbn [pb_pc pat pub_rank]; try (contradiction N; reflexivity); try lia.
  destruct (sh_scans s); cbn; lia.
Qed.

(** ** Loop closure passes *)
(** The number of scans the current pass goes to; whether it works on one. *)
Definition pass_of (pc : loop_pc T) : option (Z * bool) :=
  match pc with
  | LSleep | LCountLock | LCount | LOptLock | LOptRun => None
  | LNext num _ | LOpt num _ => Some (num, false)
  | LFetchLock num _ | LFetch num _ => Some (num, true)
  | LCand c | LRegion c _ | LMatch c _ _ | LCorrect c _ _ _ _ | LMake c _ _ _ | LPushLock c _ | LPush c _ | LFlag c => Some (lc_num c, true)
  end.
Definition in_pass (l : looper T) : Prop :=
  (0 <= lp_done l)%Z /\
  match pass_of (lp_pc l) with
  | None => True
  | Some (num, w) => (num < 2 ^ 64)%Z /\ (w = true -> (lp_done l < num)%Z)
  end.

Lemma wrap64_range : forall z, (0 <= wrap64 z < 2 ^ 64)%Z.
Proof. intro z. unfold wrap64. apply Z.mod_pos_bound. lia. Qed.
Lemma wrap64_small : forall z, (0 <= z < 2 ^ 64)%Z -> wrap64 z = z.
Proof. intros z H. unfold wrap64. apply Z.mod_small. exact H. Qed.

Lemma in_pass_tr : forall s l s' l', (num_scans s < 2 ^ 64)%Z -> loop_tr cf s l s' l' -> in_pass l -> in_pass l'.
Proof.
  intros s l s' l' Bg H (D & C).
  assert (nx : forall num new, (lp_done l < num)%Z -> (num < 2 ^ 64)%Z -> in_pass (next_scan l num new)).
  { intros num new Q1 Q2. unfold in_pass, next_scan. cbn [lp_done lp_pc pass_of]. split; [apply wrap64_range|]. split; [exact Q2|discriminate]. }
  destruct H;
    match goal with H : lp_pc _ = _ |- _ => rewrite H in C end; cbn [pass_of ctx_new lc_num] in C;
    try (apply nx; [apply C; reflexivity|apply C]);
    try (unfold after_candidate; destruct (wrap64 (lc_left c - 1) =? 0)%Z; [apply nx; [apply C; reflexivity|apply C]|]);
    unfold in_pass; cbn [lp_done lp_pc lat pass_of lc_num ctx_new]; try (split; [exact D|exact C]); try (split; [exact D|exact I]).
  - rewrite H. split; [exact D|exact I].
  - split; [unfold first_done; destruct (lp_done l <=? cf_depth cf)%Z; [apply wrap64_range|exact D]|]. split; [exact Bg|discriminate].
  - split; [exact D|]. split; [apply C|]. intros _. exact H0.
Qed.

Definition mu1 (l : looper T) : nat :=
  match lp_pc l with
  | LNext num _ | LFetchLock num _ | LFetch num _ => 2 * Z.to_nat (num - lp_done l) + 1
  | LCand c | LRegion c _ | LMatch c _ _ | LCorrect c _ _ _ _ | LMake c _ _ _ | LPushLock c _ | LPush c _ | LFlag c =>
    2 * Z.to_nat (lc_num c - lp_done l)
  | _ => 0
  end.
Definition mu2 (l : looper T) : nat :=
  match lp_pc l with
  | LCand c => 2 * List.length (lc_rest c)
  | LRegion c _ | LMatch c _ _ | LCorrect c _ _ _ _ | LMake c _ _ _ | LPushLock c _ | LPush c _ | LFlag c => 2 * List.length (lc_rest c) + 1
  | _ => 0
  end.
Definition mu3 (l : looper T) : nat :=
  match lp_pc l with
  | LNext _ _ => 2 | LFetchLock _ _ => 1 | LFetch _ _ => 0
  | LRegion _ _ => 7 | LMatch _ _ _ => 6 | LCorrect _ _ _ _ _ => 5 | LMake _ _ _ _ => 4 | LPushLock _ _ => 3 | LPush _ _ => 2 | LFlag _ => 1
  | LOpt _ _ => 2 | LOptLock => 1
  | _ => 0
  end.
Definition early (pc : loop_pc T) : Prop := match pc with LSleep | LCountLock | LCount => True | _ => False end.

Lemma mu_tr : forall s l s' l', loop_tr cf s l s' l' -> in_pass l -> ~ early (lp_pc l) ->
  lp_pc l' = LSleep \/
  ~ early (lp_pc l') /\ ((mu1 l' < mu1 l)%nat \/ (mu1 l' = mu1 l /\ ((mu2 l' < mu2 l)%nat \/ (mu2 l' = mu2 l /\ (mu3 l' < mu3 l)%nat)))).
Proof.
  intros s l s' l' H (D & C) NE.
  assert (nx : forall num new, (lp_done l < num)%Z -> (num < 2 ^ 64)%Z -> mu1 l = (2 * Z.to_nat (num - lp_done l))%nat ->
    ~ early (lp_pc (next_scan l num new)) /\ (mu1 (next_scan l num new) < mu1 l)%nat).
  { intros num new Q1 Q2 Q3. rewrite Q3. unfold mu1, next_scan. cbn [lp_pc lp_done early]. rewrite wrap64_small by lia. split; [tauto|]. lia. }
  destruct H;
    match goal with H : lp_pc _ = _ |- _ => rewrite H in C, NE; pose proof H as Pc end; cbn [pass_of ctx_new lc_num] in C; cbn [early] in NE;
    try (contradiction NE; exact I).
  - right. unfold mu1, mu2, mu3. rewrite Pc. cbn [lp_pc lp_done lat early]. split; [tauto|]. right. split; [reflexivity|]. right. split; [reflexivity|lia].
  - right. unfold mu1, mu2, mu3. rewrite Pc. cbn [lp_pc lp_done lat early]. split; [tauto|]. left. lia.
  - right. unfold mu1, mu2, mu3. rewrite Pc. cbn [lp_pc lp_done lat early]. split; [tauto|]. right. split; [reflexivity|]. right. split; [reflexivity|lia].
  - right. unfold mu1. rewrite Pc. cbn [lp_pc lp_done lat early lc_num]. split; [tauto|]. left. lia.
  - right. destruct (nx (lc_num c) (lc_new c)) as [N1 N2]; [apply C; reflexivity|apply C|unfold mu1; rewrite Pc; reflexivity|]. split; [exact N1|]. left. exact N2.
  - right. unfold mu1, mu2. rewrite Pc. cbn [lp_pc lp_done lat early lc_num lc_rest]. rewrite H0. cbn [List.length]. split; [tauto|]. right. split; [reflexivity|]. left. lia.
  - right. unfold mu1, mu2. rewrite Pc. cbn [lp_pc lp_done lat early]. split; [tauto|]. right. split; [reflexivity|]. left. lia.
  - right. unfold mu1, mu2, mu3. rewrite Pc. cbn [lp_pc lp_done lat early]. split; [tauto|]. right. split; [reflexivity|]. right. split; [reflexivity|lia].
  - right. unfold mu1, mu2, mu3. rewrite Pc. cbn [lp_pc lp_done lat early ctx_new lc_num lc_rest]. split; [tauto|]. right. split; [reflexivity|]. right. split; [reflexivity|lia].
  - right. unfold after_candidate. destruct (wrap64 (lc_left c - 1) =? 0)%Z.
    + destruct (nx (lc_num c) (lc_new c)) as [N1 N2]; [apply C; reflexivity|apply C|unfold mu1; rewrite Pc; reflexivity|]. split; [exact N1|]. left. exact N2.
    + unfold mu1, mu2. rewrite Pc. cbn [lp_pc lp_done lat early lc_num lc_rest]. split; [tauto|]. right. split; [reflexivity|]. left. lia.
  - right. unfold mu1, mu2, mu3. rewrite Pc. cbn [lp_pc lp_done lat early]. split; [tauto|]. right. split; [reflexivity|]. right. split; [reflexivity|lia].
  - right. unfold mu1, mu2, mu3. rewrite Pc. cbn [lp_pc lp_done lat early]. split; [tauto|]. right. split; [reflexivity|]. right. split; [reflexivity|lia].
  - right. unfold mu1, mu2, mu3. rewrite Pc. cbn [lp_pc lp_done lat early]. split; [tauto|]. right. split; [reflexivity|]. right. split; [reflexivity|lia].
  - right. unfold mu1, mu2, mu3. rewrite Pc. cbn [lp_pc lp_done lat early]. split; [tauto|]. right. split; [reflexivity|]. right. split; [reflexivity|lia].
  - right. unfold after_candidate. destruct (wrap64 (lc_left c - 1) =? 0)%Z.
    + destruct (nx (lc_num c) (lc_new c)) as [N1 N2]; [apply C; reflexivity|apply C|unfold mu1; rewrite Pc; reflexivity|]. split; [exact N1|]. left. exact N2.
    + unfold mu1, mu2. rewrite Pc. cbn [lp_pc lp_done lat early lc_num lc_rest]. split; [tauto|]. right. split; [reflexivity|]. left. lia.
  - left. reflexivity.
  - right. unfold mu1, mu2, mu3. rewrite Pc. cbn [lp_pc lp_done lat early]. split; [tauto|]. right. split; [reflexivity|]. right. split; [reflexivity|lia].
  - right. unfold mu1, mu2, mu3. rewrite Pc. cbn [lp_pc lp_done lat early]. split; [tauto|]. right. split; [reflexivity|]. right. split; [reflexivity|lia].
  - left. reflexivity.
Qed.

Lemma count_step : forall s l s' l', loop_tr cf s l s' l' -> lp_pc l = LCount -> lp_pc l' = LSleep \/ ~ early (lp_pc l').
Proof.
  intros s l s' l' H P. destruct H; try (rewrite P in *; discriminate); cbn; tauto.
Qed.
Lemma count_lock_step : forall s l s' l', loop_tr cf s l s' l' -> lp_pc l = LCountLock -> lp_pc l' = LCount.
Proof.
  intros s l s' l' H P. destruct H; try (rewrite P in *; discriminate); reflexivity.
Qed.

Section Live.
Context (st : nat -> mapper T) (lb : nat -> label T).
Context (L : lives cf st lb).

Lemma acts_dec : forall n, {acts cf st lb Loop n} + {~ acts cf st lb Loop n}.
Proof.
  intro n. unfold acts. destruct (lb n) as [e| | |] eqn:E; try (right; intros [Q _]; discriminate Q).
  destruct (step cf Loop (st n)) eqn:S.
  - left. split; [reflexivity|discriminate].
  - right. intros [_ Q]. apply Q. reflexivity.
Qed.

Lemma acts_tr : forall n, acts cf st lb Loop n ->
  loop_tr cf (mp_sh (st n)) (mp_loop (st n)) (mp_sh (st (S n))) (mp_loop (st (S n))).
Proof.
  intros n [E N]. destruct (L n) as [H|[H _]]; [|rewrite E in H; contradiction]. rewrite E in H. apply step_cases in H.
  inversion H as [| |s' l' D Q1 Q2|]; subst. exact D.
Qed.

Lemma idle_keeps : forall n, ~ acts cf st lb Loop n -> mp_loop (st (S n)) = mp_loop (st n).
Proof.
  intros n N. destruct (L n) as [H|[_ H]]; [|rewrite H; reflexivity].
  assert (Q : lb n <> Loop). { intro E. apply N. split; [exact E|]. rewrite <- E, H. discriminate. }
  apply step_cases in H. destruct H; try reflexivity. contradiction Q. reflexivity.
Qed.

Context (Fa : often (acts cf st lb Loop)).

(** The next moment at which the thread moves. *)
Lemma next_act : forall n, exists k, (n <= k)%nat /\ acts cf st lb Loop k /\ mp_loop (st k) = mp_loop (st n).
Proof.
  intro n. destruct (Fa n) as (k & Hk & Ak). remember (k - n)%nat as d eqn:D. revert n k Hk Ak D.
  induction d as [|d IH]; intros n k Hk Ak D.
  - exists n. assert (k = n) by lia. subst k. split; [lia|]. split; [exact Ak|reflexivity].
  - destruct (acts_dec n) as [An|Nn].
    + exists n. split; [lia|]. split; [exact An|reflexivity].
    + destruct (IH (S n) k ltac:(lia) Ak ltac:(lia)) as (j & Hj & Aj & Ej). exists j. split; [lia|]. split; [exact Aj|].
      rewrite Ej. apply idle_keeps. exact Nn.
Qed.

(** A property of the thread's own state that every move preserves. *)
Lemma loop_keeps (I : looper T -> Prop) : (forall n, acts cf st lb Loop n -> I (mp_loop (st n)) -> I (mp_loop (st (S n)))) ->
  forall n k, (n <= k)%nat -> I (mp_loop (st n)) -> I (mp_loop (st k)).
Proof.
  intros St n k H. induction H as [|k H IH]; intro Hn; [exact Hn|]. specialize (IH Hn).
  destruct (acts_dec k) as [Ak|Nk]; [apply St; assumption|]. rewrite (idle_keeps k Nk). exact IH.
Qed.

Context (Big : forall n, (num_scans (mp_sh (st n)) < 2 ^ 64)%Z).

Lemma counted_step : forall n, acts cf st lb Loop n -> in_pass (mp_loop (st n)) -> in_pass (mp_loop (st (S n))).
Proof. intros n An. apply acts_tr in An. apply (in_pass_tr _ _ _ _ (Big n) An). Qed.
Lemma mu_step : forall n, acts cf st lb Loop n -> in_pass (mp_loop (st n)) -> ~ early (lp_pc (mp_loop (st n))) ->
  let l := mp_loop (st n) in let l' := mp_loop (st (S n)) in
  lp_pc l' = LSleep \/
  ~ early (lp_pc l') /\ ((mu1 l' < mu1 l)%nat \/ (mu1 l' = mu1 l /\ ((mu2 l' < mu2 l)%nat \/ (mu2 l' = mu2 l /\ (mu3 l' < mu3 l)%nat)))).
Proof. intros n An. apply acts_tr in An. apply (mu_tr _ _ _ _ An). Qed.

Context (C0 : in_pass (mp_loop (st 0))).
Lemma counted_all : forall n, in_pass (mp_loop (st n)).
Proof. intro n. apply (loop_keeps in_pass counted_step 0 n); [lia|exact C0]. Qed.

Lemma pass_ends : forall a b c n, mu1 (mp_loop (st n)) = a -> mu2 (mp_loop (st n)) = b -> mu3 (mp_loop (st n)) = c ->
  ~ early (lp_pc (mp_loop (st n))) -> exists k, (n <= k)%nat /\ lp_pc (mp_loop (st k)) = LSleep.
Proof.
  induction a as [a IHa] using lt_wf_ind. induction b as [b IHb] using lt_wf_ind. induction c as [c IHc] using lt_wf_ind.
  intros n Ea Eb Ec NE. destruct (next_act n) as (k & Hk & Ak & Ek).
  pose proof (mu_step k Ak (counted_all k)) as M. rewrite Ek in M. cbv zeta in M. specialize (M NE).
  destruct M as [M|(NE' & [M|(E1 & [M|(E2 & M)])])].
  - exists (S k). split; [lia|exact M].
  - rewrite Ea in M. destruct (IHa _ M _ _ (S k) eq_refl eq_refl eq_refl NE') as (j & Hj & Ej). exists j. split; [lia|exact Ej].
  - rewrite Eb in M. rewrite Ea in E1. destruct (IHb _ M _ (S k) E1 eq_refl eq_refl NE') as (j & Hj & Ej). exists j. split; [lia|exact Ej].
  - rewrite Ec in M. rewrite Ea in E1. rewrite Eb in E2. destruct (IHc _ M (S k) E1 E2 eq_refl NE') as (j & Hj & Ej). exists j. split; [lia|exact Ej].
Qed.

Lemma sleeps_often : often (fun n => lp_pc (mp_loop (st n)) = LSleep).
Proof.
  intro n.
  assert (late : forall n, ~ early (lp_pc (mp_loop (st n))) -> exists k, (n <= k)%nat /\ lp_pc (mp_loop (st k)) = LSleep)
    by (intros j Hj; apply (pass_ends _ _ _ j eq_refl eq_refl eq_refl Hj)).
  assert (cnt : forall n, lp_pc (mp_loop (st n)) = LCount -> exists k, (n <= k)%nat /\ lp_pc (mp_loop (st k)) = LSleep).
  { intros j Hj. destruct (next_act j) as (k & Hk & Ak & Ek). apply acts_tr in Ak. rewrite Ek in Ak.
    destruct (count_step _ _ _ _ Ak Hj) as [Q|Q]; [exists (S k); split; [lia|exact Q]|].
    destruct (late (S k) Q) as (i & Hi & Ei). exists i. split; [lia|exact Ei]. }
  destruct (lp_pc (mp_loop (st n))) eqn:P; try (apply late; rewrite P; cbn; tauto).
  - exists n. split; [lia|exact P].
  - destruct (next_act n) as (k & Hk & Ak & Ek). apply acts_tr in Ak. rewrite Ek in Ak.
    destruct (cnt (S k) (count_lock_step _ _ _ _ Ak P)) as (i & Hi & Ei). exists i. split; [lia|exact Ei].
  - apply cnt. exact P.
Qed.

(** ** Every scan is considered when no map is loaded *)
Lemma label_loop : forall l : label T, {l = Loop} + {l <> Loop}.
Proof. intros []; try (right; discriminate). left. reflexivity. Qed.

Lemma scans_grow : forall l m m', no_load m l -> step_tr cf m l m' -> exists more, sh_scans (mp_sh m') = sh_scans (mp_sh m) ++ more.
Proof.
  intros l m m' [_ N] H. destruct (label_loop l) as [->|NLo].
  { exists []. rewrite app_nil_r. apply (proj1 (loop_frame cf m m' H)). }
  destruct H as [e s' sp' Id D|s' sp' D|s' l' D|s' p' D]; cbn [mp_sh].
  - exists []. rewrite app_nil_r. destruct D; try reflexivity. rewrite configure_eq. reflexivity.
  - destruct D; try (exists []; rewrite app_nil_r; reflexivity); try (eexists; reflexivity).
    + exists []. rewrite app_nil_r. destruct upd; reflexivity.
    + match goal with P : sp_pc _ = SLoad file |- _ => contradiction (N eq_refl file P) end.
  - contradiction NLo. reflexivity.
  - exists []. rewrite app_nil_r. destruct D; reflexivity.
Qed.

Context (NL : forall n, no_load (st n) (lb n)).

Lemma grow_step : forall n, exists more, sh_scans (mp_sh (st (S n))) = sh_scans (mp_sh (st n)) ++ more.
Proof.
  intro n. destruct (L n) as [H|[_ H]].
  - apply step_cases in H. apply (scans_grow _ _ _ (NL n) H).
  - exists []. rewrite app_nil_r, H. reflexivity.
Qed.
Lemma grow : forall n k, (n <= k)%nat -> exists more, sh_scans (mp_sh (st k)) = sh_scans (mp_sh (st n)) ++ more.
Proof.
  intros n k H. induction H as [|k H (m1 & IH)]; [exists []; rewrite app_nil_r; reflexivity|].
  destruct (grow_step k) as (m2 & E). exists (m1 ++ m2). rewrite E, IH, app_assoc. reflexivity.
Qed.
Lemma grow_nth : forall n k i p, (n <= k)%nat -> nth_error (sh_scans (mp_sh (st n))) i = Some p -> nth_error (sh_scans (mp_sh (st k))) i = Some p.
Proof.
  intros n k i p H E. destruct (grow n k H) as (more & Q). rewrite Q. rewrite nth_error_app1; [exact E|].
  apply nth_error_Some. rewrite E. discriminate.
Qed.

(** Scans whose turn has passed were considered. *)
Definition fetched (pc : loop_pc T) : bool :=
  match pc with
  | LCand _ | LRegion _ _ | LMatch _ _ _ | LCorrect _ _ _ _ _ | LMake _ _ _ _ | LPushLock _ _ | LPush _ _ | LFlag _ => true
  | _ => false
  end.
Definition considered_at (j : Z) (n : nat) : Prop :=
  exists k, (k < n)%nat /\ acts cf st lb Loop k /\ (exists num new, lp_pc (mp_loop (st k)) = LFetch num new) /\ lp_done (mp_loop (st k)) = j /\
    exists p, nth_error (sh_scans (mp_sh (st k))) (Z.to_nat j) = Some p.
Definition passed (n : nat) : Prop :=
  (forall j, (cf_depth cf < j < lp_done (mp_loop (st n)))%Z -> considered_at j n) /\
  (fetched (lp_pc (mp_loop (st n))) = true -> considered_at (lp_done (mp_loop (st n))) n).

Lemma considered_later : forall j n k, (n <= k)%nat -> considered_at j n -> considered_at j k.
Proof. intros j n k H (i & Hi & R). exists i. split; [lia|exact R]. Qed.

Lemma passed_step : forall n, passed n -> passed (S n).
Proof.
  intros n [P1 P2]. destruct (acts_dec n) as [An|Nn].
  2: { unfold passed. rewrite (idle_keeps n Nn). split; [intros j Hj|intro Hf]; apply (considered_later _ n); try lia; auto. }
  pose proof An as An'. apply acts_tr in An'. pose proof (counted_all n) as W. pose proof (Big n) as Bg. 
  assert (P1' : forall j, (cf_depth cf < j < lp_done (mp_loop (st n)))%Z -> considered_at j (S n))
    by (intros j Hj; apply (considered_later j n); [lia|apply P1; exact Hj]).
  assert (P2' : fetched (lp_pc (mp_loop (st n))) = true -> considered_at (lp_done (mp_loop (st n))) (S n))
    by (intro Hf; apply (considered_later _ n); [lia|apply P2; exact Hf]).
  assert (F : forall num new, lp_pc (mp_loop (st n)) = LFetch num new ->
    (exists p, nth_error (sh_scans (mp_sh (st n))) (Z.to_nat (lp_done (mp_loop (st n)))) = Some p) -> considered_at (lp_done (mp_loop (st n))) (S n)).
  { intros num new Hp Hs. exists n. split; [lia|]. split; [exact An|]. split; [exists num, new; exact Hp|]. split; [reflexivity|exact Hs]. }
  unfold passed. clear P1 P2 An. revert W Bg An' P1' P2' F.
  generalize (mp_sh (st n)) (mp_loop (st n)) (mp_sh (st (S n))) (mp_loop (st (S n))). intros s l s' l' (D & C) Bg H P1 P2 F.
  assert (nx : forall num new, (lp_done l < num)%Z -> (num < 2 ^ 64)%Z -> fetched (lp_pc l) = true ->
    (forall j, (cf_depth cf < j < lp_done (next_scan l num new))%Z -> considered_at j (S n)) /\
    (fetched (lp_pc (next_scan l num new)) = true -> considered_at (lp_done (next_scan l num new)) (S n))).
  { intros num new Q1 Q2 Q3. unfold next_scan. cbn [lp_done lp_pc fetched]. rewrite wrap64_small by lia. split; [|discriminate].
    intros j Hj. assert (j < lp_done l \/ j = lp_done l)%Z as [Q|Q] by lia; [apply P1; lia|rewrite Q; apply P2; exact Q3]. }
  destruct H;
    match goal with H : lp_pc _ = _ |- _ => rewrite H in C, P2, nx; pose proof H as Pc end; cbn [pass_of ctx_new lc_num] in C; cbn [fetched] in P2, nx;
    try (apply nx; [apply C; reflexivity|apply C|reflexivity]);
    try (unfold after_candidate; destruct (wrap64 (lc_left c - 1) =? 0)%Z; [apply nx; [apply C; reflexivity|apply C|reflexivity]|]);
    cbn [lp_done lp_pc lat fetched]; try (split; [exact P1|]; try discriminate; exact P2).
  - rewrite H. split; [exact P1|discriminate].
  - split; [|discriminate]. unfold first_done. destruct (Z.leb_spec (lp_done l) (cf_depth cf)); [|exact P1].
    intros j Hj. destruct (Z.le_gt_cases 0 (cf_depth cf + 1)).
    + rewrite wrap64_small in Hj by lia. lia.
    + exfalso. lia.
  - split; [exact P1|]. intros _. apply (F _ _ Pc). exists p. assumption.
Qed.
Context (Fr : lp_done (mp_loop (st 0)) = 0%Z) (Pc0 : lp_pc (mp_loop (st 0)) = LSleep) (Dp : (0 <= cf_depth cf)%Z).
Lemma passed_all : forall n, passed n.
Proof.
  induction n as [|n IH]; [|apply passed_step; exact IH]. split.
  - rewrite Fr. intros j Hj. lia.
  - rewrite Pc0. discriminate.
Qed.

(** The scan's turn comes in the current pass or has come before. *)
Definition due (i : Z) (l : looper T) : Prop :=
  match pass_of (lp_pc l) with
  | Some (num, _) => (i < num)%Z \/ (i < lp_done l)%Z
  | None => (i < lp_done l)%Z
  end /\
  match lp_pc l with LOpt _ _ => (i < lp_done l)%Z | _ => True end.

Lemma due_step : forall i n, acts cf st lb Loop n -> due i (mp_loop (st n)) -> due i (mp_loop (st (S n))).
Proof.
  intros i n An Du. apply acts_tr in An. pose proof (counted_all n) as W. pose proof (Big n) as Bg. revert W Bg An Du.
  generalize (mp_sh (st n)) (mp_loop (st n)) (mp_sh (st (S n))) (mp_loop (st (S n))). intros s l s' l' (D & C) Bg H (Du & Du').
  assert (nx : forall num new, (lp_done l < num)%Z -> (num < 2 ^ 64)%Z -> (i < num \/ i < lp_done l)%Z -> due i (next_scan l num new)).
  { intros num new Q1 Q2 Q3. unfold due, next_scan. cbn [lp_done lp_pc pass_of]. rewrite wrap64_small by lia. split; [lia|exact I]. }
  destruct H;
    match goal with H : lp_pc _ = _ |- _ => rewrite H in C, Du, Du'; pose proof H as Pc end; cbn [pass_of ctx_new lc_num] in C, Du;
    try (apply nx; [apply C; reflexivity|apply C|exact Du]);
    try (unfold after_candidate; destruct (wrap64 (lc_left c - 1) =? 0)%Z; [apply nx; [apply C; reflexivity|apply C|exact Du]|]);
    unfold due; cbn [lp_done lp_pc lat pass_of lc_num ctx_new]; try (split; [exact Du|exact I]); try (split; [exact Du'|exact I]).
  - rewrite H. split; [exact Du|exact I].
  - split; [|exact I]. right. unfold first_done. destruct (Z.leb_spec (lp_done l) (cf_depth cf)); [|exact Du]. rewrite wrap64_small; lia.
  - split; lia.
Qed.

Lemma wake_step : forall s l s' l', loop_tr cf s l s' l' -> lp_pc l = LSleep -> sh_enable s = true -> lp_pc l' = LCountLock.
Proof.
  intros s l s' l' H P E. destruct H; try (rewrite P in *; discriminate); [congruence|reflexivity].
Qed.
Lemma count_due : forall i s l s' l', loop_tr cf s l s' l' -> lp_pc l = LCount -> (cf_depth cf < i < num_scans s)%Z -> due i l'.
Proof.
  intros i s l s' l' H P E. destruct H; try (rewrite P in *; discriminate); [lia|]. unfold due. cbn. split; [left; lia|exact I].
Qed.

Lemma scan_considered : forall N n i p, (forall k, (N <= k)%nat -> sh_enable (mp_sh (st k)) = true) ->
  (cf_depth cf < i)%Z -> nth_error (sh_scans (mp_sh (st n))) (Z.to_nat i) = Some p -> exists k, considered cf st lb p k.
Proof.
  intros N n i p En Di E.
  assert (W : forall k, (n <= k)%nat -> (cf_depth cf < i < num_scans (mp_sh (st k)))%Z).
  { intros k Hk. split; [exact Di|]. pose proof (grow_nth n k _ _ Hk E) as Q. unfold num_scans.
    assert (Z.to_nat i < List.length (sh_scans (mp_sh (st k))))%nat by (apply nth_error_Some; rewrite Q; discriminate). lia. }
  destruct (sleeps_often (Nat.max n N)) as (k1 & H1 & S1).
  destruct (next_act k1) as (k2 & H2 & A2 & E2). apply acts_tr in A2. rewrite <- E2 in S1.
  pose proof (wake_step _ _ _ _ A2 S1 (En k2 ltac:(lia))) as S2.
  destruct (next_act (S k2)) as (k3 & H3 & A3 & E3). apply acts_tr in A3. rewrite <- E3 in S2.
  pose proof (count_lock_step _ _ _ _ A3 S2) as S3.
  destruct (next_act (S k3)) as (k4 & H4 & A4 & E4). apply acts_tr in A4. rewrite <- E4 in S3.
  pose proof (count_due i _ _ _ _ A4 S3 (W k4 ltac:(lia))) as Du.
  destruct (sleeps_often (S k4)) as (k5 & H5 & S5).
  pose proof (loop_keeps (due i) (due_step i) (S k4) k5 H5 Du) as [Dn _]. rewrite S5 in Dn. cbn in Dn.
  destruct (proj1 (passed_all k5) i (conj Di Dn)) as (k & Hk & Ak & Pk & Ik & p' & Ep).
  exists k. split; [exact Ak|]. split; [exact Pk|]. rewrite Ik.
  pose proof (grow_nth n (Nat.max n k) _ _ ltac:(lia) E) as Q1. pose proof (grow_nth k (Nat.max n k) _ _ ltac:(lia) Ep) as Q2.
  rewrite Q1 in Q2. injection Q2 as <-. exact Ep.
Qed.

End Live.
End P.
