(** Loop closures take effect (C157). *)

From Coq Require Import ZArith List Bool String Lia.
From Verif Require Import Outcome Arith TypesModel ScanModel MatcherModel ConstraintModel
  SolverModel GraphModel OccGridModel MotionModel FilterModel LaserModel MapperModel SpecMapper SpecMapper2 SpecClosure
  NdtProofs MatcherProofs GraphProofs MapperProofs MapperSteps MapperInv1 MapperInv2 MapperInv3 MapperInv5 MapperInv6 MapperWitness2.
Import ListNotations.

Section P.
Context {T : Type} {A : Arith T}.
Context (cf : config T).

Definition plain (o : obs T) : Prop := match o with ObOptimize _ | ObConstraint ALoop _ => False | _ => True end.
Definition no_close (o : obs T) : Prop := match o with ObConstraint ALoop _ => False | _ => True end.
Lemma plain_opt : forall l, Forall plain l -> Forall no_opt l.
Proof. intros l. apply Forall_impl. intros [] H; try exact I; exact H. Qed.
Lemma plain_close : forall l, Forall plain l -> Forall no_close l.
Proof. intros l. apply Forall_impl. intros [] H; try exact I. destruct a; exact H. Qed.

Lemma others_plain : forall l m m', no_load m l -> l <> Loop -> step_tr cf m l m' ->
  (num_scans (mp_sh m) <= num_scans (mp_sh m'))%Z /\ mp_loop m' = mp_loop m /\
  exists new, sh_trace (mp_sh m') = new ++ sh_trace (mp_sh m) /\ Forall plain new.
Proof.
  intros l m m' N NL H. destruct (opt_other cf l m m' N NL H) as (L & E & _). split; [exact L|]. split; [exact E|].
  destruct N as [_ N]. destruct H as [e s' sp' Id D|s' sp' D|s' l' D|s' p' D]; cbn [mp_sh mp_loop].
  - exists []. split; [|constructor]. destruct D; try reflexivity. rewrite configure_eq. reflexivity.
  - destruct D; try (exists []; split; [reflexivity|constructor]);
      try (eexists [_]; split; [reflexivity|constructor; [exact I|constructor]]).
    + exists [ObPoses (s_pose sc) odom]. split; [destruct upd; reflexivity|constructor; [exact I|constructor]].
    + exists [ObConstraint APose c; ObScan APose p]. split; [reflexivity|constructor; [exact I|constructor; [exact I|constructor]]].
  - contradiction NL. reflexivity.
  - destruct D; try (exists []; split; [reflexivity|constructor]); (eexists [_]; split; [reflexivity|constructor; [exact I|constructor]]).
Qed.

Variable n0 : Z.
Definition pass_place (n : Z) (new : list (obs T)) (l : looper T) : Prop :=
  match lp_pc l with
  | LSleep => False
  | LCountLock | LCount => (n0 <= n)%Z /\ Forall no_close new
  | LNext num nw | LFetchLock num nw | LFetch num nw | LOpt num nw => (n0 <= num)%Z /\ (nw = false -> Forall no_close new)
  | LCand c | LRegion c _ | LMatch c _ _ => (n0 <= lc_num c)%Z /\ (lc_new c = false -> Forall no_close new)
  | LCorrect c _ _ _ _ | LMake c _ _ _ | LPushLock c _ | LPush c _ | LFlag c => (n0 <= lc_num c)%Z /\ lc_new c = true
  | LOptLock | LOptRun => True
  end.
Lemma pass_place_more : forall n n' more new l, Forall no_close more -> (n <= n')%Z -> pass_place n new l -> pass_place n' (more ++ new) l.
Proof.
  intros n n' more new l F L H. unfold pass_place in *.
  assert (C : Forall no_close new -> Forall no_close (more ++ new)) by (intro C; apply Forall_app; split; assumption).
  destruct (lp_pc l); try exact H; destruct H as [H1 H2]; split; auto; lia.
Qed.

Lemma after_candidate_pass : forall n new l c, (n0 <= lc_num c)%Z -> (lc_new c = false -> Forall no_close new) -> pass_place n new (after_candidate l c).
Proof. intros n new l c H C. unfold after_candidate. destruct (_ =? 0)%Z; split; assumption. Qed.

(** One step of the thread itself, unless the pass ends. *)
Lemma pass_loop : forall s (sp : spin T) l (p : publisher T) s' l' new, loop_tr cf s l s' l' -> lp_pc l' <> LSleep -> pass_place (num_scans s) new l ->
  exists more, sh_trace s' = more ++ sh_trace s /\ Forall no_opt more /\ pass_place (num_scans s') (more ++ new) l'.
Proof.
  intros s sp l p s' l' new D NS H. unfold pass_place in H.
  assert (E : sh_scans s' = sh_scans s) by (apply (loop_frame cf (mkMapper s sp l p) (mkMapper s' sp l' p)); apply T_loop; exact D).
  assert (En : num_scans s' = num_scans s) by (unfold num_scans; rewrite E; reflexivity). rewrite En. clear E En.
  assert (one : forall o : obs T, no_opt o -> Forall no_opt (o :: nil)) by (intros o N; constructor; [exact N|constructor]).
  destruct D; match goal with P : lp_pc l = _ |- _ => rewrite P in H; rename P into Pc end;
    try (contradiction NS; assumption); try (contradiction NS; reflexivity); try contradiction H;
    try (exists []; split; [reflexivity|split; [constructor|exact H]]).
  - exists []. split; [reflexivity|]. split; [constructor|]. destruct H as [K1 K2]. split; [exact K1|intros _; exact K2].
  - eexists [_]. split; [reflexivity|]. split; [apply one; exact I|]. destruct H as [K1 K2]. split; [exact K1|reflexivity].
  - eexists [_]. split; [reflexivity|]. split; [apply one; exact I|]. destruct H as [K1 K2]. apply after_candidate_pass; [exact K1|].
    intro K0. constructor; [exact I|exact (K2 K0)].
  - eexists [_]. split; [reflexivity|]. split; [apply one; exact I|]. exact H.
  - eexists [_]. split; [reflexivity|]. split; [apply one; exact I|]. exact H.
  - exists []. split; [reflexivity|]. split; [constructor|]. destruct H as [K1 K2]. apply after_candidate_pass; [exact K1|]. rewrite K2. discriminate.
  - exists []. split; [reflexivity|]. split; [constructor|exact I].
Qed.

Definition pass_inv (m0 m : mapper T) : Prop := reach_if cf no_load m /\
  exists new, sh_trace (mp_sh m) = new ++ sh_trace (mp_sh m0) /\ Forall no_opt new /\ pass_place (num_scans (mp_sh m)) new (mp_loop m).

Lemma under_way_inv : forall m0 m, (n0 <= num_scans (mp_sh m0))%Z -> (num_scans (mp_sh m0) < 2 ^ 64)%Z -> reach_if cf no_load m0 -> under_way cf m0 m -> pass_inv m0 m.
Proof.
  intros m0 m L B Rc H. induction H as [m S0 St NS|m l m' U IH N St NS].
  - split; [apply (reach_step cf no_load m0 Loop m Rc); [split; [exact B|discriminate]|exact St]|].
    apply step_cases in St. inversion St as [| |s' l' D|]; subst. cbn [mp_sh mp_loop] in *. unfold sleeps in *. cbn [mp_loop] in NS.
    destruct D; match goal with P : lp_pc (mp_loop m0) = _ |- _ => rewrite S0 in P; try discriminate P end.
    + contradiction NS.
    + exists []. split; [reflexivity|]. split; [constructor|]. split; [exact L|constructor].
  - destruct IH as [R (new & E & F & P)]. split; [apply (reach_step cf no_load m l m' R N St)|]. apply step_cases in St.
    assert (K : l = Loop \/ l <> Loop) by (destruct l; auto; right; discriminate). destruct K as [->|K].
    + inversion St as [| |s' l' D|]; subst. cbn [mp_sh mp_loop] in *.
      destruct (pass_loop _ (mp_spin m) _ (mp_pub m) _ _ new D NS P) as (more & E2 & F2 & P2).
      exists (more ++ new). split; [rewrite E2, E; apply app_assoc|]. split; [apply Forall_app; split; assumption|exact P2].
    + destruct (others_plain l m m' N K St) as (L2 & El & more & E2 & F2). exists (more ++ new).
      split; [rewrite E2, E; apply app_assoc|]. split; [apply Forall_app; split; [apply plain_opt|]; assumption|].
      rewrite El. apply (pass_place_more (num_scans (mp_sh m))); [apply plain_close; exact F2|exact L2|exact P].
Qed.

(** The other way round: the flag is set by closures of this pass only. *)
Definition a_close (l : list (obs T)) : Prop := exists k, In (ObConstraint ALoop k) l.
Definition flag_place (new : list (obs T)) (l : looper T) : Prop :=
  match lp_pc l with
  | LNext _ nw | LFetchLock _ nw | LFetch _ nw | LOpt _ nw => nw = true -> a_close new
  | LCand c | LRegion c _ | LMatch c _ _ => lc_new c = true -> a_close new
  | LFlag _ | LOptLock | LOptRun => a_close new
  | _ => True
  end.
Lemma a_close_more : forall more new, a_close new -> a_close (more ++ new).
Proof. intros more new (k & H). exists k. apply in_or_app. right. exact H. Qed.
Lemma flag_place_more : forall more new l, flag_place new l -> flag_place (more ++ new) l.
Proof. intros more new l H. pose proof (a_close_more more new). unfold flag_place in *. destruct (lp_pc l); auto. Qed.
Lemma after_candidate_flag : forall new l c, (lc_new c = true -> a_close new) -> flag_place new (after_candidate l c).
Proof. intros new l c C. unfold after_candidate. destruct (_ =? 0)%Z; exact C. Qed.
Lemma flag_loop : forall s l s' l' new, loop_tr cf s l s' l' -> lp_pc l' <> LSleep -> flag_place new l ->
  exists more, sh_trace s' = more ++ sh_trace s /\ flag_place (more ++ new) l'.
Proof.
  intros s l s' l' new D NS H. unfold flag_place in H.
  destruct D; match goal with P : lp_pc l = _ |- _ => rewrite P in H; rename P into Pc end;
    try (contradiction NS; assumption); try (contradiction NS; reflexivity);
    try (exists []; split; [reflexivity|exact H]); try (eexists [_]; split; [reflexivity|exact I]).
  - exists []. split; [reflexivity|]. discriminate.
  - eexists [_]. split; [reflexivity|]. apply after_candidate_flag. intro K0. apply (a_close_more [_]). exact (H K0).
  - eexists [_]. split; [reflexivity|]. exists k. left. reflexivity.
  - exists []. split; [reflexivity|]. apply after_candidate_flag. intros _. exact H.
  - exists []. split; [reflexivity|]. apply H. reflexivity.
Qed.
Lemma under_way_flag : forall m0 m, under_way cf m0 m -> exists new, sh_trace (mp_sh m) = new ++ sh_trace (mp_sh m0) /\ flag_place new (mp_loop m).
Proof.
  intros m0 m H. induction H as [m S0 St NS|m l m' U IH N St NS].
  - apply step_cases in St. inversion St as [| |s' l' D|]; subst. cbn [mp_sh mp_loop] in *. unfold sleeps in *. cbn [mp_loop] in NS.
    destruct D; match goal with P : lp_pc (mp_loop m0) = _ |- _ => rewrite S0 in P; try discriminate P end.
    + contradiction NS.
    + exists []. split; [reflexivity|exact I].
  - destruct IH as (new & E & P). apply step_cases in St.
    assert (K : l = Loop \/ l <> Loop) by (destruct l; auto; right; discriminate). destruct K as [->|K].
    + inversion St as [| |s' l' D|]; subst. cbn [mp_sh mp_loop] in *.
      destruct (flag_loop _ _ _ _ new D NS P) as (more & E2 & P2).
      exists (more ++ new). split; [rewrite E2, E; apply app_assoc|exact P2].
    + destruct (others_plain l m m' N K St) as (L2 & El & more & E2 & F2). exists (more ++ new).
      split; [rewrite E2, E; apply app_assoc|]. rewrite El. apply flag_place_more. exact P.
Qed.
End P.

(** C157: a closure found in a pass is optimised at the end of that pass, when
    more than the limit of scans have been added by its beginning. *)
Theorem C157_closures_optimised_partial {T} {A : Arith T} (cf : config T) (m m' : mapper T) :
  reach_if cf no_load m -> (num_scans (mp_sh m) < 2 ^ 64)%Z -> pass cf m m' -> (exists k, meanwhile m m' (ObConstraint ALoop k)) ->
  ~ due (cf_node_limit cf) (num_scans (mp_sh m)) (sh_trace (mp_sh m')).
Proof.
  intros Rc B (m1 & U & N & St & Sl) (k & new' & E' & Ik) [C D].
  destruct (under_way_inv cf (num_scans (mp_sh m)) m m1 (Z.le_refl _) B Rc U) as [R1 (new & E & F & P)].
  destruct (opt_reach cf m1 R1) as (_ & O & Ob & Op). destruct N as [Bn _].
  apply step_cases in St. inversion St as [| |s' l' Tr|]; subst. cbn [mp_sh mp_loop] in *. unfold sleeps in Sl. cbn [mp_loop] in Sl.
  unfold pass_place in P. unfold opt_place in Op.
  assert (Q : Forall no_close new -> sh_trace s' = sh_trace (mp_sh m1) -> False).
  { intros Fn Es. rewrite Es, E in E'. apply app_inv_tail in E'. subst new'. rewrite Forall_forall in Fn. exact (Fn _ Ik). }
  destruct Tr; try discriminate Sl;
    match goal with X : lp_pc (mp_loop m1) = _ |- _ => rewrite X in P, Op; rename X into Pc end.
  - contradiction P.
  - apply Q; [exact (proj2 P)|reflexivity].
  - revert Sl. unfold after_candidate. destruct (_ =? 0)%Z; discriminate.
  - revert Sl. unfold after_candidate. destruct (_ =? 0)%Z; discriminate.
  - destruct P as [P1 P2]. destruct Op as [Op _]. match goal with X : _ && _ = false |- _ => rename X into W end.
    destruct new0; [|apply Q; [apply P2; reflexivity|reflexivity]]. cbn [andb] in W. apply Z.ltb_ge in W.
    rewrite wrap64_small in W by lia. rewrite O in W. lia.
  - exact C.
Qed.
Print Assumptions C157_closures_optimised_partial.

(** Otherwise closures are left alone: a pass that finds none does not optimise. *)
Theorem C157_forgotten_partial {T} {A : Arith T} (cf : config T) (m m' : mapper T) :
  reach_if cf no_load m -> (num_scans (mp_sh m) < 2 ^ 64)%Z -> pass cf m m' -> ~ (exists k, meanwhile m m' (ObConstraint ALoop k)) ->
  ~ (exists n, meanwhile m m' (ObOptimize n)).
Proof.
  intros Rc B (m1 & U & N & St & Sl) NC (n & new' & E' & Ik).
  destruct (under_way_inv cf (num_scans (mp_sh m)) m m1 (Z.le_refl _) B Rc U) as [R1 (new & E & F & P)]. rewrite Forall_forall in F.
  destruct (under_way_flag cf m m1 U) as (new1 & E1 & P1). rewrite E in E1. apply app_inv_tail in E1. subst new1.
  apply step_cases in St. inversion St as [| |s' l' Tr|]; subst. cbn [mp_sh mp_loop] in *. unfold sleeps in Sl. cbn [mp_loop] in Sl.
  unfold pass_place in P. unfold flag_place in P1.
  assert (Q : sh_trace s' = sh_trace (mp_sh m1) -> False).
  { intros Es. rewrite Es, E in E'. apply app_inv_tail in E'. subst new'. exact (F _ Ik). }
  destruct Tr; try discriminate Sl;
    match goal with X : lp_pc (mp_loop m1) = _ |- _ => rewrite X in P, P1; rename X into Pc end.
  - contradiction P.
  - apply Q. reflexivity.
  - revert Sl. unfold after_candidate. destruct (_ =? 0)%Z; discriminate.
  - revert Sl. unfold after_candidate. destruct (_ =? 0)%Z; discriminate.
  - apply Q. reflexivity.
  - apply NC. destruct P1 as (k & Hk). exists k, (ObOptimize (List.length scans) :: new). split; [|right; exact Hk].
    cbn [app]. rewrite <- E. destruct (put_all_frame (sh_scans (mp_sh m1)) scans' (mp_sh m1)) as [h Qf]. rewrite Qf. reflexivity.
Qed.
Print Assumptions C157_forgotten_partial.

(** ** Passes in which only the thread itself runs *)
Definition sleeps_b {T} (m : mapper T) : bool := match lp_pc (mp_loop m) with LSleep => true | _ => false end.
Lemma sleeps_spec {T} : forall m : mapper T, sleeps_b m = true <-> sleeps m.
Proof. intro m. unfold sleeps_b, sleeps. destruct (lp_pc (mp_loop m)); split; intro H; try discriminate H; reflexivity. Qed.
Definition small_b {T} (m : mapper T) : bool := (num_scans (mp_sh m) <? 2 ^ 31)%Z.
Lemma small_sound {T} : forall m : mapper T, small_b m = true -> no_load m Loop.
Proof. intros m H. apply Z.ltb_lt in H. split; [apply Z.lt_trans with (2 ^ 31)%Z; [exact H|reflexivity]|discriminate]. Qed.

Section Alone.
Context {T : Type} {A : Arith T}.
Context (cf : config T).
Fixpoint goes (n : nat) (m : mapper T) : option (mapper T) :=
  match n with
  | O => None
  | S n => if small_b m then match step cf Loop m with Some (Ok m') => if sleeps_b m' then Some m' else goes n m' | _ => None end else None
  end.
Definition alone (n : nat) (m : mapper T) : option (mapper T) :=
  if sleeps_b m then match step cf Loop m with Some (Ok m1) => if sleeps_b m1 then None else goes n m1 | _ => None end else None.

Lemma goes_pass : forall n m0 m m', under_way cf m0 m -> goes n m = Some m' -> pass cf m0 m'.
Proof.
  induction n as [|n IH]; intros m0 m m' U H; cbn [goes] in H; [discriminate H|].
  destruct (small_b m) eqn:B; [|discriminate H]. apply small_sound in B.
  destruct (step cf Loop m) as [[m1|]|] eqn:St; try discriminate H. destruct (sleeps_b m1) eqn:Sl.
  - injection H as <-. exists m. repeat split; try assumption; try apply B. apply sleeps_spec. exact Sl.
  - apply (IH m0 m1 m'); [|exact H]. apply (goes_on cf m0 m Loop m1 U B St). intro K. apply sleeps_spec in K. congruence.
Qed.
Lemma alone_pass : forall n m m', alone n m = Some m' -> pass cf m m'.
Proof.
  intros n m m' H. unfold alone in H. destruct (sleeps_b m) eqn:S0; [|discriminate H]. destruct (step cf Loop m) as [[m1|]|] eqn:St; try discriminate H.
  destruct (sleeps_b m1) eqn:S1; [discriminate H|]. apply (goes_pass n m m1 m'); [|exact H].
  apply (woken cf m m1); [apply sleeps_spec; exact S0|exact St|]. intro K. apply sleeps_spec in K. congruence.
Qed.

Fixpoint closed_b (tr : list (obs T)) : bool :=
  match tr with [] => false | ObOptimize _ :: _ => false | ObConstraint ALoop _ :: _ => true | _ :: tr => closed_b tr end.
Lemma closed_sound : forall tr, closed_b tr = true -> closed_since tr.
Proof.
  induction tr as [|o tr IH]; intro H; [discriminate H|]. destruct o; try (exact (IH H)); [|discriminate H].
  cbn [closed_since]. destruct a; try exact I; exact (IH H).
Qed.
Definition due_b (limit n : Z) (tr : list (obs T)) : bool := closed_b tr && (limit <? n - last_opt tr)%Z.
Lemma due_sound : forall limit n tr, due_b limit n tr = true -> due limit n tr.
Proof. intros limit n tr H. apply andb_prop in H. destruct H as [H1 H2]. split; [apply closed_sound; exact H1|apply Z.ltb_lt; exact H2]. Qed.
End Alone.

Definition lost_cf (lm : libm) : config b64 := cf64 lm 0 1 2 None true (Some two_scans).
Definition lost_schedule : list (label b64) :=
  Deliver (beam64 [] 0 0) :: Spin :: Spin :: loops 16 ++ [Deliver (pose_ev64 half64 half64 0 0); Spin; Spin; Spin; Spin; Spin].

Definition after (m0 : outcome (mapper b64)) (f : mapper b64 -> option (mapper b64)) (P : mapper b64 -> mapper b64 -> bool) : bool :=
  match m0 with Ok m => match f m with Some m' => P m m' | None => false end | Fault _ => false end.
Lemma after_in : forall o f P, after o f P = true -> exists m m', o = Ok m /\ f m = Some m' /\ P m m' = true.
Proof. intros [m|e] f P H; cbn [after] in H; [|discriminate H]. destruct (f m) as [m'|] eqn:E; [|discriminate H]. exists m, m'. repeat split; assumption. Qed.

Definition load_free (m : mapper b64) (l : label b64) : bool := small_b m && match sp_pc (mp_spin m) with SLoad _ => false | _ => true end.
Lemma load_free_sound : forall m l, load_free m l = true -> no_load m l.
Proof.
  intros m l H. apply andb_prop in H. destruct H as [H1 H2]. destruct (small_sound m H1) as [B _]. split; [exact B|].
  intros _ file E. rewrite E in H2. discriminate H2.
Qed.

(** False as stated: the closure of an earlier pass is forgotten. *)
Theorem C157_closures_optimised_refuted : forall lm : libm, exists (cf : config b64) m m',
  reach_if (A := BA (easy lm)) cf no_load m /\ (num_scans (mp_sh m) < 2 ^ 64)%Z /\ pass (A := BA (easy lm)) cf m m' /\
  due (cf_node_limit cf) (num_scans (mp_sh m)) (sh_trace (mp_sh m')).
Proof.
  intro lm. destruct (after_in (run (A := BA (easy lm)) (lost_cf lm) lost_schedule) (alone (A := BA (easy lm)) (lost_cf lm) 40)
    (fun m m' => small_b m && due_b 2 (num_scans (mp_sh m)) (sh_trace (mp_sh m')))) as (m & m' & E & Q & H); [vm_compute; reflexivity|].
  apply andb_prop in H. destruct H as [H1 H2].
  exists (lost_cf lm), m, m'. split; [|split; [|split]].
  - apply (run_reach (easy lm) (lost_cf lm) load_free) with (ls := lost_schedule); [exact load_free_sound|vm_compute; reflexivity|exact E].
  - apply (small_sound m H1).
  - apply (alone_pass (A := BA (easy lm)) _ _ _ _ Q).
  - apply due_sound. exact H2.
Qed.
Print Assumptions C157_closures_optimised_refuted.

Definition closed_and_optimised (m m' : mapper b64) : bool :=
  match sh_trace (mp_sh m), sh_trace (mp_sh m') with
  | [ObLoad], [ObOptimize _; ObConstraint ALoop _; ObMove _ _; ObMatch _ _ _ _ _; ObLoad] => true
  | _, _ => false
  end.
Lemma closed_and_optimised_sound : forall m m', closed_and_optimised m m' = true ->
  last_opt (sh_trace (mp_sh m)) = 0%Z /\ exists k n, meanwhile m m' (ObConstraint ALoop k) /\ meanwhile m m' (ObOptimize n).
Proof.
  intros m m' H. unfold closed_and_optimised in H. unfold meanwhile.
  destruct (sh_trace (mp_sh m)) as [|[] [|]]; try discriminate H. split; [reflexivity|].
  destruct (sh_trace (mp_sh m')) as [|o tr]; [discriminate H|]. destruct o; try discriminate H.
  destruct tr as [|o tr]; [discriminate H|]. destruct o as [|[] c| | | | | | | | | |]; try discriminate H.
  destruct tr as [|o tr]; [discriminate H|]. destruct o; try discriminate H.
  destruct tr as [|o1 tr]; [discriminate H|]. destruct tr as [|o2 tr]; [destruct o1; discriminate H|].
  destruct tr; [|destruct o1; try discriminate H; destruct o2; discriminate H].
  destruct o2; try (destruct o1; discriminate H).
  eexists _, _. split; (exists [ObOptimize n; ObConstraint ALoop c; ObMove p q; o1]; split; [reflexivity|]); [right; left; reflexivity|left; reflexivity].
Qed.

(** A pass that finds a closure and optimises. *)
Example C157_nonvacuous : forall lm : libm, let cf := cf64 lm 0 1 0 None true (Some two_scans) in exists m m' k n,
  reach_if (A := BA (easy lm)) cf no_load m /\ (num_scans (mp_sh m) < 2 ^ 64)%Z /\ pass (A := BA (easy lm)) cf m m' /\
  meanwhile m m' (ObConstraint ALoop k) /\ meanwhile m m' (ObOptimize n) /\ (cf_node_limit cf < num_scans (mp_sh m) - last_opt (sh_trace (mp_sh m)))%Z.
Proof.
  intros lm cf. destruct (after_in (run (A := BA (easy lm)) cf [Deliver (beam64 [] 0 0)]) (alone (A := BA (easy lm)) cf 40)
    (fun m m' => small_b m && closed_and_optimised m m' && (0 <? num_scans (mp_sh m))%Z)) as (m & m' & E & Q & H); [vm_compute; reflexivity|].
  apply andb_prop in H. destruct H as [H H3]. apply andb_prop in H. destruct H as [H1 H2].
  destruct (closed_and_optimised_sound m m' H2) as (L & k & n & K1 & K2).
  exists m, m', k, n. split; [|split; [|split; [|split; [|split]]]]; try assumption.
  - apply (run_reach (easy lm) cf load_free) with (ls := [Deliver (beam64 [] 0 0)]); [exact load_free_sound|vm_compute; reflexivity|exact E].
  - apply (small_sound m H1).
  - apply (alone_pass (A := BA (easy lm)) _ _ _ _ Q).
  - rewrite L. apply Z.ltb_lt in H3. cbn [cf cf64 cf_node_limit]. lia.
Qed.
