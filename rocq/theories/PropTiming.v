(** C163: until a loop is closed, the result depends on the messages only. *)

From Coq Require Import ZArith List Bool Lia String.
From Verif Require Import Outcome Arith TypesModel ScanModel NdtModel MatcherModel ConstraintModel SolverModel GraphModel OccGridModel
  MotionModel FilterModel LaserModel MapperModel MapperWitness2 SpecTiming TimingSim.
Import ListNotations.

Section Timing.
Context {T : Type} {A : Arith T}.

Theorem C163_mapping_timing : forall (cf : config T) ls ls' m m', run cf ls = Ok m -> run cf ls' = Ok m' ->
  always_mapping cf ls -> always_mapping cf ls' -> at_rest m -> at_rest m' -> no_closure m -> no_closure m' ->
  handled cf ls = handled cf ls' -> same_result m m'.
Proof.
  intros cf ls ls' m m' E E' (En & Fi & C) (_ & _ & C') R R' N N' H.
  apply (timing cf ls ls' m m' E E'); try assumption.
  - intros _. unfold use_filter. rewrite Fi. reflexivity.
  - intros [e|e|a f] I; cbn; try exact Logic.I. rewrite En. exact (C a f I).
  - intros [e|e|a f] I; cbn; try exact Logic.I. rewrite En. exact (C' a f I).
  - intros _. split; assumption.
Qed.

Theorem C163_localizing_timing : forall (cf : config T) ls ls' m m', run cf ls = Ok m -> run cf ls' = Ok m' ->
  always_localizing cf ls -> always_localizing cf ls' -> at_rest m -> at_rest m' ->
  handled cf ls = handled cf ls' -> same_result m m'.
Proof.
  intros cf ls ls' m m' E E' (En & C) (_ & C') R R' H.
  apply (timing cf ls ls' m m' E E'); try assumption; try (rewrite En; intro Q; discriminate Q).
  - intros [e|e|a f] I; cbn; try exact Logic.I. rewrite En. exact (C a f I).
  - intros [e|e|a f] I; cbn; try exact Logic.I. rewrite En. exact (C' a f I).
Qed.
End Timing.
Print Assumptions C163_mapping_timing.
Print Assumptions C163_localizing_timing.

(** Two scans that do not overlap, and an initial pose.  In one schedule the
    other threads never run; in the other a match is tried and rejected and the map is
    published in the middle of a callback. *)
Definition apart : list (bag_msg b64) := [scan64 0 (z64 0) (z64 0) cross; scan64 1 half64 half64 [pt64 50 50]].
Definition apart_cf (lm : libm) (enable : bool) : config b64 := cf64 lm 0 1 0 None enable (Some apart).
Definition apart_1 : list (label b64) := [Deliver (beam64 [] 0 0); Deliver (pose_ev64 (z64 0) (z64 0) 0 0)] ++ repeat Spin 5.
Definition apart_2 : list (label b64) :=
  Pub :: Deliver (beam64 [] 0 0) :: loops 11 ++ Pub :: Deliver (pose_ev64 (z64 0) (z64 0) 0 0) :: Spin :: Spin :: repeat Pub 5 ++ repeat Spin 3 ++ loops 2.
Definition tried (want : bool) (m : mapper b64) : bool :=
  idle64 m && (List.length (sh_scans (mp_sh m)) =? 3)%nat && (List.length (sh_cons (mp_sh m)) =? 1)%nat &&
  forallb (fun o => match o with ObMatch _ _ _ _ ok => negb ok | _ => true end) (sh_trace (mp_sh m)) &&
  Bool.eqb want (existsb (fun o => match o with ObMatch _ _ _ _ _ => true | _ => false end) (sh_trace (mp_sh m))).
Lemma apart_run_1 : forall lm : libm, ends64 (run (A := BA (easy lm)) (apart_cf lm true) apart_1) (tried false) = true.
Proof. intro lm. vm_compute. reflexivity. Qed.
Lemma apart_run_2 : forall lm : libm, ends64 (run (A := BA (easy lm)) (apart_cf lm true) apart_2) (tried true) = true.
Proof. intro lm. vm_compute. reflexivity. Qed.
(** Which labels start a callback. *)
Fixpoint starts {T} {A : Arith T} (cf : config T) (m : mapper T) (ls : list (label T)) : list bool :=
  match ls with
  | [] => []
  | l :: rest =>
    match step cf l m with
    | None => false :: starts cf m rest
    | Some (Ok m') => match l with Deliver _ => true | _ => false end :: starts cf m' rest
    | Some (Fault _) => []
    end
  end.
Fixpoint pick {T} (ls : list (label T)) (bs : list bool) : list (event T) :=
  match ls, bs with
  | Deliver e :: ls, true :: bs => e :: pick ls bs
  | _ :: ls, _ :: bs => pick ls bs
  | _, _ => []
  end.
Lemma handled_pick : forall {T} {A : Arith T} (cf : config T) ls m, handled_from cf m ls = pick ls (starts cf m ls).
Proof.
  intros T A cf ls. induction ls as [|l ls IH]; intro m; [reflexivity|]. cbn [handled_from starts].
  destruct (step cf l m) as [[m'|f]|]; [|destruct l; reflexivity|]; cbn [pick]; rewrite IH; destruct l; reflexivity.
Qed.
Definition starts_run {T} {A : Arith T} (cf : config T) (ls : list (label T)) : list bool :=
  match mapper_init cf with Ok m => starts cf m ls | Fault _ => [] end.
Lemma handled_pick_run : forall {T} {A : Arith T} (cf : config T) ls, handled cf ls = pick ls (starts_run cf ls).
Proof. intros T A cf ls. unfold handled, starts_run. destruct (mapper_init cf); [apply handled_pick|destruct ls as [|[]]; reflexivity]. Qed.
Lemma apart_starts_1 : forall (lm : libm) enable, starts_run (A := BA (easy lm)) (apart_cf lm enable) apart_1 = true :: true :: repeat false 5.
Proof. intros lm [|]; vm_compute; reflexivity. Qed.
Lemma apart_starts_2 : forall (lm : libm) enable, starts_run (A := BA (easy lm)) (apart_cf lm enable) apart_2 = false :: true :: repeat false 12 ++ true :: repeat false 12.
Proof. intros lm [|]; vm_compute; reflexivity. Qed.
Lemma apart_handled : forall (lm : libm) enable, handled (A := BA (easy lm)) (apart_cf lm enable) apart_1 = handled (A := BA (easy lm)) (apart_cf lm enable) apart_2.
Proof. intros lm enable. rewrite !handled_pick_run, apart_starts_1, apart_starts_2. reflexivity. Qed.
Definition is_request (l : label b64) : bool := match l with Deliver (EvConfigure _ _) => true | _ => false end.
Lemma no_request : forall ls, existsb is_request ls = false -> forall a f, ~ In (Deliver (EvConfigure a f)) ls.
Proof. intros ls H a f I. assert (Q : existsb is_request ls = true) by (apply existsb_exists; exists (Deliver (EvConfigure a f)); split; [exact I|reflexivity]). rewrite H in Q. discriminate Q. Qed.
Lemma apart_1_plain : existsb is_request apart_1 = false. Proof. reflexivity. Qed.
Lemma apart_2_plain : existsb is_request apart_2 = false. Proof. reflexivity. Qed.
Lemma tried_sound : forall want m, tried want m = true -> at_rest m /\ no_closure m /\ List.length (sh_scans (mp_sh m)) = 3%nat /\ List.length (sh_cons (mp_sh m)) = 1%nat /\
  (want = true -> exists i j score typical, In (ObMatch i j score typical false) (sh_trace (mp_sh m))).
Proof.
  intros want m H. unfold tried in H. repeat (apply andb_prop in H; destruct H as [H ?]).
  split; [unfold at_rest; unfold idle64 in H; destruct (sp_pc (mp_spin m)); try discriminate H; reflexivity|].
  match goal with Q : forallb _ _ = true |- _ => rewrite forallb_forall in Q; rename Q into F end.
  split; [intros i j sc t I; specialize (F _ I); discriminate F|]. split; [apply Nat.eqb_eq; assumption|]. split; [apply Nat.eqb_eq; assumption|].
  intros ->. match goal with Q : Bool.eqb true _ = true |- _ => apply eqb_prop in Q; symmetry in Q; apply existsb_exists in Q; destruct Q as (o & I & O) end.
  destruct o as [| | | | | |d i sc t ok| | | | | ]; try discriminate O. specialize (F _ I). destruct ok; [discriminate F|]. exists d, i, sc, t. exact I.
Qed.
Example C163_mapping_nonvacuous : forall lm : libm, exists m m', let A := BA (easy lm) in
  run (apart_cf lm true) apart_1 = Ok m /\ run (apart_cf lm true) apart_2 = Ok m' /\
  always_mapping (apart_cf lm true) apart_1 /\ always_mapping (apart_cf lm true) apart_2 /\ at_rest m /\ at_rest m' /\ no_closure m /\ no_closure m' /\
  handled (apart_cf lm true) apart_1 = handled (apart_cf lm true) apart_2 /\ List.length (sh_scans (mp_sh m)) = 3%nat /\ List.length (sh_cons (mp_sh m)) = 1%nat /\
  exists i j score typical, In (ObMatch i j score typical false) (sh_trace (mp_sh m')).
Proof.
  intro lm. destruct (ends64_in _ _ (apart_run_1 lm)) as (m & E & H). destruct (ends64_in _ _ (apart_run_2 lm)) as (m' & E' & H').
  destruct (tried_sound _ _ H) as (R & N & S & K & _). destruct (tried_sound _ _ H') as (R' & N' & _ & _ & M).
  pose proof (no_request _ apart_1_plain) as C. pose proof (no_request _ apart_2_plain) as C'.
  exists m, m'. intro A. split; [exact E|]. split; [exact E'|].
  split; [split; [reflexivity|split; [reflexivity|intros a f I; destruct (C a f I)]]|]. split; [split; [reflexivity|split; [reflexivity|intros a f I; destruct (C' a f I)]]|].
  split; [exact R|]. split; [exact R'|]. split; [exact N|]. split; [exact N'|]. split; [exact (apart_handled lm true)|]. split; [exact S|]. split; [exact K|exact (M eq_refl)].
Qed.

(** With mapping off. *)
Definition found (m : mapper b64) : bool := idle64 m && existsb (fun o => match o with ObInit _ _ => true | _ => false end) (sh_trace (mp_sh m)).
Lemma apart_off_1 : forall lm : libm, ends64 (run (A := BA (easy lm)) (apart_cf lm false) apart_1) found = true.
Proof. intro lm. vm_compute. reflexivity. Qed.
Lemma apart_off_2 : forall lm : libm, ends64 (run (A := BA (easy lm)) (apart_cf lm false) apart_2) found = true.
Proof. intro lm. vm_compute. reflexivity. Qed.
Example C163_localizing_nonvacuous : forall lm : libm, exists m m', let A := BA (easy lm) in
  run (apart_cf lm false) apart_1 = Ok m /\ run (apart_cf lm false) apart_2 = Ok m' /\
  always_localizing (apart_cf lm false) apart_1 /\ always_localizing (apart_cf lm false) apart_2 /\ at_rest m /\ at_rest m' /\
  handled (apart_cf lm false) apart_1 = handled (apart_cf lm false) apart_2 /\ exists r o, In (ObInit r o) (sh_trace (mp_sh m)).
Proof.
  intro lm. destruct (ends64_in _ _ (apart_off_1 lm)) as (m & E & H). destruct (ends64_in _ _ (apart_off_2 lm)) as (m' & E' & H').
  apply andb_prop in H. destruct H as [R O]. apply andb_prop in H'. destruct H' as [R' _].
  pose proof (no_request _ apart_1_plain) as C. pose proof (no_request _ apart_2_plain) as C'.
  assert (Id : forall m, idle64 m = true -> at_rest m) by (intros x; unfold idle64, at_rest; destruct (sp_pc (mp_spin x)); [reflexivity|discriminate..]).
  exists m, m'. intro A. split; [exact E|]. split; [exact E'|].
  split; [split; [reflexivity|intros a f I; destruct (C a f I)]|]. split; [split; [reflexivity|intros a f I; destruct (C' a f I)]|].
  split; [exact (Id m R)|]. split; [exact (Id m' R')|]. split; [exact (apart_handled lm false)|].
  apply existsb_exists in O. destruct O as (o & I & O). destruct o; try discriminate O. eexists _, _. exact I.
Qed.
