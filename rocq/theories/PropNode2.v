(** C90-C94: everything the node starts it finishes. *)

From Coq Require Import ZArith List Bool String Lia.
From Flocq Require Import Core BinarySingleNaN.
From Verif Require Import Outcome Arith TypesModel ScanModel MatcherModel ConstraintModel
  SolverModel GraphModel OccGridModel MotionModel FilterModel LaserModel MapperModel SpecMapper SpecMapper2 SpecNode
  MapperSteps MapperInv2 MapperWitness2 NodeLive NodeFair NodeQuiet.
Import ListNotations.

(** ** C90 *)
Theorem C90_callback_steps : forall {T} {A : Arith T} (cf : config T) m ls m', exec cf m ls = Ok m' -> no_calls ls -> (spins cf m ls <= 8)%nat.
Proof.
  intros T A cf m ls m' E N. pose proof (spins_bound cf ls m m' E N). pose proof (spin_rank_max (sp_pc (mp_spin m))). lia.
Qed.
Print Assumptions C90_callback_steps.

Theorem C90_callbacks_finish : forall {T} {A : Arith T} (cf : config T) st lb, mapper_init cf = Ok (st 0) -> lives cf st lb -> fair cf st lb ->
  often (fun n => sp_pc (mp_spin (st n)) = SIdle) /\ often (fun n => pb_pc (mp_pub (st n)) = PTop).
Proof.
  intros T A cf st lb I L F. split; [apply (idle_often cf st lb I L F)|apply (top_often cf st lb I L F)].
Qed.
Print Assumptions C90_callbacks_finish.

(** ** C91 *)
Theorem C91_pass_finishes : forall {T} {A : Arith T} (cf : config T) st lb, mapper_init cf = Ok (st 0) -> lives cf st lb -> fair cf st lb ->
  (forall n, (num_scans (mp_sh (st n)) < 2 ^ 64)%Z) -> often (fun n => lp_pc (mp_loop (st n)) = LSleep).
Proof.
  intros T A cf st lb I L F B. apply (sleeps_often cf st lb L); [|exact B|].
  - apply (acts_often cf st lb I L F TLoop). discriminate.
  - apply init_cases in I. destruct I as (s & f & -> & _). split; [cbn; lia|exact Logic.I].
Qed.
Print Assumptions C91_pass_finishes.

(** ** C92 *)
Theorem C92_every_scan_considered_partial : forall {T} {A : Arith T} (cf : config T) st lb, mapper_init cf = Ok (st 0) -> lives cf st lb -> fair cf st lb ->
  (0 <= cf_depth cf)%Z -> (forall n, no_load (st n) (lb n)) ->
  (exists n0, forall n, (n0 <= n)%nat -> sh_enable (mp_sh (st n)) = true) ->
  forall n i p, (cf_depth cf < i)%Z -> nth_error (sh_scans (mp_sh (st n))) (Z.to_nat i) = Some p -> exists k, considered cf st lb p k.
Proof.
  intros T A cf st lb I L F D N (n0 & En) n i p Di E.
  assert (S0 : lp_done (mp_loop (st 0)) = 0%Z /\ lp_pc (mp_loop (st 0)) = LSleep).
  { pose proof I as J. apply init_cases in J. destruct J as (s & f & -> & _). split; reflexivity. }
  destruct S0 as [S1 S2].
  apply (scan_considered cf st lb L) with (N := n0) (n := n) (i := i); try assumption.
  - apply (acts_often cf st lb I L F TLoop). discriminate.
  - intro k. apply (N k).
  - split; [rewrite S1; lia|rewrite S2; exact Logic.I].
Qed.
Print Assumptions C92_every_scan_considered_partial.

(** ** C93 *)
Theorem C93_update_published : forall {T} {A : Arith T} (cf : config T) st lb, mapper_init cf = Ok (st 0) -> lives cf st lb -> fair cf st lb ->
  forall n, sh_flag (mp_sh (st n)) = true ->
  exists k j, (n <= k)%nat /\ map_published st k /\ (k < j)%nat /\ markers_published cf st j.
Proof. intros T A cf st lb I L F n H. apply (flag_ahead cf st lb I L F n H). Qed.
Print Assumptions C93_update_published.

Theorem C93_scan_published : forall {T} {A : Arith T} (cf : config T) st lb, mapper_init cf = Ok (st 0) -> lives cf st lb -> fair cf st lb ->
  (forall n, no_load (st n) (lb n)) ->
  forall n p, scan_added st p n ->
  exists k, (n < k)%nat /\ exists scans g sc, graph_scans (mp_sh (st k)) = Ok scans /\
    sh_trace (mp_sh (st (S k))) = ObMap scans g :: sh_trace (mp_sh (st k)) /\ nth_error (sh_heap (mp_sh (st k))) p = Some sc /\ In sc scans.
Proof.
  intros T A cf st lb I L F N n p Ad. destruct (added_flag cf st lb I L F p n Ad) as (k0 & H0 & Fl).
  destruct (flag_ahead cf st lb I L F k0 Fl) as (k & j & Hk & (scans & g & Gs & Tr) & _).
  assert (In p (sh_scans (mp_sh (st k)))) as Hp.
  { destruct (grow cf st lb L N (S n) k ltac:(lia)) as (more & E). rewrite E. apply in_or_app. left.
    destruct (L n) as [H|[_ H]].
    - apply step_cases in H. apply (added_step cf _ _ _ p H Ad).
    - unfold scan_added in Ad. rewrite H in Ad. apply (f_equal (@List.length _)) in Ad. cbn in Ad. lia. }
  exists k. split; [lia|]. apply In_nth_error in Hp. destruct Hp as (i & Hi).
  destruct (graph_scans_nth (mp_sh (st k)) scans i p Gs Hi) as (sc & E1 & E2).
  exists scans, g, sc. split; [exact Gs|]. split; [exact Tr|]. split; [exact E2|]. apply nth_error_In in E1. exact E1.
Qed.
Print Assumptions C93_scan_published.

(** ** C94 *)
Theorem C94_transform_published : forall {T} {A : Arith T} (cf : config T) st lb, mapper_init cf = Ok (st 0) -> lives cf st lb -> fair cf st lb ->
  (exists n0, forall n, (n0 <= n)%nat -> sh_scans (mp_sh (st n)) <> []) -> often (tf_published st).
Proof.
  intros T A cf st lb I L F (n0 & Ne) n. destruct (tf_ahead cf st lb I L F n0 Ne (Nat.max n0 n) (Nat.le_max_l _ _)) as (k & Hk & Ek).
  exists k. split; [lia|exact Ek].
Qed.
Print Assumptions C94_transform_published.

(** ** Witnesses *)
Section Witness.
Context (lm : libm).
Local Instance WA : Arith b64 := BA (easy lm).

(** Two scans too far apart for a loop closure. *)
Definition apart_scans : list (bag_msg b64) := [scan64 0 (z64 0) (z64 0) cross; scan64 1 (z64 8) (z64 8) dot].
Lemma apart_scans_ok : well_formed (graph_load false apart_scans).
Proof. apply well_formed_sound. vm_compute. reflexivity. Qed.
Definition first_cf : config b64 := cf64 lm 0 1 0 None true None.
Definition apart_cf : config b64 := cf64 lm 0 1 0 None true (Some apart_scans).
Definition first_schedule : list (label b64) := [Deliver (beam64 [z64 1] 0 0); Spin; Spin; Spin; Spin; Spin] ++ loops 3 ++ repeat Pub 11.
Definition apart_schedule : list (label b64) := loops 9 ++ repeat Pub 11.
Definition reload_schedule : list (label b64) := loops 9 ++ load64 apart_scans ++ repeat Pub 11.

(** A check of every state on the way. *)
Definition start64 (cf : config b64) (P : mapper b64 -> bool) : bool := ends64 (mapper_init cf) P.
Fixpoint each64 (cf : config b64) (n : nat) (m : mapper b64) (ls : list (label b64)) (P : nat -> mapper b64 -> bool) : bool :=
  P n m &&
  match ls with
  | [] => true
  | l :: rest =>
    match step cf l m with
    | None => each64 cf (S n) m rest P
    | Some (Ok m') => each64 cf (S n) m' rest P
    | Some (Fault _) => false
    end
  end.
Definition every64 (cf : config b64) (ls : list (label b64)) (P : nat -> mapper b64 -> bool) : bool :=
  start64 cf (fun m0 => each64 cf 0 m0 ls P).

Lemma each64_sound : forall cf P ls k m0, each64 cf k m0 ls P = true -> forall n, (n <= List.length ls)%nat ->
  exists m, exec cf m0 (firstn n ls) = Ok m /\ P (k + n)%nat m = true.
Proof.
  intros cf P ls. induction ls as [|l ls IH]; intros k m0 H n Hn.
  - cbn in Hn. assert (n = 0)%nat as -> by lia. exists m0. split; [reflexivity|]. rewrite Nat.add_0_r. cbn [each64] in H. apply andb_true_iff in H. apply H.
  - cbn [each64] in H. apply andb_true_iff in H. destruct H as [H0 H].
    destruct n as [|n]; [exists m0; split; [reflexivity|rewrite Nat.add_0_r; exact H0]|].
    cbn [firstn exec]. cbn [List.length] in Hn. rewrite Nat.add_succ_r, <- Nat.add_succ_l.
    destruct (step cf l m0) as [[m1|f]|]; [|discriminate H|]; cbn [bind]; apply (IH (S k)); try exact H; lia.
Qed.
Lemma every64_sound : forall cf ls P m0, mapper_init cf = Ok m0 -> every64 cf ls P = true -> forall n, (n <= List.length ls)%nat ->
  exists m, exec cf m0 (firstn n ls) = Ok m /\ P n m = true.
Proof.
  intros cf ls P m0 I H n Hn. unfold every64, start64 in H. rewrite I in H. cbn [ends64] in H. apply (each64_sound cf P ls 0 m0 H n Hn).
Qed.

Definition light (m : mapper b64) : bool := (num_scans (mp_sh m) <? 2 ^ 64)%Z.
Definition loading (m : mapper b64) : bool := match sp_pc (mp_spin m) with SLoad _ => true | _ => false end.

(** A schedule that ends quietly is the beginning of a fair execution. *)
Lemma witness : forall cf ls, (0 <= cf_depth cf)%Z ->
  every64 cf ls (fun n m => light m && (negb (n =? List.length ls)%nat || quiet cf m)) = true ->
  exists st lb, mapper_init cf = Ok (st 0) /\ lives cf st lb /\ fair cf st lb /\ (forall n, (num_scans (mp_sh (st n)) < 2 ^ 64)%Z) /\
    (forall n, (n <= List.length ls)%nat -> exec cf (st 0) (firstn n ls) = Ok (st n)) /\
    (forall n, (n < List.length ls)%nat -> lb n = nth n ls Loop) /\
    (forall n, (List.length ls <= n)%nat -> (lb n = Loop \/ lb n = Pub) /\ quiet cf (st n) = true /\ unchanged (st (List.length ls)) (st n)).
Proof.
  intros cf ls D H. pose proof H as H'. unfold every64, start64 in H'. apply ends64_in in H'. destruct H' as (m0 & I & _).
  pose proof (every64_sound cf ls _ m0 I H) as E.
  destruct (E (List.length ls) (le_n _)) as (m & Em & Qm). rewrite firstn_all in Em. rewrite Nat.eqb_refl in Qm. cbn [negb orb] in Qm.
  apply andb_true_iff in Qm. destruct Qm as [_ Qm].
  pose proof (st_prefix cf ls m0 m D Em Qm) as P. pose proof (st_quiet cf ls m0 m D Em Qm) as Qt.
  assert (Sl : state_at cf m0 (then_quiet ls) (List.length ls) = m).
  { specialize (P _ (le_n _)). rewrite firstn_all, Em in P. injection P as P. symmetry. exact P. }
  exists (state_at cf m0 (then_quiet ls)), (then_quiet ls).
  split; [exact I|]. split; [exact (st_lives cf ls m0 m D Em Qm)|]. split; [exact (st_fair cf ls m0 m D Em Qm)|]. split.
  { intro n. assert (B : forall k, (k <= List.length ls)%nat -> (num_scans (mp_sh (state_at cf m0 (then_quiet ls) k)) < 2 ^ 64)%Z).
    { intros k Hk. destruct (E k Hk) as (mk & Ek & Qk). rewrite (P k Hk) in Ek. injection Ek as <-. apply andb_true_iff in Qk. destruct Qk as [Qk _].
      apply Z.ltb_lt in Qk. exact Qk. }
    destruct (Nat.le_gt_cases n (List.length ls)) as [Hn|Hn]; [apply B; exact Hn|].
    destruct (Qt n ltac:(lia)) as (_ & U & _). unfold num_scans. rewrite U, <- Sl. apply (B (List.length ls) (le_n _)). }
  split; [exact P|]. split; [intros n Hn; apply (lb_prefix ls n Hn)|].
  intros n Hn. split; [apply (lb_after ls n Hn)|]. rewrite Sl. apply (Qt n Hn).
Qed.

Example C90_nonvacuous : exists st lb, mapper_init first_cf = Ok (st 0) /\ lives first_cf st lb /\ fair first_cf st lb /\
  exists n, sp_pc (mp_spin (st n)) <> SIdle.
Proof.
  destruct (witness first_cf first_schedule) as (st & lb & I & L & F & B & P & _); [apply Z.le_refl|vm_compute; reflexivity|].
  exists st, lb. split; [exact I|]. split; [exact L|]. split; [exact F|]. exists 1%nat. intro E.
  assert (Q : every64 first_cf first_schedule (fun n m => negb (n =? 1)%nat || negb (idle64 m)) = true) by (vm_compute; reflexivity).
  destruct (every64_sound _ _ _ _ I Q 1%nat) as (m & Em & Qm); [cbn; lia|]. rewrite (P 1%nat) in Em by (cbn; lia). injection Em as <-.
  cbn [Nat.eqb negb orb] in Qm. unfold idle64 in Qm. rewrite E in Qm. discriminate Qm.
Qed.

Example C91_nonvacuous : exists st lb, mapper_init apart_cf = Ok (st 0) /\ lives apart_cf st lb /\ fair apart_cf st lb /\
  (forall n, (num_scans (mp_sh (st n)) < 2 ^ 64)%Z) /\ exists n num new, lp_pc (mp_loop (st n)) = LFetch num new.
Proof.
  destruct (witness apart_cf apart_schedule) as (st & lb & I & L & F & B & P & _); [apply Z.le_refl|vm_compute; reflexivity|].
  exists st, lb. split; [exact I|]. split; [exact L|]. split; [exact F|]. split; [exact B|]. exists 5%nat.
  assert (Q : every64 apart_cf apart_schedule (fun n m => negb (n =? 5)%nat || match lp_pc (mp_loop m) with LFetch _ _ => true | _ => false end) = true)
    by (vm_compute; reflexivity).
  destruct (every64_sound _ _ _ _ I Q 5%nat) as (m & Em & Qm); [cbn; lia|]. rewrite (P 5%nat) in Em by (cbn; lia). injection Em as <-.
  cbn [Nat.eqb negb orb] in Qm. destruct (lp_pc (mp_loop (st 5%nat))) eqn:E; try discriminate Qm. eexists _, _. reflexivity.
Qed.

(** The map is loaded twice; the scans of the second map are not considered. *)
Lemma quiet_not_fetching : forall cf (m : mapper b64) num new, quiet cf m = true -> lp_pc (mp_loop m) = LFetch num new -> False.
Proof.
  intros cf m num new Q E. unfold quiet, quiet_loop in Q. rewrite E in Q. rewrite !andb_false_r in Q. cbn in Q. discriminate Q.
Qed.
End Witness.

Theorem C92_every_scan_considered_refuted : forall lm, exists (cf : config b64) st lb,
  mapper_init (A := BA (easy lm)) cf = Ok (st 0) /\ lives (A := BA (easy lm)) cf st lb /\ fair (A := BA (easy lm)) cf st lb /\ (0 <= cf_depth cf)%Z /\
  (forall n, (num_scans (mp_sh (st n)) < 2 ^ 64)%Z) /\ (forall n, sh_enable (mp_sh (st n)) = true) /\
  exists n0 i p, (cf_depth cf < i)%Z /\ (forall n, (n0 <= n)%nat -> nth_error (sh_scans (mp_sh (st n))) (Z.to_nat i) = Some p) /\
    forall k, ~ considered (A := BA (easy lm)) cf st lb p k.
Proof.
  intro lm. exists (apart_cf lm).
  destruct (witness lm (apart_cf lm) reload_schedule) as (st & lb & I & L & F & B & P & P' & Q); [apply Z.le_refl|vm_compute; reflexivity|].
  exists st, lb. split; [exact I|]. split; [exact L|]. split; [exact F|]. split; [apply Z.le_refl|]. split; [exact B|].
  assert (C : every64 lm (apart_cf lm) reload_schedule (fun n m => sh_enable (mp_sh m) &&
     (negb (n =? List.length reload_schedule)%nat || match nth_error (sh_scans (mp_sh m)) 1 with Some 3%nat => true | _ => false end) &&
     match lp_pc (mp_loop m), nth_error (sh_scans (mp_sh m)) (Z.to_nat (lp_done (mp_loop m))) with LFetch _ _, Some 3%nat => false | _, _ => true end) = true)
    by (vm_compute; reflexivity).
  pose proof (every64_sound lm _ _ _ _ I C) as K. cbv beta in K.
  assert (K' : forall n, (n <= List.length reload_schedule)%nat -> sh_enable (mp_sh (st n)) &&
     (negb (n =? List.length reload_schedule)%nat || match nth_error (sh_scans (mp_sh (st n))) 1 with Some 3%nat => true | _ => false end) &&
     match lp_pc (mp_loop (st n)), nth_error (sh_scans (mp_sh (st n))) (Z.to_nat (lp_done (mp_loop (st n)))) with LFetch _ _, Some 3%nat => false | _, _ => true end = true).
  { intros n Hn. destruct (K n Hn) as (m & Em & Qm). rewrite (P n Hn) in Em. injection Em as <-. exact Qm. }
  clear K C. pose proof (K' _ (le_n _)) as Z. rewrite Nat.eqb_refl in Z. apply andb_true_iff in Z. destruct Z as [Z _]. apply andb_true_iff in Z. destruct Z as [Z1 Z2].
  cbn [negb orb] in Z2. split.
  { intro n. destruct (Nat.le_gt_cases n (List.length reload_schedule)) as [Hn|Hn].
    - specialize (K' n Hn). apply andb_true_iff in K'. destruct K' as [K' _]. apply andb_true_iff in K'. apply K'.
    - destruct (Q n ltac:(lia)) as (_ & _ & _ & U). rewrite U. exact Z1. }
  exists (List.length reload_schedule), 1%Z, 3%nat. split; [reflexivity|]. split.
  { intros n Hn. destruct (Q n Hn) as (_ & _ & U & _). rewrite U. change (Z.to_nat 1) with 1%nat.
    destruct (nth_error (sh_scans (mp_sh (st (List.length reload_schedule)))) 1) as [[|[|[|[|q]]]]|]; try discriminate Z2. reflexivity. }
  intros k (_ & (num & new & E) & N). destruct (Nat.le_gt_cases k (List.length reload_schedule)) as [Hk|Hk].
  - specialize (K' k Hk). apply andb_true_iff in K'. destruct K' as [_ K']. rewrite E, N in K'. discriminate K'.
  - destruct (Q k ltac:(lia)) as (_ & Qk & _). apply (quiet_not_fetching _ _ num new Qk E).
Qed.
Print Assumptions C92_every_scan_considered_refuted.

Example C92_nonvacuous : forall lm, exists (cf : config b64) st lb,
  mapper_init (A := BA (easy lm)) cf = Ok (st 0) /\ lives (A := BA (easy lm)) cf st lb /\ fair (A := BA (easy lm)) cf st lb /\ (0 <= cf_depth cf)%Z /\
  (forall n, no_load (st n) (lb n)) /\ (exists n0, forall n, (n0 <= n)%nat -> sh_enable (mp_sh (st n)) = true) /\
  exists n i p, (cf_depth cf < i)%Z /\ nth_error (sh_scans (mp_sh (st n))) (Z.to_nat i) = Some p.
Proof.
  intro lm. exists (apart_cf lm).
  destruct (witness lm (apart_cf lm) apart_schedule) as (st & lb & I & L & F & B & P & P' & Q); [apply Z.le_refl|vm_compute; reflexivity|].
  exists st, lb. split; [exact I|]. split; [exact L|]. split; [exact F|]. split; [apply Z.le_refl|].
  assert (C : every64 lm (apart_cf lm) apart_schedule (fun n m => sh_enable (mp_sh m) && negb (loading m) && match nth_error (sh_scans (mp_sh m)) 1 with Some 1%nat => true | _ => false end) = true)
    by (vm_compute; reflexivity).
  pose proof (every64_sound lm _ _ _ _ I C) as K. cbv beta in K.
  assert (K' : forall n, (n <= List.length apart_schedule)%nat -> sh_enable (mp_sh (st n)) = true /\ loading (st n) = false /\ nth_error (sh_scans (mp_sh (st n))) 1 = Some 1%nat).
  { intros n Hn. destruct (K n Hn) as (m & Em & Qm). rewrite (P n Hn) in Em. injection Em as <-.
    apply andb_true_iff in Qm. destruct Qm as [Qm Q3]. apply andb_true_iff in Qm. destruct Qm as [Q1 Q2]. split; [exact Q1|]. split; [apply negb_true_iff; exact Q2|].
    destruct (nth_error (sh_scans (mp_sh (st n))) 1) as [[|[|q]]|]; try discriminate Q3. reflexivity. }
  split.
  { intro n. split; [apply B|]. intros E file Q0. destruct (Nat.le_gt_cases n (List.length apart_schedule)) as [Hn|Hn].
    - destruct (K' n Hn) as (_ & K1 & _). unfold loading in K1. rewrite Q0 in K1. discriminate K1.
    - destruct (Q n ltac:(lia)) as ([J|J] & _); rewrite J in E; discriminate E. }
  split.
  { exists 0%nat. intros n _. destruct (Nat.le_gt_cases n (List.length apart_schedule)) as [Hn|Hn]; [apply (K' n Hn)|].
    destruct (Q n ltac:(lia)) as (_ & _ & _ & U). rewrite U. apply (K' _ (le_n _)). }
  exists 0%nat, 1%Z, 1%nat. split; [reflexivity|]. apply K'. lia.
Qed.

Example C93_nonvacuous : forall lm, exists (cf : config b64) st lb,
  mapper_init (A := BA (easy lm)) cf = Ok (st 0) /\ lives (A := BA (easy lm)) cf st lb /\ fair (A := BA (easy lm)) cf st lb /\
  (forall n, no_load (st n) (lb n)) /\ (exists n p, scan_added st p n) /\ (exists n, sh_flag (mp_sh (st n)) = true).
Proof.
  intro lm. exists (first_cf lm).
  destruct (witness lm (first_cf lm) (first_schedule)) as (st & lb & I & L & F & B & P & P' & Q); [apply Z.le_refl|vm_compute; reflexivity|].
  exists st, lb. split; [exact I|]. split; [exact L|]. split; [exact F|].
  assert (C : every64 lm (first_cf lm) first_schedule (fun n m => negb (loading m) &&
     (negb (n =? 3)%nat || match sh_trace (mp_sh m) with [] => true | _ => false end) &&
     (negb (n =? 4)%nat || match sh_trace (mp_sh m) with [ObScan ALaser 0%nat] => true | _ => false end) && (negb (n =? 6)%nat || sh_flag (mp_sh m))) = true)
    by (vm_compute; reflexivity).
  pose proof (every64_sound lm _ _ _ _ I C) as K. cbv beta in K.
  assert (K' : forall n, (n <= List.length first_schedule)%nat -> loading (st n) = false /\
     (n = 3%nat -> sh_trace (mp_sh (st n)) = []) /\ (n = 4%nat -> sh_trace (mp_sh (st n)) = [ObScan ALaser 0%nat]) /\ (n = 6%nat -> sh_flag (mp_sh (st n)) = true)).
  { intros n Hn. destruct (K n Hn) as (m & Em & Qm). rewrite (P n Hn) in Em. injection Em as <-.
    apply andb_true_iff in Qm. destruct Qm as [Qm Q4]. apply andb_true_iff in Qm. destruct Qm as [Qm Q3]. apply andb_true_iff in Qm. destruct Qm as [Q1 Q2].
    split; [apply negb_true_iff; exact Q1|]. split; [|split].
    - intros ->. cbn [Nat.eqb negb orb] in Q2. destruct (sh_trace (mp_sh (st 3%nat))); [reflexivity|discriminate Q2].
    - intros ->. cbn [Nat.eqb negb orb] in Q3. destruct (sh_trace (mp_sh (st 4%nat))) as [|[[] [|q]| | | | | | | | | | |] [|o tr]]; try discriminate Q3. reflexivity.
    - intros ->. exact Q4. }
  split.
  { intro n. split; [apply B|]. intros E file Q0. destruct (Nat.le_gt_cases n (List.length first_schedule)) as [Hn|Hn].
    - destruct (K' n Hn) as (K1 & _). unfold loading in K1. rewrite Q0 in K1. discriminate K1.
    - destruct (Q n ltac:(lia)) as ([J|J] & _); rewrite J in E; discriminate E. }
  split; [exists 3%nat, 0%nat|exists 6%nat; apply K'; [cbn; lia|reflexivity]].
  unfold scan_added. rewrite (proj1 (proj2 (K' 3%nat ltac:(cbn; lia))) eq_refl). apply K'; [cbn; lia|reflexivity].
Qed.

Example C94_nonvacuous : forall lm, exists (cf : config b64) st lb,
  mapper_init (A := BA (easy lm)) cf = Ok (st 0) /\ lives (A := BA (easy lm)) cf st lb /\ fair (A := BA (easy lm)) cf st lb /\
  exists n0, forall n, (n0 <= n)%nat -> sh_scans (mp_sh (st n)) <> [].
Proof.
  intro lm. exists (first_cf lm).
  destruct (witness lm (first_cf lm) (first_schedule)) as (st & lb & I & L & F & B & P & P' & Q); [apply Z.le_refl|vm_compute; reflexivity|].
  exists st, lb. split; [exact I|]. split; [exact L|]. split; [exact F|].
  exists (List.length first_schedule). intros n Hn E. destruct (Q n Hn) as (_ & Qn & _). unfold quiet, quiet_loop, num_scans in Qn. rewrite E in Qn.
  cbn in Qn. rewrite andb_false_r in Qn. discriminate Qn.
Qed.
