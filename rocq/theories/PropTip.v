(** Property C150: the robot and its newest scan. *)

From Coq Require Import ZArith Reals List Bool Lia.
From Flocq Require Import Core BinarySingleNaN.
From Verif Require Import Outcome Arith TypesModel ScanModel MapperModel SpecMapper SpecMapper2 SpecTip
  NdtProofs MapperProofs MapperSteps MapperInv7 MapperWitness2.
Import ListNotations.

(** The robot is put where the newest scan is; a loop closure moves that scan. *)
Definition tip_start : list (label b64) :=
  [Deliver (beam64 [] 0 0); Deliver (pose_ev64 half64 half64 0 0); Spin; Spin; Spin; Deliver (EvConfigure 1 [])].
Definition asleep (m : mapper b64) : bool :=
  match sp_pc (mp_spin m), lp_pc (mp_loop m) with SIdle, LSleep => true | _, _ => false end.
Definition newest_at (x y th : b64) (m : mapper b64) : bool :=
  match newest (mp_sh m) with Some sc => nearb (s_pose sc) x y th | None => false end.

Lemma asleep_sound : forall m, asleep m = true -> sp_pc (mp_spin m) = SIdle /\ lp_pc (mp_loop m) = LSleep.
Proof. intros m H. unfold asleep in H. destruct (sp_pc (mp_spin m)); try discriminate H. destruct (lp_pc (mp_loop m)); try discriminate H. split; reflexivity. Qed.
Lemma newest_sound : forall x y th m, newest_at x y th m = true -> exists sc, newest (mp_sh m) = Some sc /\ near (s_pose sc) x y th.
Proof. intros x y th m H. unfold newest_at in H. destruct (newest (mp_sh m)) as [sc|]; [|discriminate H]. exists sc. split; [reflexivity|apply nearb_sound; exact H]. Qed.

(** C150 is false as stated.  At first the newest scan and the robot are at
    (1/2, 1/2, 0).  After one pass of the loop closure thread, with nothing else
    happening, the newest scan is at (0, 0, -1/2), and the robot where it was. *)
Theorem C150_robot_at_newest_refuted : forall lm : libm, exists cf m1 m2 sc1 sc2,
  use_filter cf = false /\ good_start (A := BA (easy lm)) cf /\
  run (A := BA (easy lm)) cf tip_start = Ok m1 /\ exec (A := BA (easy lm)) cf m1 (repeat Loop 18) = Ok m2 /\
  sp_pc (mp_spin m1) = SIdle /\ sp_pc (mp_spin m2) = SIdle /\ lp_pc (mp_loop m2) = LSleep /\
  newest (mp_sh m1) = Some sc1 /\ near (s_pose sc1) half64 half64 (z64 0) /\ near (sh_robot (mp_sh m1)) half64 half64 (z64 0) /\
  newest (mp_sh m2) = Some sc2 /\ near (s_pose sc2) (z64 0) (z64 0) (Bopp half64) /\ near (sh_robot (mp_sh m2)) half64 half64 (z64 0).
Proof.
  intro lm. set (cf := cf64 lm 9 1 1 None false (Some eleven_scans)).
  destruct (ends64_in (run (A := BA (easy lm)) cf tip_start)
    (fun m => asleep m && newest_at half64 half64 (z64 0) m && nearb (sh_robot (mp_sh m)) half64 half64 (z64 0))) as (m1 & E1 & H1); [vm_compute; reflexivity|].
  destruct (ends64_in (bind (run (A := BA (easy lm)) cf tip_start) (fun m => exec (A := BA (easy lm)) cf m (repeat Loop 18)))
    (fun m => asleep m && newest_at (z64 0) (z64 0) (Bopp half64) m && nearb (sh_robot (mp_sh m)) half64 half64 (z64 0))) as (m2 & E2 & H2); [vm_compute; reflexivity|].
  rewrite E1 in E2. cbn [bind] in E2.
  apply andb_prop in H1. destruct H1 as [H1 R1]. apply andb_prop in H1. destruct H1 as [A1 N1]. apply asleep_sound in A1. apply newest_sound in N1.
  apply andb_prop in H2. destruct H2 as [H2 R2]. apply andb_prop in H2. destruct H2 as [A2 N2]. apply asleep_sound in A2. apply newest_sound in N2.
  destruct N1 as (sc1 & N1 & P1). destruct N2 as (sc2 & N2 & P2).
  exists cf, m1, m2, sc1, sc2. split; [reflexivity|]. split; [intros f F; injection F as <-; exact (eleven_scans_ok (easy lm))|].
  split; [exact E1|]. split; [exact E2|]. split; [apply A1|]. split; [apply A2|]. split; [apply A2|].
  split; [exact N1|]. split; [exact P1|]. split; [apply nearb_sound; exact R1|]. split; [exact N2|]. split; [exact P2|apply nearb_sound; exact R2].
Qed.
Print Assumptions C150_robot_at_newest_refuted.

Section P.
Context {T : Type} {A : Arith T}.

Lemma quiet_frame (cf : config T) : forall s l s' l', loop_tr cf s l s' l' ->
  match lp_pc l with LCorrect _ _ _ _ _ | LOptRun => False | _ => True end ->
  sh_heap s' = sh_heap s /\ sh_scans s' = sh_scans s /\ sh_enable s' = sh_enable s /\ sh_robot s' = sh_robot s /\ sh_odom s' = sh_odom s.
Proof.
  intros s l s' l' H N. destruct H; try (repeat split; reflexivity); match goal with P : lp_pc _ = _ |- _ => rewrite P in N; contradiction N end.
Qed.

Lemma settled_tip (cf : config T) : use_filter cf = false -> cf_file cf = None -> forall m, reach_if cf settled m -> tip_inv m.
Proof.
  intros UF NF m R. induction R as [m I|m l m' R IH G S].
  - apply (tip_reach cf UF NF). apply reach_init. exact I.
  - apply step_cases in S. assert (C : laser_only m l \/ l = Loop) by (destruct l as [[| |]| | |]; cbn in *; tauto).
    destruct C as [C|C]; [exact (tip_step cf UF l m m' C IH S)|]. subst l.
    inversion S as [| |s' l' D|]; subst. destruct (quiet_frame cf _ _ _ _ D) as (E1 & E2 & E3 & E4 & E5); [exact G|].
    unfold tip_inv in *. cbn [mp_sh mp_spin] in *. rewrite E2, E3. destruct IH as [I1 I2]. split; [exact I1|].
    unfold tip_place, tip in *. rewrite E1, E2, E4, E5. exact I2.
Qed.

(** Mapping from an empty map; laser messages, and loop closure that accepts no
    candidate. *)
Theorem C150_robot_at_newest_partial : forall cf : config T, use_filter cf = false -> cf_file cf = None -> forall m, reach_if cf settled m ->
  sp_pc (mp_spin m) = SIdle -> sh_scans (mp_sh m) <> [] -> exists sc, newest (mp_sh m) = Some sc /\ s_pose sc = sh_robot (mp_sh m).
Proof.
  intros cf UF NF m R Pc N. destruct (settled_tip cf UF NF m R) as [_ H]. rewrite Pc in H. cbn [tip_place] in H.
  destruct H as [H|(bp & back & H1 & _ & H3 & H4)]; [contradiction|]. exists back. split; [|exact H4].
  unfold newest. destruct (rev (sh_scans (mp_sh m))) as [|q rest]; [discriminate H1|]. injection H1 as ->. exact H3.
Qed.
End P.
Print Assumptions C150_robot_at_newest_partial.

Definition settled_b (m : mapper b64) (l : label b64) : bool :=
  match l with
  | Deliver (EvLaser _) | Spin | Pub => true
  | Loop => match lp_pc (mp_loop m) with LCorrect _ _ _ _ _ | LOptRun => false | _ => true end
  | _ => false
  end.
Example C150_nonvacuous : forall lm : libm, exists m, reach_if (A := BA (easy lm)) (cf64 lm 1 1 0 None true None) settled m /\
  sp_pc (mp_spin m) = SIdle /\ List.length (sh_scans (mp_sh m)) = 2%nat /\ lp_done (mp_loop m) = 2%Z.
Proof.
  intro lm. destruct (ends64_in (run (A := BA (easy lm)) (cf64 lm 1 1 0 None true None) (laser_schedule ++ repeat Loop 20))
    (fun m => idle64 m && (List.length (sh_scans (mp_sh m)) =? 2)%nat && (lp_done (mp_loop m) =? 2)%Z)) as (m & E & H); [vm_compute; reflexivity|].
  apply andb_prop in H. destruct H as [H H3]. apply andb_prop in H. destruct H as [H1 H2].
  exists m. split; [|split; [apply idle64_sound; exact H1|split; [apply Nat.eqb_eq; exact H2|apply Z.eqb_eq; exact H3]]].
  apply (run_reach (easy lm) _ settled_b) with (ls := laser_schedule ++ repeat Loop 20); [|vm_compute; reflexivity|exact E].
  intros m' l Hb. unfold settled_b in Hb. unfold settled. destruct l as [[| |]| | |]; try exact I; try discriminate Hb. destruct (lp_pc (mp_loop m')); try exact I; discriminate Hb.
Qed.
