(** C182, continued: with the particle filter. *)

From Coq Require Import ZArith List Bool String.
From Flocq Require Import Core BinarySingleNaN.
From Verif Require Import Outcome Arith TypesModel ScanModel GraphModel FilterModel MotionModel LaserModel MapperModel SpecMapper SpecMapper2
  MapperWitness2 SpecNan PropNan PropMapper.
Import ListNotations.

(** False with the particle filter: the pose is stored, whatever the particles are. *)
Theorem C182_filter_refuted : forall (lm : libm) (cf : config b64) m e t f f',
  sp_pc (mp_spin m) = SIdle -> sh_enable (mp_sh m) && sh_init (mp_sh m) = false ->
  pe_frame e = "map"%string -> pe_odom e = Some t -> sp_filter (mp_spin m) = Some f -> nowhere (pe_pose e) ->
  filter_init (A := BA lm) (pe_normal e) (ps_x (pe_pose e)) (ps_y (pe_pose e)) (poth (from_msg (A := BA lm) (pe_pose e)))
    (nsqrt (Arith := BA lm) (pe_c0 e)) (nsqrt (Arith := BA lm) (pe_c7 e)) (nsqrt (Arith := BA lm) (pe_c35 e)) f = Ok f' ->
  exists m2, exec (A := BA lm) cf m [Deliver (EvPose e); Spin; Spin; Spin] = Ok m2 /\ sh_init (mp_sh m2) = true /\
    (is_nan (pox (sh_robot (mp_sh m2))) = true \/ is_nan (poy (sh_robot (mp_sh m2))) = true).
Proof.
  intros lm cf m e t f f' I En F O N Nw Fi.
  destruct (C69_initial_pose_filter (A := BA lm) cf m e t f f' I En F O N Fi) as (m2 & E & _ & _ & R & _ & Si & _).
  exists m2. split; [exact E|]. split; [exact Si|]. rewrite R. exact Nw.
Qed.
Print Assumptions C182_filter_refuted.

(** Without noise every particle is at that pose; the next laser message ends in a
    conversion of NaN to an integer. *)
Definition nan_pose_quiet : event b64 :=
  EvPose (mkPoseEv "map" (mkPoseMsg B754_nan (z64 0) (z64 0) (z64 0) (z64 0) (z64 0) (z64 1)) (z64 1) (z64 1) (z64 1)
    (Some (at64 0 0)) (fun _ mean _ => mean)).
Definition quiet_beam (x : Z) : event b64 :=
  EvLaser (mkLaserEv (mkLaser (z64 0) (z64 0) (z64 2) [z64 1]) "laser" (Some (at64 0 0)) (Some (at64 x 0)) (z64 0) (fun _ => Some (at64 x 0))
    (fun _ mean _ => mean) [0%Z; 0%Z]).
Definition scattered : list (label b64) := [Deliver (quiet_beam 0); Deliver nan_pose_quiet; Spin; Spin; Spin].
(** A library that is right where this run calls it (see [easy] and [spreads_nan]). *)
Definition rest0 : libm :=
  {| lm_cos := fun _ => z64 0; lm_sin := fun _ => z64 0; lm_exp := fun _ => z64 0; lm_atan2 := fun _ _ => z64 0;
     lm_hypot := fun _ _ => z64 0; lm_fmod := fun x _ => if is_nan x then x else z64 0 |}.
Theorem C182_filter_scan_refuted : let lm := rest0 in let cf := cf64 lm 10 1 0 (Some (1%Z, 2%Z, motion64)) false (Some one_scan) in
  (exists m f, run (A := BA (spreads_nan (easy lm))) cf scattered = Ok m /\ sp_pc (mp_spin m) = SIdle /\ sp_filter (mp_spin m) = Some f /\
     pf_parts f <> [] /\ Forall (fun p => is_nan (v0 p) = true) (pf_parts f)) /\
  run (A := BA (spreads_nan (easy lm))) cf (scattered ++ [Deliver (quiet_beam 2); Spin]) = Fault BadCast.
Proof.
  cbv zeta. set (lm := rest0). set (cf := cf64 lm 10 1 0 (Some (1%Z, 2%Z, motion64)) false (Some one_scan)). split.
  - destruct (ends64_in (run (A := BA (spreads_nan (easy lm))) cf scattered) (fun m => idle64 m &&
      match sp_filter (mp_spin m) with
      | Some f => match pf_parts f with [] => false | _ => forallb (fun p => is_nan (v0 p)) (pf_parts f) end
      | None => false end)) as (m & E & H).
    { vm_compute. reflexivity. }
    apply andb_prop in H. destruct H as [Hi H]. destruct (sp_filter (mp_spin m)) as [f|] eqn:F; [|discriminate H].
    exists m, f. split; [exact E|]. unfold idle64 in Hi. destruct (sp_pc (mp_spin m)); try discriminate Hi. split; [reflexivity|]. split; [exact F|].
    destruct (pf_parts f) as [|p ps]; [discriminate H|]. split; [discriminate|]. apply Forall_forall. apply forallb_forall. exact H.
  - vm_compute. reflexivity.
Qed.
Print Assumptions C182_filter_scan_refuted.

(** While mapping, after a heading that is not a number the next laser message ends in
    the same way. *)
Theorem C182_heading_scan_refuted : let cf := cf64 rest0 10 1 0 None true (Some one_scan) in
  run (A := BA (spreads_nan (easy rest0))) cf
    ([Deliver turned_nan; Spin; Spin; Spin; Spin; Spin] ++ [Deliver (quiet_beam 2); Spin]) = Fault BadCast.
Proof. vm_compute. reflexivity. Qed.
Print Assumptions C182_heading_scan_refuted.
