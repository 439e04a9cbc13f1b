(** C182: an initial pose that is not a number. *)

From Coq Require Import ZArith List Bool String Lia.
From Flocq Require Import Core BinarySingleNaN.
From Verif Require Import Outcome Arith TypesModel ScanModel GraphModel MotionModel FilterModel LaserModel TfModel MapperModel SpecMapper
  SpecMapper2 GraphProofs MapperInv2 MapperInv3 MapperWitness2 SpecNan PropMapper.
Import ListNotations.

Lemma nan_plus_l : forall x y : b64, is_nan x = true -> is_nan (Bplus mode_NE x y) = true.
Proof. intros [| | |] y H; try discriminate H. destruct y; reflexivity. Qed.
Lemma nan_plus_r : forall x y : b64, is_nan y = true -> is_nan (Bplus mode_NE x y) = true.
Proof. intros x [| | |] H; try discriminate H. destruct x; reflexivity. Qed.
Lemma nan_minus_r : forall x y : b64, is_nan y = true -> is_nan (Bminus mode_NE x y) = true.
Proof. intros x [| | |] H; try discriminate H. destruct x; reflexivity. Qed.
Lemma nan_mult_l : forall x y : b64, is_nan x = true -> is_nan (Bmult mode_NE x y) = true.
Proof. intros [| | |] y H; try discriminate H. destruct y; reflexivity. Qed.
Lemma nan_less : forall x y : b64, is_nan x = true -> Bltb x y = false.
Proof. intros [| | |] y H; try discriminate H. destruct y; reflexivity. Qed.

(** The position under which findNearest considers the scan made from an initial pose. *)
Lemma position_of_pose : forall (lm : libm) ub id (P : pose b64),
  scan_position (A := BA lm) ub (scan_set_pose (scan_new (A := BA lm) id) P) = mkPoint (pox P) (poy P).
Proof. intros lm ub id P. destruct ub; reflexivity. Qed.

(** While mapping, an initial pose without a position is refused: nothing changes. *)
Theorem C182_position_partial : forall (lm : libm) (cf : config b64) m e t,
  honest (en_search cf) -> sp_pc (mp_spin m) = SIdle -> sh_glock (mp_sh m) = None ->
  sh_enable (mp_sh m) = true -> sh_init (mp_sh m) = false -> pe_frame e = "map"%string -> pe_odom e = Some t ->
  sp_filter (mp_spin m) = None -> nowhere (pe_pose e) ->
  forall g, the_graph cf (mp_sh m) = Ok g ->
  exists m2, exec (A := BA lm) cf m [Deliver (EvPose e); Spin; Spin] = Ok m2 /\ ~ busy (mp_spin m2) /\
    same_graph (mp_sh m) (mp_sh m2) /\ same_poses (mp_sh m) (mp_sh m2) /\ sh_init (mp_sh m2) = false.
Proof.
  intros lm cf m e t Ho I G En In_ F O N Nw g Gr.
  set (sc := scan_set_pose (scan_new (A := BA lm) (num_scans (mp_sh m))) (from_msg (A := BA lm) (pe_pose e))).
  destruct (find_nearest (A := BA lm) (en_search cf) g sc (nofZ (Arith := BA lm) 10) (-1)) as [near|f] eqn:Ne.
  2:{ rewrite find_nearest_defined in Ne. destruct (Z.ltb_spec (Z.of_nat (List.length (gr_scans g))) (-1)); [lia|discriminate Ne]. }
  destruct (pose_connects (A := BA lm) cf m e t g near I G En In_ F O N Gr Ne) as [Rej _].
  apply Rej. destruct near as [|i rest]; [reflexivity|]. exfalso.
  rewrite find_nearest_defined in Ne. destruct (Z.of_nat (List.length (gr_scans g)) <? -1)%Z; [discriminate Ne|].
  injection Ne as Ne. unfold sc in Ne. rewrite position_of_pose in Ne.
  match type of Ne with en_search cf ?pts ?q ?r = _ => destruct (Ho pts q r i) as (p & _ & L) end.
  { rewrite Ne. left. reflexivity. }
  cbn [pox poy from_msg] in L.
  assert (K : is_nan (computed_sq p (mkPoint (ps_x (pe_pose e)) (ps_y (pe_pose e)))) = true).
  { unfold computed_sq. cbn [px py]. destruct Nw as [Nx|Ny].
    - apply nan_plus_l, nan_mult_l, nan_minus_r. exact Nx.
    - apply nan_plus_r, nan_mult_l, nan_minus_r. exact Ny. }
  rewrite (nan_less _ _ K) in L. discriminate L.
Qed.
Print Assumptions C182_position_partial.

(** False while localizing: it is taken for the robot's pose. *)
Theorem C182_localizing_refuted : forall (lm : libm) (cf : config b64) m e t,
  sp_pc (mp_spin m) = SIdle -> sh_enable (mp_sh m) = false ->
  pe_frame e = "map"%string -> pe_odom e = Some t -> sp_filter (mp_spin m) = None -> nowhere (pe_pose e) ->
  exists m2, exec (A := BA lm) cf m [Deliver (EvPose e); Spin; Spin; Spin] = Ok m2 /\ sh_init (mp_sh m2) = true /\
    (is_nan (pox (sh_robot (mp_sh m2))) = true \/ is_nan (poy (sh_robot (mp_sh m2))) = true).
Proof.
  intros lm cf m e t I En F O N Nw.
  destruct (C69_initial_pose_localizing (A := BA lm) cf m e t I En F O N) as (m2 & E & _ & _ & R & _ & Si).
  exists m2. split; [exact E|]. split; [exact Si|]. rewrite R. exact Nw.
Qed.
Print Assumptions C182_localizing_refuted.

(** The transform made from such a pose is not one. *)
Theorem C182_transform_refuted : forall (lm : libm) (robot odom : pose b64),
  is_nan (pox robot) = true \/ is_nan (poy robot) = true -> nowhere (tf_message (A := BA lm) robot odom).
Proof.
  intros lm robot odom H. unfold tf_message.
  destruct (quat_of_rotation (A := BA lm) (map_to_odom (A := BA lm) robot odom) (map_to_odom22 (A := BA lm) robot odom)) as [[[x y] z] w].
  unfold nowhere. cbn [ps_x ps_y map_to_odom iso_mul to_iso itx ity].
  destruct H as [H|H]; [left|right]; apply nan_plus_r; exact H.
Qed.
Print Assumptions C182_transform_refuted.

(** A map of one scan is loaded, the laser is seen, the initial pose arrives; the next
    laser message ends in a conversion of NaN to an integer, which is undefined. *)
Definition nan_pose (e : Z) : event b64 := pose_ev64 B754_nan (z64 0) e 0.
Definition lost : list (label b64) := [Deliver (beam64 [z64 1] 0 0); Deliver (nan_pose 0); Spin; Spin; Spin].
Definition lost_next : list (label b64) := lost ++ [Deliver (beam64 [z64 1] 2 0); Spin].
Theorem C182_next_scan_refuted : forall lm : libm, let cf := cf64 lm 10 1 0 None false (Some one_scan) in
  (exists m, run (A := BA (easy lm)) cf lost = Ok m /\ sp_pc (mp_spin m) = SIdle) /\
  run (A := BA (easy lm)) cf lost_next = Fault BadCast.
Proof.
  intros lm cf. split.
  - destruct (ends64_in (run (A := BA (easy lm)) cf lost) idle64) as (m & E & H).
    { vm_compute. reflexivity. }
    exists m. split; [exact E|]. unfold idle64 in H. destruct (sp_pc (mp_spin m)); try discriminate H. reflexivity.
  - vm_compute. reflexivity.
Qed.
Print Assumptions C182_next_scan_refuted.

(** While mapping, a heading that is not a number enters the graph. *)
Definition turned_nan : event b64 :=
  EvPose (mkPoseEv "map" (mkPoseMsg (z64 0) (z64 0) (z64 0) B754_nan B754_nan B754_nan B754_nan) (z64 1) (z64 1) (z64 1)
    (Some (at64 0 0)) (fun _ _ _ => z64 0)).
Theorem C182_heading_refuted : forall lm : libm, let cf := cf64 lm 10 1 0 None true (Some one_scan) in
  let heard : list (label b64) := [Deliver turned_nan; Spin; Spin; Spin; Spin; Spin] in
  (exists m g sc, run (A := BA (spreads_nan (easy lm))) cf heard = Ok m /\ sp_pc (mp_spin m) = SIdle /\
    the_graph cf (mp_sh m) = Ok g /\ nth_error (gr_scans g) 1 = Some sc /\
    is_nan (poth (s_pose sc)) = true /\ is_nan (poth (sh_robot (mp_sh m))) = true).
Proof.
  intros lm cf heard.
  destruct (ends64_in (run (A := BA (spreads_nan (easy lm))) cf heard) (fun m => idle64 m && is_nan (poth (sh_robot (mp_sh m))) &&
    match the_graph cf (mp_sh m) with
    | Ok g => match nth_error (gr_scans g) 1 with Some sc => is_nan (poth (s_pose sc)) | None => false end
    | Fault _ => false end)) as (m & E & H).
  { vm_compute. reflexivity. }
  apply andb_prop in H. destruct H as [H Hg]. apply andb_prop in H. destruct H as [Hi Hr].
  destruct (the_graph cf (mp_sh m)) as [g|] eqn:G; [|discriminate Hg].
  destruct (nth_error (gr_scans g) 1) as [sc|] eqn:Sc; [|discriminate Hg].
  exists m, g, sc. split; [exact E|]. unfold idle64 in Hi. destruct (sp_pc (mp_spin m)); try discriminate Hi.
  repeat split; assumption.
Qed.
Print Assumptions C182_heading_refuted.

(** The search of the examples is of the kind assumed, and the other conditions of
    C182_position_partial can be met. *)
Lemma search64_honest : honest search64.
Proof.
  intros pts q r i H. unfold search64 in H. set (f := fun i => sqd64 (nth i pts (mkPoint (z64 0) (z64 0))) q) in *.
  assert (K : forall l, In i (fold_right (insert64 f) [] l) -> In i l).
  { induction l as [|j l IH]; cbn; [intros []|]. intro J. apply insert64_in in J. destruct J as [->|J]; [left; reflexivity|right; auto]. }
  apply K in H. apply filter_In in H. destruct H as [H L]. apply in_seq in H.
  exists (nth i pts (mkPoint (z64 0) (z64 0))). split; [|exact L].
  apply nth_error_nth'. lia.
Qed.
Example C182_nonvacuous : forall lm : libm, let cf := cf64 lm 10 1 0 None true (Some one_scan) in
  exists m g, run (A := BA (easy lm)) cf [] = Ok m /\ honest (en_search cf) /\ sp_pc (mp_spin m) = SIdle /\ sh_glock (mp_sh m) = None /\
  sh_enable (mp_sh m) = true /\ sh_init (mp_sh m) = false /\ sp_filter (mp_spin m) = None /\ the_graph cf (mp_sh m) = Ok g /\
  gr_scans g <> [] /\ exists e, nan_pose 0 = EvPose e /\ nowhere (pe_pose e) /\ pe_frame e = "map"%string /\ pe_odom e <> None.
Proof.
  intros lm cf.
  destruct (ends64_in (run (A := BA (easy lm)) cf []) (fun m => idle64 m && sh_enable (mp_sh m) && negb (sh_init (mp_sh m)) &&
    match sh_glock (mp_sh m) with None => true | _ => false end && match sp_filter (mp_spin m) with None => true | _ => false end &&
    match the_graph cf (mp_sh m) with Ok g => match gr_scans g with [] => false | _ => true end | Fault _ => false end)) as (m & E & H).
  { vm_compute. reflexivity. }
  repeat (apply andb_prop in H; destruct H as [H ?]).
  destruct (the_graph cf (mp_sh m)) as [g|] eqn:G; [|discriminate].
  exists m, g. split; [exact E|]. split; [exact search64_honest|].
  unfold idle64 in H. destruct (sp_pc (mp_spin m)); try discriminate H.
  destruct (sh_glock (mp_sh m)); [discriminate|]. destruct (sp_filter (mp_spin m)); [discriminate|].
  destruct (sh_init (mp_sh m)); [discriminate|].
  repeat (split; [first [reflexivity|assumption]|]).
  split; [intro Q; rewrite Q in *; discriminate|]. eexists. split; [reflexivity|].
  split; [left; reflexivity|]. split; [reflexivity|discriminate].
Qed.
