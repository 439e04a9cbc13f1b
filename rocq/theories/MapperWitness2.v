(** Runs of the node in binary64 used by the refuted claims.  The math library is
    arbitrary except for the arguments at which these runs call it; there it
    returns the correctly rounded results. *)

From Coq Require Import ZArith List Bool String Lia.
From Flocq Require Import Core BinarySingleNaN.
From Verif Require Import Outcome Arith TypesModel ScanModel CellModel NdtModel MatcherModel ConstraintModel SolverModel GraphModel
  OccGridModel MotionModel FilterModel LaserModel MapperModel SpecMapper SpecMapper2 MatcherProofs MapperInv3.
Import ListNotations.

Definition is0 (x : b64) : bool := match x with B754_zero _ => true | _ => false end.
Definition z64 (n : Z) : b64 := b64_of n 0.
Definition half64 : b64 := b64_of 1 (-1).
Definition beq (x y : b64) : bool := Beqb x y.

(** cos, sin, exp at 0; cos and sin at 1/2 and -1/2; atan2(0, x) for positive x;
    fmod(x, y) for |x| < y; hypot with a zero argument. *)
Definition easy (lm : libm) : libm := {|
  lm_cos := fun x => if is0 x then z64 1
                     else if beq (Babs x) half64 then b64_of 7904560997432656 (-53) else lm_cos lm x;
  lm_sin := fun x => if is0 x then x
                     else if beq x half64 then b64_of 8636562708039152 (-54)
                     else if beq x (Bopp half64) then b64_of (-8636562708039152) (-54) else lm_sin lm x;
  lm_exp := fun x => if is0 x then z64 1 else lm_exp lm x;
  lm_atan2 := fun y x => if is0 y && Bltb (z64 0) x then y else lm_atan2 lm y x;
  lm_hypot := fun x y => if is0 y then Babs x else if is0 x then Babs y else lm_hypot lm x y;
  lm_fmod := fun x y => if Bltb (Babs x) y then x else lm_fmod lm x y
|}.

(** Eigenvalues of a diagonal matrix. *)
Definition eig64 (m : mat2 b64) : b64 * b64 := if Bltb (m00 m) (m11 m) then (m00 m, m11 m) else (m11 m, m00 m).

(** Radius search by looking at every point, nearest first. *)
Definition sqd64 (p q : point b64) : b64 :=
  let dx := Bminus mode_NE (px p) (px q) in let dy := Bminus mode_NE (py p) (py q) in
  Bplus mode_NE (Bmult mode_NE dx dx) (Bmult mode_NE dy dy).
Fixpoint insert64 (f : nat -> b64) (i : nat) (l : list nat) : list nat :=
  match l with [] => [i] | j :: rest => if Bleb (f i) (f j) then i :: j :: rest else j :: insert64 f i rest end.
Definition search64 (pts : list (point b64)) (q : point b64) (r : b64) : list nat :=
  let f i := sqd64 (nth i pts (mkPoint (z64 0) (z64 0))) q in
  fold_right (insert64 f) [] (filter (fun i => Bltb (f i) r) (seq 0 (List.length pts))).

Lemma insert64_in : forall f i j l, In i (insert64 f j l) -> i = j \/ In i l.
Proof.
  intros f i j l. induction l as [|k l IH]; cbn; [intros [<-|[]]; auto|].
  destruct (Bleb (f j) (f k)); cbn; intros H; intuition.
Qed.
Lemma search64_in_range : search_in_range search64.
Proof.
  intros pts q r i H. unfold search64 in H. set (f := fun i => sqd64 (nth i pts (mkPoint (z64 0) (z64 0))) q) in *.
  assert (K : forall l, In i (fold_right (insert64 f) [] l) -> In i l).
  { induction l as [|j l IH]; cbn; [intros []|]. intro J. apply insert64_in in J. destruct J as [->|J]; [left; reflexivity|right; auto]. }
  apply K in H. apply filter_In in H. destruct H as [H _]. apply in_seq in H. lia.
Qed.

(** Cells of four metres, range 2, one candidate: (-1/2, -1/2, -1/2). *)
Definition matcher64 : matcher b64 := mkMatcher None (z64 4) (z64 1) half64 (z64 1) half64 100 (z64 2).

Definition no_ceres64 : ceres_oracle b64 := fun _ _ nodes => (false, nodes).
Definition cf64 (lm : libm) (depth limit node_limit : Z) (filter : option (Z * Z * motion_params b64)) (enable : bool)
    (file : option (list (bag_msg b64))) : config b64 :=
  mkConfig b64 (z64 1) (z64 1) depth false (z64 4) limit node_limit filter (z64 1) (z64 1) enable (z64 2) (z64 1) (z64 1) file
    eig64 search64 no_ceres64 10 (mat3_zero (A := BA lm)) (fun _ => matcher64) (fun _ => matcher64).

Definition scan64 (id : Z) (x y : b64) (pts : list (point b64)) : bag_msg b64 :=
  BScan (mkScanMsg id (mkGpoint x y (z64 0)) (mkGquat (z64 0) (z64 0) (z64 0) (z64 0)) (map (fun p => mkGpoint (px p) (py p) (z64 0)) pts)).
Definition pt64 (x y : Z) : point b64 := mkPoint (z64 x) (z64 y).
Definition cross : list (point b64) := [pt64 1 0; pt64 (-1) 0; pt64 0 1; pt64 0 (-1); pt64 0 0].
Definition dot : list (point b64) := [pt64 0 0].
Definition at64 (x y : Z) : pose_msg b64 := mkPoseMsg (z64 x) (z64 y) (z64 0) (z64 0) (z64 0) (z64 0) (z64 1).

(** A scan at the origin and one half a metre away in both directions. *)
Definition two_scans : list (bag_msg b64) := [scan64 0 (z64 0) (z64 0) cross; scan64 1 half64 half64 dot].
Definition one_scan : list (bag_msg b64) := [scan64 0 (z64 0) (z64 0) cross].

(** A laser message with the given ranges, beam 0 straight ahead, and the
    robot at (x, y) in the odometry frame. *)
Definition beam64 (ranges : list b64) (x y : Z) : event b64 :=
  EvLaser (mkLaserEv (mkLaser (z64 0) (z64 0) (z64 2) ranges) "laser" (Some (at64 0 0)) (Some (at64 x y)) (z64 0) (fun _ => Some (at64 x y)) (fun _ _ _ => z64 0) []).

Definition loops (n : nat) : list (label b64) := repeat Loop n.

Definition ends64 (o : outcome (mapper b64)) (P : mapper b64 -> bool) : bool :=
  match o with Ok m => P m | Fault _ => false end.
Lemma ends64_in : forall o P, ends64 o P = true -> exists m, o = Ok m /\ P m = true.
Proof. intros [m|f] P H; [exists m; split; [reflexivity|exact H]|discriminate H]. Qed.

(** C64, C65: a smaller map is loaded between the two halves of a loop closure. *)
Definition dangling_schedule : list (label b64) :=
  Deliver (beam64 [] 0 0) :: loops 11 ++ [Deliver (EvConfigure 4 one_scan); Spin; Spin] ++ loops 3.

(** C65: the constraint of a second laser scan is added before its scan. *)
Definition early_schedule : list (label b64) :=
  [Deliver (beam64 [z64 1] 0 0); Spin; Spin; Spin; Spin; Spin;
   Deliver (beam64 [z64 1] 2 0); Spin; Spin; Spin; Spin; Pub; Pub; Pub].
Definition has_dangling (m : mapper b64) : bool :=
  existsb (fun c => (Z.of_nat (List.length (sh_scans (mp_sh m))) <=? c_end c)%Z) (sh_cons (mp_sh m)).
Definition pub_locked (m : mapper b64) : bool := match sh_glock (mp_sh m) with Some TPub => true | _ => false end.
Definition idle64 (m : mapper b64) : bool := match sp_pc (mp_spin m) with SIdle => true | _ => false end.

(** C66: an initial pose is added to the graph after the map was published. *)
Definition pose_ev64 (x y : b64) (ox oy : Z) : event b64 :=
  EvPose (mkPoseEv "map" (mkPoseMsg x y (z64 0) (z64 0) (z64 0) (z64 0) (z64 1)) (z64 1) (z64 1) (z64 1) (Some (at64 ox oy)) (fun _ _ _ => z64 0)).
Definition unpublished_schedule : list (label b64) :=
  repeat Pub 11 ++ [Deliver (pose_ev64 (z64 0) (z64 0) 0 0); Spin; Spin; Spin; Spin; Spin].
Definition stale_map (m : mapper b64) : bool :=
  idle64 m && match lp_pc (mp_loop m) with LSleep => true | _ => false end && match pb_pc (mp_pub m) with PTop => true | _ => false end &&
  negb (sh_flag (mp_sh m)) &&
  match last_map (sh_trace (mp_sh m)), last_markers (sh_trace (mp_sh m)) with
  | Some scans, Some g => (List.length scans =? 2)%nat && (List.length (gr_scans g) =? 2)%nat && (List.length (sh_scans (mp_sh m)) =? 3)%nat
  | _, _ => false
  end.

(** C72: the second scan has no returns. *)
Definition empty_schedule : list (label b64) :=
  [Deliver (beam64 [z64 1] 0 0); Spin; Spin; Spin; Spin; Spin; Deliver (beam64 [] 2 0); Spin].

(** C76: the loop closure thread reuses the global matcher of the particle filter. *)
Definition motion64 : motion_params b64 := mkMotion (z64 0) (z64 0) (z64 0) (z64 0) (z64 0).
Definition filter_schedule : list (label b64) := Deliver (beam64 [] 0 0) :: loops 8.
(** All six points of the map are in the NDT. *)
Definition six_points (m : matcher b64) : bool :=
  match k_ndt m with Some g => beq (fold_right (fun c t => Bplus mode_NE (c_n c) t) (z64 0) (g_cells g)) (z64 6) | None => false end.

(** C77: the publisher reads while an initial pose is being stored. *)
Definition torn_schedule : list (label b64) :=
  [Pub; Deliver (beam64 [z64 1] 7 0); Spin; Spin; Spin; Spin; Spin; Deliver (EvConfigure 2 []);
   Pub; Pub; Deliver (pose_ev64 (z64 5) (z64 0) 9 0); Spin; Pub; Pub; Pub].
Fixpoint first_tf (tr : list (obs b64)) : option (pose b64 * pose b64) :=
  match tr with [] => None | ObTf r o _ :: _ => Some (r, o) | _ :: tr => first_tf tr end.

(** C78: maps of four and of three scans are loaded around an optimisation. *)
Definition edge64 (i j : Z) : bag_msg b64 :=
  BConstraint (mkConstraintMsg i j (mkGpoint (z64 0) (z64 0) (z64 0)) (repeat (z64 1) 9) false).
Definition three_scans : list (bag_msg b64) :=
  [scan64 0 (z64 0) (z64 0) cross; scan64 1 (z64 50) (z64 50) []; scan64 2 half64 half64 dot; edge64 0 1].
Definition four_scans : list (bag_msg b64) :=
  [scan64 0 (z64 0) (z64 0) cross; scan64 1 (z64 50) (z64 50) []; scan64 2 (z64 50) (z64 50) []; scan64 3 (z64 50) (z64 50) []; edge64 0 1].
Definition load64 (f : list (bag_msg b64)) : list (label b64) := [Deliver (EvConfigure 4 f); Spin; Spin].
Definition wrap_schedule : list (label b64) :=
  Deliver (beam64 [] 0 0) :: loops 16 ++ load64 four_scans ++ loops 2 ++ load64 three_scans ++ loops 18.

(** C79: a loop closure moves the last scan of the graph. *)
Definition eleven_scans : list (bag_msg b64) :=
  scan64 0 (z64 0) (z64 0) cross :: map (fun i => scan64 (Z.of_nat i) half64 half64 []) (seq 1 9) ++ [scan64 10 half64 half64 dot].
Definition moved_schedule : list (label b64) :=
  [Deliver (beam64 [] 0 0); Deliver (pose_ev64 half64 half64 0 0); Spin; Spin; Spin; Deliver (EvConfigure 1 [])] ++ loops 14 ++
  [Deliver (beam64 [z64 1] 2 0); Spin; Spin].

(** Checking that a run satisfies a condition at every step. *)
Definition simple_ok (m : mapper b64) (l : label b64) : bool :=
  (num_scans (mp_sh m) <? 2 ^ 31)%Z && match sp_pc (mp_spin m) with SLoad _ | SInitRobot _ _ | SInitOdom _ _ => false | _ => true end.
Fixpoint exec_ok (lm : libm) (cf : config b64) (okb : mapper b64 -> label b64 -> bool) (m : mapper b64) (ls : list (label b64)) : bool :=
  match ls with
  | [] => true
  | l :: rest => okb m l && match step (A := BA lm) cf l m with
                            | None => exec_ok lm cf okb m rest
                            | Some (Ok m') => exec_ok lm cf okb m' rest
                            | Some (Fault _) => true
                            end
  end.
Definition run_ok (lm : libm) (cf : config b64) (okb : mapper b64 -> label b64 -> bool) (ls : list (label b64)) : bool :=
  match mapper_init (A := BA lm) cf with Ok m => exec_ok lm cf okb m ls | Fault _ => true end.

Lemma exec_reach : forall lm cf okb (ok : mapper b64 -> label b64 -> Prop) ls m m',
  (forall m l, okb m l = true -> ok m l) -> reach_if (A := BA lm) cf ok m -> exec_ok lm cf okb m ls = true ->
  exec (A := BA lm) cf m ls = Ok m' -> reach_if (A := BA lm) cf ok m'.
Proof.
  intros lm cf okb ok ls. induction ls as [|l ls IH]; intros m m' S R B E; cbn [exec exec_ok] in *.
  - injection E as <-. exact R.
  - apply andb_prop in B. destruct B as [B1 B2]. destruct (step (A := BA lm) cf l m) as [[m1|f]|] eqn:St; try discriminate E.
    + cbn [bind] in E. apply (IH m1 m' S); try assumption. apply (reach_step (A := BA lm) cf ok m l m1); [exact R|apply S; exact B1|exact St].
    + apply (IH m m' S); assumption.
Qed.
Lemma run_reach : forall lm cf okb (ok : mapper b64 -> label b64 -> Prop) ls m',
  (forall m l, okb m l = true -> ok m l) -> run_ok lm cf okb ls = true -> run (A := BA lm) cf ls = Ok m' -> reach_if (A := BA lm) cf ok m'.
Proof.
  intros lm cf okb ok ls m' S B E. unfold run, run_ok in *. destruct (mapper_init (A := BA lm) cf) as [m|f] eqn:I; [|discriminate E].
  cbn [bind] in E. apply (exec_reach lm cf okb ok ls m m' S); try assumption. apply reach_init. exact I.
Qed.

Lemma simple_tame : forall lm cf m l, simple_ok m l = true -> tame (A := BA lm) cf m l.
Proof.
  intros lm cf m l H. apply andb_prop in H. destruct H as [H1 H2]. apply Z.ltb_lt in H1. split; [exact H1|].
  intros _ file E. rewrite E in H2. discriminate H2.
Qed.
Lemma simple_calm : forall lm cf m l, simple_ok m l = true -> calm (A := BA lm) cf m l.
Proof.
  intros lm cf m l H. apply andb_prop in H. destruct H as [H1 H2]. apply Z.ltb_lt in H1. split; [exact H1|].
  intros _ file E. rewrite E in H2. discriminate H2.
Qed.
Lemma simple_no_load : forall m l, simple_ok m l = true -> no_load m l.
Proof.
  intros m l H. apply andb_prop in H. destruct H as [H1 H2]. apply Z.ltb_lt in H1.
  split; [apply Z.lt_trans with (2 ^ 31)%Z; [exact H1|reflexivity]|]. intros _ file E. rewrite E in H2. discriminate H2.
Qed.
Lemma simple_warm : forall m l, simple_ok m l = true -> warm m l.
Proof. intros m l H. apply andb_prop in H. destruct H as [H1 H2]. intros _ file E. rewrite E in H2. discriminate H2. Qed.
Lemma simple_torn : forall m l, simple_ok m l = true -> ~ torn m.
Proof.
  intros m l H. apply andb_prop in H. destruct H as [H1 H2]. intros [[(r & o & E)|(r & o & E)] _]; rewrite E in H2; discriminate H2.
Qed.

(** Well-formed files. *)
Definition well_formed_b (g : graph b64) : bool :=
  forallb (fun p => (s_id (fst p) =? Z.of_nat (snd p))%Z) (combine (gr_scans g) (seq 0 (List.length (gr_scans g)))) &&
  forallb (fun c => (0 <=? c_begin c)%Z && (c_begin c <? c_end c)%Z && (c_end c <? Z.of_nat (List.length (gr_scans g)))%Z) (gr_constraints g).
Lemma combine_nth_seq : forall {X} (l : list X) k i x, nth_error l i = Some x -> In (x, (k + i)%nat) (combine l (seq k (List.length l))).
Proof.
  intros X l. induction l as [|y l IH]; intros k i x E; [destruct i; discriminate E|]. cbn [List.length seq combine].
  destruct i as [|i]; cbn in E; [injection E as <-; left; rewrite Nat.add_0_r; reflexivity|right].
  replace (k + S i)%nat with (S k + i)%nat by lia. apply IH. exact E.
Qed.
Lemma well_formed_sound : forall g, well_formed_b g = true -> well_formed g.
Proof.
  intros g H. apply andb_prop in H. destruct H as [H1 H2]. rewrite forallb_forall in H1, H2. split.
  - intros i sc E. specialize (H1 _ (combine_nth_seq _ 0 _ _ E)). cbn [fst snd] in H1. apply Z.eqb_eq in H1. exact H1.
  - apply Forall_forall. intros c I. specialize (H2 c I). apply andb_prop in H2. destruct H2 as [H2 H4]. apply andb_prop in H2. destruct H2 as [H2 H3].
    apply Z.leb_le in H2. apply Z.ltb_lt in H3. apply Z.ltb_lt in H4. unfold joins. lia.
Qed.
Lemma two_scans_ok : forall lm, well_formed (graph_load (A := BA lm) false two_scans).
Proof. intro lm. apply well_formed_sound. vm_compute. reflexivity. Qed.
Lemma one_scan_ok : forall lm, well_formed (graph_load (A := BA lm) false one_scan).
Proof. intro lm. apply well_formed_sound. vm_compute. reflexivity. Qed.
Lemma three_scans_ok : forall lm, well_formed (graph_load (A := BA lm) false three_scans).
Proof. intro lm. apply well_formed_sound. vm_compute. reflexivity. Qed.
Lemma four_scans_ok : forall lm, well_formed (graph_load (A := BA lm) false four_scans).
Proof. intro lm. apply well_formed_sound. vm_compute. reflexivity. Qed.
Lemma eleven_scans_ok : forall lm, well_formed (graph_load (A := BA lm) false eleven_scans).
Proof. intro lm. apply well_formed_sound. vm_compute. reflexivity. Qed.

(** Two laser scans; a loop closure. *)
Definition laser_schedule : list (label b64) :=
  [Deliver (beam64 [z64 1] 0 0); Spin; Spin; Spin; Spin; Spin; Pub; Pub; Pub; Pub; Pub; Pub; Pub; Pub; Pub; Pub; Pub;
   Deliver (beam64 [z64 1] 2 0); Spin; Spin; Spin; Spin; Spin; Spin; Spin; Spin].
Definition closure_schedule : list (label b64) := Deliver (beam64 [] 0 0) :: loops 18.

(** Reading propositions off boolean checks. *)
Definition loads_b (lm : libm) (ls : list (label b64)) : bool :=
  forallb (fun l => match l with Deliver (EvConfigure _ f) => well_formed_b (graph_load (A := BA lm) false f) | _ => true end) ls.
Lemma loads_sound : forall lm cf ls, cf_use_bary cf = false -> loads_b lm ls = true -> good_loads (A := BA lm) cf ls.
Proof.
  intros lm cf ls B H a f I. unfold loads_b in H. rewrite forallb_forall in H. specialize (H _ I). cbn beta iota in H. rewrite B.
  apply well_formed_sound. exact H.
Qed.
Definition no_requests_b (ls : list (label b64)) : bool :=
  forallb (fun l => match l with Deliver (EvConfigure _ _) => false | _ => true end) ls.
Lemma no_requests_sound : forall ls, no_requests_b ls = true -> no_requests ls.
Proof. intros ls H a f I. unfold no_requests_b in H. rewrite forallb_forall in H. specialize (H _ I). discriminate H. Qed.
Lemma has_dangling_sound : forall m, has_dangling m = true -> dangling (mp_sh m).
Proof.
  intros m H. unfold has_dangling in H. apply existsb_exists in H. destruct H as (c & I & L). apply Z.leb_le in L. exists c. split; assumption.
Qed.
Lemma idle64_sound : forall m, idle64 m = true -> sp_pc (mp_spin m) = SIdle.
Proof. intros m H. unfold idle64 in H. destruct (sp_pc (mp_spin m)); try discriminate H. reflexivity. Qed.
Lemma pub_locked_sound : forall m, pub_locked m = true -> sh_glock (mp_sh m) = Some TPub.
Proof. intros m H. unfold pub_locked in H. destruct (sh_glock (mp_sh m)) as [[]|]; try discriminate H. reflexivity. Qed.

Lemma stale_sound : forall cf m, stale_map m = true ->
  quiescent m /\ sh_flag (mp_sh m) = false /\ ~ map_current (mp_sh m) /\ ~ markers_current cf (mp_sh m).
Proof.
  intros cf m H. unfold stale_map in H. apply andb_prop in H. destruct H as [H H5]. apply andb_prop in H. destruct H as [H H4].
  apply andb_prop in H. destruct H as [H H3]. apply andb_prop in H. destruct H as [H1 H2].
  split; [|split].
  - split; [apply idle64_sound; exact H1|]. split.
    + unfold closing. destruct (lp_pc (mp_loop m)); try discriminate H2. intros [].
    + destruct (pb_pc (mp_pub m)); try discriminate H3. reflexivity.
  - destruct (sh_flag (mp_sh m)); [discriminate H4|reflexivity].
  - unfold map_current, markers_current. destruct (last_map (sh_trace (mp_sh m))) as [scans|]; [|discriminate H5].
    destruct (last_markers (sh_trace (mp_sh m))) as [g|]; [|discriminate H5].
    apply andb_prop in H5. destruct H5 as [H5 H8]. apply andb_prop in H5. destruct H5 as [H6 H7].
    apply Nat.eqb_eq in H6. apply Nat.eqb_eq in H7. apply Nat.eqb_eq in H8. split.
    + intro E. unfold graph_scans in E. apply mapM_length in E. congruence.
    + intro E. destruct (the_graph_length cf _ _ E) as (L & _). congruence.
Qed.

(** C75. *)
Definition no_global (m : mapper b64) : bool :=
  match sh_global (mp_sh m), lp_pc (mp_loop m) with None, LRegion _ _ => true | _, _ => false end.
Lemma no_global_sound : forall m, no_global m = true -> matching m /\ sh_global (mp_sh m) = None.
Proof.
  intros m H. unfold no_global in H. destruct (sh_global (mp_sh m)); [discriminate H|]. destruct (lp_pc (mp_loop m)) eqn:E; try discriminate H.
  split; [left; eexists _, _; exact E|reflexivity].
Qed.
Definition reads_past (m : mapper b64) : bool :=
  match lp_pc (mp_loop m) with
  | LFetch _ _ => (Z.of_nat (List.length (sh_scans (mp_sh m))) <=? lp_done (mp_loop m))%Z
  | _ => false
  end.
Lemma reads_past_sound : forall m, reads_past m = true -> exists i, reads m i /\ (List.length (sh_scans (mp_sh m)) <= i)%nat.
Proof.
  intros m H. unfold reads_past in H. destruct (lp_pc (mp_loop m)) eqn:E; try discriminate H. apply Z.leb_le in H.
  eexists. split; [eapply reads_scan; [exact E|lia]|lia].
Qed.

(** C76. *)
Definition partial_map (lm : libm) (cf : config b64) (m : mapper b64) : bool :=
  match sh_global (mp_sh m), graph_scans (mp_sh m) with
  | Some k, Ok scans =>
    match add_scans (A := BA lm) (en_eig cf) matcher64 scans with Ok g => six_points g && negb (six_points k) | Fault _ => false end
  | _, _ => false
  end.
Lemma partial_sound : forall lm cf m, (forall r, en_global cf r = matcher64) -> partial_map lm cf m = true -> ~ whole_map (A := BA lm) cf m.
Proof.
  intros lm cf m K H. unfold partial_map in H. destruct (sh_global (mp_sh m)) as [k|] eqn:Gl; [|discriminate H].
  destruct (graph_scans (mp_sh m)) as [scans|] eqn:Sc; [|discriminate H]. destruct (add_scans (A := BA lm) (en_eig cf) matcher64 scans) as [g|] eqn:Ad; [|discriminate H].
  intros [N|(r & scans' & g' & E1 & E2 & E3)]; [congruence|]. rewrite K in E2. rewrite E1 in Sc.
  assert (scans' = scans) by congruence. subst scans'. rewrite Ad in E2. assert (g' = k) by congruence. subst g'.
  assert (g = k) by congruence. subst g. destruct (six_points k); discriminate H.
Qed.

(** C77: a transform from two poses that no callback stored together. *)
Definition five_seven (r o : pose b64) : bool := beq (pox r) (z64 5) && beq (pox o) (z64 7).
Definition mixed_tf (m : mapper b64) : bool :=
  existsb (fun x => match x with ObTf r o _ => five_seven r o | _ => false end) (sh_trace (mp_sh m)) &&
  forallb (fun x => match x with ObPoses r o | ObInit r o => negb (five_seven r o) | _ => true end) (sh_trace (mp_sh m)) &&
  match sp_pc (mp_spin m) with SInitDone _ _ => false | _ => true end.
Lemma mixed_sound : forall lm m, mixed_tf m = true ->
  exists r o tf, In (ObTf r o tf) (sh_trace (mp_sh m)) /\ ~ stored_together (A := BA lm) m r o.
Proof.
  intros lm m H. unfold mixed_tf in H. apply andb_prop in H. destruct H as [H H3]. apply andb_prop in H. destruct H as [H1 H2].
  apply existsb_exists in H1. destruct H1 as (x & I & X). destruct x as [| | | | | | | | | | |r o tf]; try discriminate X.
  rewrite forallb_forall in H2. exists r, o, tf. split; [exact I|].
  intros [[E1 E2]|[J|[J|J]]].
  - subst r o. vm_compute in X. discriminate X.
  - specialize (H2 _ J). cbn beta iota in H2. rewrite X in H2. discriminate H2.
  - specialize (H2 _ J). cbn beta iota in H2. rewrite X in H2. discriminate H2.
  - rewrite J in H3. discriminate H3.
Qed.

(** C78. *)
Definition early_opt (limit : Z) (m : mapper b64) : bool :=
  match sh_trace (mp_sh m) with ObOptimize n :: older => (Z.of_nat n - last_opt older <=? limit)%Z | _ => false end.
Lemma early_opt_sound : forall limit m, early_opt limit m = true -> ~ cadence limit (sh_trace (mp_sh m)).
Proof.
  intros limit m H C. unfold early_opt in H. destruct (sh_trace (mp_sh m)) as [|x older] eqn:E; [discriminate H|].
  destruct x; try discriminate H. apply Z.leb_le in H. destruct (C [] _ older eq_refl) as [_ L]. lia.
Qed.

(** C79. *)
Definition near (p : pose b64) (x y th : b64) : Prop := beq (pox p) x = true /\ beq (poy p) y = true /\ beq (poth p) th = true.
Definition nearb (p : pose b64) (x y th : b64) : bool := beq (pox p) x && beq (poy p) y && beq (poth p) th.
Lemma nearb_sound : forall p x y th, nearb p x y th = true -> near p x y th.
Proof. intros p x y th H. apply andb_prop in H. destruct H as [H H3]. apply andb_prop in H. destruct H as [H1 H2]. repeat split; assumption. Qed.
Definition drifted (lm : libm) (cf : config b64) (m : mapper b64) : bool :=
  match sp_pc (mp_spin m) with
  | SConsLock p odom c =>
    nearb (sh_robot (mp_sh m)) half64 half64 (z64 0) && nearb (sh_odom (mp_sh m)) (z64 0) (z64 0) (z64 0) && nearb odom (z64 2) (z64 0) (z64 0) &&
    match sp_local (mp_spin m), nth_error (sh_heap (mp_sh m)) p with
    | Some k, Some sc =>
      match match_scan (A := BA lm) (en_fuel cf) k sc (pose0 (A := BA lm)) (en_garbage cf) with
      | Ok (_, corr, _) => nearb corr (z64 0) (z64 0) (z64 0)
      | Fault _ => false
      end
    | _, _ => false
    end && Bltb (z64 1) (v1 (c_transform c))
  | _ => false
  end.
Lemma drifted_sound : forall lm cf m, drifted lm cf m = true ->
  exists p odom c k sc score corr cov, sp_pc (mp_spin m) = SConsLock p odom c /\
    near (sh_robot (mp_sh m)) half64 half64 (z64 0) /\ near (sh_odom (mp_sh m)) (z64 0) (z64 0) (z64 0) /\ near odom (z64 2) (z64 0) (z64 0) /\
    sp_local (mp_spin m) = Some k /\ nth_error (sh_heap (mp_sh m)) p = Some sc /\
    match_scan (A := BA lm) (en_fuel cf) k sc (pose0 (A := BA lm)) (en_garbage cf) = Ok (score, corr, cov) /\ near corr (z64 0) (z64 0) (z64 0) /\
    Bltb (z64 1) (v1 (c_transform c)) = true.
Proof.
  intros lm cf m H. unfold drifted in H. destruct (sp_pc (mp_spin m)) as [| | | |p odom c| | | | | | | | | | | | | | |] eqn:Pc; try discriminate H.
  apply andb_prop in H. destruct H as [H H5]. apply andb_prop in H. destruct H as [H H4]. apply andb_prop in H. destruct H as [H H3].
  apply andb_prop in H. destruct H as [H1 H2].
  destruct (sp_local (mp_spin m)) as [k|] eqn:K; [|discriminate H4]. destruct (nth_error (sh_heap (mp_sh m)) p) as [sc|] eqn:S; [|discriminate H4].
  destruct (match_scan (A := BA lm) (en_fuel cf) k sc (pose0 (A := BA lm)) (en_garbage cf)) as [[[score corr] cov]|] eqn:M; [|discriminate H4].
  exists p, odom, c, k, sc, score, corr, cov. repeat (split; [first [reflexivity|apply nearb_sound; assumption|assumption]|]). exact H5.
Qed.
