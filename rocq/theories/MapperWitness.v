(** Concrete configurations and schedules used by the examples and the refuted
    claims about the node. *)

From Coq Require Import ZArith Reals List Bool Lia Lra String.
From Flocq Require Import Core.
From Verif Require Import Outcome Arith TypesModel ScanModel NdtModel MatcherModel ConstraintModel SolverModel GraphModel
  OccGridModel MotionModel FilterModel LaserModel MapperModel SpecPose SpecGraph SpecMapper RTactics NdtProofs GraphProofs
  MapperProofs MapperSteps MapperInv1 MapperInv2.
Import ListNotations.
Local Open Scope R_scope.

(** A matcher with one cell of four metres per scan and one search position. *)
Definition demo_matcher : matcher R := mkMatcher None 4 1 (1 / 2) 1 (1 / 2) 100 1.

Definition no_ceres : ceres_oracle R := fun _ _ nodes => (false, nodes).

Definition demo_cf (depth limit node_limit : Z) (filter : option (Z * Z * motion_params R)) (enable : bool)
    (file : option (list (bag_msg R))) : config R :=
  mkConfig R 1 1 depth false 1 limit node_limit filter 1 1 enable 1 1 1 file
    (fun m => (m00 m, m11 m)) search_exact no_ceres 10 mat3_zero (fun _ => demo_matcher) (fun _ => demo_matcher).

Definition plain_cf : config R := demo_cf 0 1 0 None true None.

Definition scan_file (id : Z) (x y : R) (pts : list (point R)) : bag_msg R :=
  BScan (mkScanMsg id (mkGpoint x y 0) (mkGquat 0 0 0 0) (map (fun p => mkGpoint (px p) (py p) 0) pts)).

Definition pose_at (x y : R) : pose_msg R := mkPoseMsg x y 0 0 0 0 1.

(** Running a schedule and asking a question about the result. *)
Definition ends (o : outcome (mapper R)) (P : mapper R -> bool) : bool :=
  match o with Ok m => P m | Fault _ => false end.
Lemma ends_in : forall o P, ends o P = true -> exists m, o = Ok m /\ P m = true.
Proof. intros [m|f] P H; [exists m; split; [reflexivity|exact H]|discriminate H]. Qed.

Definition idle (m : mapper R) : bool := match sp_pc (mp_spin m) with SIdle => true | _ => false end.
Lemma idle_pc : forall m, idle m = true -> sp_pc (mp_spin m) = SIdle.
Proof. intros m H. unfold idle in H. destruct (sp_pc (mp_spin m)); try discriminate H. reflexivity. Qed.

Definition blocked (cf : config R) (l : label R) (m : mapper R) : bool := match step cf l m with None => true | Some _ => false end.
Lemma blocked_none : forall cf l m, blocked cf l m = true -> step cf l m = None.
Proof. intros cf l m H. unfold blocked in H. destruct (step cf l m); [discriminate H|reflexivity]. Qed.
Definition tid_eqb (a b : tid) : bool := match a, b with TSpin, TSpin | TLoop, TLoop | TPub, TPub => true | _, _ => false end.
Definition glocked_by (t : tid) (m : mapper R) : bool := match sh_glock (mp_sh m) with Some t' => tid_eqb t t' | None => false end.
Definition gfree (m : mapper R) : bool := match sh_glock (mp_sh m) with Some _ => false | None => true end.
Lemma glocked_by_eq : forall t m, glocked_by t m = true -> sh_glock (mp_sh m) = Some t.
Proof. intros t m H. unfold glocked_by in H. destruct (sh_glock (mp_sh m)) as [[]|], t; try discriminate H; reflexivity. Qed.
Lemma gfree_eq : forall m, gfree m = true -> sh_glock (mp_sh m) = None.
Proof. intros m H. unfold gfree in H. destruct (sh_glock (mp_sh m)); [discriminate H|reflexivity]. Qed.
