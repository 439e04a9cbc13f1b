(** Specification vocabulary: maps and constraints that are moved or weighted
    differently. *)

From Coq Require Import ZArith Reals List.
From Verif Require Import TypesModel ScanModel ConstraintModel SpecPose.
Import ListNotations.
Local Open Scope R_scope.

(** The same map somewhere else: every scan moved by the same rigid motion. *)
Definition map_moved (g : pose R) (scans scans' : list (scan R)) : Prop :=
  Forall2 (fun s s' => s_pose s' = compose g (s_pose s)) scans scans'.

(** A constraint that is trusted [k] times as much. *)
Definition times_matrix (k : R) (m : mat3 R) : mat3 R :=
  mkMat3 (k * a00 m) (k * a01 m) (k * a02 m) (k * a10 m) (k * a11 m) (k * a12 m) (k * a20 m) (k * a21 m) (k * a22 m).
Definition trusted (k : R) (c c' : constraint R) : Prop :=
  c_begin c' = c_begin c /\ c_end c' = c_end c /\ c_transform c' = c_transform c /\
  c_information c' = times_matrix k (c_information c).
