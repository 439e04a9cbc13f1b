(** Model of class KDTree: include/ndt_2d/kd_tree.hpp:47-196, the tree the
    particle filter counts occupied bins with. *)

From Coq Require Import ZArith List Bool.
From Verif Require Import Outcome Arith TypesModel.
Import ListNotations.
Local Open Scope outcome_scope.

(** kd_tree.hpp:50-73 (struct Node).  A node is a leaf as long as its pivot is
    -1; an inner node keeps its old key, which is never read again. *)
Inductive kdt (T : Type) : Type :=
| KLeaf (k : vec3 Z) (v : T)
| KNode (axis : nat) (pivot : T) (l r : kdt T).
Arguments KLeaf {T} k v.
Arguments KNode {T} axis pivot l r.

(** key[i] of a discrete key. *)
Definition kget (k : vec3 Z) (i : nat) : Z :=
  match i with O => v0 k | 1%nat => v1 k | _ => v2 k end.

Definition key_eqb (a b : vec3 Z) : bool :=
  ((v0 a =? v0 b) && (v1 a =? v1 b) && (v2 a =? v2 b))%Z.

(** Lines 155-165: the first axis with the largest difference, if any differs. *)
Definition pick_axis (a b : vec3 Z) : option nat :=
  let step (s : option nat * Z) (i : nat) :=
    let d := Z.abs (kget a i - kget b i) in
    if (snd s <? d)%Z then (Some i, d) else s in
  fst (step (step (step (None, 0%Z) 0%nat) 1%nat) 2%nat).

(** Signed overflow is undefined. *)
Definition fits_int (z : Z) : bool := ((- 2 ^ 31 <=? z) && (z <? 2 ^ 31))%Z.
Definition check_int (z : Z) : outcome Z := if fits_int z then Ok z else Fault IntOverflow.

Section Kd.
Context {T : Type} {A : Arith T}.
Local Open Scope num_scope.

(** Lines 132-189.  The argument [node] of the source is null on every call, so
    [k] is [key].  Returns the new subtree and whether a leaf was added.
    abs(INT_MIN), the differences and the sum of the keys may overflow. *)
Fixpoint kd_insert (t : kdt T) (k : vec3 Z) (v : T) : outcome (kdt T * bool) :=
  match t with
  | KNode ax pv l r =>
    if nofZ (kget k ax) <? pv
    then '(l', b) <- kd_insert l k v ;; Ok (KNode ax pv l' r, b)
    else '(r', b) <- kd_insert r k v ;; Ok (KNode ax pv l r', b)
  | KLeaf pk pw =>
    if key_eqb pk k then Ok (KLeaf pk (pw + v), false)
    else
      _ <- check_int (Z.abs (v0 pk - v0 k)) ;;
      _ <- check_int (Z.abs (v1 pk - v1 k)) ;;
      _ <- check_int (Z.abs (v2 pk - v2 k)) ;;
      match pick_axis pk k with
      | None => Fault OutOfBounds  (* key[-1]; not reached, the keys differ *)
      | Some ax =>
        sum <- check_int (kget pk ax + kget k ax)%Z ;;
        let pv := nofZ sum / nofZ 2 in
        Ok (if nofZ (kget k ax) <? pv
            then KNode ax pv (KLeaf k v) (KLeaf pk pw)
            else KNode ax pv (KLeaf pk pw) (KLeaf k v), true)
      end
  end.

(** Lines 99-102: conversion to a discrete key, truncating toward zero. *)
Definition kd_key (size c : vec3 T) : outcome (vec3 Z) :=
  a <- cast_int32 (v0 c / v0 size) ;;
  b <- cast_int32 (v1 c / v1 size) ;;
  d <- cast_int32 (v2 c / v2 size) ;;
  Ok (mkVec3 a b d).

(** Lines 191-195: the tree and the leaf count; only the root is kept of the
    node vector. *)
Definition kd : Type := (option (kdt T) * nat)%type.
Definition kd_empty : kd := (None, O).

(** Lines 97-118. *)
Definition kd_add (size : vec3 T) (t : kd) (c : vec3 T) (v : T) : outcome kd :=
  k <- kd_key size c ;;
  match fst t with
  | None => Ok (Some (KLeaf k v), S (snd t))
  | Some root =>
    '(root', b) <- kd_insert root k v ;;
    Ok (Some root', if b then S (snd t) else snd t)
  end.

(** Lines 120-123. *)
Definition kd_leaf_count (t : kd) : nat := snd t.

Definition kd_add_all (size : vec3 T) (t : kd) (cs : list (vec3 T * T)) : outcome kd :=
  foldM (fun t cv => kd_add size t (fst cv) (snd cv)) t cs.

End Kd.
