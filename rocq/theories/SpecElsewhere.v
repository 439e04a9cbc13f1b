(** Specification vocabulary: a particle filter in a map frame with another origin. *)

From Coq Require Import ZArith Reals List.
From Verif Require Import Outcome Arith TypesModel MotionModel FilterModel SpecFilter SpecShift.
Import ListNotations.
Local Open Scope R_scope.

Definition shift_particle (t : point R) (p : vec3 R) : vec3 R := mkVec3 (v0 p + px t) (v1 p + py t) (v2 p).

(** The same filter in the other frame: particles and mean moved, everything else
    equal. *)
Definition displaced (t : point R) (f f' : pfilter R) : Prop :=
  pf_min f' = pf_min f /\ pf_max f' = pf_max f /\ pf_motion f' = pf_motion f /\
  pf_parts f' = map (shift_particle t) (pf_parts f) /\ pf_wts f' = pf_wts f /\
  pf_mean f' = shift_particle t (pf_mean f) /\ pf_cov f' = pf_cov f.

(** The same call in the other frame: the initial pose and the numbers drawn around
    it are moved; motions are the same; a moved pose has the score of the pose. *)
Definition same_call (t : point R) (o o' : filter_op R) : Prop :=
  match o, o' with
  | FInit n x y th sx sy sth, FInit n' x' y' th' sx' sy' sth' =>
      x' = x + px t /\ y' = y + py t /\ th' = th /\ sx' = sx /\ sy' = sy /\ sth' = sth /\
      forall i, n' (3 * i)%nat x' sx = n (3 * i)%nat x sx + px t /\ n' (3 * i + 1)%nat y' sy = n (3 * i + 1)%nat y sy + py t /\
                n' (3 * i + 2)%nat th sth = n (3 * i + 2)%nat th sth
  | FUpdate n dx dy dth, FUpdate n' dx' dy' dth' => dx' = dx /\ dy' = dy /\ dth' = dth /\ n' = n
  | FMeasure s, FMeasure s' => forall q, s' (shift_pose t q) = s q
  | FResample d e z, FResample d' e' z' => d' = d /\ e' = e /\ z' = z
  | _, _ => False
  end.

(** Both numbers are not negative, or both are not positive. *)
Definition same_side (a b : R) : Prop := 0 <= a /\ 0 <= b \/ a <= 0 /\ b <= 0.
(** At a resampling: the shift is a whole number of bins of half a metre, and takes
    no particle across an axis of the map. *)
Definition aligned (t : point R) (f : pfilter R) (o : filter_op R) : Prop :=
  match o with
  | FResample _ _ _ =>
      (exists i j : Z, px t = IZR i / 2 /\ py t = IZR j / 2) /\
      forall p, In p (pf_parts f) -> same_side (v0 p) (v0 p + px t) /\ same_side (v1 p) (v1 p + py t)
  | _ => True
  end.
Fixpoint always_aligned (t : point R) (f : pfilter R) (ops : list (filter_op R)) : Prop :=
  match ops with
  | [] => True
  | o :: rest => aligned t f o /\ forall f', filter_step f o = Ok f' -> always_aligned t f' rest
  end.
