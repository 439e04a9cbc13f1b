(** Specification vocabulary for the particle filter. *)

From Coq Require Import ZArith Reals List Bool.
From Flocq Require Import Core BinarySingleNaN.
From Verif Require Import Outcome Arith TypesModel SpecPose MotionModel FilterModel.
Import ListNotations.

(** The number of different bins. *)
Definition bin_eq_dec : forall a b : vec3 Z, {a = b} + {a <> b}.
Proof. decide equality; apply Z.eq_dec. Defined.
Definition distinct (bins : list (vec3 Z)) : nat := length (nodup bin_eq_dec bins).

(** The bin of a position and heading: the quotients truncated toward zero. *)
Definition bin_of (size c : vec3 R) : vec3 Z :=
  mkVec3 (Ztrunc (v0 c / v0 size)) (Ztrunc (v1 c / v1 size)) (Ztrunc (v2 c / v2 size)).

(** A particle (x, y, heading) as a pose. *)
Definition pose_of (p : vec3 R) : pose R := mkPose (v0 p) (v1 p) (v2 p).

(** Weighted sums over particles. *)
Fixpoint wsum (g : vec3 R -> R) (ps : list (vec3 R)) (ws : list R) : R :=
  match ps, ws with
  | p :: ps', w :: ws' => w * g p + wsum g ps' ws'
  | _, _ => 0
  end%R.
Definition total (ws : list R) : R := fold_right Rplus 0%R ws.

(** The weights of a filter are a probability distribution over its particles. *)
Definition distribution (f : pfilter R) : Prop :=
  length (pf_wts f) = length (pf_parts f) /\ Forall (fun w => 0 <= w)%R (pf_wts f) /\ total (pf_wts f) = 1%R.

(** [m] is the direction of the vector sum of the weighted headings. *)
Definition circular_mean (ps : list (vec3 R)) (ws : list R) (m : R) : Prop :=
  exists r, (0 <= r /\ wsum (fun p => cos (v2 p)) ps ws = r * cos m /\ wsum (fun p => sin (v2 p)) ps ws = r * sin m)%R.

(** Mean and position covariance are the weighted statistics of the particles. *)
Definition weighted_stats (f : pfilter R) : Prop :=
  let ps := pf_parts f in
  let ws := pf_wts f in
  let m := pf_mean f in
  let c := pf_cov f in
  (v0 m = wsum v0 ps ws /\ v1 m = wsum v1 ps ws /\
   - PI < v2 m <= PI /\ circular_mean ps ws (v2 m) /\
   a00 c = wsum (fun p => (v0 p - v0 m) * (v0 p - v0 m)) ps ws /\
   a01 c = wsum (fun p => (v0 p - v0 m) * (v1 p - v1 m)) ps ws /\ a10 c = a01 c /\
   a11 c = wsum (fun p => (v1 p - v1 m) * (v1 p - v1 m)) ps ws)%R.

(** Weighted mean of the squared angular deviations from heading [m]. *)
Definition heading_variance (ps : list (vec3 R)) (ws : list R) (m v : R) : Prop :=
  exists d : vec3 R -> R,
    (forall p, In p ps -> - PI < d p <= PI /\ same_heading (d p) (m - v2 p))%R /\
    v = wsum (fun p => d p * d p)%R ps ws.

(** Conditions on one call: at a measurement the scores are not positive and
    some particle has a non-zero score; a discrete distribution only returns
    indices of positive weight. *)
Definition op_ok (f : pfilter R) (o : filter_op R) : Prop :=
  match o with
  | FMeasure score =>
      (forall p s, In p (pf_parts f) -> score (pose_of p) = Ok s -> (s <= 0)%R) /\
      (exists p s, In p (pf_parts f) /\ score (pose_of p) = Ok s /\ s <> 0%R)
  | FResample draws _ _ => Forall (fun i => exists w, vec_get (pf_wts f) i = Ok w /\ (0 < w)%R) draws
  | _ => True
  end.
Fixpoint ops_ok (f : pfilter R) (ops : list (filter_op R)) : Prop :=
  match ops with
  | [] => True
  | o :: rest => op_ok f o /\ forall f', filter_step f o = Ok f' -> ops_ok f' rest
  end.

(** Every particle is drawn exactly in proportion to its weight. *)
Definition proportional (ws : list R) (draws : list Z) : Prop :=
  Forall (fun i => 0 <= i < Z.of_nat (length ws))%Z draws /\
  forall i w, vec_get ws i = Ok w -> INR (count_occ Z.eq_dec draws i) = (INR (length draws) * w)%R.

(** The bin in double arithmetic: the rounded quotients truncated toward zero. *)
Definition bin_of_b64 (size c : vec3 b64) : vec3 Z :=
  mkVec3 (Ztrunc (B2R (Bdiv mode_NE (v0 c) (v0 size)))) (Ztrunc (B2R (Bdiv mode_NE (v1 c) (v1 size))))
         (Ztrunc (B2R (Bdiv mode_NE (v2 c) (v2 size)))).
