(** Computing with binary64 numbers: two floats with the same sign, mantissa and
    exponent are equal (the proof component of Flocq's floats is irrelevant). *)
From Coq Require Import ZArith.
From Flocq Require Import Core BinarySingleNaN.
From Verif Require Import Outcome Arith.

Lemma b64_eq (x y : b64) : B2SF x = B2SF y -> x = y.
Proof. apply B2SF_inj. Qed.

(** Decide an equation between two closed floats. *)
Ltac b64_compute := apply b64_eq; vm_compute; reflexivity.

(** Replace the closed boolean condition of the first conditional by its value. *)
Ltac b64_if v :=
  match goal with
  | |- context [if ?b then _ else _] => replace b with v by (vm_compute; reflexivity)
  end.

From Verif Require Import TypesModel.
Lemma point_eq {T} (p q : point T) : px p = px q -> py p = py q -> p = q.
Proof. destruct p, q; cbn; congruence. Qed.
Lemma mat2_eq {T} (p q : mat2 T) :
  m00 p = m00 q -> m01 p = m01 q -> m10 p = m10 q -> m11 p = m11 q -> p = q.
Proof. destruct p, q; cbn; congruence. Qed.
Lemma vec3_eq {T} (p q : vec3 T) : v0 p = v0 q -> v1 p = v1 q -> v2 p = v2 q -> p = q.
Proof. destruct p, q; cbn; congruence. Qed.
Lemma pose_eq {T} (p q : pose T) : pox p = pox q -> poy p = poy q -> poth p = poth q -> p = q.
Proof. destruct p, q; cbn; congruence. Qed.

(** Decide an equation between closed records of floats. *)
Ltac b64_struct :=
  first [ b64_compute
        | apply point_eq; b64_compute
        | apply mat2_eq; b64_compute
        | apply vec3_eq; b64_compute
        | apply pose_eq; b64_compute ].
