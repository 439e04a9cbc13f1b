(** Outcomes of modelled C++ computations.

    The code base is C++: a computation either yields a value, or reaches
    undefined behaviour / a process abort, or loops for ever.  None of these is
    given a default value in the model: they are the [Fault] constructor below,
    so no theorem can become true because an illegal access was totalised. *)

From Coq Require Import ZArith List Lia.
Import ListNotations.

(** Why a computation has no value. *)
Inductive fault : Type :=
| OutOfBounds   (** vector element access outside [0, size) - undefined behaviour *)
| BadCast       (** double -> integer conversion of a value that does not fit - undefined behaviour *)
| BadIterator   (** iterator arithmetic outside [begin, end] - undefined behaviour *)
| NullDeref     (** member call through a null pointer - undefined behaviour *)
| IntOverflow   (** signed integer overflow - undefined behaviour *)
| BadDistribution (** std::discrete_distribution built from weights it forbids - undefined behaviour *)
| LibAbort      (** a library precondition aborts the process (Ceres LOG(FATAL)) *)
| OutOfFuel.    (** the modelled loop did not finish within the given number of steps *)

Inductive outcome (A : Type) : Type :=
| Ok (a : A)
| Fault (f : fault).
Arguments Ok {A} a.
Arguments Fault {A} f.

Definition bind {A B : Type} (m : outcome A) (k : A -> outcome B) : outcome B :=
  match m with
  | Ok a => k a
  | Fault f => Fault f
  end.

Declare Scope outcome_scope.
Notation "x <- m ;; k" := (bind m (fun x => k))
  (at level 61, m at next level, right associativity) : outcome_scope.
Notation "' p <- m ;; k" := (bind m (fun p => k))
  (at level 61, p pattern, m at next level, right associativity) : outcome_scope.

(** Fold of a step that may fault, left to right: a C++ [for] loop over a
    vector whose body may fault. *)
Fixpoint foldM {S X : Type} (f : S -> X -> outcome S) (s : S) (xs : list X) : outcome S :=
  match xs with
  | [] => Ok s
  | x :: rest => bind (f s x) (fun s' => foldM f s' rest)
  end.

(** Map of a function that may fault. *)
Fixpoint mapM {X Y : Type} (f : X -> outcome Y) (xs : list X) : outcome (list Y) :=
  match xs with
  | [] => Ok []
  | x :: rest => bind (f x) (fun y => bind (mapM f rest) (fun ys => Ok (y :: ys)))
  end.

(** [v[i]] on a std::vector: undefined behaviour outside [0, size). *)
Definition vec_get {X : Type} (v : list X) (i : Z) : outcome X :=
  if (i <? 0)%Z then Fault OutOfBounds
  else match nth_error v (Z.to_nat i) with
       | Some x => Ok x
       | None => Fault OutOfBounds
       end.

Fixpoint list_set {X : Type} (v : list X) (i : nat) (x : X) : list X :=
  match v, i with
  | [], _ => []
  | _ :: rest, O => x :: rest
  | y :: rest, S j => y :: list_set rest j x
  end.

(** [v[i] = f(v[i])] on a std::vector: undefined behaviour outside [0, size). *)
Definition vec_update {X : Type} (v : list X) (i : Z) (f : X -> X) : outcome (list X) :=
  bind (vec_get v i) (fun x => Ok (list_set v (Z.to_nat i) (f x))).

(** Faulting is an observable, decidable property of an outcome. *)
Definition is_ok {A : Type} (o : outcome A) : bool :=
  match o with Ok _ => true | Fault _ => false end.
