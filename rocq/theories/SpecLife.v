(** Specification vocabulary: executions of a node that is started and stopped. *)

From Coq Require Import ZArith List Bool.
From Verif Require Import Outcome Arith MapperModel SpecMapper SpecNode LifeModel.
Import ListNotations.

Section Spec.
Context {T : Type} {A : Arith T}.
Context (cf : config T).

Definition life_reachable (f : life T) : Prop := exists ms, life_run cf ms = Ok f.

(** Infinite executions without fault. *)
Definition life_lives (st : nat -> life T) (lb : nat -> move T) : Prop :=
  forall n, life_step cf (lb n) (st n) = Some (Ok (st (S n))) \/ (life_step cf (lb n) (st n) = None /\ st (S n) = st n).
Definition life_acts (st : nat -> life T) (lb : nat -> move T) (mv : move T) (n : nat) : Prop :=
  lb n = mv /\ life_step cf mv (st n) <> None.
(** A move a running thread can make: the callbacks that have begun, the two
    threads, and the destructor once it was called. *)
Definition can_move (mv : move T) (f : life T) : Prop :=
  match mv with
  | Node (Deliver _) | Shutdown => False
  | Destroy => lf_dtor f <> Alive /\ life_step cf mv f <> None
  | _ => life_step cf mv f <> None
  end.
(** Whatever could move infinitely often moves infinitely often. *)
Definition life_fair (st : nat -> life T) (lb : nat -> move T) : Prop :=
  forall mv, often (fun n => can_move mv (st n)) -> often (life_acts st lb mv).

(** The moves of an execution in which [rclcpp::shutdown()] is not called. *)
Definition no_shutdown (ms : list (move T)) : Prop := ~ In Shutdown ms.

End Spec.
