(** Starting and stopping the node: the while loops of the two threads and the
    destructor (ndt_mapper.cpp:141-153, 571, 689). *)

From Coq Require Import ZArith List Bool.
From Verif Require Import Outcome Arith MapperModel.
Import ListNotations.
Local Open Scope outcome_scope.

(** A thread evaluates [rclcpp::ok()] (lines 571, 689), is in the body of its
    loop, or has returned from its function. *)
Inductive tstate : Type := AtTest | Inside | Ended.
(** The destructor has not been called, joins the publisher (line 148), joins the
    loop closure thread (line 149), or has returned, after which the members are
    destroyed. *)
Inductive dstate : Type := Alive | JoinPub | JoinLoop | Gone.

Record life (T : Type) : Type := mkLife {
  lf_node : mapper T;
  lf_ok : bool;               (* the value of rclcpp::ok() *)
  lf_loop : tstate;
  lf_pub : tstate;
  lf_dtor : dstate
}.
Arguments mkLife {T} lf_node lf_ok lf_loop lf_pub lf_dtor.
Arguments lf_node {T} l.
Arguments lf_ok {T} l.
Arguments lf_loop {T} l.
Arguments lf_pub {T} l.
Arguments lf_dtor {T} l.

(** One step of a thread of the node, a test of [rclcpp::ok()], [rclcpp::shutdown()],
    one step of the destructor. *)
Inductive move (T : Type) : Type :=
| Node (l : label T)
| Test (t : tid)
| Shutdown
| Destroy.
Arguments Node {T} l.
Arguments Test {T} t.
Arguments Shutdown {T}.
Arguments Destroy {T}.

Section Model.
Context {T : Type} {A : Arith T}.
Context (cf : config T).

(** Callbacks run on the thread that later runs the destructor, so they come
    before it.  A thread of the node moves while it is in the body of its loop; the
    body ends where the model of the thread is back at its first statement. *)
Definition after_body (m : mapper T) (t : tid) : tstate :=
  match t with
  | TSpin => Inside
  | TLoop => match lp_pc (mp_loop m) with LSleep => AtTest | _ => Inside end
  | TPub => match pb_pc (mp_pub m) with PTop => AtTest | _ => Inside end
  end.

Definition life_step (mv : move T) (f : life T) : option (outcome (life T)) :=
  match mv with
  | Node l =>
    match l with
    | Deliver _ | Spin =>
      match lf_dtor f with
      | Alive => option_map (fun o => m <- o ;; Ok (mkLife m (lf_ok f) (lf_loop f) (lf_pub f) Alive)) (step cf l (lf_node f))
      | _ => None
      end
    | Loop =>
      match lf_loop f with
      | Inside => option_map (fun o => m <- o ;; Ok (mkLife m (lf_ok f) (after_body m TLoop) (lf_pub f) (lf_dtor f))) (step cf Loop (lf_node f))
      | _ => None
      end
    | Pub =>
      match lf_pub f with
      | Inside => option_map (fun o => m <- o ;; Ok (mkLife m (lf_ok f) (lf_loop f) (after_body m TPub) (lf_dtor f))) (step cf Pub (lf_node f))
      | _ => None
      end
    end
  | Test TLoop =>
    match lf_loop f with
    | AtTest => Some (Ok (mkLife (lf_node f) (lf_ok f) (if lf_ok f then Inside else Ended) (lf_pub f) (lf_dtor f)))
    | _ => None
    end
  | Test TPub =>
    match lf_pub f with
    | AtTest => Some (Ok (mkLife (lf_node f) (lf_ok f) (lf_loop f) (if lf_ok f then Inside else Ended) (lf_dtor f)))
    | _ => None
    end
  | Test TSpin => None
  | Shutdown => Some (Ok (mkLife (lf_node f) false (lf_loop f) (lf_pub f) (lf_dtor f)))
  | Destroy =>
    match lf_dtor f with
    | Alive =>
      match sp_pc (mp_spin (lf_node f)) with
      | SIdle => Some (Ok (mkLife (lf_node f) (lf_ok f) (lf_loop f) (lf_pub f) JoinPub))
      | _ => None
      end
    | JoinPub =>
      match lf_pub f with
      | Ended => Some (Ok (mkLife (lf_node f) (lf_ok f) (lf_loop f) (lf_pub f) JoinLoop))
      | _ => None
      end
    | JoinLoop =>
      match lf_loop f with
      | Ended => Some (Ok (mkLife (lf_node f) (lf_ok f) (lf_loop f) (lf_pub f) Gone))
      | _ => None
      end
    | Gone => None
    end
  end.

(** The constructor starts both threads (lines 141-142). *)
Definition life_init : outcome (life T) := m <- mapper_init cf ;; Ok (mkLife m true AtTest AtTest Alive).

(** Moves that are not possible are skipped. *)
Fixpoint life_exec (f : life T) (ms : list (move T)) : outcome (life T) :=
  match ms with
  | [] => Ok f
  | mv :: rest =>
    match life_step mv f with
    | None => life_exec f rest
    | Some o => f' <- o ;; life_exec f' rest
    end
  end.
Definition life_run (ms : list (move T)) : outcome (life T) := f <- life_init ;; life_exec f ms.

End Model.
