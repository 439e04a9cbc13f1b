(** Files that cannot be read or written.

    rosbag2's Reader::open and Writer::open throw for such names (graph.cpp:52-53
    and 110-111).  Nothing in the node catches the exception, so it leaves Graph, then configure
    (ndt_mapper.cpp:172-186): the lock_guard of line 175 or 183 releases the graph, the
    assignment of line 176 and the lines after it are not executed.  What the executor
    does with the exception is outside of the node; here it is the state the node is left
    in.  Files whose reading fails in the middle throw at the same place. *)

From Coq Require Import ZArith List Bool.
From Verif Require Import Outcome Arith TypesModel GraphModel LaserModel MapperModel.
Import ListNotations.

Section File.
Context {T : Type} {A : Arith T}.

Definition file_exception (m : mapper T) : option (mapper T) :=
  match sp_pc (mp_spin m) with
  | SLoad _ | SSave => Some (mkMapper (unlock_g (mp_sh m)) (at_pc (mp_spin m) SIdle) (mp_loop m) (mp_pub m))
  | _ => None
  end.
End File.
