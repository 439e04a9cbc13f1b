(** Specification for C181: what a viewer of the published markers shows
    (visualization_msgs/Marker: ADD adds the marker of a namespace and id, or replaces
    it; a marker without lifetime stays until it is deleted.  getMsg sends no
    deletions and no lifetimes, graph.cpp:192-258). *)

From Coq Require Import ZArith List Bool.
From Verif Require Import Outcome Arith TypesModel GraphModel MapperModel.
Import ListNotations.

Section Spec.
Context {T : Type}.

Definition key (m : marker T) : marker_ns * Z := (mk_ns m, mk_id m).
Definition same_key (a b : marker_ns * Z) : bool :=
  match fst a, fst b with NsNodes, NsNodes | NsEdges, NsEdges => (snd a =? snd b)%Z | _, _ => false end.

(** The markers shown. *)
Definition screen : Type := marker_ns * Z -> option (marker T).
Definition show (v : screen) (m : marker T) : screen := fun k => if same_key k (key m) then Some m else v k.

(** A viewer that was there from the beginning and gets every message. *)
Fixpoint viewer (tr : list (obs T)) : screen :=
  match tr with
  | [] => fun _ => None
  | ObMarkers _ ms :: tr => fold_left show ms (viewer tr)
  | _ :: tr => viewer tr
  end.

(** The graph published last, with its markers. *)
Fixpoint newest (tr : list (obs T)) : option (graph T * list (marker T)) :=
  match tr with
  | [] => None
  | ObMarkers g ms :: _ => Some (g, ms)
  | _ :: tr => newest tr
  end.

Definition shows_exactly (v : screen) (ms : list (marker T)) : Prop := forall k m, v k = Some m <-> In m ms /\ key m = k.
End Spec.
