(** Specification vocabulary: the newest scan, and steps that move no scan. *)

From Coq Require Import List.
From Verif Require Import TypesModel ScanModel MapperModel.
Import ListNotations.

Section Tip.
Context {T : Type}.

(** The scan added last. *)
Definition newest (s : shared T) : option (scan T) :=
  match rev (sh_scans s) with p :: _ => nth_error (sh_heap s) p | [] => None end.

(** Laser messages, and loop closure that moves no scan (neither accepts a candidate
    nor optimizes). *)
Definition settled (m : mapper T) (l : label T) : Prop :=
  match l with
  | Deliver (EvLaser _) | Spin | Pub => True
  | Loop => match lp_pc (mp_loop m) with LCorrect _ _ _ _ _ | LOptRun => False | _ => True end
  | _ => False
  end.
End Tip.
