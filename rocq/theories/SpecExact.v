(** Specification vocabulary: maps in which every constraint says where its two
    scans are, and following constraints through a map. *)

From Coq Require Import ZArith Reals List.
From Verif Require Import Arith TypesModel ScanModel ConstraintModel GraphModel MapperModel SpecMapper4 SpecPose.
Import ListNotations.

Section Fits.
Context {T : Type} {A : Arith T}.
(** [P c a b]: the constraint [c] describes the motion from [a] to [b]. *)
Context (P : constraint T -> pose T -> pose T -> Prop).

Definition says (scans : list (scan T)) (c : constraint T) : Prop :=
  (0 <= c_begin c)%Z /\ (0 <= c_end c)%Z /\
  exists a b, nth_error scans (Z.to_nat (c_begin c)) = Some a /\ nth_error scans (Z.to_nat (c_end c)) = Some b /\ P c (s_pose a) (s_pose b).
Definition fits (g : graph T) : Prop := Forall (says (gr_scans g)) (gr_constraints g).

(** Steps that neither move a scan of the graph (no candidate for a loop closure is
    accepted, the optimizer does not run), nor load maps that do not fit. *)
Definition unclosed (cf : config T) (m : mapper T) (l : label T) : Prop :=
  chained cf m l /\
  (l = Loop -> match lp_pc (mp_loop m) with LCorrect _ _ _ _ _ | LOptRun => False | _ => True end) /\
  (l = Spin -> forall file, sp_pc (mp_spin m) = SLoad file -> fits (graph_load (cf_use_bary cf) file)).
Definition fitting_start (cf : config T) : Prop :=
  chained_start cf /\ forall file, cf_file cf = Some file -> fits (graph_load (cf_use_bary cf) file).
End Fits.

(** The motion of a constraint leads exactly from [a] to [b]. *)
Definition leads (c : constraint R) (a b : pose R) : Prop :=
  compose a (mkPose (v0 (c_transform c)) (v1 (c_transform c)) (v2 (c_transform c))) = b.

(** Where scan [i] is according to constraints followed from the first scan. *)
Inductive reckoned (g : graph R) : Z -> pose R -> Prop :=
| reckoned_first sc : nth_error (gr_scans g) 0 = Some sc -> reckoned g 0 (s_pose sc)
| reckoned_next c p : In c (gr_constraints g) -> reckoned g (c_begin c) p ->
    reckoned g (c_end c) (compose p (mkPose (v0 (c_transform c)) (v1 (c_transform c)) (v2 (c_transform c)))).
