(** Properties C33 - C36: the graph. *)

From Coq Require Import ZArith Reals List Sorted.
From Verif Require Import Outcome Arith TypesModel ScanModel ConstraintModel GraphModel SpecPose SpecGraph
  GraphProofs.
Import ListNotations.

(** C33: in every arithmetic, for any reader that keeps the order within a topic. *)
Theorem C33_save_load_lossless : forall {T} {A : Arith T} (ub : bool) (g : graph T) (file : list (bag_msg T)),
  fits64 g -> same_topics file (graph_save g) ->
  Forall2 same_scan (gr_scans (graph_load ub file)) (gr_scans g) /\
  gr_constraints (graph_load ub file) = gr_constraints g.
Proof. exact @save_load. Qed.
Print Assumptions C33_save_load_lossless.

Definition demo_graph : graph R :=
  mkGraph false
    [mkScan 0 false (mkPose 1 2 3) (mkPose 1 2 3) [mkPoint 4 5]; mkScan 1 true (mkPose 6 7 8) pose0 []]%R
    [mkConstraint 0 1 (mkVec3 1 2 3) (mkMat3 1 2 3 4 5 6 7 8 9) true]%R.

Example C33_nonvacuous : fits64 demo_graph /\
  same_topics [BConstraint (constraint_to_msg (mkConstraint 0 1 (mkVec3 1 2 3) (mkMat3 1 2 3 4 5 6 7 8 9) true)%R);
               BScan (scan_to_msg (mkScan 0 false (mkPose 1 2 3) (mkPose 1 2 3) [mkPoint 4 5])%R);
               BScan (scan_to_msg (mkScan 1 true (mkPose 6 7 8) pose0 [])%R)] (graph_save demo_graph).
Proof.
  split; [|split; reflexivity].
  repeat constructor; intro H; discriminate H.
Qed.

(** C34 is false as stated: nanoflann compares squared distances. *)
Theorem C34_find_nearest_refuted :
  ~ (forall search g s dist limit r, radius_contract search -> Forall made (gr_scans g) -> made s ->
      find_nearest search g s dist limit = Ok r ->
      forall i, In i r <-> below_limit (length (gr_scans g)) limit i /\ (apart g s i < dist)%R).
Proof. exact find_nearest_made_refuted. Qed.
Print Assumptions C34_find_nearest_refuted.

(** Exactly what is returned: squared distance below the argument, nearest
    first, each index once. *)
Theorem C34_find_nearest_partial : forall search (g : graph R) s dist limit r,
  radius_contract search -> Forall made (gr_scans g) -> made s ->
  find_nearest search g s dist limit = Ok r ->
  NoDup r /\
  (forall i, In i r <-> below_limit (length (gr_scans g)) limit i /\ (apart g s i * apart g s i < dist)%R) /\
  StronglySorted (fun i j => (apart g s i <= apart g s j)%R) r.
Proof. exact (fun se g s d l r C M M' => find_nearest_made se g s C M M' d l r). Qed.
Print Assumptions C34_find_nearest_partial.

(** A caller passing the square of the distance gets what is documented. *)
Theorem C34_find_nearest_squared_partial : forall search (g : graph R) s d limit r,
  radius_contract search -> Forall made (gr_scans g) -> made s ->
  (0 <= d)%R -> find_nearest search g s (d * d)%R limit = Ok r ->
  forall i, In i r <-> below_limit (length (gr_scans g)) limit i /\ (apart g s i < d)%R.
Proof. exact (fun se g s d l r C M M' => find_nearest_made_squared se g s C M M' d l r). Qed.
Print Assumptions C34_find_nearest_squared_partial.

Example C34_nonvacuous : radius_contract search_exact /\ Forall made (gr_scans far_graph) /\ made far_query /\
  exists r, find_nearest search_exact far_graph far_query 5%R (-1) = Ok r.
Proof. exact (conj search_exact_contract (conj far_made (conj query_made (ex_intro _ _ eq_refl)))). Qed.

(** C35: in every arithmetic, whatever the search returns. *)
Theorem C35_find_nearest_bounds : forall {T} {A : Arith T}
    (search : list (point T) -> point T -> T -> list nat) (g : graph T) s dist limit,
  find_nearest search g s dist limit =
  (if (Z.of_nat (length (gr_scans g)) <? limit)%Z then Fault OutOfBounds
   else Ok (search (map (scan_position (gr_use_bary g))
                        (firstn (if (0 <? limit)%Z then Z.to_nat limit else length (gr_scans g)) (gr_scans g)))
              (scan_position (gr_use_bary g) s) dist)).
Proof. exact @find_nearest_defined. Qed.
Print Assumptions C35_find_nearest_bounds.

Theorem C35_find_nearest_indices : forall search (g : graph R) s dist limit r,
  radius_contract search -> find_nearest search g s dist limit = Ok r ->
  forall i, In i r -> i < length (gr_scans g) /\ ((0 < limit)%Z -> (Z.of_nat i < limit)%Z).
Proof.
  exact (fun search g s dist limit r C H i I =>
    proj1 (proj1 (proj1 (proj2 (find_nearest_exact search g s dist limit r C H)) i) I)).
Qed.
Print Assumptions C35_find_nearest_indices.

Example C35_nonvacuous : find_nearest search_exact far_graph far_query 5%R 2 = Fault OutOfBounds /\
  exists r, find_nearest search_exact far_graph far_query 5%R 1 = Ok r.
Proof. exact (conj eq_refl (ex_intro _ _ eq_refl)). Qed.

(** C36: in every arithmetic. *)
Theorem C36_graph_message_shows_graph : forall {T} {A : Arith T} (g : graph T) old r,
  graph_get_msg g old = Ok r ->
  exists nodes edges, r = old ++ nodes ++ edges /\
    Forall2 shows_node nodes (gr_scans g) /\ Forall2 (shows_edge (gr_scans g)) edges (gr_constraints g) /\
    map mk_id edges = map Z.of_nat (seq 0 (length (gr_constraints g))).
Proof. exact @get_msg_shows. Qed.
Print Assumptions C36_graph_message_shows_graph.

Theorem C36_graph_message_defined_iff : forall {T} {A : Arith T} (g : graph T) old,
  (exists r, graph_get_msg g old = Ok r) <-> Forall (valid_constraint (length (gr_scans g))) (gr_constraints g).
Proof. exact @get_msg_defined. Qed.
Print Assumptions C36_graph_message_defined_iff.

Example C36_nonvacuous : exists r, graph_get_msg demo_graph [] = Ok r.
Proof. eexists. reflexivity. Qed.
