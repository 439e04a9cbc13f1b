(** C185: map files whose constraints name scans they do not contain. *)

From Coq Require Import ZArith Reals List Bool String Lia.
From Verif Require Import Outcome Arith TypesModel ScanModel ConstraintModel GraphModel FilterModel LaserModel MapperModel SpecGraph SpecMapper SpecMapper2 SpecSafe
  GraphProofs NdtProofs MapperSteps MapperInv2 MapperWitness2.
Import ListNotations.

Section Bag.
Context {T : Type} {A : Arith T}.

(** Every constraint of the file joins two scans of the file. *)
Definition names_own_scans (file : list (bag_msg T)) : Prop :=
  let n := Z.of_nat (List.length (scans_of file)) in
  forall c, In c (constraints_of file) -> (0 <= cm_begin c < n)%Z /\ (0 <= cm_end c < n)%Z.

(** Fields of 64 bits, fewer than 2^63 scans (msg/Constraint.msg). *)
Definition file_fits (file : list (bag_msg T)) : Prop :=
  (Z.of_nat (List.length (scans_of file)) < 2 ^ 63)%Z /\
  forall c, In c (constraints_of file) -> (- 2 ^ 63 <= cm_begin c < 2 ^ 63)%Z /\ (- 2 ^ 63 <= cm_end c < 2 ^ 63)%Z.

Lemma wrap_in : forall z n, (- 2 ^ 63 <= z < 2 ^ 63)%Z -> (n < 2 ^ 63)%Z -> ((0 <= wrap64 z < n)%Z <-> (0 <= z < n)%Z).
Proof.
  intros z n Hz Hn. unfold wrap64. destruct (Z.neg_nonneg_cases z) as [N|N].
  - replace (z mod 2 ^ 64)%Z with (z + 2 ^ 64)%Z; [lia|].
    replace z with ((z + 2 ^ 64) + (-1) * 2 ^ 64)%Z at 2 by ring. rewrite Z_mod_plus_full. symmetry. apply Z.mod_small. lia.
  - rewrite Z.mod_small by lia. reflexivity.
Qed.

Lemma valid_file : forall ub (file : list (bag_msg T)), file_fits file ->
  (Forall (valid_constraint (List.length (gr_scans (graph_load ub file)))) (gr_constraints (graph_load ub file)) <-> names_own_scans file).
Proof.
  intros ub file (L & F). rewrite graph_load_eq. cbn [gr_scans gr_constraints]. rewrite map_length, Forall_map, Forall_forall. unfold names_own_scans.
  split; intros H c J; specialize (H c J); destruct (F c J) as (F1 & F2); unfold valid_constraint, constraint_of_msg in *; cbn [c_begin c_end] in *;
    rewrite ?(wrap_in _ _ F1 L), ?(wrap_in _ _ F2 L) in *; exact H.
Qed.

(** The only way the graph message fails. *)
Lemma get_msg_fault : forall (g : graph T) old f, graph_get_msg g old = Fault f -> f = OutOfBounds.
Proof.
  intros g old f. unfold graph_get_msg. generalize (old ++ map node_marker (gr_scans g), 0%Z) as acc.
  induction (gr_constraints g) as [|c cs IH]; intros acc H; cbn [foldM] in H; [discriminate H|].
  unfold edge_marker at 1 in H. unfold vec_get in H at 1 2.
  destruct (c_begin c <? 0)%Z; cbn [bind] in H; [congruence|]. destruct (nth_error _ _) in H; cbn [bind] in H; [|congruence].
  destruct (c_end c <? 0)%Z; cbn [bind] in H; [congruence|]. destruct (nth_error _ _) in H; cbn [bind] in H; [|congruence].
  exact (IH _ H).
Qed.

Context (cf : config T).

(** The publisher's first round of a node started with a map file, once the occupancy
    grid is drawn. *)
Lemma first_round : forall file m, cf_file cf = Some file -> run cf (repeat Pub 5) = Ok m ->
  the_graph cf (mp_sh m) = Ok (graph_load (cf_use_bary cf) file) /\ pb_pc (mp_pub m) = PGraph.
Proof.
  intros file m F E. unfold run in E. apply bind_ok in E. destruct E as (m0 & E0 & E).
  unfold mapper_init in E0. apply bind_ok in E0. destruct E0 as (f & _ & E0). rewrite F in E0. injection E0 as <-.
  pose proof (load_graph_the cf (mkShared [] [] [] false None None pose0 pose0 (nopp (nlit 1 2)) (cf_enable cf) true None []) file) as G.
  set (s := set_flag (set_init (load_graph cf _ file) false) true) in E.
  assert (Fl : sh_flag s = true) by reflexivity. assert (Gl : sh_glock s = None) by reflexivity.
  assert (Gs : the_graph cf s = Ok (graph_load (cf_use_bary cf) file)) by exact G.
  clearbody s. destruct s as [heap scans cons fl gk pk ro od ty en ini gm tr]. cbn [sh_flag sh_glock] in Fl, Gl. subst fl gk.
  cbn in E. destruct (mapM (deref heap) scans) as [l|]; [|discriminate E]. cbn in E.
  destruct (OccGridModel.occ_get_msg _ l) as [[grid gmsg]|] in E; [|discriminate E]. cbn in E. injection E as <-.
  split; [exact Gs|reflexivity].
Qed.

(** Its next step publishes the graph if every constraint names scans of the file, and reads
    outside the vector of the scans otherwise. *)
Lemma next_graph : forall file m, cf_file cf = Some file -> file_fits file -> run cf (repeat Pub 5) = Ok m ->
  (names_own_scans file <-> exists m', step cf Pub m = Some (Ok m')) /\
  (~ names_own_scans file <-> step cf Pub m = Some (Fault OutOfBounds)).
Proof.
  intros file m F Fi E. destruct (first_round file m F E) as (G & P). rewrite <- (valid_file (cf_use_bary cf) file Fi).
  rewrite <- (get_msg_defined (graph_load (cf_use_bary cf) file) []).
  cbn [step]. unfold pub_step. rewrite P, G. cbn [bind option_map].
  destruct (graph_get_msg (graph_load (cf_use_bary cf) file) []) as [r|f] eqn:Q; cbn [bind].
  - split; split; intro H; try discriminate H.
    + eexists. reflexivity.
    + exists r. reflexivity.
    + exfalso. apply H. exists r. reflexivity.
  - assert (f = OutOfBounds) as -> by exact (get_msg_fault _ _ _ Q).
    split; split; intro H.
    + destruct H as (r & H). discriminate H.
    + destruct H as (r & H). discriminate H.
    + reflexivity.
    + intros (r & H'). discriminate H'.
Qed.
End Bag.

(** Any file that can be read: false.  The constructor of Graph takes the file as it is
    (graph.cpp:49-105), and the first round of the publisher uses the constraints as indices
    (graph.cpp:230-239): one scan and a constraint from it to scan 5. *)
Definition bad_file : list (bag_msg b64) := [scan64 0 (z64 0) (z64 0) cross; edge64 0 5].

Theorem C185_any_map_file_refuted : forall lm : libm, exists cf file,
  sane cf /\ cf_file cf = Some file /\ file_fits file /\ run (A := BA (easy lm)) cf (repeat Pub 6) = Fault OutOfBounds.
Proof.
  intro lm. exists (cf64 lm 10 1 0 None true (Some bad_file)), bad_file.
  split; [split; [intro H; discriminate H|exact I]|]. split; [reflexivity|].
  split; [split; [reflexivity|]|vm_compute; reflexivity].
  intros c [<-|[]]. cbn. lia.
Qed.
Print Assumptions C185_any_map_file_refuted.

(** Which files do harm there: exactly those with a constraint that names a scan they do
    not contain. *)
Theorem C185_map_file_partial : forall {T} {A : Arith T} (cf : config T) file m,
  cf_file cf = Some file -> file_fits file -> run cf (repeat Pub 5) = Ok m ->
  (names_own_scans file <-> exists m', step cf Pub m = Some (Ok m')) /\
  (~ names_own_scans file <-> step cf Pub m = Some (Fault OutOfBounds)).
Proof. intros T A cf. exact (next_graph cf). Qed.
Print Assumptions C185_map_file_partial.

(** More is needed later: the ids of the scans are taken from the file too, and new
    constraints are made from ids (constraint.cpp:40-41), though indices are meant.  One scan, with id 7, no
    constraint; an initial pose connects to it. *)
Definition odd_ids : list (bag_msg b64) := [scan64 7 (z64 0) (z64 0) cross].

Theorem C185_scan_ids_refuted : forall lm : libm, exists cf file ls,
  sane cf /\ cf_file cf = Some file /\ file_fits file /\ names_own_scans file /\ no_requests ls /\
  run (A := BA (easy lm)) cf ls = Fault OutOfBounds.
Proof.
  intro lm. exists (cf64 lm 10 1 0 None true (Some odd_ids)), odd_ids, ([Deliver (pose_ev64 (z64 0) (z64 0) 0 0); Spin; Spin; Spin; Spin; Spin] ++ repeat Pub 6).
  split; [split; [intro H; discriminate H|exact I]|]. split; [reflexivity|].
  split; [split; [reflexivity|intros c []]|]. split; [intros c []|].
  split; [|vm_compute; reflexivity].
  intros a file H. cbn in H. repeat (destruct H as [H|H]; [discriminate H|]). exact H.
Qed.
Print Assumptions C185_scan_ids_refuted.

(** The files the node saves are harmless as long as its graph is well formed (C64). *)
Theorem C185_saved_files : forall {T} {A : Arith T} (g : graph T),
  well_formed g -> (Z.of_nat (List.length (gr_scans g)) < 2 ^ 63)%Z -> names_own_scans (graph_save g) /\ file_fits (graph_save g).
Proof.
  intros T A g (_ & J) L. unfold names_own_scans, file_fits. rewrite save_scans, save_constraints, map_length. rewrite Forall_forall in J.
  assert (K : forall c, In c (map constraint_to_msg (gr_constraints g)) ->
    (0 <= cm_begin c < Z.of_nat (List.length (gr_scans g)))%Z /\ (0 <= cm_end c < Z.of_nat (List.length (gr_scans g)))%Z).
  { intros c I. apply in_map_iff in I. destruct I as (d & <- & I). specialize (J d I). unfold joins in J. cbn [constraint_to_msg cm_begin cm_end].
    unfold to_int64, wrap64. rewrite !(Z.mod_small _ (2 ^ 64)) by lia.
    rewrite !(proj2 (Z.ltb_lt _ _)) by lia. lia. }
  split; [exact K|]. split; [exact L|]. intros c I. specialize (K c I). lia.
Qed.
Print Assumptions C185_saved_files.

Example C185_nonvacuous : forall lm : libm, exists m,
  names_own_scans three_scans /\ file_fits three_scans /\ run (A := BA (easy lm)) (cf64 lm 10 1 0 None true (Some three_scans)) (repeat Pub 5) = Ok m.
Proof.
  intro lm. destruct (ends64_in (run (A := BA (easy lm)) (cf64 lm 10 1 0 None true (Some three_scans)) (repeat Pub 5)) (fun _ => true)) as (m & E & _).
  { vm_compute. reflexivity. }
  exists m. split; [intros c [<-|[]]; cbn; lia|]. split; [split; [reflexivity|intros c [<-|[]]; cbn; lia]|exact E].
Qed.
