(** C181: a viewer of the markers shows the graph published last. *)

From Coq Require Import ZArith List Bool Lia.
From Flocq Require Import Core BinarySingleNaN.
From Verif Require Import Outcome Arith TypesModel ScanModel GraphModel MapperModel SpecGraph SpecMapper SpecMapper4 SpecViewer NdtProofs MapperInv3 MapperInv5 MapperWitness2 ViewerProofs.
Import ListNotations.

(** As long as no map is loaded after the start.  Every arithmetic and schedule. *)
Theorem C181_viewer_partial : forall {T} {A : Arith T} (cf : config T), (0 <= cf_depth cf)%Z -> search_in_range (en_search cf) -> numbered_start cf ->
  forall m, reach_if cf unloaded m -> forall g ms, newest (sh_trace (mp_sh m)) = Some (g, ms) -> shows_exactly (viewer (sh_trace (mp_sh m))) ms.
Proof. intros T A cf D S N m R g ms E. destruct (viewer_reach cf D S N m R) as [_ H]. exact (H g ms E). Qed.
Print Assumptions C181_viewer_partial.

(** After a smaller map is loaded the scans of the old one are still shown. *)
Definition stale_run : list (label b64) := repeat Pub 11 ++ [Deliver (EvConfigure 4 one_scan); Spin; Spin] ++ repeat Pub 11.
Definition stale_cf (lm : libm) : config b64 := cf64 (easy lm) 10 1 0 None true (Some two_scans).
Theorem C181_viewer_refuted : forall lm : libm, exists cf ls m g ms mk, good_start (A := BA (easy lm)) cf /\ run (A := BA (easy lm)) cf ls = Ok m /\
  newest (sh_trace (mp_sh m)) = Some (g, ms) /\ List.length (gr_scans g) = List.length (sh_scans (mp_sh m)) /\
  viewer (sh_trace (mp_sh m)) (key mk) = Some mk /\ ~ In (key mk) (map key ms).
Proof.
  intro lm. destruct (ends64_in (run (A := BA (easy lm)) (stale_cf lm) stale_run)
    (fun m => match newest (sh_trace (mp_sh m)), viewer (sh_trace (mp_sh m)) (NsNodes, 1%Z) with
       | Some (g, ms), Some mk => (List.length (gr_scans g) =? List.length (sh_scans (mp_sh m)))%nat && same_key (key mk) (NsNodes, 1%Z) && negb (existsb (fun x => same_key (NsNodes, 1%Z) (key x)) ms)
       | _, _ => false end)) as (m & E & H); [vm_compute; reflexivity|].
  destruct (newest (sh_trace (mp_sh m))) as [[g ms]|] eqn:N; [|discriminate H]. destruct (viewer (sh_trace (mp_sh m)) (NsNodes, 1%Z)) as [mk|] eqn:V; [|discriminate H].
  apply andb_prop in H. destruct H as [H H3]. apply andb_prop in H. destruct H as [H1 H2]. apply Nat.eqb_eq in H1. apply same_key_eq in H2. apply negb_true_iff in H3.
  exists (stale_cf lm), stale_run, m, g, ms, mk. split; [intros f F; injection F as <-; exact (two_scans_ok (easy lm))|].
  split; [exact E|]. split; [exact N|]. split; [exact H1|]. rewrite H2. split; [exact V|].
  intro I. apply in_map_iff in I. destruct I as (x & K & I). assert (Q : existsb (fun x => same_key (NsNodes, 1%Z) (key x)) ms = true); [|congruence].
  apply existsb_exists. exists x. split; [exact I|]. apply same_key_eq. congruence.
Qed.
Print Assumptions C181_viewer_refuted.

Definition unloaded_b (m : mapper b64) (l : label b64) : bool :=
  (num_scans (mp_sh m) <? 2 ^ 31)%Z && match l, sp_pc (mp_spin m) with Spin, SLoad _ => false | _, _ => true end.
Lemma unloaded_sound m l : unloaded_b m l = true -> unloaded m l.
Proof.
  intro H. apply andb_prop in H. destruct H as [H1 H2]. apply Z.ltb_lt in H1. split; [exact H1|]. intros -> file E. rewrite E in H2. discriminate H2.
Qed.
(** Markers are published after the first scan and after the second: two nodes and
    an edge. *)
Definition grown_run : list (label b64) := laser_schedule ++ repeat Pub 11.
Definition grown_cf (lm : libm) : config b64 := cf64 (easy lm) 10 1 0 None true None.
Example C181_nonvacuous : forall lm : libm, let cf := grown_cf lm in (0 <= cf_depth cf)%Z /\ search_in_range (en_search cf) /\ numbered_start (A := BA (easy lm)) cf /\
  exists m g ms, reach_if (A := BA (easy lm)) cf unloaded m /\ newest (sh_trace (mp_sh m)) = Some (g, ms) /\ List.length ms = 3%nat.
Proof.
  intros lm cf. split; [cbn; lia|]. split; [exact search64_in_range|]. split; [intros f F; discriminate F|].
  destruct (ends64_in (run (A := BA (easy lm)) cf grown_run)
    (fun m => match newest (sh_trace (mp_sh m)) with Some (_, ms) => (List.length ms =? 3)%nat | None => false end)) as (m & E & H); [vm_compute; reflexivity|].
  destruct (newest (sh_trace (mp_sh m))) as [[g ms]|] eqn:N; [|discriminate H]. apply Nat.eqb_eq in H. exists m, g, ms. split; [|split; [exact N|exact H]].
  apply (run_reach (easy lm) cf unloaded_b unloaded grown_run m unloaded_sound); [vm_compute; reflexivity|exact E].
Qed.
