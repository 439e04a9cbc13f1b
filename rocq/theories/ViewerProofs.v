(** Proofs for C181. *)

From Coq Require Import ZArith List Bool Lia.
From Verif Require Import Outcome Arith TypesModel ScanModel GraphModel MapperModel SpecGraph SpecMapper SpecMapper4 SpecViewer SpecSolver NdtProofs KdProofs MatcherProofs GraphProofs MapperProofs MapperSteps MapperInv1 MapperInv2
  MapperInv3 MapperInv5 MapperInv10 PropGraph.
Import ListNotations.

Section P.
Context {T : Type} {A : Arith T}.

Lemma same_key_eq a b : same_key a b = true <-> a = b.
Proof.
  destruct a as [[] x], b as [[] y]; cbn; (split; [intro H; try discriminate H; apply Z.eqb_eq in H; subst; reflexivity|intro H; try discriminate H; injection H as ->; apply Z.eqb_refl]).
Qed.

Lemma show_all (ms : list (marker T)) : forall v, NoDup (map key ms) ->
  forall k m, fold_left show ms v k = Some m <-> (In m ms /\ key m = k) \/ (~ In k (map key ms) /\ v k = Some m).
Proof.
  induction ms as [|x ms IH]; intros v N k m; cbn [fold_left map In]; [tauto|].
  cbn [map] in N. apply NoDup_cons_iff in N. destruct N as [Nx N]. rewrite (IH (show v x) N k m). unfold show.
  destruct (same_key k (key x)) eqn:E.
  - apply same_key_eq in E. subst k. split.
    + intros [[I Q]|[_ Q]]; [left; split; [right; exact I|exact Q]|injection Q as <-; left; split; [left; reflexivity|reflexivity]].
    + intros [[[->|I] Q]|[Nk _]]; [right; split; [exact Nx|reflexivity]|left; split; assumption|contradiction Nk; left; reflexivity].
  - assert (D : key x <> k) by (intro Q; assert (same_key k (key x) = true) by (apply same_key_eq; congruence); congruence). split.
    + intros [[I Q]|[Nk Q]]; [left; split; [right; exact I|exact Q]|right; split; [tauto|exact Q]].
    + intros [[[->|I] Q]|[Nk Q]]; [contradiction|left; split; assumption|right; split; [tauto|exact Q]].
Qed.

(** The keys of the markers of a graph numbered in order. *)
Definition keys_of (n c : nat) : list (marker_ns * Z) := map (fun i => (NsNodes, Z.of_nat i)) (seq 0 n) ++ map (fun i => (NsEdges, Z.of_nat i)) (seq 0 c).
Lemma keys_nodup n c : NoDup (keys_of n c).
Proof.
  unfold keys_of. apply KdProofs.NoDup_app_intro.
  - apply FinFun.Injective_map_NoDup; [intros x y E; injection E; lia|apply seq_NoDup].
  - apply FinFun.Injective_map_NoDup; [intros x y E; injection E; lia|apply seq_NoDup].
  - intros k H H'. apply in_map_iff in H, H'. destruct H as (i & <- & _), H' as (j & E & _). discriminate E.
Qed.
Lemma keys_more n c n' c' k : (n <= n')%nat -> (c <= c')%nat -> In k (keys_of n c) -> In k (keys_of n' c').
Proof.
  intros Hn Hc H. unfold keys_of in *. apply in_app_iff in H. apply in_app_iff.
  destruct H as [H|H]; [left|right]; apply in_map_iff in H; destruct H as (i & <- & I); apply in_seq in I; apply in_map_iff; exists i; (split; [reflexivity|apply in_seq; lia]).
Qed.
Lemma markers_keys (g : graph T) ms : graph_get_msg g [] = Ok ms -> numbered (gr_scans g) -> (Z.of_nat (List.length (gr_scans g)) < 2 ^ 31)%Z ->
  map key ms = keys_of (List.length (gr_scans g)) (List.length (gr_constraints g)).
Proof.
  intros H N B. apply C36_graph_message_shows_graph in H. destruct H as (nodes & edges & -> & Hn & He & Hi). cbn [app]. rewrite map_app. unfold keys_of. f_equal.
  - transitivity (map (fun z => (NsNodes, z)) (int_ids (gr_scans g))); [|rewrite (numbered_ids _ N B), map_map; reflexivity].
    unfold int_ids. rewrite map_map. clear N B He Hi. induction Hn as [|m sc ms scs (H1 & _ & _ & H2) Hn IH]; [reflexivity|]. cbn [map]. f_equal; [|exact IH].
    unfold key. rewrite H1, H2. reflexivity.
  - transitivity (map (fun z => (NsEdges, z)) (map mk_id edges)); [|rewrite Hi, map_map; reflexivity].
    rewrite map_map. clear Hi Hn. induction He as [|m c ms cs (b & e & _ & _ & H1 & _) He IH]; [reflexivity|]. cbn [map]. f_equal; [|exact IH].
    unfold key. rewrite H1. reflexivity.
Qed.

Context (cf : config T).
Definition viewer_inv (m : mapper T) : Prop :=
  let s := mp_sh m in
  (forall k mk, viewer (sh_trace s) k = Some mk -> In k (keys_of (List.length (sh_scans s)) (List.length (sh_cons s)))) /\
  (forall g ms, newest (sh_trace s) = Some (g, ms) -> shows_exactly (viewer (sh_trace s)) ms).

Definition quiet (s s' : shared T) : Prop :=
  viewer (sh_trace s') = viewer (sh_trace s) /\ newest (sh_trace s') = newest (sh_trace s) /\
  (List.length (sh_scans s) <= List.length (sh_scans s'))%nat /\ (List.length (sh_cons s) <= List.length (sh_cons s'))%nat.
Lemma quiet_inv m m' : quiet (mp_sh m) (mp_sh m') -> viewer_inv m -> viewer_inv m'.
Proof.
  intros (V & N & Ls & Lc) [I1 I2]. unfold viewer_inv. cbv zeta. rewrite V, N. split; [|exact I2].
  intros k mk H. eapply keys_more; [exact Ls|exact Lc|]. exact (I1 k mk H).
Qed.
Ltac q := unfold quiet; cbn; rewrite ?app_length; cbn; repeat split; try reflexivity; lia.

Lemma viewer_step l m m' : unloaded m l -> id_inv cf m -> viewer_inv m -> step_tr cf m l m' -> viewer_inv m'.
Proof.
  intros [B U] Ids Iv H. destruct H as [e s' sp' Id D|s' sp' D|s' l' D|s' p' D].
  - apply (quiet_inv m); [|exact Iv]. cbn [mp_sh]. destruct D; try q. rewrite configure_eq. q.
  - apply (quiet_inv m); [|exact Iv]. cbn [mp_sh]. destruct D; try q; [destruct upd; q|].
    exfalso. eapply (U eq_refl); eassumption.
  - apply (quiet_inv m); [|exact Iv]. cbn [mp_sh]. destruct D; try q.
    destruct (put_all_frame (sh_scans (mp_sh m)) scans' (mp_sh m)) as [h ->]. q.
  - destruct D; try (apply (quiet_inv m); [q|exact Iv]).
    destruct Iv as [I1 I2]. match goal with G : the_graph cf _ = Ok g |- _ => unfold the_graph in G; apply bind_ok in G; destruct G as (scans & Gs & Eg); injection Eg as <- end.
    destruct Ids as (Ids & _). pose proof (ids_numbered _ _ Ids Gs) as N. pose proof (mapM_length _ _ _ Gs) as L.
    match goal with G : graph_get_msg _ _ = Ok ms |- _ => pose proof (markers_keys _ _ G N) as K end. cbn [gr_scans gr_constraints] in K.
    unfold num_scans in B. rewrite L in K. specialize (K B).
    assert (ND : NoDup (map key ms)) by (rewrite K; apply keys_nodup).
    unfold viewer_inv. cbn [mp_sh unlock_g note set_glock sh_trace sh_scans sh_cons viewer newest]. split.
    + intros k mk Hk. apply (show_all ms _ ND) in Hk. rewrite <- K. destruct Hk as [[I <-]|[_ Hk]]; [apply in_map; exact I|rewrite K; exact (I1 k mk Hk)].
    + intros g ms' E. injection E as _ <-. intros k mk. rewrite (show_all ms _ ND). split; [|tauto]. intros [Hk|[Nk Hk]]; [exact Hk|].
      contradiction Nk. rewrite K. exact (I1 k mk Hk).
Qed.

Lemma viewer_init m : mapper_init cf = Ok m -> viewer_inv m.
Proof.
  intro H. apply init_cases in H. destruct H as (s & f & -> & _ & E). cbv zeta in E. unfold viewer_inv. cbn [mp_sh].
  assert (V : viewer (sh_trace s) = fun _ => None) by (rewrite E; destruct (cf_file cf); reflexivity).
  assert (N : newest (sh_trace s) = None) by (rewrite E; destruct (cf_file cf); reflexivity).
  rewrite V, N. split; [intros k mk H; discriminate H|intros g ms H; discriminate H].
Qed.
Lemma viewer_reach : (0 <= cf_depth cf)%Z -> search_in_range (en_search cf) -> numbered_start cf -> forall m, reach_if cf unloaded m -> viewer_inv m.
Proof.
  intros Dp Sr S. apply (reach_if_and cf unloaded viewer_inv (id_inv cf)).
  - intros m R. apply (id_reach cf Dp Sr S). revert m R. apply reach_if_mono. intros m l [B U]. split; [exact B|]. intros E file Pc. contradiction (U E file Pc).
  - exact viewer_init.
  - intros l m m' O J Iv H. exact (viewer_step l m m' O J Iv H).
Qed.
End P.
