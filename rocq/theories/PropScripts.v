(** C165: the scripts do what they are named after. *)

From Coq Require Import ZArith Reals List Bool.
From Verif Require Import Outcome Arith TypesModel ScanModel GraphModel MapperModel ScriptModel SpecGraph SpecMapper SpecScripts NdtProofs GraphProofs MapperInv1 MapperInv2 MapperWitness PropGraph PropSession.
Import ListNotations.

(** enable_mapping.py and disable_mapping.py. *)
Theorem C165_enable : forall {T} {A : Arith T} (cf : config T) m arg, sp_pc (mp_spin m) = SIdle ->
  exists e m', script_request EnableMapping arg = Some e /\ step cf (Deliver e) m = Some (Ok m') /\
    sh_enable (mp_sh m') = true /\ sh_init (mp_sh m') = sh_init (mp_sh m) /\
    same_graph (mp_sh m) (mp_sh m') /\ sh_trace (mp_sh m') = sh_trace (mp_sh m) /\ rest_untouched m m'.
Proof.
  intros T A cf m arg I. destruct (configure_bits cf m 1 [] I) as (m' & S & E1 & E2 & E3 & E4 & E5 & E6 & E7 & E8 & E9 & E10 & E11 & E12 & E13).
  exists (EvConfigure 1 []), m'. split; [reflexivity|]. split; [exact S|]. split; [exact E1|]. split; [exact E2|]. split; [exact E3|]. split; [exact E9|].
  repeat split; try assumption; try apply E4. intro B. apply E13 in B. destruct B as [B|B]; discriminate B.
Qed.
Theorem C165_disable : forall {T} {A : Arith T} (cf : config T) m arg, sp_pc (mp_spin m) = SIdle ->
  exists e m', script_request DisableMapping arg = Some e /\ step cf (Deliver e) m = Some (Ok m') /\
    sh_enable (mp_sh m') = false /\ sh_init (mp_sh m') = false /\
    same_graph (mp_sh m) (mp_sh m') /\ sh_trace (mp_sh m') = sh_trace (mp_sh m) /\ rest_untouched m m'.
Proof.
  intros T A cf m arg I. destruct (configure_bits cf m 2 [] I) as (m' & S & E1 & E2 & E3 & E4 & E5 & E6 & E7 & E8 & E9 & E10 & E11 & E12 & E13).
  exists (EvConfigure 2 []), m'. split; [reflexivity|]. split; [exact S|]. split; [exact E1|]. split; [exact E2|]. split; [exact E3|]. split; [exact E9|].
  repeat split; try assumption; try apply E4. intro B. apply E13 in B. destruct B as [B|B]; discriminate B.
Qed.
Print Assumptions C165_enable.
Print Assumptions C165_disable.

(** load_map.py with a file. *)
Theorem C165_load : forall {T} {A : Arith T} (cf : config T) m file, sp_pc (mp_spin m) = SIdle -> sh_glock (mp_sh m) = None ->
  exists e m', script_request LoadMap (Some file) = Some e /\ exec cf m [Deliver e; Spin; Spin] = Ok m' /\
    the_graph cf (mp_sh m') = Ok (graph_load (cf_use_bary cf) file) /\
    sh_enable (mp_sh m') = sh_enable (mp_sh m) /\ sh_init (mp_sh m') = false /\ sh_flag (mp_sh m') = true /\
    sh_trace (mp_sh m') = ObLoad :: sh_trace (mp_sh m) /\ rest_untouched m m'.
Proof.
  intros T A cf m file I L. destruct (configure_load cf m 4 file I L eq_refl) as (m' & S & E1 & E2 & E3 & E4 & E5 & E6 & E7 & E8 & E9 & E10 & E11 & E12 & E13).
  exists (EvConfigure 4 file), m'. split; [reflexivity|]. split; [exact S|]. split; [exact E2|]. split; [exact E5|]. split; [exact E4|]. split; [exact E3|]. split; [exact E10|].
  repeat split; try assumption; apply E6.
Qed.
Print Assumptions C165_load.

(** save_map.py with a file name. *)
Theorem C165_save : forall {T} {A : Arith T} (cf : config T) m name g, sp_pc (mp_spin m) = SIdle -> sh_glock (mp_sh m) = None -> the_graph cf (mp_sh m) = Ok g ->
  exists e m', script_request SaveMap (Some name) = Some e /\ exec cf m [Deliver e; Spin; Spin] = Ok m' /\
    sh_trace (mp_sh m') = ObSave (graph_save g) :: sh_trace (mp_sh m) /\
    same_graph (mp_sh m) (mp_sh m') /\ sh_enable (mp_sh m') = sh_enable (mp_sh m) /\ sh_init (mp_sh m') = sh_init (mp_sh m) /\
    sh_flag (mp_sh m') = sh_flag (mp_sh m) /\ rest_untouched m m'.
Proof.
  intros T A cf m name g I L G. destruct (configure_save cf m 8 name g I L eq_refl eq_refl G) as (m' & S & E1 & E2 & E3 & E4 & E5 & E6 & E7 & E8 & E9 & E10 & E11 & E12 & E13).
  exists (EvConfigure 8 name), m'. split; [reflexivity|]. split; [exact S|]. split; [exact E10|]. split; [exact E2|]. split; [exact E6|]. split; [exact E5|]. split; [exact E4|].
  repeat split; try assumption; apply E3.
Qed.
Print Assumptions C165_save.

(** Without a file name nothing is asked of the node. *)
Theorem C165_no_argument : forall T s, script_request (T := T) s None = None <-> s = LoadMap \/ s = SaveMap.
Proof. intros T s. destruct s; cbn; split; intro H; try discriminate H; try reflexivity; auto; destruct H as [H|H]; discriminate H. Qed.

(** Whatever happened since save_map.py, load_map.py brings back the scans and
    constraints of that moment. *)
Theorem C165_load_undoes : forall {T} {A : Arith T} (cf : config T) m0 name g, sp_pc (mp_spin m0) = SIdle -> sh_glock (mp_sh m0) = None ->
  the_graph cf (mp_sh m0) = Ok g -> fits64 g ->
  exists save m1 written, script_request SaveMap (Some name) = Some save /\ exec cf m0 [Deliver save; Spin; Spin] = Ok m1 /\
    sh_trace (mp_sh m1) = ObSave written :: sh_trace (mp_sh m0) /\
    forall since m file, exec cf m1 since = Ok m -> sp_pc (mp_spin m) = SIdle -> sh_glock (mp_sh m) = None -> same_topics file written ->
      exists load m' g', script_request LoadMap (Some file) = Some load /\ exec cf m [Deliver load; Spin; Spin] = Ok m' /\
        the_graph cf (mp_sh m') = Ok g' /\ Forall2 same_scan (gr_scans g') (gr_scans g) /\ gr_constraints g' = gr_constraints g.
Proof.
  intros T A cf m0 name g I L G F. destruct (C165_save cf m0 name g I L G) as (e & m1 & Q & S & Tr & _).
  exists e, m1, (graph_save g). split; [exact Q|]. split; [exact S|]. split; [exact Tr|].
  intros since m file _ I2 L2 St. destruct (C165_load cf m file I2 L2) as (e2 & m' & Q2 & S2 & G2 & _).
  exists e2, m', (graph_load (cf_use_bary cf) file). split; [exact Q2|]. split; [exact S2|]. split; [exact G2|].
  exact (save_load (cf_use_bary cf) g file F St).
Qed.
Print Assumptions C165_load_undoes.

(** An idle node with two scans and a constraint. *)
Example C165_nonvacuous : exists m g, (exists ls, run plain_cf ls = Ok m) /\ sp_pc (mp_spin m) = SIdle /\ sh_glock (mp_sh m) = None /\
  the_graph plain_cf (mp_sh m) = Ok g /\ fits64 g /\ List.length (gr_scans g) = 2%nat /\ List.length (gr_constraints g) = 1%nat.
Proof.
  assert (S : exists m, run plain_cf [] = Ok m /\ sp_pc (mp_spin m) = SIdle /\ sh_glock (mp_sh m) = None) by (eexists; repeat split).
  destruct S as (m & R & I & L). destruct (C165_load plain_cf m (graph_save demo_graph) I L) as (e & m' & _ & E & G & _ & _ & _ & _ & U).
  exists m', (graph_load (cf_use_bary plain_cf) (graph_save demo_graph)).
  destruct U as (_ & _ & _ & _ & Mu & _ & _ & B).
  split; [|split; [|split; [|split; [exact G|split; [apply load_fits|split; reflexivity]]]]].
  - exists [Deliver e; Spin; Spin]. unfold run in R |- *. apply bind_ok in R. destruct R as (m0 & R0 & R). cbn in R. injection R as ->. rewrite R0. exact E.
  - destruct (sp_pc (mp_spin m')) eqn:P; try reflexivity; exfalso; apply B; unfold busy; rewrite P; discriminate.
  - unfold mutexes in Mu. injection Mu as Mu _. congruence.
Qed.
