(** C162: publishing never influences mapping or localization. *)

From Coq Require Import ZArith List Bool Lia String.
From Verif Require Import Outcome Arith TypesModel ScanModel NdtModel MatcherModel ConstraintModel SolverModel GraphModel OccGridModel
  MotionModel FilterModel LaserModel MapperModel NdtProofs MapperSteps MapperInv1 MapperWitness2 SpecMapper SpecPublish HushSim PropPlace.
Import ListNotations.

Section Publish.
Context {T : Type} {A : Arith T}.

Lemma display_step : forall (cf : config T) r t l m, l <> Pub -> step (with_display cf r t) l m = step cf l m.
Proof. intros cf r t l m N. destruct l as [e| | |]; [reflexivity..|contradiction N; reflexivity]. Qed.

Lemma exec_hushed : forall (cf : config T) r t ls m m' mf, lock_inv m -> hushed m m' -> exec cf m ls = Ok mf ->
  exists ls' mf', part_of ls' ls /\ ~ In Pub ls' /\ exec (with_display cf r t) m' ls' = Ok mf' /\ hushed mf mf'.
Proof.
  intros cf r t ls. induction ls as [|l ls IH]; intros m m' mf Li H E.
  { cbn in E. injection E as <-. exists [], m'. split; [constructor|]. split; [intros []|]. split; [reflexivity|exact H]. }
  cbn [exec] in E. destruct (step cf l m) as [[m1|f]|] eqn:St; cbn [bind] in E.
  - assert (Li1 : lock_inv m1) by (apply (lock_inv_step cf l m m1 Li); apply step_cases; exact St).
    assert (D : l = Pub \/ l <> Pub) by (destruct l; [right; discriminate..|left; reflexivity]).
    destruct D as [->|D].
    + pose proof (hushed_pub cf m m1 m' Li H St) as H1. destruct (IH m1 m' mf Li1 H1 E) as (ls' & mf' & P & N & X & Y).
      exists ls', mf'. split; [constructor; exact P|]. auto.
    + destruct (hushed_step cf l m m1 m' D H St) as (m1' & St' & H1). destruct (IH m1 m1' mf Li1 H1 E) as (ls' & mf' & P & N & X & Y).
      exists (l :: ls'), mf'. split; [constructor; exact P|]. split; [intros [->|I]; [apply D; reflexivity|exact (N I)]|]. split; [|exact Y].
      cbn [exec]. rewrite (display_step cf r t l m' D), St'. exact X.
  - discriminate E.
  - destruct (IH m m' mf Li H E) as (ls' & mf' & P & N & X & Y). exists ls', mf'. split; [constructor; exact P|]. auto.
Qed.

Theorem C162_publishing_apart : forall (cf : config T) ls m, run cf ls = Ok m -> forall resolution threshold,
  exists ls' m', part_of ls' ls /\ ~ In Pub ls' /\ run (with_display cf resolution threshold) ls' = Ok m' /\ same_mapping m m'.
Proof.
  intros cf ls m E r t. unfold run in E. destruct (mapper_init cf) as [m0|f] eqn:E0; [|discriminate E]. cbn [bind] in E.
  assert (Li : lock_inv m0) by (apply (lock_inv_reachable cf); exists []; unfold run; rewrite E0; reflexivity).
  assert (I : exists m0', mapper_init (with_display cf r t) = Ok m0' /\ hushed m0 m0').
  { unfold mapper_init in *. change (cf_filter (with_display cf r t)) with (cf_filter cf). change (cf_file (with_display cf r t)) with (cf_file cf).
    destruct (match cf_filter cf with None => Ok None | Some (mn, mx, mo) => _ end) as [f|]; [|discriminate E0]. cbn [bind] in *. injection E0 as <-.
    eexists. split; [reflexivity|]. split; [reflexivity|]. split; [reflexivity|]. cbn [mp_sh].
    destruct (cf_file cf) as [file|]; eexists _, _, _, _; (split; [reflexivity|]); (split; [split; [discriminate|left; reflexivity]|]);
      (split; [split; [discriminate|left; reflexivity]|]); reflexivity. }
  destruct I as (m0' & E0' & H0). destruct (exec_hushed cf r t ls m0 m0' m Li H0 E) as (ls' & m' & P & N & X & H).
  exists ls', m'. split; [exact P|]. split; [exact N|]. split; [unfold run; rewrite E0'; exact X|].
  destruct H as (Es & El & fl & gl & pl & tr & Eh & _ & _ & Tr). unfold same_mapping. rewrite Eh, Es, El. cbn. repeat (split; [reflexivity|]). exact Tr.
Qed.
End Publish.
Print Assumptions C162_publishing_apart.

(** A node that publishes while the first scan is stored. *)
Definition seen_b (m : mapper b64) : bool :=
  existsb published (sh_trace (mp_sh m)) && match sh_scans (mp_sh m) with [] => false | _ => true end.
Lemma seen_run : forall lm : libm, ends64 (run (A := BA (easy lm)) (lost_cf lm) early_first) seen_b = true.
Proof. intro lm. vm_compute. reflexivity. Qed.
Example C162_nonvacuous : forall lm : libm, exists m, run (A := BA (easy lm)) (lost_cf lm) early_first = Ok m /\ In Pub early_first /\
  existsb published (sh_trace (mp_sh m)) = true /\ sh_scans (mp_sh m) <> [].
Proof.
  intro lm. destruct (ends64_in _ _ (seen_run lm)) as (m & E & H). apply andb_prop in H. destruct H as [H1 H2].
  exists m. split; [exact E|]. split; [left; reflexivity|]. split; [exact H1|]. intro Q. rewrite Q in H2. discriminate H2.
Qed.
