(** Proofs for C179. *)

From Coq Require Import Reals Psatz ZArith List Bool String Lia.
From Verif Require Import Outcome Arith TypesModel ScanModel MatcherModel GraphModel OccGridModel MapperModel SpecMapper SpecMapper2 SpecDefaults DefaultsModel
  NdtProofs MapperProofs MapperSteps MapperInv1 MapperInv2 MapperInv3.
Import ListNotations.
Local Open Scope outcome_scope.

Section P.
Context {T : Type} {A : Arith T}.
Context (cf : config T).

Definition mapping_pc (pc : spin_pc T) : bool :=
  match pc with
  | SIdle | SMatch _ _ | SMake _ _ _ | SConsLock _ _ _ | SConsPush _ _ _ | SScanLock _ _ | SScanPush _ _ | SPoseLock _ _ true | SPoseWrite _ _ true => true
  | _ => false
  end.
Definition maps_inv (m : mapper T) : Prop :=
  sh_enable (mp_sh m) = true /\ sh_init (mp_sh m) = true /\ sp_filter (mp_spin m) = None /\
  (forall r o, ~ In (ObInit r o) (sh_trace (mp_sh m))) /\ mapping_pc (sp_pc (mp_spin m)) = true /\
  List.length (sh_scans (mp_sh m)) = (messages_used m + finishing m)%nat.

Lemma maps_init : cf_filter cf = None -> cf_enable cf = true -> cf_file cf = None -> forall m, mapper_init cf = Ok m -> maps_inv m.
Proof.
  intros F E N m H. unfold mapper_init in H. rewrite F, N, E in H. injection H as <-. unfold maps_inv, messages_used, finishing. cbn.
  repeat split; auto.
Qed.

Lemma maps_step : cf_filter cf = None -> forall l m m', no_request m l -> maps_inv m -> step_tr cf m l m' -> maps_inv m'.
Proof.
  intros CF l m m' O (E & In_ & F & N & P & L) H. unfold maps_inv, messages_used, finishing in *.
  assert (N1 : forall x, (forall r o, x <> ObInit r o) -> forall r o, ~ In (ObInit r o) (x :: sh_trace (mp_sh m))).
  { intros x X r o [Y|Y]; [exact (X r o Y)|exact (N r o Y)]. }
  destruct H as [e s' sp' Id D|s' sp' D|s' l' D|s' p' D]; cbn [mp_sh mp_spin mp_loop] in *.
  - destruct D; cbn [sh_enable sh_init sp_filter sh_trace sh_scans set_heap set_global at_pc with_filter sp_pc] in *;
      try (rewrite E, In_ in *; discriminate); try congruence.
    + rewrite Id in L. repeat split; try assumption; try congruence.
      * match goal with P : sp_pc sp' = SIdle |- _ => rewrite P; exact L end.
    + rewrite Id in L. assert (R : sp_pc sp' = SMatch (List.length (sh_heap (mp_sh m))) odom).
      { match goal with P : sp_pc sp' = run_pc _ _ _ _ _ |- _ => rewrite P end. unfold run_pc, use_filter. rewrite CF, E. reflexivity. }
      repeat split; try assumption; try congruence; rewrite R; [reflexivity|exact L].
    + repeat split; assumption.
    + exfalso. exact (O a file eq_refl).
  - destruct D; match goal with Q : sp_pc (mp_spin m) = _ |- _ => rewrite Q in P, L end; try discriminate P;
      cbn [sh_enable sh_init sp_filter sh_trace sh_scans set_heap set_global at_pc with_filter with_local sp_pc put set_typical set_glock unlock_g
         set_plock unlock_p note set_cons set_scans set_flag set_robot set_odom mapping_pc filter used List.length] in *;
      try (repeat split; (assumption || apply N || reflexivity || (apply N1; intros; discriminate))).
    + repeat split; try (assumption || apply N || reflexivity || (apply N1; intros; discriminate)). rewrite app_length. cbn [List.length]. lia.
    + destruct upd; [|discriminate P]. repeat split; try (assumption || apply N || reflexivity || (apply N1; intros; discriminate)).
      cbn. cbn in L. rewrite L. lia.
  - destruct D; cbn [sh_enable sh_init sh_trace sh_scans put set_heap set_global set_glock unlock_g note set_cons set_flag filter used List.length] in *;
      try (repeat split; (assumption || apply N || (apply N1; intros; discriminate))).
    destruct (put_all_frame (sh_scans (mp_sh m)) scans' (mp_sh m)) as [h Eh]. rewrite Eh.
    repeat split; try (assumption || apply N || (apply N1; intros; discriminate)).
  - destruct D; cbn [sh_enable sh_init sh_trace sh_scans set_flag note set_glock unlock_g set_plock unlock_p filter used List.length] in *;
      try (repeat split; (assumption || apply N || (apply N1; intros; discriminate))).
Qed.

Lemma maps_reach : cf_filter cf = None -> cf_enable cf = true -> cf_file cf = None -> forall m, reach_if cf no_request m -> maps m.
Proof.
  intros F E N m R. assert (I : maps_inv m).
  { revert m R. apply reach_if_inv; [apply maps_init; assumption|]. intros l m m' O I H. exact (maps_step F l m m' O I H). }
  destruct I as (I1 & I2 & I3 & I4 & I5 & I6). repeat split; try assumption.
  - intros p o Q. rewrite Q in I5. discriminate I5.
  - intros p o n d Q. rewrite Q in I5. discriminate I5.
Qed.

(** The resolution of the published map. *)
Definition grid_inv (m : mapper T) : Prop :=
  og_res (pb_grid (mp_pub m)) = cf_resolution cf /\ og_thresh (pb_grid (mp_pub m)) = cf_occ_thresh cf /\
  (forall scans g, In (ObMap scans g) (sh_trace (mp_sh m)) -> om_resolution g = nsingle (cf_resolution cf)).

Lemma bound_scans_settings : forall scans (o : occ T), og_res (fold_left bound_scan scans o) = og_res o /\ og_thresh (fold_left bound_scan scans o) = og_thresh o.
Proof.
  assert (P : forall pts f (o : occ T), og_res (fold_left (fun o q => bound_point o (f q)) pts o) = og_res o /\
    og_thresh (fold_left (fun o (q : point T) => bound_point o (f q)) pts o) = og_thresh o).
  { intros pts f. induction pts as [|q pts IH]; intro o; cbn [fold_left]; [split; reflexivity|].
    destruct (IH (bound_point o (f q))) as [-> ->]. split; reflexivity. }
  induction scans as [|s scans IH]; intro o; cbn [fold_left]; [split; reflexivity|].
  destruct (IH (bound_scan o s)) as [-> ->]. apply P.
Qed.
Lemma refresh_settings : forall (o : occ T) scans, og_res (refresh o scans) = og_res o /\ og_thresh (refresh o scans) = og_thresh o.
Proof.
  intros o scans. unfold refresh. destruct (_ =? _)%nat; [split; reflexivity|]. apply bound_scans_settings.
Qed.
Lemma get_msg_settings : forall (o o' : occ T) scans g, occ_get_msg o scans = Ok (o', g) ->
  og_res o' = og_res o /\ og_thresh o' = og_thresh o /\ om_resolution g = nsingle (og_res o).
Proof.
  intros o o' scans g H. unfold occ_get_msg in H. apply bind_ok in H. destruct H as (g' & H & E). injection E as <- <-.
  destruct (refresh_settings o scans) as [E1 E2]. split; [exact E1|]. split; [exact E2|].
  unfold render in H. repeat (apply bind_ok in H; destruct H as (? & _ & H)). injection H as <-. cbn [om_resolution]. rewrite E1. reflexivity.
Qed.

Lemma grid_step : forall l m m', grid_inv m -> step_tr cf m l m' -> grid_inv m'.
Proof.
  intros l m m' (R1 & R2 & N) H. unfold grid_inv.
  assert (N1 : forall x, (forall sc g, x <> ObMap sc g) -> forall sc g, In (ObMap sc g) (x :: sh_trace (mp_sh m)) -> om_resolution g = nsingle (cf_resolution cf)).
  { intros x X sc g [Y|Y]; [contradiction (X sc g Y)|exact (N sc g Y)]. }
  destruct H as [e s' sp' Id D|s' sp' D|s' l' D|s' p' D]; cbn [mp_sh mp_pub].
  - split; [exact R1|]. split; [exact R2|]. destruct D; try exact N. rewrite configure_eq. exact N.
  - split; [exact R1|]. split; [exact R2|]. destruct D; try exact N; try (apply N1; intros; discriminate).
    + destruct upd; (apply N1; intros; discriminate).
    + intros sc' g' [Y|[Y|Y]]; [discriminate Y|discriminate Y|exact (N sc' g' Y)].
  - split; [exact R1|]. split; [exact R2|]. destruct D; try exact N; try (apply N1; intros; discriminate).
    destruct (put_all_frame (sh_scans (mp_sh m)) scans' (mp_sh m)) as [h Eh]. rewrite Eh. apply N1. intros; discriminate.
  - destruct D; try (split; [exact R1|split; [exact R2|]]); try exact N; try (apply N1; intros; discriminate).
    apply get_msg_settings in H1. destruct H1 as (E1 & E2 & E3). cbn [pb_grid]. rewrite E1, E2.
    split; [exact R1|]. split; [exact R2|]. intros sc g [Y|Y]; [injection Y as _ <-; rewrite E3, R1; reflexivity|exact (N sc g Y)].
Qed.
Lemma grid_reach : forall m, reachable cf m -> grid_inv m.
Proof.
  apply reachable_inv; [|intros l m m' I H; apply (grid_step l m m'); assumption].
  intros m H. apply init_cases in H. destruct H as (s & f & -> & _ & ->). unfold grid_inv. cbn [mp_pub pb_grid occ_new og_res og_thresh mp_sh].
  split; [reflexivity|]. split; [reflexivity|]. intros sc g. destruct (cf_file cf); cbn; [intros [E|[]]; discriminate E|intros []].
Qed.
End P.
