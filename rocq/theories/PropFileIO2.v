(** C186, in every schedule: what is reachable with files that fail. *)

From Coq Require Import ZArith Reals List Bool Lia.
From Verif Require Import Outcome Arith TypesModel ScanModel GraphModel LaserModel MatcherModel MapperModel FileModel SpecMapper SpecMapper2 NdtProofs MapperSteps MapperInv1
  MapperInv2 MapperWitness2.
Import ListNotations.

Section IO.
Context {T : Type} {A : Arith T} (cf : config T).

(** Executions in which files may fail. *)
Inductive reach_failing : mapper T -> Prop :=
| rf_start m : run cf [] = Ok m -> reach_failing m
| rf_step m l m' : reach_failing m -> step cf l m = Some (Ok m') -> reach_failing m'
| rf_fail m m' : reach_failing m -> file_exception m = Some m' -> reach_failing m'.

(** The node without the file part of the request in progress. *)
Definition without_request (m : mapper T) : option (mapper T) :=
  match sp_pc (mp_spin m) with
  | SLoadLock _ | SSaveLock => Some (mkMapper (mp_sh m) (at_pc (mp_spin m) SIdle) (mp_loop m) (mp_pub m))
  | SLoad _ | SSave => Some (mkMapper (unlock_g (mp_sh m)) (at_pc (mp_spin m) SIdle) (mp_loop m) (mp_pub m))
  | _ => None
  end.

Lemma reach_one : forall m l m', reachable cf m -> step cf l m = Some (Ok m') -> reachable cf m'.
Proof.
  intros m l m' (ls & E) S. exists (ls ++ [l]). unfold run in *. apply bind_ok in E. destruct E as (m0 & -> & E). cbn [bind].
  revert m0 E. induction ls as [|k ls IH]; intros m0 E; cbn [app exec] in *.
  - injection E as ->. rewrite S. reflexivity.
  - destruct (step cf k m0) as [[m1|]|]; [|discriminate E|].
    + apply IH. exact E.
    + apply IH. exact E.
Qed.

(** Loop closure and publisher do not see whether the executor thread holds the graph,
    except that they wait. *)
Lemma loop_free : forall s l s' l', sh_glock s = Some TSpin -> loop_g (lp_pc l) = false -> loop_step cf s l = Some (Ok (s', l')) ->
  loop_step cf (unlock_g s) l = Some (Ok (unlock_g s', l')).
Proof.
  intros s l s' l' G N E. destruct s as [heap scans cons fl gk pk ro od ty en ini gm tr]. cbn [sh_glock] in G. subst gk.
  unfold loop_step in *. destruct (lp_pc l) as [| | |num new|num new|num new|c|c i|c i cand|c i cand corr cov|c i cand cov|c k|c k|c|num new| |]; try discriminate N; try discriminate E.
  - injection E as <- <-. reflexivity.
  - injection E as <- <-. reflexivity.
  - destruct (lc_rest c); [|discriminate E]. injection E as <- <-. reflexivity.
  - injection E as E. cbn [sh_heap sh_global sh_typical unlock_g set_glock] in *. f_equal.
    destruct (deref heap (lc_scan c)) as [sc|]; [|discriminate E]. cbn [bind] in *. destruct gm as [g|]; [|discriminate E].
    destruct (match_scan _ _ _ _ _) as [[[score corr] cov]|]; [|discriminate E]. cbn [bind] in *.
    destruct (nfinite score && _); injection E as <- <-; reflexivity.
  - injection E as E. cbn [sh_heap unlock_g set_glock] in *. f_equal.
    destruct (deref heap (lc_scan c)) as [sc|]; [|discriminate E]. cbn [bind] in *. injection E as <- <-. reflexivity.
  - injection E as E. cbn [sh_heap unlock_g set_glock] in *. f_equal.
    destruct (deref heap cand) as [cd|]; [|discriminate E]. cbn [bind] in *.
    destruct (deref heap (lc_scan c)) as [sc|]; [|discriminate E]. cbn [bind] in *. injection E as <- <-. reflexivity.
  - injection E as <- <-. reflexivity.
Qed.

Lemma pub_free : forall s p s' p', sh_glock s = Some TSpin -> pub_g (pb_pc p) = false -> pub_step cf s p = Some (Ok (s', p')) ->
  pub_step cf (unlock_g s) p = Some (Ok (unlock_g s', p')).
Proof.
  intros s p s' p' G N E. destruct s as [heap scans cons fl gk pk ro od ty en ini gm tr]. cbn [sh_glock] in G. subst gk.
  unfold pub_step in *. destruct (pb_pc p); try discriminate N; try discriminate E; try (injection E as <- <-; reflexivity).
  unfold lock_p in *. cbn [sh_plock unlock_g set_glock] in *. destruct (locked pk); [discriminate E|]. injection E as <- <-. reflexivity.
Qed.

(** Steps of the other threads while a request waits or works. *)
Lemma other_free : forall m m' l m1, lock_inv m -> without_request m = Some m1 -> (l = Loop \/ l = Pub) -> step cf l m = Some (Ok m') ->
  exists m1', step cf l m1 = Some (Ok m1') /\ without_request m' = Some m1'.
Proof.
  intros m m' l m1 I W L S. destruct m as [s sp lp pb]. destruct I as (I1 & I2 & I3 & _). cbn [mp_sh mp_spin mp_loop mp_pub] in *.
  unfold without_request in *. cbn [mp_sh mp_spin mp_loop mp_pub] in *.
  assert (H : sh_glock s = Some TSpin \/ spin_g (sp_pc sp) = false).
  { destruct (spin_g (sp_pc sp)); [left|right; reflexivity]. destruct (sh_glock s) as [[]|]; try discriminate I1. reflexivity. }
  destruct L as [-> | ->]; cbn [step mp_sh mp_spin mp_loop mp_pub] in *.
  - destruct (loop_step cf s lp) as [[[s' l']|]|] eqn:E; try discriminate S. cbn [option_map bind] in S. injection S as <-. cbn [mp_sh mp_spin mp_loop mp_pub].
    destruct (sp_pc sp) eqn:Pc; try discriminate W; injection W as <-; cbn [mp_sh mp_spin mp_loop mp_pub].
    all: try (rewrite E; cbn [option_map bind]; eexists; split; reflexivity).
    all: destruct H as [H|H]; [|discriminate H]; rewrite H in I2; cbn in I2;
      rewrite (loop_free s lp s' l' H (eq_sym I2) E); cbn [option_map bind]; eexists; split; reflexivity.
  - destruct (pub_step cf s pb) as [[[s' p']|]|] eqn:E; try discriminate S. cbn [option_map bind] in S. injection S as <-. cbn [mp_sh mp_spin mp_loop mp_pub].
    destruct (sp_pc sp) eqn:Pc; try discriminate W; injection W as <-; cbn [mp_sh mp_spin mp_loop mp_pub].
    all: try (rewrite E; cbn [option_map bind]; eexists; split; reflexivity).
    all: destruct H as [H|H]; [|discriminate H]; rewrite H in I3; cbn in I3;
      rewrite (pub_free s pb s' p' H (eq_sym I3) E); cbn [option_map bind]; eexists; split; reflexivity.
Qed.

(** A request without its file part. *)
Lemma begin_free : forall m a file m' m1, step cf (Deliver (EvConfigure a file)) m = Some (Ok m') -> without_request m' = Some m1 ->
  step cf (Deliver (EvConfigure (Z.land a 3) file)) m = Some (Ok m1).
Proof.
  intros m a file m' m1 S W. cbn [step] in *. unfold deliver in *. destruct (sp_pc (mp_spin m)) eqn:Pc; try discriminate S.
  cbn [option_map] in *. rewrite configure_eq in *. cbn [bind] in *. match type of S with Some (Ok ?x) = _ => assert (m' = x) as -> by congruence end. f_equal. f_equal.
  unfold after_mapping_bits. rewrite !Z.land_spec.
  change (Z.testbit 3 0) with true. change (Z.testbit 3 1) with true. change (Z.testbit 3 2) with false. change (Z.testbit 3 3) with false.
  rewrite !andb_true_r, !andb_false_r.
  unfold without_request in W. cbn [mp_spin sp_pc at_pc mp_sh mp_loop mp_pub] in W.
  revert W. destruct (Z.testbit a 2), (Z.testbit a 3); intro W; try discriminate W; injection W as <-; unfold after_mapping_bits; reflexivity.
Qed.

Lemma failing_inv : forall m, reach_failing m -> reachable cf m /\ forall m1, without_request m = Some m1 -> reachable cf m1.
Proof.
  intros m R. induction R as [m E|m l m' R (IH & IW) S|m m' R (IH & IW) F].
  - split; [exists []; exact E|]. intros m1 W. exfalso. unfold run in E. apply bind_ok in E. destruct E as (m0 & E & Q). injection Q as <-.
    apply init_cases in E. destruct E as (s & f & -> & _). discriminate W.
  - split; [exact (reach_one m l m' IH S)|]. intros m1 W. pose proof (lock_inv_reachable cf m IH) as Li.
    destruct l as [[e|e|a file]| | |].
    + exfalso. apply step_cases in S. inversion S as [e0 s' sp' Id D| | |]; subst. unfold without_request in W. cbn [mp_spin] in W.
      inversion D; subst; cbn in W; try discriminate W.
      all: match goal with Q : sp_pc ?x = _, W : match sp_pc ?x with _ => _ end = _ |- _ => rewrite Q in W end; try discriminate W. all: unfold run_pc in W; destruct (use_filter cf), (sh_enable (mp_sh m)); discriminate W.
    + exfalso. apply step_cases in S. inversion S as [e0 s' sp' Id D| | |]; subst. unfold without_request in W. cbn [mp_spin] in W.
      inversion D; subst; cbn in W; try discriminate W. all: try (rewrite Id in W; discriminate W).
    + exact (reach_one m _ m1 IH (begin_free m a file m' m1 S W)).
    + destruct (without_request m) as [m2|] eqn:W2.
      * assert (m2 = m1 \/ without_request m' = None) as [<-|N]; [|apply IW; reflexivity|rewrite N in W; discriminate W].
        destruct m as [s sp lp pb]. unfold without_request in W2. cbn [mp_spin mp_sh mp_loop mp_pub] in W2.
        cbn [step mp_spin mp_sh] in S. unfold spin_step in S. destruct Li as (L1 & _). cbn [mp_sh mp_spin] in L1.
        destruct (sp_pc sp) eqn:Pc; try discriminate W2; injection W2 as <-.
        -- unfold lock_g in S. destruct (sh_glock s) eqn:G; [discriminate S|]. cbn in S. injection S as <-. cbn in W. injection W as <-. left.
           destruct s; cbn in G; subst; reflexivity.
        -- cbn [option_map bind] in S. injection S as <-. right. reflexivity.
        -- unfold lock_g in S. destruct (sh_glock s) eqn:G; [discriminate S|]. cbn in S. injection S as <-. cbn in W. injection W as <-. left.
           destruct s; cbn in G; subst; reflexivity.
        -- destruct (the_graph cf s); [|discriminate S]. cbn [option_map bind] in S. injection S as <-. right. reflexivity.
      * exfalso. apply step_cases in S. inversion S as [|s' sp' D| |]; subst. unfold without_request in W, W2. cbn [mp_spin] in W.
        destruct D; cbn in W; try discriminate W;
          try (match goal with W : context [match (if ?b then _ else _) with _ => _ end] |- _ => destruct b; discriminate W end);
          match goal with Q : sp_pc (mp_spin m) = _ |- _ => rewrite Q in W2; discriminate W2 end.
    + destruct (without_request m) as [m2|] eqn:W2.
      * destruct (other_free m m' Loop m2 Li W2 (or_introl eq_refl) S) as (m3 & S3 & W3). rewrite W in W3. injection W3 as <-.
        exact (reach_one m2 Loop m1 (IW m2 eq_refl) S3).
      * exfalso. apply step_cases in S. inversion S; subst. unfold without_request in W, W2. cbn [mp_spin] in W.
        destruct (sp_pc (mp_spin m)); first [discriminate W|discriminate W2].
    + destruct (without_request m) as [m2|] eqn:W2.
      * destruct (other_free m m' Pub m2 Li W2 (or_intror eq_refl) S) as (m3 & S3 & W3). rewrite W in W3. injection W3 as <-.
        exact (reach_one m2 Pub m1 (IW m2 eq_refl) S3).
      * exfalso. apply step_cases in S. inversion S; subst. unfold without_request in W, W2. cbn [mp_spin] in W.
        destruct (sp_pc (mp_spin m)); first [discriminate W|discriminate W2].
  - assert (W : without_request m = Some m').
    { unfold file_exception in F. unfold without_request. destruct (sp_pc (mp_spin m)); try discriminate F; exact F. }
    split; [exact (IW m' W)|]. intros m1 W1. exfalso. unfold file_exception in F.
    destruct (sp_pc (mp_spin m)); try discriminate F; injection F as <-; discriminate W1.
Qed.

Lemma run_failing : forall ls m, run cf ls = Ok m -> reach_failing m.
Proof.
  intros ls m E. unfold run in E. apply bind_ok in E. destruct E as (m0 & E0 & E).
  assert (R : reach_failing m0) by (apply rf_start; unfold run; rewrite E0; reflexivity).
  clear E0. revert m0 R E. induction ls as [|l ls IH]; intros m0 R E; cbn [exec] in E; [injection E as <-; exact R|].
  destruct (step cf l m0) as [[m1|]|] eqn:S; [|discriminate E|exact (IH m0 R E)].
  exact (IH m1 (rf_step m0 l m1 R S) E).
Qed.
End IO.

(** Files that fail lead nowhere the node cannot be without them, whatever the other
    threads do meanwhile: all that is proved of the states of the node still holds. *)
Theorem C186_no_new_states : forall {T} {A : Arith T} (cf : config T) m, reach_failing cf m -> reachable cf m.
Proof. intros T A cf m R. exact (proj1 (failing_inv cf m R)). Qed.
Print Assumptions C186_no_new_states.

(** A load that fails while the publisher waits for the graph. *)
Definition waiting (m : mapper b64) : bool :=
  match file_exception m, pb_pc (mp_pub m) with Some _, PGridLock => true | _, _ => false end.
Example C186_states_nonvacuous : forall lm : libm, exists m m',
  reach_failing (A := BA (easy lm)) (cf64 lm 10 1 0 None true (Some two_scans)) m /\ file_exception m = Some m' /\ pb_pc (mp_pub m) = PGridLock /\
  reach_failing (A := BA (easy lm)) (cf64 lm 10 1 0 None true (Some two_scans)) m'.
Proof.
  intro lm.
  destruct (ends64_in (run (A := BA (easy lm)) (cf64 lm 10 1 0 None true (Some two_scans)) [Pub; Pub; Deliver (EvConfigure 4 []); Spin]) waiting) as (m & E & H).
  { vm_compute. reflexivity. }
  apply (run_failing (A := BA (easy lm))) in E. unfold waiting in H.
  destruct (file_exception m) as [m'|] eqn:F; [|discriminate H]. destruct (pb_pc (mp_pub m)) eqn:P; try discriminate H.
  exists m, m'. split; [exact E|]. split; [exact F|]. split; [exact P|]. exact (rf_fail (A := BA (easy lm)) _ m m' E F).
Qed.
