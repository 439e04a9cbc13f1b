(** Proofs about the scan matcher, exact arithmetic unless stated otherwise. *)

From Coq Require Import ZArith Reals List Bool Lia Lra Psatz Permutation.
From Flocq Require Import Core.
From Verif Require Import Outcome Arith TypesModel CellModel ScanModel NdtModel MatcherModel
  SpecStats SpecGrid SpecSearch SumLemmas RTactics CellProofs CellProofs2 NdtProofs NdtProofs2.
Import ListNotations.
Local Open Scope R_scope.

(** * Loop values *)

Lemma loop_values_shape (size res : R) (fuel : nat) :
  forall d l, loop_values fuel d size res = Ok l ->
  l = map (fun k => d + INR k * res) (seq 0 (length l)) /\
  (forall x, In x l -> x < size) /\ size <= d + INR (length l) * res.
Proof.
  induction fuel as [|f IH]; intros d l H; cbn [loop_values] in H; [discriminate|].
  cbn [nlt nadd RA] in H. destruct (Rlt_bool_spec d size) as [Hd|Hd].
  - apply bind_ok in H. destruct H as (ds & Hds & H). injection H as <-.
    destruct (IH _ _ Hds) as (E & Hlt & Hend). split; [|split].
    + cbn [length seq map]. f_equal; [cbn; lra|].
      rewrite E at 1. rewrite <- seq_shift, map_map. apply map_ext. intros k. rewrite S_INR. lra.
    + intros x [<-|Hx]; [exact Hd|]. apply Hlt. exact Hx.
    + cbn [length]. rewrite S_INR. lra.
  - injection H as <-. cbn. split; [reflexivity|]. split; [tauto|lra].
Qed.

Lemma loop_values_total (size res : R) (n : nat) :
  0 < res -> forall d, size <= d + INR n * res ->
  forall fuel, (n < fuel)%nat -> exists l, loop_values fuel d size res = Ok l.
Proof.
  intros Hr. induction n as [|n IH]; intros d Hd fuel Hf.
  - destruct fuel as [|f]; [lia|]. cbn [loop_values nlt RA]. cbn in Hd.
    rewrite Rlt_bool_false by lra. eexists; reflexivity.
  - destruct fuel as [|f]; [lia|]. cbn [loop_values nlt nadd RA].
    destruct (Rlt_bool_spec d size) as [H|H]; [|eexists; reflexivity].
    rewrite S_INR in Hd. destruct (IH (d + res)) with (fuel := f) as [l Hl]; [lra|lia|].
    rewrite Hl. eexists; reflexivity.
Qed.

(** The number of iterations. *)
Lemma loop_count (size res : R) (n : nat) :
  0 < res ->
  (forall k, (k < n)%nat -> - size + INR k * res < size) -> size <= - size + INR n * res ->
  n = Z.to_nat (Zceil (2 * size / res)).
Proof.
  intros Hr Hlt Hge.
  assert (Hi : 0 < / res) by (apply Rinv_0_lt_compat; exact Hr).
  assert (Ediv : 2 * size / res * res = 2 * size) by (field; lra).
  destruct n as [|n].
  - cbn in Hge. assert (2 * size / res <= 0).
    { apply (Rmult_le_reg_r res); [exact Hr|]. lra. }
    assert (Zceil (2 * size / res) <= 0)%Z by (apply Zceil_glb; exact H). lia.
  - assert (Hn : (Zceil (2 * size / res) = Z.of_nat (S n))%Z).
    { apply Zceil_imp. specialize (Hlt n (Nat.lt_succ_diag_r n)). split.
      - rewrite minus_IZR, <- INR_IZR_INZ, S_INR.
        apply (Rmult_lt_reg_r res); [exact Hr|]. lra.
      - rewrite <- INR_IZR_INZ. apply (Rmult_le_reg_r res); [exact Hr|]. lra. }
    lia.
Qed.

Lemma loop_values_axis (size res : R) (fuel : nat) (l : list R) :
  0 < res -> loop_values fuel (- size) size res = Ok l -> l = axis size res.
Proof.
  intros Hr H. destruct (loop_values_shape _ _ _ _ _ H) as (E & Hlt & Hend).
  unfold axis. rewrite <- (loop_count size res (length l) Hr); [exact E| |exact Hend].
  intros k Hk. apply Hlt. rewrite E. apply in_map_iff. exists k. split; [reflexivity|].
  apply in_seq. lia.
Qed.

Lemma axis_terminates (size res : R) :
  0 < res -> exists n, forall fuel, (n < fuel)%nat -> loop_values fuel (- size) size res = Ok (axis size res).
Proof.
  intros Hr. exists (Z.to_nat (Zceil (2 * size / res))). intros fuel Hf.
  destruct (loop_values_total size res (Z.to_nat (Zceil (2 * size / res))) Hr (- size)) with (fuel := fuel) as [l Hl].
  - assert (Ediv : 2 * size / res * res = 2 * size) by (field; lra).
    pose proof (Zceil_ub (2 * size / res)) as Hub.
    assert (IZR (Zceil (2 * size / res)) <= INR (Z.to_nat (Zceil (2 * size / res)))).
    { rewrite INR_IZR_INZ. apply IZR_le. lia. }
    assert (2 * size / res * res <= INR (Z.to_nat (Zceil (2 * size / res))) * res)
      by (apply Rmult_le_compat_r; lra). lra.
  - exact Hf.
  - rewrite Hl. f_equal. eapply loop_values_axis; eassumption.
Qed.

Lemma axis_range (size res d : R) : 0 < res -> In d (axis size res) -> - size <= d < size.
Proof.
  intros Hr Hd. destruct (axis_terminates size res Hr) as [n Hn].
  specialize (Hn (S n) (Nat.lt_succ_diag_r n)).
  destruct (loop_values_shape _ _ _ _ _ Hn) as (_ & Hlt & _).
  split; [|apply Hlt; exact Hd].
  unfold axis in Hd. apply in_map_iff in Hd. destruct Hd as (k & <- & _).
  assert (0 <= INR k * res) by (apply Rmult_le_pos; [apply pos_INR|lra]). lra.
Qed.

Lemma axis_zero (size res : R) (k : nat) : 0 < res -> (0 < k)%nat -> size = INR k * res -> In 0 (axis size res).
Proof.
  intros Hr Hk E. unfold axis. apply in_map_iff. exists k. split; [lra|].
  apply in_seq. split; [lia|]. cbn.
  assert (Hk' : 0 < INR k) by (apply lt_0_INR; exact Hk).
  replace (2 * size / res) with (IZR (2 * Z.of_nat k)).
  - rewrite Zceil_IZR. lia.
  - rewrite mult_IZR, <- INR_IZR_INZ, E. field. lra.
Qed.

(** * Selected beams *)

Lemma mapM_app {X Y} (f : X -> outcome Y) (a b : list X) :
  mapM f (a ++ b) = bind (mapM f a) (fun x => bind (mapM f b) (fun y => Ok (x ++ y))).
Proof.
  induction a as [|x a IH]; cbn [app mapM bind].
  - destruct (mapM f b); reflexivity.
  - destruct (f x) as [y|e]; cbn [bind]; [|reflexivity]. rewrite IH.
    destruct (mapM f a); cbn [bind]; [|reflexivity]. destruct (mapM f b); reflexivity.
Qed.

Lemma mapM_length {X Y} (f : X -> outcome Y) (a : list X) (b : list Y) :
  mapM f a = Ok b -> length b = length a.
Proof.
  revert b. induction a as [|x a IH]; cbn [mapM]; intros b H; [injection H as <-; reflexivity|].
  apply bind_ok in H. destruct H as (y & _ & H). apply bind_ok in H. destruct H as (ys & Hys & H).
  injection H as <-. cbn. f_equal. apply IH. exact Hys.
Qed.

Lemma beam_points_length {T} {A : Arith T} (m : matcher T) (pts bp : list (point T)) :
  beam_points m pts = Ok bp -> length bp = Z.to_nat (beams_used m pts).
Proof.
  intros H. unfold beam_points in H. apply mapM_length in H.
  rewrite H, map_length, seq_length. reflexivity.
Qed.

(** scorePoints scores the selected beams moved to the pose. *)
Lemma score_points_spec (m : matcher R) (g : ndt R) (pts : list (point R)) (q : pose R) (v : R) :
  k_ndt m = Some g ->
  (score_points m pts q = Ok v <->
   exists bp l, beam_points m pts = Ok bp /\ ndt_likelihood_points g (map (move q) bp) = Ok l /\
     v = - l / IZR (beams_used m pts)).
Proof.
  intros Hg. unfold score_points. rewrite Hg. unfold beam_points, ndt_likelihood_points.
  set (step := scan_step_size m pts). set (n := IZR (beams_used m pts)).
  assert (Gen : forall is (acc acc' v : R), acc' = - acc ->
    (bind (foldM (fun score i => bind (beam_index step i) (fun idx => bind (vec_get pts idx)
       (fun q0 => bind (ndt_likelihood g (iso_apply q q0)) (fun l => Ok (nadd score (nopp l)))))) acc' is)
       (fun score => Ok (ndiv score (nofZ (beams_used m pts)))) = Ok v <->
     exists bp l, mapM (fun i => bind (beam_index step i) (fun idx => vec_get pts idx)) is = Ok bp /\
       foldM (fun score p => bind (ndt_likelihood g p) (fun l => Ok (nadd score l))) acc (map (move q) bp) = Ok l /\
       v = - l / n)).
  { induction is as [|i is IH]; cbn [foldM mapM]; intros acc acc' v' E.
    - cbn [bind]. ra. split.
      + intros H. injection H as <-. exists [], acc. subst acc'. cbn. repeat split.
      + intros (bp & l & Hbp & Hl & ->). injection Hbp as <-. cbn in Hl. injection Hl as <-. subst acc'. reflexivity.
    - destruct (beam_index step i) as [idx|e]; cbn [bind].
      2:{ split; [discriminate|]. intros (bp & l & H & _). discriminate. }
      destruct (vec_get pts idx) as [q0|e]; cbn [bind].
      2:{ split; [discriminate|]. intros (bp & l & H & _). discriminate. }
      rewrite iso_move. destruct (ndt_likelihood g (move q q0)) as [lk|e] eqn:El; cbn [bind].
      2:{ split; [discriminate|]. intros (bp & l & H & Hl & _).
          apply bind_ok in H. destruct H as (bp' & _ & H). injection H as <-. cbn [map foldM] in Hl.
          rewrite El in Hl. discriminate. }
      rewrite (IH (acc + lk) (nadd acc' (nopp lk)) v'); [|ra; lra]. split.
      + intros (bp & l & Hbp & Hl & ->). exists (q0 :: bp), l. rewrite Hbp. cbn [bind map foldM].
        rewrite El. cbn [bind]. ra. repeat split. exact Hl.
      + intros (bp & l & Hbp & Hl & ->). apply bind_ok in Hbp. destruct Hbp as (bp' & Hbp' & Hb).
        injection Hb as <-. cbn [map foldM] in Hl. rewrite El in Hl. cbn [bind] in Hl.
        exists bp', l. ra_in Hl. repeat split; assumption. }
  apply Gen. ra. lra.
Qed.

(** * The candidate fold *)

(** State update for one candidate with a known score. *)
Definition wstep (w : mstate R) (cs : pose R * R) : mstate R :=
  let c := fst cs in let score := snd cs in
  let better := Rlt_bool score (w_best w) in
  mkMstate (if better then score else w_best w) (if better then c else w_pose w)
    (mat3_add (w_k w) (mat3_scale (outer3 (mkVec3 (pox c) (poy c) (poth c)) (mkVec3 (pox c) (poy c) (poth c))) score))
    (vec3_add (w_u w) (vec3_scale (mkVec3 (pox c) (poy c) (poth c)) score))
    (w_s w + score).

Lemma cand_points (sp : pose R) (dth dx dy : R) (bp : list (point R)) :
  inner_points dx dy (outer_points sp dth bp) = map (move (pose_plus sp (mkPose dx dy dth))) bp.
Proof.
  unfold inner_points, outer_points. rewrite map_map. apply map_ext. intros p.
  unfold move, pose_plus. cbn [pox poy poth px py]. ra. f_equal; ring.
Qed.

Definition good_pair (g : ndt R) (sp : pose R) (bp : list (point R)) (cs : pose R * R) : Prop :=
  ndt_likelihood_points g (map (move (pose_plus sp (fst cs))) bp) = Ok (- snd cs).

Lemma inner_fold (g : ndt R) (sp : pose R) (bp : list (point R)) (dth dx : R) (dys : list R) :
  forall w w', foldM (match_step g (outer_points sp dth bp) dth dx) w dys = Ok w' ->
  exists l, map fst l = map (fun dy => mkPose dx dy dth) dys /\ Forall (good_pair g sp bp) l /\ w' = fold_left wstep l w.
Proof.
  induction dys as [|dy dys IH]; cbn [foldM map]; intros w w' H.
  - injection H as <-. exists []. repeat split. constructor.
  - apply bind_ok in H. destruct H as (w1 & H1 & H2).
    unfold match_step in H1. apply bind_ok in H1. destruct H1 as (lk & Hlk & H1).
    rewrite cand_points in Hlk.
    destruct (IH _ _ H2) as (l & Hm & Hf & ->).
    exists ((mkPose dx dy dth, - lk) :: l). cbn [map fst fold_left]. split; [congruence|]. split.
    + constructor; [|exact Hf]. unfold good_pair. cbn [fst snd]. rewrite Hlk. f_equal. ring.
    + f_equal. injection H1 as <-. reflexivity.
Qed.

Lemma middle_fold (g : ndt R) (sp : pose R) (bp : list (point R)) (dth : R) (dys dxs : list R) :
  forall w w', foldM (fun w dx => foldM (match_step g (outer_points sp dth bp) dth dx) w dys) w dxs = Ok w' ->
  exists l, map fst l = flat_map (fun dx => map (fun dy => mkPose dx dy dth) dys) dxs /\
    Forall (good_pair g sp bp) l /\ w' = fold_left wstep l w.
Proof.
  induction dxs as [|dx dxs IH]; cbn [foldM flat_map]; intros w w' H.
  - injection H as <-. exists []. repeat split. constructor.
  - apply bind_ok in H. destruct H as (w1 & H1 & H2).
    destruct (inner_fold _ _ _ _ _ _ _ _ H1) as (l1 & M1 & F1 & ->).
    destruct (IH _ _ H2) as (l2 & M2 & F2 & ->).
    exists (l1 ++ l2). rewrite map_app, M1, M2, fold_left_app. split; [reflexivity|]. split; [|reflexivity].
    apply Forall_app. split; assumption.
Qed.

Lemma outer_fold (B : outcome (list (point R))) (g : ndt R) (sp : pose R) (ds dths : list R) :
  forall w w',
  foldM (fun w dth => bind B (fun bp => let outer := outer_points sp dth bp in
           foldM (fun w dx => foldM (match_step g outer dth dx) w ds) w ds)) w dths = Ok w' ->
  exists l, map fst l = flat_map (fun dth => flat_map (fun dx => map (fun dy => mkPose dx dy dth) ds) ds) dths /\
    (dths = [] \/ exists bp, B = Ok bp /\ Forall (good_pair g sp bp) l) /\ w' = fold_left wstep l w.
Proof.
  induction dths as [|dth dths IH]; cbn [foldM flat_map]; intros w w' H.
  - injection H as <-. exists []. repeat split. left; reflexivity.
  - apply bind_ok in H. destruct H as (w1 & H1 & H2).
    apply bind_ok in H1. destruct H1 as (bp & HB & H1). cbv zeta in H1.
    destruct (middle_fold _ _ _ _ _ _ _ _ H1) as (l1 & M1 & F1 & ->).
    destruct (IH _ _ H2) as (l2 & M2 & F2 & ->).
    exists (l1 ++ l2). rewrite map_app, M1, M2, fold_left_app. split; [reflexivity|]. split; [|reflexivity].
    right. exists bp. split; [exact HB|]. apply Forall_app. split; [exact F1|].
    destruct F2 as [E|(bp' & HB' & F2)].
    + subst dths. cbn in M2. destruct l2; [constructor|discriminate].
    + rewrite HB in HB'. injection HB' as <-. exact F2.
Qed.

(** matchScan in terms of the candidate list. *)
Definition w_init (p : pose R) : mstate R := mkMstate 0 p mat3_zero vec3_zero 0.

Lemma match_scan_candidates (fuel : nat) (m : matcher R) (g : ndt R) (s : scan R) (p p' : pose R) (cov cov' : mat3 R) (r : R) :
  k_ndt m = Some g -> 0 < k_ang_res m -> 0 < k_lin_res m ->
  match_scan fuel m s p cov = Ok (r, p', cov') ->
  exists l w,
    map fst l = lattice (k_lin_size m) (k_lin_res m) (k_ang_size m) (k_ang_res m) /\
    (l = [] \/ exists bp, beam_points m (s_pts s) = Ok bp /\ Forall (good_pair g (s_pose s) bp) l) /\
    w = fold_left wstep l (w_init p) /\
    r = w_best w / IZR (beams_used m (s_pts s)) /\ p' = w_pose w /\ cov' = match_covariance w.
Proof.
  intros Hg Hra Hrl H. unfold match_scan in H. rewrite Hg in H.
  apply bind_ok in H. destruct H as (dths & Hth & H).
  apply bind_ok in H. destruct H as (ds & Hds & H).
  apply bind_ok in H. destruct H as (w & Hw & H).
  apply loop_values_axis in Hth; [|exact Hra]. apply loop_values_axis in Hds; [|exact Hrl]. subst dths ds.
  destruct (outer_fold _ _ _ _ _ _ _ Hw) as (l & Hl & Hb & Ew).
  exists l, w. split; [exact Hl|]. split; [|split; [exact Ew|]].
  - destruct Hb as [E|Hb]; [left|right; exact Hb].
    rewrite E in Hl. cbn in Hl. destruct l; [reflexivity|discriminate].
  - injection H as E1 E2 E3. ra_in E1. repeat split; congruence.
Qed.

(** First minimum below the initial value. *)
Lemma best_spec (l : list (pose R * R)) :
  forall w, let w' := fold_left wstep l w in
  (forall c sc, In (c, sc) l -> w_best w' <= sc) /\ w_best w' <= w_best w /\
  ((w_best w' = w_best w /\ w_pose w' = w_pose w /\ forall c sc, In (c, sc) l -> w_best w <= sc) \/
   (exists pre post, l = pre ++ (w_pose w', w_best w') :: post /\ w_best w' < w_best w /\
      forall c sc, In (c, sc) pre -> w_best w' < sc)).
Proof.
  induction l as [|[c sc] l IH]; intros w; cbn [fold_left]; cbv zeta.
  - split; [cbn; tauto|]. split; [lra|]. left. repeat split. cbn; tauto.
  - specialize (IH (wstep w (c, sc))). cbv zeta in IH.
    set (w' := fold_left wstep l (wstep w (c, sc))) in *. clearbody w'.
    destruct IH as (Hall & Hle & Hcase).
    cbn [wstep w_best w_pose fst snd] in Hle, Hcase.
    destruct (Rlt_bool_spec sc (w_best w)) as [Hb|Hb].
    + split; [intros c' sc' [E|Hin]; [injection E as <- <-; exact Hle|eapply Hall; exact Hin]|].
      split; [lra|]. right. destruct Hcase as [(E1 & E2 & _)|(pre & post & El & Hlt & Hpre)].
      * exists [], l. cbn. rewrite E1, E2. repeat split; [lra|tauto].
      * exists ((c, sc) :: pre), post. cbn. rewrite El. split; [reflexivity|]. split; [lra|].
        intros c' sc' [E|Hin]; [injection E as <- <-; lra|eapply Hpre; exact Hin].
    + split; [intros c' sc' [E|Hin]; [injection E as <- <-; lra|eapply Hall; exact Hin]|].
      split; [exact Hle|]. destruct Hcase as [(E1 & E2 & H3)|(pre & post & El & Hlt & Hpre)].
      * left. split; [exact E1|]. split; [exact E2|].
        intros c' sc' [E|Hin]; [injection E as <- <-; exact Hb|eapply H3; exact Hin].
      * right. exists ((c, sc) :: pre), post. cbn. rewrite El. split; [reflexivity|]. split; [lra|].
        intros c' sc' [E|Hin]; [injection E as <- <-; lra|eapply Hpre; exact Hin].
Qed.

(** Sums accumulated by the fold. *)
Lemma fold_sums (l : list (pose R * R)) :
  forall w, let w' := fold_left wstep l w in
  w_s w' = w_s w + sumf snd l /\
  v0 (w_u w') = v0 (w_u w) + sumf (fun cs => snd cs * pox (fst cs)) l /\
  v1 (w_u w') = v1 (w_u w) + sumf (fun cs => snd cs * poy (fst cs)) l /\
  v2 (w_u w') = v2 (w_u w) + sumf (fun cs => snd cs * poth (fst cs)) l /\
  a00 (w_k w') = a00 (w_k w) + sumf (fun cs => snd cs * (pox (fst cs) * pox (fst cs))) l /\
  a01 (w_k w') = a01 (w_k w) + sumf (fun cs => snd cs * (pox (fst cs) * poy (fst cs))) l /\
  a02 (w_k w') = a02 (w_k w) + sumf (fun cs => snd cs * (pox (fst cs) * poth (fst cs))) l /\
  a10 (w_k w') = a10 (w_k w) + sumf (fun cs => snd cs * (poy (fst cs) * pox (fst cs))) l /\
  a11 (w_k w') = a11 (w_k w) + sumf (fun cs => snd cs * (poy (fst cs) * poy (fst cs))) l /\
  a12 (w_k w') = a12 (w_k w) + sumf (fun cs => snd cs * (poy (fst cs) * poth (fst cs))) l /\
  a20 (w_k w') = a20 (w_k w) + sumf (fun cs => snd cs * (poth (fst cs) * pox (fst cs))) l /\
  a21 (w_k w') = a21 (w_k w) + sumf (fun cs => snd cs * (poth (fst cs) * poy (fst cs))) l /\
  a22 (w_k w') = a22 (w_k w) + sumf (fun cs => snd cs * (poth (fst cs) * poth (fst cs))) l.
Proof.
  induction l as [|[c sc] l IH]; intros w; cbn [fold_left sumf]; cbv zeta.
  - repeat split; lra.
  - specialize (IH (wstep w (c, sc))). cbv zeta in IH.
    set (w' := fold_left wstep l (wstep w (c, sc))) in *. clearbody w'.
    destruct IH as (E & E0 & E1 & E2 & F0 & F1 & F2 & F3 & F4 & F5 & F6 & F7 & F8).
    cbn [fst snd].
    cbn [wstep w_s w_u w_k fst snd vec3_add vec3_scale v0 v1 v2 mat3_add mat3_map2 mat3_scale outer3
         a00 a01 a02 a10 a11 a12 a20 a21 a22] in *.
    ra_in E0. ra_in E1. ra_in E2. ra_in F0. ra_in F1. ra_in F2. ra_in F3. ra_in F4. ra_in F5. ra_in F6. ra_in F7. ra_in F8.
    rewrite E, E0, E1, E2, F0, F1, F2, F3, F4, F5, F6, F7, F8. repeat split; ring.
Qed.
