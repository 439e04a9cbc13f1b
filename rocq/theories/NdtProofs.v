(** Proofs about the NDT grid. *)

From Coq Require Import ZArith Reals List Bool Lia Lra Psatz Permutation.
From Flocq Require Import Core.
From Verif Require Import Outcome Arith TypesModel CellModel ScanModel NdtModel
  SpecStats SpecGrid SumLemmas RTactics CellProofs CellProofs2.
Import ListNotations.

(** * List and outcome helpers *)

Lemma nth_error_list_set {X} (l : list X) (i j : nat) (x : X) :
  nth_error (list_set l i x) j =
  if (Nat.eqb i j && Nat.ltb j (length l))%bool then Some x else nth_error l j.
Proof.
  revert i j. induction l as [|y l IH]; intros [|i] [|j]; cbn; try reflexivity.
  - destruct (Nat.eqb i j); reflexivity.
  - rewrite IH. cbn. reflexivity.
Qed.

Lemma length_list_set {X} (l : list X) (i : nat) (x : X) : length (list_set l i x) = length l.
Proof. revert i. induction l as [|y l IH]; intros [|i]; cbn; auto. Qed.

Lemma vec_get_ok {X} (l : list X) (i : Z) :
  (0 <= i < Z.of_nat (length l))%Z -> exists x, vec_get l i = Ok x /\ nth_error l (Z.to_nat i) = Some x.
Proof.
  intros H. unfold vec_get. destruct (Z.ltb_spec i 0); [lia|].
  destruct (nth_error l (Z.to_nat i)) eqn:E; [eexists; split; reflexivity|].
  apply nth_error_None in E. lia.
Qed.

Lemma vec_get_inv {X} (l : list X) (i : Z) (x : X) :
  vec_get l i = Ok x -> (0 <= i < Z.of_nat (length l))%Z /\ nth_error l (Z.to_nat i) = Some x.
Proof.
  unfold vec_get. destruct (Z.ltb_spec i 0) as [?|Hi]; [discriminate|].
  destruct (nth_error l (Z.to_nat i)) eqn:E; [|discriminate].
  intros Hx. injection Hx as <-. split; [|reflexivity].
  assert (Z.to_nat i < length l)%nat by (apply nth_error_Some; congruence). lia.
Qed.

Lemma vec_get_fault {X} (l : list X) (i : Z) (f : fault) :
  vec_get l i = Fault f -> f = OutOfBounds /\ ~ (0 <= i < Z.of_nat (length l))%Z.
Proof.
  intros H. split.
  - unfold vec_get in H. destruct (i <? 0)%Z; [congruence|].
    destruct (nth_error l (Z.to_nat i)); congruence.
  - intros Hr. destruct (vec_get_ok l i Hr) as (x & Hx & _). congruence.
Qed.

Lemma bind_ok {X Y} (m : outcome X) (k : X -> outcome Y) (y : Y) :
  bind m k = Ok y -> exists x, m = Ok x /\ k x = Ok y.
Proof. destruct m as [x|f]; cbn; [eauto|discriminate]. Qed.

Lemma bind_fault {X Y} (m : outcome X) (k : X -> outcome Y) (f : fault) :
  bind m k = Fault f -> m = Fault f \/ exists x, m = Ok x /\ k x = Fault f.
Proof. destruct m as [x|f']; cbn; [eauto|]. intros H; left; congruence. Qed.

Lemma foldM_app {S X} (f : S -> X -> outcome S) (s : S) (a b : list X) :
  foldM f s (a ++ b) = bind (foldM f s a) (fun s' => foldM f s' b).
Proof.
  revert s. induction a as [|x a IH]; intros s; cbn [foldM app bind]; [reflexivity|].
  destruct (f s x); cbn [bind]; [apply IH|reflexivity].
Qed.

(** An invariant of a fold of a faulting step. *)
Lemma foldM_inv {S X} (I : S -> Prop) (f : S -> X -> outcome S) (xs : list X) :
  (forall s x s', I s -> In x xs -> f s x = Ok s' -> I s') ->
  forall s s', I s -> foldM f s xs = Ok s' -> I s'.
Proof.
  induction xs as [|x xs IH]; cbn [foldM]; intros Hf s s' Hs H.
  - injection H as <-. exact Hs.
  - apply bind_ok in H. destruct H as (s1 & H1 & H2).
    eapply IH; [|eapply Hf; [exact Hs|left; reflexivity|exact H1]|exact H2].
    intros; eapply Hf; eauto. right; assumption.
Qed.

Lemma foldM_fault {S X} (I : S -> Prop) (P : fault -> Prop) (f : S -> X -> outcome S) (xs : list X) :
  (forall s x s', I s -> In x xs -> f s x = Ok s' -> I s') ->
  (forall s x e, I s -> In x xs -> f s x = Fault e -> P e) ->
  forall s e, I s -> foldM f s xs = Fault e -> P e.
Proof.
  induction xs as [|x xs IH]; cbn [foldM]; intros Hi Hf s e Hs H; [discriminate|].
  apply bind_fault in H. destruct H as [H|(s1 & H1 & H2)].
  - eapply Hf; eauto. left; reflexivity.
  - eapply IH; [| |eapply Hi; [exact Hs|left; reflexivity|exact H1]|exact H2].
    + intros; eapply Hi; eauto. right; assumption.
    + intros; eapply Hf; eauto. right; assumption.
Qed.

(** * Every arithmetic: bounds and contents *)
Section Generic.
Context {T : Type} {A : Arith T}.
Local Open Scope Z_scope.

Definition ndt_wf (g : ndt T) : Prop :=
  0 <= g_sx g /\ 0 <= g_sy g /\ g_sx g * g_sy g < 2 ^ 31 /\
  Z.of_nat (length (g_cells g)) = g_sx g * g_sy g.

Lemma cast_unsigned_inv (bits : Z) (x : T) (z : Z) :
  cast_unsigned bits x = Ok z -> ntrunc x = Some z /\ 0 <= z < 2 ^ bits.
Proof.
  unfold cast_unsigned. destruct (ntrunc x) as [w|]; [|discriminate].
  destruct (Z.leb_spec 0 w); destruct (Z.ltb_spec w (2 ^ bits)); cbn; try discriminate.
  intros H1. injection H1 as <-. auto.
Qed.

Lemma cast_unsigned_fault (bits : Z) (x : T) (f : fault) :
  cast_unsigned bits x = Fault f -> f = BadCast.
Proof.
  unfold cast_unsigned. destruct (ntrunc x) as [w|]; [|congruence].
  destruct (0 <=? w); destruct (w <? 2 ^ bits); cbn; congruence.
Qed.

Lemma to_int32_small (z : Z) : 0 <= z < 2 ^ 31 -> to_int32 z = z.
Proof.
  intros H. unfold to_int32, wrap32. rewrite Z.mod_small by lia.
  destruct (Z.ltb_spec z (2 ^ 31)); lia.
Qed.

Lemma wrap64_small (z : Z) : 0 <= z < 2 ^ 64 -> wrap64 z = z.
Proof. intros H. unfold wrap64. apply Z.mod_small. exact H. Qed.

Lemma ndt_index_cases (g : ndt T) (x y : T) (i : Z) :
  ndt_wf g -> ndt_index g x y = Ok i ->
  i = -1 \/
  (nlt x (g_ox g) = false /\ nlt y (g_oy g) = false /\
   exists gx gy, ntrunc (ndiv (nsub x (g_ox g)) (g_cs g)) = Some gx /\
                 ntrunc (ndiv (nsub y (g_oy g)) (g_cs g)) = Some gy /\
                 0 <= gx < g_sx g /\ 0 <= gy < g_sy g /\ i = gy * g_sx g + gx /\ 0 <= i < g_sx g * g_sy g).
Proof.
  intros (Hsx & Hsy & Hn & Hlen) H. unfold ndt_index in H.
  destruct (nlt x (g_ox g)) eqn:Ex; cbn [orb] in H; [left; congruence|].
  destruct (nlt y (g_oy g)) eqn:Ey; cbn [orb] in H; [left; congruence|].
  apply bind_ok in H. destruct H as (gx & Hgx & H).
  apply bind_ok in H. destruct H as (gy & Hgy & H).
  apply cast_unsigned_inv in Hgx. destruct Hgx as [Hgx Rgx].
  apply cast_unsigned_inv in Hgy. destruct Hgy as [Hgy Rgy].
  destruct (Z.leb_spec (g_sx g) gx); cbn [orb] in H; [left; congruence|].
  destruct (Z.leb_spec (g_sy g) gy); cbn [orb] in H; [left; congruence|].
  right. split; [reflexivity|]. split; [reflexivity|].
  exists gx, gy. split; [exact Hgx|]. split; [exact Hgy|]. split; [lia|]. split; [lia|].
  assert (B : 0 <= gy * g_sx g /\ gy * g_sx g + gx < g_sx g * g_sy g) by nia.
  injection H as <-.
  rewrite (wrap64_small (gy * g_sx g)) by lia.
  rewrite (wrap64_small (gy * g_sx g + gx)) by lia.
  rewrite to_int32_small by lia. lia.
Qed.

Lemma ndt_index_bounds (g : ndt T) (x y : T) (i : Z) :
  ndt_wf g -> ndt_index g x y = Ok i -> i = -1 \/ 0 <= i < Z.of_nat (length (g_cells g)).
Proof.
  intros Hw H. destruct (ndt_index_cases g x y i Hw H) as [E|(_ & _ & gx & gy & _ & _ & _ & _ & _ & B)]; [left; exact E|].
  right. destruct Hw as (_ & _ & _ & Hlen). lia.
Qed.

Lemma ndt_index_fault (g : ndt T) (x y : T) (f : fault) :
  ndt_index g x y = Fault f -> f = BadCast.
Proof.
  unfold ndt_index. destruct (nlt x (g_ox g) || nlt y (g_oy g)); [discriminate|].
  intros H. apply bind_fault in H. destruct H as [H|(gx & _ & H)]; [eapply cast_unsigned_fault; eassumption|].
  apply bind_fault in H. destruct H as [H|(gy & _ & H)]; [eapply cast_unsigned_fault; eassumption|].
  destruct ((g_sx g <=? gx) || (g_sy g <=? gy)); discriminate.
Qed.

Lemma ndt_new_wf (cs sx sy ox oy : T) (g : ndt T) :
  ndt_new cs sx sy ox oy = Ok g -> g_sx g * g_sy g < 2 ^ 31 -> ndt_wf g.
Proof.
  unfold ndt_new. intros H Hn.
  apply bind_ok in H. destruct H as (nx & Hx & H). apply bind_ok in H. destruct H as (ny & Hy & H).
  apply cast_unsigned_inv in Hx. apply cast_unsigned_inv in Hy.
  injection H as <-. cbn [g_sx g_sy g_cells] in *. unfold ndt_wf; cbn [g_sx g_sy g_cells].
  rewrite repeat_length. assert (0 <= nx * ny) by nia.
  rewrite wrap64_small by lia. lia.
Qed.

Lemma ndt_new_cells (cs sx sy ox oy : T) (g : ndt T) :
  ndt_new cs sx sy ox oy = Ok g ->
  g_cs g = cs /\ g_ox g = ox /\ g_oy g = oy /\ (forall c, In c (g_cells g) -> c = cell_new).
Proof.
  unfold ndt_new. intros H.
  apply bind_ok in H. destruct H as (nx & Hx & H). apply bind_ok in H. destruct H as (ny & Hy & H).
  injection H as <-. cbn. repeat split. intros c Hc. apply repeat_spec in Hc. exact Hc.
Qed.

(** Same geometry. *)
Definition same_geom (g h : ndt T) : Prop :=
  g_cs g = g_cs h /\ g_sx g = g_sx h /\ g_sy g = g_sy h /\ g_ox g = g_ox h /\ g_oy g = g_oy h /\
  length (g_cells g) = length (g_cells h).

Lemma same_geom_refl (g : ndt T) : same_geom g g.
Proof. repeat split. Qed.
Lemma same_geom_trans (a b c : ndt T) : same_geom a b -> same_geom b c -> same_geom a c.
Proof. intros (A1 & A2 & A3 & A4 & A5 & A6) (B1 & B2 & B3 & B4 & B5 & B6). repeat split; congruence. Qed.
Lemma same_geom_sym (a b : ndt T) : same_geom a b -> same_geom b a.
Proof. intros (A1 & A2 & A3 & A4 & A5 & A6). repeat split; congruence. Qed.

Lemma same_geom_index (g h : ndt T) (x y : T) : same_geom g h -> ndt_index g x y = ndt_index h x y.
Proof. intros (A1 & A2 & A3 & A4 & A5 & A6). unfold ndt_index. rewrite A1, A2, A3, A4, A5. reflexivity. Qed.

Lemma same_geom_wf (g h : ndt T) : same_geom g h -> ndt_wf g -> ndt_wf h.
Proof.
  intros (A1 & A2 & A3 & A4 & A5 & A6) (H1 & H2 & H3 & H4). unfold ndt_wf.
  rewrite <- A2, <- A3, <- A6. auto.
Qed.

Lemma ndt_add_point_geom (g h : ndt T) (p : point T) : ndt_add_point g p = Ok h -> same_geom g h.
Proof.
  unfold ndt_add_point. intros H. apply bind_ok in H. destruct H as (i & Hi & H).
  destruct (0 <=? i); [|injection H as <-; apply same_geom_refl].
  apply bind_ok in H. destruct H as (cells & Hc & H). injection H as <-.
  unfold vec_update in Hc. apply bind_ok in Hc. destruct Hc as (c & Hc & Hs). injection Hs as <-.
  unfold same_geom; cbn. rewrite length_list_set. repeat split.
Qed.

Lemma ndt_add_scan_geom (g h : ndt T) (s : scan T) : ndt_add_scan g s = Ok h -> same_geom g h.
Proof.
  unfold ndt_add_scan. intros H.
  eapply (foldM_inv (same_geom g)); [|apply same_geom_refl|exact H].
  intros a x b Ha _ Hb. eapply same_geom_trans; [exact Ha|]. eapply ndt_add_point_geom; eassumption.
Qed.

Lemma ndt_compute_geom (eig : mat2 T -> T * T) (g : ndt T) : same_geom g (ndt_compute eig g).
Proof. unfold same_geom, ndt_compute; cbn. rewrite map_length. repeat split. Qed.

Lemma ndt_step_geom (eig : mat2 T -> T * T) (g h : ndt T) (o : ndt_op T) :
  ndt_step eig g o = Ok h -> same_geom g h.
Proof.
  destruct o as [s|]; cbn [ndt_step]; intros H; [eapply ndt_add_scan_geom; eassumption|].
  injection H as <-. apply ndt_compute_geom.
Qed.

Lemma ndt_run_geom (eig : mat2 T -> T * T) (g h : ndt T) (ops : list (ndt_op T)) :
  ndt_run eig g ops = Ok h -> same_geom g h.
Proof.
  unfold ndt_run. intros H.
  eapply (foldM_inv (same_geom g)); [|apply same_geom_refl|exact H].
  intros a x b Ha _ Hb. eapply same_geom_trans; [exact Ha|]. eapply ndt_step_geom; eassumption.
Qed.

(** The only undefined behaviour reachable is the double -> unsigned conversion. *)
Lemma ndt_add_point_fault (g : ndt T) (p : point T) (f : fault) :
  ndt_wf g -> ndt_add_point g p = Fault f -> f = BadCast.
Proof.
  intros Hw H. unfold ndt_add_point in H.
  apply bind_fault in H. destruct H as [H|(i & Hi & H)]; [eapply ndt_index_fault; eassumption|].
  destruct (Z.leb_spec 0 i) as [Hpos|Hneg]; [|discriminate].
  destruct (ndt_index_bounds g _ _ i Hw Hi) as [E|B]; [lia|].
  apply bind_fault in H. destruct H as [H|(cells & _ & H)]; [|discriminate].
  unfold vec_update in H. destruct (vec_get_ok (g_cells g) i B) as (c & Hc & _).
  rewrite Hc in H. discriminate.
Qed.

Lemma ndt_add_scan_fault (g : ndt T) (s : scan T) (f : fault) :
  ndt_wf g -> ndt_add_scan g s = Fault f -> f = BadCast.
Proof.
  intros Hw H. unfold ndt_add_scan in H.
  eapply (foldM_fault ndt_wf (fun f => f = BadCast)); [| |exact Hw|exact H].
  - intros a x b Ha _ Hb. eapply same_geom_wf; [|exact Ha]. eapply ndt_add_point_geom; eassumption.
  - intros a x e Ha _ He. eapply ndt_add_point_fault; eassumption.
Qed.

Lemma ndt_run_fault (eig : mat2 T -> T * T) (g : ndt T) (ops : list (ndt_op T)) (f : fault) :
  ndt_wf g -> ndt_run eig g ops = Fault f -> f = BadCast.
Proof.
  intros Hw H. unfold ndt_run in H.
  eapply (foldM_fault ndt_wf (fun f => f = BadCast)); [| |exact Hw|exact H].
  - intros a x b Ha _ Hb. eapply same_geom_wf; [|exact Ha]. eapply ndt_step_geom; eassumption.
  - intros a [s|] e Ha _ He; cbn [ndt_step] in He; [|discriminate]. eapply ndt_add_scan_fault; eassumption.
Qed.

Lemma ndt_likelihood_fault (g : ndt T) (p : point T) (f : fault) :
  ndt_wf g -> ndt_likelihood g p = Fault f -> f = BadCast.
Proof.
  intros Hw H. unfold ndt_likelihood in H.
  apply bind_fault in H. destruct H as [H|(i & Hi & H)]; [eapply ndt_index_fault; eassumption|].
  destruct (Z.leb_spec 0 i) as [Hpos|Hneg]; [|discriminate].
  destruct (ndt_index_bounds g _ _ i Hw Hi) as [E|B]; [lia|].
  destruct (vec_get_ok (g_cells g) i B) as (c & Hc & _). rewrite Hc in H. discriminate.
Qed.

Lemma ndt_likelihood_points_fault (g : ndt T) (pts : list (point T)) (f : fault) :
  ndt_wf g -> ndt_likelihood_points g pts = Fault f -> f = BadCast.
Proof.
  intros Hw H. unfold ndt_likelihood_points in H.
  eapply (foldM_fault (fun _ => True) (fun f => f = BadCast)); [| |exact I|exact H]; [auto|].
  intros a x e _ _ He. apply bind_fault in He. destruct He as [He|(l & _ & He)]; [|discriminate].
  eapply ndt_likelihood_fault; eassumption.
Qed.

Lemma ndt_likelihood_scan_fault (g : ndt T) (s : scan T) (f : fault) :
  ndt_wf g -> ndt_likelihood_scan g s = Fault f -> f = BadCast.
Proof.
  intros Hw H. unfold ndt_likelihood_scan in H.
  eapply (foldM_fault (fun _ => True) (fun f => f = BadCast)); [| |exact I|exact H]; [auto|].
  intros a x e _ _ He. apply bind_fault in He. destruct He as [He|(l & _ & He)]; [|discriminate].
  eapply ndt_likelihood_fault; eassumption.
Qed.

(** * Contents of the cells *)

(** Does point [p] (map frame) belong to cell number [k]? *)
Definition in_cell (g : ndt T) (k : nat) (p : point T) : bool :=
  match ndt_index g (px p) (py p) with
  | Ok i => i =? Z.of_nat k
  | Fault _ => false
  end.

(** What happens to cell [k] during a history of the grid. *)
Definition cell_history (g : ndt T) (k : nat) (ops : list (ndt_op T)) : list (cell_op T) :=
  flat_map (fun o => match o with
    | NAddScan s => map CAdd (filter (in_cell g k) (map (place (s_pose s)) (s_pts s)))
    | NCompute => [CCompute]
    end) ops.

Lemma same_geom_in_cell (g h : ndt T) (k : nat) (p : point T) :
  same_geom g h -> in_cell g k p = in_cell h k p.
Proof. intros H. unfold in_cell. rewrite (same_geom_index g h _ _ H). reflexivity. Qed.

Lemma ndt_add_point_cell (eig : mat2 T -> T * T) (g h : ndt T) (p : point T) (k : nat) (c : cell T) :
  ndt_wf g -> ndt_add_point g p = Ok h -> nth_error (g_cells g) k = Some c ->
  nth_error (g_cells h) k = Some (if in_cell g k p then cell_add_point c p else c).
Proof.
  intros Hw H Hk. unfold ndt_add_point in H. apply bind_ok in H. destruct H as (i & Hi & H).
  unfold in_cell. rewrite Hi.
  destruct (Z.leb_spec 0 i) as [Hpos|Hneg].
  - apply bind_ok in H. destruct H as (cells & Hc & H). injection H as <-. cbn [g_cells].
    unfold vec_update in Hc. apply bind_ok in Hc. destruct Hc as (c' & Hc & Hs). injection Hs as <-.
    apply vec_get_inv in Hc. destruct Hc as [Hr Hc].
    rewrite nth_error_list_set.
    assert (Hkl : (k < length (g_cells g))%nat) by (apply nth_error_Some; congruence).
    rewrite (proj2 (Nat.ltb_lt k _) Hkl), andb_true_r.
    destruct (Nat.eqb_spec (Z.to_nat i) k) as [E|E].
    + rewrite (proj2 (Z.eqb_eq i (Z.of_nat k))) by lia. subst k. congruence.
    + rewrite (proj2 (Z.eqb_neq i (Z.of_nat k))) by lia. exact Hk.
  - injection H as <-. rewrite (proj2 (Z.eqb_neq i (Z.of_nat k))) by lia. exact Hk.
Qed.

Lemma foldM_add_point_cell (eig : mat2 T -> T * T) (ps : list (point T)) :
  forall (g h : ndt T) (k : nat) (c : cell T),
  ndt_wf g -> foldM ndt_add_point g ps = Ok h -> nth_error (g_cells g) k = Some c ->
  nth_error (g_cells h) k = Some (fold_left (cell_step eig) (map CAdd (filter (in_cell g k) ps)) c).
Proof.
  induction ps as [|p ps IH]; cbn [foldM filter map fold_left]; intros g h k c Hw H Hk.
  - injection H as <-. exact Hk.
  - apply bind_ok in H. destruct H as (g1 & H1 & H2).
    pose proof (ndt_add_point_geom g g1 p H1) as Hg.
    pose proof (ndt_add_point_cell eig g g1 p k c Hw H1 Hk) as Hk1.
    rewrite (IH g1 h k _ (same_geom_wf _ _ Hg Hw) H2 Hk1).
    rewrite (filter_ext (in_cell g1 k) (in_cell g k)).
    + destruct (in_cell g k p); cbn [map fold_left cell_step]; reflexivity.
    + intros q. symmetry. apply same_geom_in_cell. exact Hg.
Qed.

Lemma ndt_run_cell (eig : mat2 T -> T * T) (ops : list (ndt_op T)) :
  forall (g h : ndt T) (k : nat) (c : cell T),
  ndt_wf g -> ndt_run eig g ops = Ok h -> nth_error (g_cells g) k = Some c ->
  nth_error (g_cells h) k = Some (fold_left (cell_step eig) (cell_history g k ops) c).
Proof.
  unfold ndt_run.
  induction ops as [|o ops IH]; cbn [foldM cell_history flat_map fold_left]; intros g h k c Hw H Hk.
  - injection H as <-. exact Hk.
  - apply bind_ok in H. destruct H as (g1 & H1 & H2).
    pose proof (ndt_step_geom eig g g1 o H1) as Hg.
    assert (Hk1 : nth_error (g_cells g1) k = Some (fold_left (cell_step eig)
              match o with
              | NAddScan s => map CAdd (filter (in_cell g k) (map (place (s_pose s)) (s_pts s)))
              | NCompute => [CCompute]
              end c)).
    { destruct o as [s|]; cbn [ndt_step] in H1.
      - apply foldM_add_point_cell; assumption.
      - injection H1 as <-. cbn [ndt_compute g_cells fold_left cell_step].
        rewrite nth_error_map, Hk. reflexivity. }
    rewrite (IH g1 h k _ (same_geom_wf _ _ Hg Hw) H2 Hk1). f_equal.
    rewrite fold_left_app. f_equal.
    assert (E : cell_history g1 k ops = cell_history g k ops).
    { unfold cell_history. apply flat_map_ext. intros [s|]; [|reflexivity].
      f_equal. apply filter_ext. intros q. symmetry. apply same_geom_in_cell. exact Hg. }
    unfold cell_history in E. exact E.
Qed.

(** The history of a cell seen by the points: all points added, in order. *)
Definition history_points (ops : list (ndt_op T)) : list (point T) :=
  flat_map (fun o => match o with NAddScan s => map (place (s_pose s)) (s_pts s) | NCompute => [] end) ops.

Lemma op_points_map_CAdd (ps : list (point T)) : op_points (map CAdd ps) = ps.
Proof.
  induction ps as [|p ps IH]; [reflexivity|]. cbn [map op_points flat_map app].
  unfold op_points in IH. rewrite IH. reflexivity.
Qed.

Lemma cell_history_points (g : ndt T) (k : nat) (ops : list (ndt_op T)) :
  op_points (cell_history g k ops) = filter (in_cell g k) (history_points ops).
Proof.
  unfold cell_history, history_points.
  induction ops as [|o ops IH]; cbn [flat_map]; [reflexivity|].
  rewrite op_points_app, filter_app, IH. f_equal.
  destruct o as [s|]; [apply op_points_map_CAdd|reflexivity].
Qed.

End Generic.

(** * Exact arithmetic: squares *)
Local Open Scope R_scope.

Lemma Ztrunc_interval (o w x : R) (i : Z) :
  0 < w -> o <= x -> (Ztrunc ((x - o) / w) = i <-> in_interval o w i x).
Proof.
  intros Hw Hx. unfold in_interval.
  assert (Hq : 0 <= (x - o) / w).
  { unfold Rdiv. apply Rmult_le_pos; [lra|]. left. apply Rinv_0_lt_compat. exact Hw. }
  assert (Hx' : x = o + (x - o) / w * w) by (field; lra).
  set (q := (x - o) / w) in *. rewrite Ztrunc_floor by exact Hq. split.
  - intros <-. pose proof (Zfloor_lb q). pose proof (Zfloor_ub q).
    rewrite Hx'. split; nra.
  - intros [H1 H2]. apply Zfloor_imp. rewrite plus_IZR. rewrite Hx' in H1, H2. split.
    + apply (Rmult_le_reg_r w); [exact Hw|]. lra.
    + apply (Rmult_lt_reg_r w); [exact Hw|]. lra.
Qed.

Lemma Ztrunc_nonneg_div (o w x : R) : 0 < w -> o <= x -> (0 <= Ztrunc ((x - o) / w))%Z.
Proof.
  intros Hw Hx. rewrite Ztrunc_floor.
  - apply Zfloor_lub. unfold Rdiv. apply Rmult_le_pos; [lra|]. left. apply Rinv_0_lt_compat. exact Hw.
  - unfold Rdiv. apply Rmult_le_pos; [lra|]. left. apply Rinv_0_lt_compat. exact Hw.
Qed.

(** Assigned cells are exactly the squares of the lattice. *)
Lemma ndt_index_square (g : ndt R) (p : point R) (i : Z) :
  ndt_wf g -> 0 < g_cs g -> ndt_index g (px p) (py p) = Ok i -> (0 <= i)%Z ->
  exists a b, in_square (g_ox g) (g_oy g) (g_cs g) a b p /\
    (0 <= a < g_sx g)%Z /\ (0 <= b < g_sy g)%Z /\ i = (b * g_sx g + a)%Z.
Proof.
  intros Hw Hcs H Hi.
  destruct (ndt_index_cases g _ _ i Hw H) as [E|(Hx & Hy & gx & gy & Ex & Ey & Bx & By & Ei & _)]; [lia|].
  cbn [nlt RA] in Hx, Hy. 
  destruct (Rlt_bool_spec (px p) (g_ox g)) as [?|Hx']; [discriminate|].
  destruct (Rlt_bool_spec (py p) (g_oy g)) as [?|Hy']; [discriminate|].
  cbn [ntrunc ndiv nsub RA] in Ex, Ey. injection Ex as Ex. injection Ey as Ey.
  exists gx, gy. split; [|auto]. split; apply Ztrunc_interval; assumption.
Qed.

Lemma in_interval_unique (o w x : R) (i j : Z) :
  0 < w -> in_interval o w i x -> in_interval o w j x -> i = j.
Proof.
  intros Hw [H1 H2] [H3 H4].
  assert (IZR i * w < (IZR j + 1) * w) by lra. assert (IZR j * w < (IZR i + 1) * w) by lra.
  apply Rmult_lt_reg_r in H; [|exact Hw]. apply Rmult_lt_reg_r in H0; [|exact Hw].
  rewrite <- (plus_IZR j 1) in H. rewrite <- (plus_IZR i 1) in H0. apply lt_IZR in H. apply lt_IZR in H0. lia.
Qed.

Lemma in_interval_index (o w x : R) (i : Z) :
  0 < w -> (0 <= i)%Z -> in_interval o w i x -> o <= x.
Proof. intros Hw Hi [H _]. apply IZR_le in Hi. assert (0 <= IZR i * w) by (apply Rmult_le_pos; lra). lra. Qed.

Lemma ndt_index_of_square (g : ndt R) (p : point R) (a b : Z) :
  ndt_wf g -> 0 < g_cs g -> (0 <= a < g_sx g)%Z -> (0 <= b < g_sy g)%Z ->
  in_square (g_ox g) (g_oy g) (g_cs g) a b p ->
  ndt_index g (px p) (py p) = Ok (b * g_sx g + a)%Z.
Proof.
  intros (Hsx & Hsy & Hn & Hlen) Hcs Ha Hb [Hx Hy].
  pose proof (in_interval_index _ _ _ _ Hcs (proj1 Ha) Hx) as Lx.
  pose proof (in_interval_index _ _ _ _ Hcs (proj1 Hb) Hy) as Ly.
  apply Ztrunc_interval in Hx; [|exact Hcs|exact Lx]. apply Ztrunc_interval in Hy; [|exact Hcs|exact Ly].
  unfold ndt_index. cbn [nlt RA]. rewrite !Rlt_bool_false by assumption. cbn [orb].
  assert (Hsx31 : (g_sx g < 2 ^ 31)%Z) by nia. assert (Hsy31 : (g_sy g < 2 ^ 31)%Z) by nia.
  unfold cast_unsigned. cbn [ntrunc ndiv nsub RA]. rewrite Hx, Hy.
  assert (H32 : (2 ^ 31 < 2 ^ 32)%Z) by reflexivity.
  rewrite (proj2 (Z.leb_le 0 a)) by lia. rewrite (proj2 (Z.ltb_lt a (2 ^ 32))) by lia.
  rewrite (proj2 (Z.leb_le 0 b)) by lia. rewrite (proj2 (Z.ltb_lt b (2 ^ 32))) by lia.
  cbn [andb bind].
  rewrite (proj2 (Z.leb_gt (g_sx g) a)) by lia. rewrite (proj2 (Z.leb_gt (g_sy g) b)) by lia. cbn [orb].
  assert (B : (0 <= b * g_sx g)%Z /\ (b * g_sx g + a < g_sx g * g_sy g)%Z) by nia.
  rewrite (wrap64_small (b * g_sx g)) by lia.
  rewrite (wrap64_small (b * g_sx g + a)) by lia. rewrite to_int32_small by lia. reflexivity.
Qed.

Lemma square_index_inj (sx a b a' b' : Z) :
  (0 <= a < sx)%Z -> (0 <= a' < sx)%Z -> (b * sx + a = b' * sx + a')%Z -> a = a' /\ b = b'.
Proof. intros Ha Ha' H. assert (b = b')%Z by nia. subst. lia. Qed.

Lemma ndt_same_cell (g : ndt R) (p q : point R) (i j : Z) :
  ndt_wf g -> 0 < g_cs g ->
  ndt_index g (px p) (py p) = Ok i -> ndt_index g (px q) (py q) = Ok j -> (0 <= i)%Z -> (0 <= j)%Z ->
  (i = j <-> exists a b, in_square (g_ox g) (g_oy g) (g_cs g) a b p /\ in_square (g_ox g) (g_oy g) (g_cs g) a b q).
Proof.
  intros Hw Hcs Hi Hj Pi Pj.
  destruct (ndt_index_square g p i Hw Hcs Hi Pi) as (a & b & Sp & Ba & Bb & Ei).
  destruct (ndt_index_square g q j Hw Hcs Hj Pj) as (a' & b' & Sq & Ba' & Bb' & Ej).
  split.
  - intros E. subst i j. destruct (square_index_inj _ _ _ _ _ Ba Ba' E) as [-> ->]. eauto.
  - intros (c & d & [P1 P2] & [Q1 Q2]). destruct Sp as [S1 S2]. destruct Sq as [S3 S4].
    rewrite (in_interval_unique _ _ _ _ _ Hcs S1 P1) in Ei.
    rewrite (in_interval_unique _ _ _ _ _ Hcs S2 P2) in Ei.
    rewrite (in_interval_unique _ _ _ _ _ Hcs S3 Q1) in Ej.
    rewrite (in_interval_unique _ _ _ _ _ Hcs S4 Q2) in Ej. congruence.
Qed.

Lemma ndt_left_below (g : ndt R) (p : point R) :
  px p < g_ox g \/ py p < g_oy g -> ndt_index g (px p) (py p) = Ok (-1)%Z.
Proof.
  intros H. unfold ndt_index. cbn [nlt RA].
  destruct H as [H|H].
  - rewrite (Rlt_bool_true _ _ H). reflexivity.
  - rewrite (Rlt_bool_true _ _ H), orb_true_r. reflexivity.
Qed.

Lemma floor_lt_trunc_succ (q r : R) : 0 <= q -> q <= r -> (Ztrunc q < Ztrunc (r + 1))%Z.
Proof.
  intros Hq Hr. rewrite !Ztrunc_floor by lra.
  assert (Zfloor q <= Zfloor r)%Z by (apply Zfloor_le; exact Hr).
  assert (Zfloor r + 1 <= Zfloor (r + 1))%Z.
  { apply Zfloor_lub. rewrite plus_IZR. pose proof (Zfloor_lb r). lra. }
  lia.
Qed.

Lemma ndt_new_sizes (cs sx sy ox oy : R) (g : ndt R) :
  ndt_new cs sx sy ox oy = Ok g ->
  g_sx g = Ztrunc (sx / cs + 1) /\ g_sy g = Ztrunc (sy / cs + 1).
Proof.
  unfold ndt_new. intros H.
  apply bind_ok in H. destruct H as (nx & Hx & H). apply bind_ok in H. destruct H as (ny & Hy & H).
  apply cast_unsigned_inv in Hx. apply cast_unsigned_inv in Hy.
  destruct Hx as [Hx _]. destruct Hy as [Hy _].
  cbn [ntrunc ndiv nadd RA none_ nofZ] in Hx, Hy. unfold none_ in Hx, Hy. cbn [nofZ RA] in Hx, Hy.
  injection Hx as Hx. injection Hy as Hy. injection H as <-. cbn. split; congruence.
Qed.

Lemma ndt_covers (cs sx sy ox oy : R) (g : ndt R) (p : point R) :
  0 < cs -> ndt_new cs sx sy ox oy = Ok g -> (g_sx g * g_sy g < 2 ^ 31)%Z ->
  ox <= px p <= ox + sx -> oy <= py p <= oy + sy ->
  exists i, ndt_index g (px p) (py p) = Ok i /\ (0 <= i < Z.of_nat (length (g_cells g)))%Z.
Proof.
  intros Hcs H Hn Hx Hy.
  pose proof (ndt_new_wf _ _ _ _ _ g H Hn) as Hw.
  destruct (ndt_new_sizes _ _ _ _ _ g H) as [Ex Ey].
  destruct (ndt_new_cells _ _ _ _ _ g H) as (Ecs & Eox & Eoy & _).
  assert (Hi : 0 < / cs) by (apply Rinv_0_lt_compat; exact Hcs).
  assert (Lx : (Ztrunc ((px p - ox) / cs) < g_sx g)%Z).
  { rewrite Ex. apply floor_lt_trunc_succ; unfold Rdiv.
    - apply Rmult_le_pos; lra.
    - apply Rmult_le_compat_r; lra. }
  assert (Ly : (Ztrunc ((py p - oy) / cs) < g_sy g)%Z).
  { rewrite Ey. apply floor_lt_trunc_succ; unfold Rdiv.
    - apply Rmult_le_pos; lra.
    - apply Rmult_le_compat_r; lra. }
  pose proof (Ztrunc_nonneg_div ox cs (px p) Hcs (proj1 Hx)) as Nx.
  pose proof (Ztrunc_nonneg_div oy cs (py p) Hcs (proj1 Hy)) as Ny.
  set (a := Ztrunc ((px p - ox) / cs)) in *. set (b := Ztrunc ((py p - oy) / cs)) in *.
  assert (Sq : in_square (g_ox g) (g_oy g) (g_cs g) a b p).
  { rewrite Ecs, Eox, Eoy. split; apply Ztrunc_interval; try assumption; try lra; reflexivity. }
  assert (Hcs' : 0 < g_cs g) by (rewrite Ecs; exact Hcs).
  rewrite (ndt_index_of_square g p a b Hw Hcs' (conj Nx Lx) (conj Ny Ly) Sq).
  exists (b * g_sx g + a)%Z. split; [reflexivity|].
  destruct Hw as (Hsx & Hsy & Hn' & Hlen). rewrite Hlen. nia.
Qed.

(** The boolean square test reflects the square. *)
Lemma in_interval_b_spec (o w : R) (i : Z) (x : R) : in_interval_b o w i x = true <-> in_interval o w i x.
Proof.
  unfold in_interval_b, in_interval.
  destruct (Rle_bool_spec (o + IZR i * w) x); destruct (Rlt_bool_spec x (o + (IZR i + 1) * w)); cbn;
    split; intros; try discriminate; try lra; try reflexivity; split; lra.
Qed.
Lemma in_square_b_spec (ox oy w : R) (i j : Z) (p : point R) :
  in_square_b ox oy w i j p = true <-> in_square ox oy w i j p.
Proof.
  unfold in_square_b, in_square. rewrite andb_true_iff, !in_interval_b_spec. reflexivity.
Qed.

Lemma in_cell_square (g : ndt R) (a b : Z) (p : point R) :
  ndt_wf g -> 0 < g_cs g -> (0 <= a < g_sx g)%Z -> (0 <= b < g_sy g)%Z ->
  in_cell g (Z.to_nat (b * g_sx g + a)) p = in_square_b (g_ox g) (g_oy g) (g_cs g) a b p.
Proof.
  intros Hw Hcs Ha Hb.
  assert (Hpos : (0 <= b * g_sx g + a)%Z) by nia.
  apply eq_true_iff_eq. rewrite in_square_b_spec. unfold in_cell. split.
  - destruct (ndt_index g (px p) (py p)) as [i|f] eqn:E; [|discriminate].
    intros H. apply Z.eqb_eq in H. rewrite Z2Nat.id in H by exact Hpos. subst i.
    destruct (ndt_index_square g p _ Hw Hcs E Hpos) as (a' & b' & S & Ba & Bb & Ei).
    destruct (square_index_inj _ _ _ _ _ Ha Ba Ei) as [-> ->]. exact S.
  - intros S. rewrite (ndt_index_of_square g p a b Hw Hcs Ha Hb S).
    apply Z.eqb_eq. rewrite Z2Nat.id by exact Hpos. reflexivity.
Qed.

Lemma place_move (p : pose R) (q : point R) : place p q = move p q.
Proof. unfold place, move. ra. f_equal; ring. Qed.

Lemma iso_move (p : pose R) (q : point R) : iso_apply p q = move p q.
Proof. unfold iso_apply, move. ra. f_equal; ring. Qed.

(** * Likelihoods *)

Definition scored01 (g : ndt R) : Prop :=
  forall c, In c (g_cells g) -> forall q, 0 <= cell_score c q <= 1.

Lemma likelihood_range (g : ndt R) (p : point R) (v : R) :
  scored01 g -> ndt_likelihood g p = Ok v -> 0 <= v <= 1.
Proof.
  intros Hs H. unfold ndt_likelihood in H. apply bind_ok in H. destruct H as (i & Hi & H).
  destruct (0 <=? i)%Z.
  - apply bind_ok in H. destruct H as (c & Hc & H). injection H as <-.
    apply vec_get_inv in Hc. destruct Hc as [_ Hc]. apply nth_error_In in Hc. apply Hs. exact Hc.
  - injection H as <-. ra. lra.
Qed.

Lemma likelihood_points_acc (g : ndt R) (pts : list (point R)) :
  forall (acc v : R),
  foldM (fun score p => bind (ndt_likelihood g p) (fun l => Ok (nadd score l))) acc pts = Ok v <->
  exists vs, Forall2 (fun p x => ndt_likelihood g p = Ok x) pts vs /\ v = acc + sumf (fun x => x) vs.
Proof.
  induction pts as [|p pts IH]; cbn [foldM]; intros acc v.
  - split.
    + intros H. injection H as <-. exists []. split; [constructor|]. cbn. lra.
    + intros (vs & Hf & ->). inversion Hf. cbn. f_equal. lra.
  - split.
    + intros H. apply bind_ok in H. destruct H as (s & Hs & H).
      apply bind_ok in Hs. destruct Hs as (l & Hl & Hs). injection Hs as <-.
      apply IH in H. destruct H as (vs & Hf & ->). exists (l :: vs).
      split; [constructor; assumption|]. cbn. ra. lra.
    + intros (vs & Hf & ->). inversion Hf as [|? x ? vs' Hx Hf' E1 E2]; subst.
      rewrite Hx. cbn [bind]. apply IH. exists vs'. split; [exact Hf'|]. cbn. ra. lra.
Qed.

Lemma likelihood_points_spec (g : ndt R) (pts : list (point R)) (v : R) :
  ndt_likelihood_points g pts = Ok v <->
  exists vs, Forall2 (fun p x => ndt_likelihood g p = Ok x) pts vs /\ v = sumf (fun x => x) vs.
Proof.
  unfold ndt_likelihood_points. rewrite likelihood_points_acc. ra.
  split; intros (vs & Hf & ->); exists vs; (split; [exact Hf|]); lra.
Qed.

Lemma Forall2_perm {X Y} (P : X -> Y -> Prop) (a b : list X) :
  Permutation a b -> forall va, Forall2 P a va -> exists vb, Forall2 P b vb /\ Permutation va vb.
Proof.
  induction 1 as [|x a b H IH|x y a|a b c H1 IH1 H2 IH2]; intros va Hf.
  - inversion Hf; subst. exists []. split; constructor.
  - inversion Hf as [|? v ? va' Hx Hf' E1 E2]; subst.
    destruct (IH _ Hf') as (vb & Hb & Hp). exists (v :: vb). split; constructor; assumption.
  - inversion Hf as [|? v ? va' Hx Hf' E1 E2]; subst. inversion Hf' as [|? w ? va'' Hy Hf'' E1 E2]; subst.
    exists (w :: v :: va''). split; [repeat constructor; assumption|constructor].
  - destruct (IH1 _ Hf) as (vb & Hb & Hp). destruct (IH2 _ Hb) as (vc & Hc & Hp').
    exists vc. split; [exact Hc|]. eapply perm_trans; eassumption.
Qed.

Lemma likelihood_points_perm (g : ndt R) (a b : list (point R)) (v : R) :
  Permutation a b -> ndt_likelihood_points g a = Ok v -> ndt_likelihood_points g b = Ok v.
Proof.
  intros Hp H. apply likelihood_points_spec in H. destruct H as (va & Hf & ->).
  destruct (Forall2_perm _ _ _ Hp _ Hf) as (vb & Hb & Hpv).
  apply likelihood_points_spec. exists vb. split; [exact Hb|]. apply sumf_perm. exact Hpv.
Qed.

Lemma likelihood_points_range (g : ndt R) (pts : list (point R)) (v : R) :
  scored01 g -> ndt_likelihood_points g pts = Ok v -> 0 <= v <= INR (length pts).
Proof.
  intros Hs H. apply likelihood_points_spec in H. destruct H as (vs & Hf & ->).
  induction Hf as [|p x pts vs Hx Hf IH].
  - cbn. lra.
  - pose proof (likelihood_range g p x Hs Hx). cbn [sumf length]. rewrite S_INR. lra.
Qed.

(** Points outside the grid contribute nothing. *)
Definition outside (g : ndt R) (p : point R) : Prop := ndt_index g (px p) (py p) = Ok (-1)%Z.

Lemma likelihood_outside (g : ndt R) (p : point R) : outside g p -> ndt_likelihood g p = Ok 0.
Proof. intros H. unfold ndt_likelihood. rewrite H. reflexivity. Qed.

Lemma likelihood_points_outside (g : ndt R) (pts : list (point R)) (p : point R) :
  outside g p -> ndt_likelihood_points g (p :: pts) = ndt_likelihood_points g pts.
Proof.
  intros H. unfold ndt_likelihood_points. cbn [foldM].
  rewrite (likelihood_outside g p H). cbn [bind]. f_equal. ra. lra.
Qed.

Lemma likelihood_scan_spec (g : ndt R) (s : scan R) :
  ndt_likelihood_scan g s = ndt_likelihood_points g (map (move (s_pose s)) (s_pts s)).
Proof.
  unfold ndt_likelihood_scan, ndt_likelihood_points.
  generalize (@nzero R RA). induction (s_pts s) as [|p pts IH]; intros acc; cbn [foldM map]; [reflexivity|].
  rewrite iso_move. destruct (ndt_likelihood g (move (s_pose s) p)); cbn [bind]; [apply IH|reflexivity].
Qed.

(** * Good maps score in [0, 1] *)

(** No cell of the map holds five or more coincident points. *)
Definition nondegenerate (g : ndt R) (pts : list (point R)) : Prop :=
  forall k, (length (filter (in_cell g k) pts) < 5)%nat \/ not_all_equal (filter (in_cell g k) pts).

Lemma ndt_run_scored (eig : mat2 R -> R * R) (cs sx sy ox oy : R) (g h : ndt R) (ops : list (ndt_op R)) :
  eigen_contract eig -> ndt_new cs sx sy ox oy = Ok g -> (g_sx g * g_sy g < 2 ^ 31)%Z ->
  ndt_run eig g (ops ++ [NCompute]) = Ok h -> nondegenerate g (history_points ops) ->
  scored01 h.
Proof.
  intros He Hnew Hn Hrun Hnd c Hc q.
  pose proof (ndt_new_wf _ _ _ _ _ g Hnew Hn) as Hw.
  apply In_nth_error in Hc. destruct Hc as [k Hk].
  destruct (ndt_run_geom eig g h _ Hrun) as (_ & _ & _ & _ & _ & Hlen).
  assert (Hkl : (k < length (g_cells g))%nat) by (rewrite Hlen; apply nth_error_Some; congruence).
  destruct (nth_error (g_cells g) k) as [c0|] eqn:Ec0; [|apply nth_error_None in Ec0; lia].
  destruct (ndt_new_cells _ _ _ _ _ g Hnew) as (_ & _ & _ & Hall).
  pose proof (Hall c0 (nth_error_In _ _ Ec0)) as ->.
  pose proof (ndt_run_cell eig _ g h k _ Hw Hrun Ec0) as Hk'.
  rewrite Hk in Hk'. injection Hk' as ->.
  assert (Eh : cell_history g k (ops ++ [NCompute]) = cell_history g k ops ++ [CCompute]).
  { unfold cell_history. rewrite flat_map_app. reflexivity. }
  rewrite Eh. fold (cell_run eig (cell_history g k ops ++ [CCompute])).
  destruct (Nat.lt_ge_cases (length (op_points (cell_history g k ops))) 5) as [Hs|Hs].
  - rewrite run_few_score; [lra|]. rewrite op_points_compute. exact Hs.
  - destruct (Hnd k) as [Hlt|Hne].
    + rewrite cell_history_points in Hs. lia.
    + assert (0 < cell_score (cell_run eig (cell_history g k ops ++ [CCompute])) q <= 1); [|lra].
      apply score_range; [exact He|exact Hs|]. rewrite cell_history_points. exact Hne.
Qed.
