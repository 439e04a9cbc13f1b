(** C43: what the leaves of the KD-tree hold. *)

From Coq Require Import ZArith Reals List Bool Permutation Lra Lia.
From Flocq Require Import Core.
From Verif Require Import Outcome Arith TypesModel KdModel SpecStats SpecFilter RTactics NdtProofs KdProofs MotionModel FilterModel PropFilter.
Import ListNotations.
Local Open Scope R_scope.

(** A leaf for [bin] with value [w]. *)
Fixpoint leaf_of (t : kdt R) (bin : vec3 Z) (w : R) : Prop :=
  match t with
  | KLeaf k v => k = bin /\ v = w
  | KNode _ _ l r => leaf_of l bin w \/ leaf_of r bin w
  end.

(** What was inserted into [bin]. *)
Definition inserted (size : vec3 R) (bin : vec3 Z) (cs : list (vec3 R * R)) : R :=
  total (map snd (filter (fun cv => if bin_eq_dec (bin_of size (fst cv)) bin then true else false) cs)).

Fixpoint load (t : kdt R) (bin : vec3 Z) : R :=
  match t with
  | KLeaf k v => if bin_eq_dec k bin then v else 0
  | KNode _ _ l r => load l bin + load r bin
  end.

Lemma load_insert : forall t k v t' b, kd_insert t k v = Ok (t', b) ->
  forall bin, load t' bin = load t bin + if bin_eq_dec k bin then v else 0.
Proof.
  induction t as [pk pw|ax pv l IHl r IHr]; intros k v t' b H bin; cbn [kd_insert] in H.
  - destruct (key_eqb_spec pk k) as [->|NE].
    { injection H as <- _. cbn [load]. ra. destruct (bin_eq_dec k bin); lra. }
    do 3 (apply bind_ok in H; destruct H as (? & _ & H)). destruct (pick_axis pk k) as [ax|]; [|discriminate H].
    apply bind_ok in H. destruct H as (sum & _ & H). injection H as <- _.
    match goal with |- context [if ?c then KNode _ _ _ _ else _] => destruct c end; cbn [load]; lra.
  - destruct (nlt (nofZ (kget k ax)) pv); apply bind_ok in H; destruct H as ((c & b') & H1 & H); injection H as <- _; cbn [load].
    + rewrite (IHl k v c b' H1 bin). lra.
    + rewrite (IHr k v c b' H1 bin). lra.
Qed.

Lemma load_zero : forall t bin, ~ In bin (leaves t) -> load t bin = 0.
Proof.
  induction t as [pk pw|ax pv l IHl r IHr]; intros bin H; cbn [load leaves] in *.
  - destruct (bin_eq_dec pk bin) as [->|]; [exfalso; apply H; left|]; reflexivity.
  - rewrite IHl, IHr; [lra| |]; intro I; apply H; apply in_or_app; auto.
Qed.

Lemma leaf_in : forall t bin w, leaf_of t bin w -> In bin (leaves t).
Proof.
  induction t as [pk pw|ax pv l IHl r IHr]; intros bin w H; cbn [leaf_of leaves] in *.
  - left. apply H.
  - apply in_or_app. destruct H as [H|H]; [left; exact (IHl _ _ H)|right; exact (IHr _ _ H)].
Qed.

Lemma leaf_load : forall t bin w, NoDup (leaves t) -> leaf_of t bin w -> w = load t bin.
Proof.
  induction t as [pk pw|ax pv l IHl r IHr]; intros bin w N H; cbn [leaf_of load leaves] in *.
  - destruct H as [-> ->]. destruct (bin_eq_dec bin bin); [reflexivity|congruence].
  - destruct (NoDup_app_parts _ _ N) as [Nl Nr].
    assert (D : forall x, In x (leaves l) -> In x (leaves r) -> False).
    { clear - N. revert N. generalize (leaves l) (leaves r). intros a c. induction a as [|x a IH]; cbn [app]; intros N y Y1 Y2; [destruct Y1|].
      inversion N as [|? ? N1 N2]; subst. destruct Y1 as [->|Y1]; [apply N1, in_or_app; right; exact Y2|exact (IH N2 y Y1 Y2)]. }
    destruct H as [H|H].
    + rewrite (IHl bin w Nl H), (load_zero r bin); [lra|]. intro I. exact (D bin (leaf_in _ _ _ H) I).
    + rewrite (IHr bin w Nr H), (load_zero l bin); [lra|]. intro I. exact (D bin I (leaf_in _ _ _ H)).
Qed.

Lemma leaf_exists : forall t bin, In bin (leaves t) -> exists w, leaf_of t bin w.
Proof.
  induction t as [pk pw|ax pv l IHl r IHr]; intros bin H; cbn [leaf_of leaves] in *.
  - destruct H as [->|[]]. exists pw. split; reflexivity.
  - apply in_app_or in H. destruct H as [H|H]; [destruct (IHl _ H) as [w W]|destruct (IHr _ H) as [w W]]; exists w; auto.
Qed.

Definition root_load (t : kd (T := R)) (bin : vec3 Z) : R := match fst t with None => 0 | Some r => load r bin end.

Lemma key_bin : forall size c k, kd_key size c = Ok k -> k = bin_of size c.
Proof.
  intros size c k H. unfold kd_key in H.
  assert (G : forall (x : R) z, cast_int32 x = Ok z -> z = Ztrunc x).
  { intros x z E. unfold cast_int32 in E. ra_in E. cbn [ntrunc RA] in E.
    destruct ((- 2 ^ 31 <=? Ztrunc x) && (Ztrunc x <? 2 ^ 31))%Z; [|discriminate E]. injection E as <-. reflexivity. }
  apply bind_ok in H. destruct H as (a & Ha & H). apply bind_ok in H. destruct H as (b & Hb & H).
  apply bind_ok in H. destruct H as (d & Hd & H). injection H as <-.
  apply G in Ha, Hb, Hd. subst. reflexivity.
Qed.

(** C43: the tree has a leaf for a bin exactly if something was inserted into it,
    and the leaf holds the sum of what was. *)
Theorem C43_bin_values : forall (size : vec3 R) (cs : list (vec3 R * R)) root n,
  kd_add_all size kd_empty cs = Ok (Some root, n) ->
  forall bin, ((exists w, leaf_of root bin w) <-> In bin (map (fun cv => bin_of size (fst cv)) cs)) /\
    forall w, leaf_of root bin w -> w = inserted size bin cs.
Proof.
  intros size cs root n H.
  assert (G : forall cs t0 t keys, counts keys t0 -> kd_add_all size t0 cs = Ok t ->
    counts (keys ++ map (fun cv => bin_of size (fst cv)) cs) t /\ forall bin, root_load t bin = root_load t0 bin + inserted size bin cs).
  { clear. induction cs as [|[c v] cs IH]; intros t0 t keys C H; unfold kd_add_all in H; cbn [foldM] in H.
    - injection H as <-. cbn [map]. rewrite app_nil_r. split; [exact C|]. intro bin. unfold inserted. cbn. lra.
    - apply bind_ok in H. destruct H as (t1 & H1 & H). cbn [fst snd] in H1.
      assert (K : exists k, kd_key size c = Ok k).
      { unfold kd_add in H1. apply bind_ok in H1. destruct H1 as (k & K & _). exists k. exact K. }
      destruct K as (k & K).
      pose proof (kd_add_counts half_exact_R size t0 c v t1 keys k C K H1) as C1.
      destruct (IH t1 t (keys ++ [k]) C1 H) as [C2 L2]. pose proof (key_bin _ _ _ K) as Ek. subst k.
      rewrite <- app_assoc in C2. cbn [map fst]. split; [exact C2|]. intro bin. rewrite L2.
      assert (L1 : root_load t1 bin = root_load t0 bin + if bin_eq_dec (bin_of size c) bin then v else 0).
      { unfold kd_add in H1. rewrite K in H1. cbn [bind] in H1. unfold root_load. destruct (fst t0) as [r0|].
        - apply bind_ok in H1. destruct H1 as ((r1 & b) & Hi & H1). injection H1 as <-. cbn [fst]. apply (load_insert _ _ _ _ _ Hi).
        - injection H1 as <-. cbn [fst load]. lra. }
      rewrite L1. unfold inserted. cbn [filter fst]. unfold total. destruct (bin_eq_dec (bin_of size c) bin); cbn [map snd fold_right]; lra. }
  destruct (G cs kd_empty (Some root, n) [] (conj eq_refl eq_refl) H) as [C L]. cbn [app] in C. unfold counts in C. cbn [fst snd] in C.
  destruct C as (_ & N & _ & _ & I). intro bin. split.
  - rewrite <- I. split; [intros (w & W); exact (leaf_in _ _ _ W)|apply leaf_exists].
  - intros w W. rewrite (leaf_load _ _ _ N W). specialize (L bin). unfold root_load in L. cbn [fst kd_empty] in L. lra.
Qed.
Print Assumptions C43_bin_values.

Lemma kd_add_some : forall (size : vec3 R) t c v t', kd_add size t c v = Ok t' -> exists root n, t' = (Some root, n).
Proof.
  intros size t c v t' H. unfold kd_add in H. apply bind_ok in H. destruct H as (k & _ & H). destruct (fst t) as [r|].
  - apply bind_ok in H. destruct H as ((r' & b) & _ & H). injection H as <-. do 2 eexists. reflexivity.
  - injection H as <-. do 2 eexists. reflexivity.
Qed.

(** Two insertions into one bin, one into another. *)
Example C43_values_nonvacuous : exists root n,
  let cs := [(mkVec3 0 0 0, 1); (mkVec3 4 0 0, 1); (mkVec3 0 0 0, 1)] in
  kd_add_all bin_size kd_empty cs = Ok (Some root, n) /\ inserted bin_size (mkVec3 0 0 0)%Z cs = 2 /\ inserted bin_size (mkVec3 8 0 0)%Z cs = 1.
Proof.
  destruct C43_nonvacuous as (t & H & _). pose proof H as H0. unfold kd_add_all in H. cbn [foldM] in H.
  do 3 (apply bind_ok in H; destruct H as (? & ? & H)). injection H as ->.
  match goal with K : kd_add _ _ (fst (mkVec3 0 0 0, 1)) _ = Ok t |- _ => destruct (kd_add_some _ _ _ _ _ K) as (root & n & ->) end.
  exists root, n. cbv zeta. split; [exact H0|].
  assert (E0 : bin_of bin_size (mkVec3 0 0 0) = (mkVec3 0 0 0)%Z).
  { unfold bin_size, bin_of. ra. cbn [v0 v1 v2]. replace (0 / (1 / 2)) with (IZR 0) by (simpl; lra).
    replace (0 / (2671 / 10000)) with (IZR 0) by (simpl; lra). rewrite !Ztrunc_IZR. reflexivity. }
  assert (E4 : bin_of bin_size (mkVec3 4 0 0) = (mkVec3 8 0 0)%Z).
  { unfold bin_size, bin_of. ra. cbn [v0 v1 v2]. replace (0 / (1 / 2)) with (IZR 0) by (simpl; lra).
    replace (0 / (2671 / 10000)) with (IZR 0) by (simpl; lra). replace (4 / (1 / 2)) with (IZR 8) by lra. rewrite !Ztrunc_IZR. reflexivity. }
  unfold inserted, total. cbn [filter fst]. rewrite E0, E4.
  destruct (bin_eq_dec (mkVec3 0 0 0)%Z (mkVec3 0 0 0)%Z) as [_|Q]; [|exfalso; apply Q; reflexivity].
  destruct (bin_eq_dec (mkVec3 8 0 0)%Z (mkVec3 0 0 0)%Z) as [Q|_]; [discriminate Q|].
  destruct (bin_eq_dec (mkVec3 0 0 0)%Z (mkVec3 8 0 0)%Z) as [Q|_]; [discriminate Q|].
  destruct (bin_eq_dec (mkVec3 8 0 0)%Z (mkVec3 8 0 0)%Z) as [_|Q]; [|exfalso; apply Q; reflexivity].
  cbn [map snd fold_right]. split; lra.
Qed.
