(** Lemmas about finite sums of reals. *)

From Coq Require Import Reals List Lia Lra Permutation.
From Verif Require Import TypesModel SpecStats.
Import ListNotations.
Local Open Scope R_scope.

Lemma sumf_app {X} (f : X -> R) (l1 l2 : list X) :
  sumf f (l1 ++ l2) = sumf f l1 + sumf f l2.
Proof. induction l1 as [|x l1 IH]; cbn [sumf app]; [lra|rewrite IH; lra]. Qed.

Lemma sumf_ext {X} (f g : X -> R) (l : list X) :
  (forall x, In x l -> f x = g x) -> sumf f l = sumf g l.
Proof.
  induction l as [|x l IH]; intros H; cbn [sumf]; [reflexivity|].
  rewrite (H x) by (left; reflexivity). rewrite IH; [reflexivity|].
  intros y Hy. apply H. right. exact Hy.
Qed.

Lemma sumf_scal {X} (c : R) (f : X -> R) (l : list X) :
  sumf (fun x => c * f x) l = c * sumf f l.
Proof. induction l as [|x l IH]; cbn [sumf]; [lra|rewrite IH; lra]. Qed.

Lemma sumf_plus {X} (f g : X -> R) (l : list X) :
  sumf (fun x => f x + g x) l = sumf f l + sumf g l.
Proof. induction l as [|x l IH]; cbn [sumf]; [lra|rewrite IH; lra]. Qed.

Lemma sumf_const {X} (c : R) (l : list X) :
  sumf (fun _ => c) l = INR (length l) * c.
Proof.
  induction l as [|x l IH]; cbn [sumf length]; [cbn; lra|].
  rewrite S_INR, IH. lra.
Qed.

Lemma sumf_nonneg {X} (f : X -> R) (l : list X) :
  (forall x, In x l -> 0 <= f x) -> 0 <= sumf f l.
Proof.
  induction l as [|x l IH]; intros H; cbn [sumf]; [lra|].
  assert (0 <= f x) by (apply H; left; reflexivity).
  assert (0 <= sumf f l) by (apply IH; intros y Hy; apply H; right; exact Hy).
  lra.
Qed.

Lemma sumf_le {X} (f g : X -> R) (l : list X) :
  (forall x, In x l -> f x <= g x) -> sumf f l <= sumf g l.
Proof.
  induction l as [|x l IH]; intros H; cbn [sumf]; [lra|].
  assert (f x <= g x) by (apply H; left; reflexivity).
  assert (sumf f l <= sumf g l) by (apply IH; intros y Hy; apply H; right; exact Hy).
  lra.
Qed.

Lemma sumf_zero_inv {X} (f : X -> R) (l : list X) :
  (forall x, In x l -> 0 <= f x) -> sumf f l = 0 -> forall x, In x l -> f x = 0.
Proof.
  induction l as [|y l IH]; intros H Hs x Hx; [destruct Hx|].
  cbn [sumf] in Hs.
  assert (Hy : 0 <= f y) by (apply H; left; reflexivity).
  assert (Hl : 0 <= sumf f l)
    by (apply sumf_nonneg; intros z Hz; apply H; right; exact Hz).
  destruct Hx as [->|Hx]; [lra|].
  apply IH; [intros z Hz; apply H; right; exact Hz|lra|exact Hx].
Qed.

Lemma sumf_pos {X} (f : X -> R) (l : list X) (y : X) :
  (forall x, In x l -> 0 <= f x) -> In y l -> 0 < f y -> 0 < sumf f l.
Proof.
  intros H Hy Hpos.
  assert (H0 : 0 <= sumf f l) by (apply sumf_nonneg; exact H).
  destruct (Req_dec (sumf f l) 0) as [E|E]; [|lra].
  pose proof (sumf_zero_inv f l H E y Hy). lra.
Qed.

Lemma sumf_perm {X} (f : X -> R) (l1 l2 : list X) :
  Permutation l1 l2 -> sumf f l1 = sumf f l2.
Proof.
  intros H. induction H as [|x l1 l2 H IH|x y l|l1 l2 l3 H1 IH1 H2 IH2]; cbn [sumf]; lra.
Qed.

Lemma sumf_map {X Y} (g : X -> Y) (f : Y -> R) (l : list X) :
  sumf f (map g l) = sumf (fun x => f (g x)) l.
Proof. induction l as [|x l IH]; cbn [sumf map]; [reflexivity|rewrite IH; reflexivity]. Qed.

Lemma average_perm {X} (f : X -> R) (l1 l2 : list X) :
  Permutation l1 l2 -> average f l1 = average f l2.
Proof.
  intros H. unfold average. rewrite (sumf_perm f l1 l2 H), (Permutation_length H). reflexivity.
Qed.

Lemma sample_cov_perm {X} (f g : X -> R) (l1 l2 : list X) :
  Permutation l1 l2 -> sample_cov f g l1 = sample_cov f g l2.
Proof.
  intros H. unfold sample_cov.
  rewrite (average_perm f l1 l2 H), (average_perm g l1 l2 H), (Permutation_length H).
  rewrite (sumf_perm _ l1 l2 H). reflexivity.
Qed.

(** Weighted Cauchy-Schwarz. *)
Lemma weighted_cs {X} (w u v : X -> R) (l : list X) :
  (forall x, In x l -> 0 <= w x) ->
  sumf (fun x => w x * (u x * v x)) l * sumf (fun x => w x * (u x * v x)) l
  <= sumf (fun x => w x * (u x * u x)) l * sumf (fun x => w x * (v x * v x)) l.
Proof.
  intros Hw.
  set (uu := sumf (fun x => w x * (u x * u x)) l).
  set (vv := sumf (fun x => w x * (v x * v x)) l).
  set (uv := sumf (fun x => w x * (u x * v x)) l).
  assert (Hq : forall t, 0 <= uu - 2 * t * uv + t * t * vv).
  { intros t.
    assert (E : sumf (fun x => w x * ((u x - t * v x) * (u x - t * v x))) l
                = uu - 2 * t * uv + t * t * vv).
    { unfold uu, uv, vv.
      rewrite <- !sumf_scal.
      replace (sumf (fun x => w x * (u x * u x)) l
               - sumf (fun x => 2 * t * (w x * (u x * v x))) l)
        with (sumf (fun x => w x * (u x * u x)) l
              + sumf (fun x => -1 * (2 * t * (w x * (u x * v x)))) l)
        by (rewrite (sumf_scal (-1)); lra).
      rewrite <- !sumf_plus. apply sumf_ext. intros x _. ring. }
    rewrite <- E. apply sumf_nonneg. intros x Hx.
    apply Rmult_le_pos; [apply Hw; exact Hx|apply Rle_0_sqr]. }
  assert (Hvv : 0 <= vv).
  { apply sumf_nonneg. intros x Hx.
    apply Rmult_le_pos; [apply Hw; exact Hx|apply Rle_0_sqr]. }
  destruct (Req_dec vv 0) as [E0|E0].
  - (* vv = 0 forces uv = 0 *)
    assert (Huv : uv = 0).
    { pose proof (Hq ((uu + 1) / (2 * uv))) as H1. rewrite E0 in H1.
      destruct (Req_dec uv 0) as [?|Hne]; [assumption|exfalso].
      replace (uu - 2 * ((uu + 1) / (2 * uv)) * uv
               + (uu + 1) / (2 * uv) * ((uu + 1) / (2 * uv)) * 0)
        with (-1) in H1 by (field; exact Hne). lra. }
    rewrite Huv, E0. lra.
  - pose proof (Hq (uv / vv)) as H1.
    replace (uu - 2 * (uv / vv) * uv + uv / vv * (uv / vv) * vv)
      with (uu - uv * uv / vv) in H1 by (field; exact E0).
    assert (uv * uv / vv * vv <= uu * vv) by (apply Rmult_le_compat_r; lra).
    replace (uv * uv / vv * vv) with (uv * uv) in H by (field; exact E0). lra.
Qed.

(** The centred-sum identity behind every incremental covariance formula. *)
Lemma centred_sum {X} (f g : X -> R) (l : list X) :
  l <> [] ->
  sumf (fun x => (f x - average f l) * (g x - average g l)) l
  = sumf (fun x => f x * g x) l - INR (length l) * (average f l * average g l).
Proof.
  intros Hne.
  assert (Hn : INR (length l) <> 0).
  { destruct l as [|x l]; [congruence|]. cbn [length]. rewrite S_INR.
    pose proof (pos_INR (length l)). lra. }
  set (a := average f l). set (b := average g l).
  assert (Ha : sumf f l = INR (length l) * a) by (unfold a, average; field; exact Hn).
  assert (Hb : sumf g l = INR (length l) * b) by (unfold b, average; field; exact Hn).
  rewrite (sumf_ext _ (fun x => (f x * g x + (- b) * f x) + ((- a) * g x + a * b)) l)
    by (intros x _; ring).
  rewrite !sumf_plus, !sumf_scal, sumf_const, Ha, Hb. ring.
Qed.
