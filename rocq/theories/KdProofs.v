(** Proofs about the KD-tree. *)

From Coq Require Import ZArith Reals List Bool Lia Lra Permutation.
From Flocq Require Import Core BinarySingleNaN.
From Verif Require Import Outcome Arith TypesModel KdModel SpecFilter RTactics B64Lemmas NdtProofs OccProofs.
Import ListNotations.
Local Open Scope Z_scope.

Definition int_range (z : Z) : Prop := - 2 ^ 31 <= z < 2 ^ 31.
Definition key_range (k : vec3 Z) : Prop := forall i, int_range (kget k i).

Lemma key_range_iff : forall k, key_range k <-> int_range (v0 k) /\ int_range (v1 k) /\ int_range (v2 k).
Proof.
  intro k. split.
  - intro H. exact (conj (H 0%nat) (conj (H 1%nat) (H 2%nat))).
  - intros (H0 & H1 & H2) [|[|i]]; assumption.
Qed.

Lemma check_int_inv : forall z w, check_int z = Ok w -> w = z /\ int_range z.
Proof.
  intros z w H. unfold check_int, fits_int in H. destruct (Z.leb_spec (- 2 ^ 31) z); [|discriminate].
  destruct (Z.ltb_spec z (2 ^ 31)); [|discriminate]. injection H as <-. split; [reflexivity|]. split; assumption.
Qed.
Lemma check_int_ok : forall z, int_range z -> check_int z = Ok z.
Proof.
  intros z (H1 & H2). unfold check_int, fits_int. destruct (Z.leb_spec (- 2 ^ 31) z); [|lia].
  destruct (Z.ltb_spec z (2 ^ 31)); [|lia]. reflexivity.
Qed.

Lemma key_eqb_spec : forall a b, reflect (a = b) (key_eqb a b).
Proof.
  intros [a0 a1 a2] [b0 b1 b2]. unfold key_eqb. cbn.
  destruct (Z.eqb_spec a0 b0), (Z.eqb_spec a1 b1), (Z.eqb_spec a2 b2); constructor; congruence.
Qed.

Lemma pick_axis_some : forall a b ax, pick_axis a b = Some ax -> kget a ax <> kget b ax.
Proof.
  intros a b ax. unfold pick_axis. cbn [fst snd kget].
  destruct (Z.ltb_spec 0 (Z.abs (v0 a - v0 b))); cbn [fst snd];
  [destruct (Z.ltb_spec (Z.abs (v0 a - v0 b)) (Z.abs (v1 a - v1 b)))|
   destruct (Z.ltb_spec 0 (Z.abs (v1 a - v1 b)))]; cbn [fst snd];
  match goal with |- context [?x <? ?y] => destruct (Z.ltb_spec x y) end; cbn [fst snd];
  intro E; try discriminate; injection E as <-; cbn [kget]; lia.
Qed.

Lemma pick_axis_none : forall a b, pick_axis a b = None -> a = b.
Proof.
  intros [a0 a1 a2] [b0 b1 b2]. unfold pick_axis. cbn [fst snd kget v0 v1 v2].
  destruct (Z.ltb_spec 0 (Z.abs (a0 - b0))); cbn [fst snd];
  [destruct (Z.ltb_spec (Z.abs (a0 - b0)) (Z.abs (a1 - b1)))|
   destruct (Z.ltb_spec 0 (Z.abs (a1 - b1)))]; cbn [fst snd];
  match goal with |- context [?x <? ?y] => destruct (Z.ltb_spec x y) end; cbn [fst snd];
  intro E; try discriminate. f_equal; lia.
Qed.

Lemma NoDup_app_intro : forall {X} (a b : list X), NoDup a -> NoDup b ->
  (forall x, In x a -> In x b -> False) -> NoDup (a ++ b).
Proof.
  intros X a b Na Nb D. induction Na as [|x a Nx Na IH]; cbn [app]; [exact Nb|]. constructor.
  - intro I. apply in_app_iff in I. destruct I as [I|I]; [contradiction|]. apply (D x); [left; reflexivity|exact I].
  - apply IH. intros y Y1 Y2. apply (D y); [right; exact Y1|exact Y2].
Qed.

Lemma NoDup_app_parts : forall {X} (a b : list X), NoDup (a ++ b) -> NoDup a /\ NoDup b.
Proof.
  intros X a b. induction a as [|x a IH]; cbn [app]; intro N; [split; [constructor|exact N]|].
  inversion N as [|? ? N1 N2]; subst. destruct (IH N2). split; [|assumption]. constructor; [|assumption].
  intro I. apply N1. apply in_app_iff. auto.
Qed.

Section Tree.
Context {T : Type} {A : Arith T}.

(** Comparing a key with half the sum of two keys is exact. *)
Definition half_exact : Prop := forall k s, int_range k -> int_range s ->
  nlt (nofZ k) (ndiv (nofZ s) (nofZ 2)) = (2 * k <? s).

Fixpoint leaves (t : kdt T) : list (vec3 Z) :=
  match t with KLeaf k _ => [k] | KNode _ _ l r => leaves l ++ leaves r end.

(** Search-tree order: what is left of a pivot compares below it. *)
Fixpoint ordered (t : kdt T) : Prop :=
  match t with
  | KLeaf k _ => True
  | KNode ax pv l r => ordered l /\ ordered r /\
      (forall k, In k (leaves l) -> nlt (nofZ (kget k ax)) pv = true) /\
      (forall k, In k (leaves r) -> nlt (nofZ (kget k ax)) pv = false)
  end.

Lemma insert_spec : half_exact -> forall t k v t' b,
  ordered t -> NoDup (leaves t) -> Forall key_range (leaves t) -> key_range k ->
  kd_insert t k v = Ok (t', b) ->
  ordered t' /\ NoDup (leaves t') /\ Forall key_range (leaves t') /\
  ((b = false /\ In k (leaves t) /\ leaves t' = leaves t) \/
   (b = true /\ ~ In k (leaves t) /\ Permutation (leaves t') (k :: leaves t))).
Proof.
  intros HE. induction t as [pk pw|ax pv l IHl r IHr]; intros k v t' b O N F Rk H.
  - cbn [kd_insert] in H. destruct (key_eqb_spec pk k) as [->|NE].
    { injection H as <- <-. repeat split; try assumption. left. cbn. auto. }
    apply bind_ok in H. destruct H as (d0 & _ & H). apply bind_ok in H. destruct H as (d1 & _ & H).
    apply bind_ok in H. destruct H as (d2 & _ & H).
    destruct (pick_axis pk k) as [ax|] eqn:PA; [|discriminate].
    apply bind_ok in H. destruct H as (sum & S & H). apply check_int_inv in S. destruct S as (-> & Rs).
    apply pick_axis_some in PA.
    assert (Rp : key_range pk) by (inversion F; assumption).
    assert (C1 := HE (kget k ax) _ (Rk ax) Rs). assert (C2 := HE (kget pk ax) _ (Rp ax) Rs).
    cbn zeta in H. injection H as <- <-.
    assert (NI : ~ In k [pk]) by (intros [E|[]]; congruence).
    rewrite C1. destruct (Z.ltb_spec (2 * kget k ax) (kget pk ax + kget k ax)) as [L|L].
    + cbn [ordered leaves app].
      split; [|split; [|split]].
      * split; [exact I|]. split; [exact I|]. split.
        -- intros k' [<-|[]]. exact C1.
        -- intros k' [<-|[]]. rewrite C2. apply Z.ltb_ge. lia.
      * constructor; [exact NI|]. constructor; [intros []|constructor].
      * constructor; [exact Rk|]. constructor; [exact Rp|constructor].
      * right. split; [reflexivity|]. split; [exact NI|]. apply Permutation_refl.
    + cbn [ordered leaves app].
      split; [|split; [|split]].
      * split; [exact I|]. split; [exact I|]. split.
        -- intros k' [<-|[]]. rewrite C2. apply Z.ltb_lt. lia.
        -- intros k' [<-|[]]. exact C1.
      * constructor; [intros [E|[]]; congruence|]. constructor; [intros []|constructor].
      * constructor; [exact Rp|]. constructor; [exact Rk|constructor].
      * right. split; [reflexivity|]. split; [exact NI|]. apply perm_swap.
  - cbn [kd_insert] in H. cbn [ordered leaves] in O, N, F |- *. destruct O as (Ol & Or & Sl & Sr).
    destruct (NoDup_app_parts _ _ N) as (Nl & Nr).
    apply Forall_app in F. destruct F as (Fl & Fr).
    assert (DJ : forall x, In x (leaves l) -> In x (leaves r) -> False).
    { intros x X1 X2. specialize (Sl x X1). specialize (Sr x X2). congruence. }
    destruct (nlt (nofZ (kget k ax)) pv) eqn:C.
    + apply bind_ok in H. destruct H as ((l' & b') & H1 & H). injection H as <- <-.
      destruct (IHl k v l' b' Ol Nl Fl Rk H1) as (Ol' & Nl' & Fl' & Case). cbn [ordered leaves].
      assert (Sl' : forall k', In k' (leaves l') -> nlt (nofZ (kget k' ax)) pv = true).
      { intros k' Hk'. destruct Case as [(_ & _ & E)|(_ & _ & P)].
        - rewrite E in Hk'. apply Sl. exact Hk'.
        - apply (Permutation_in _ P) in Hk'. destruct Hk' as [<-|Hk']; [exact C|apply Sl; exact Hk']. }
      split; [auto|]. split; [|split].
      * apply NoDup_app_intro; [exact Nl'|exact Nr|]. intros x X1 X2. specialize (Sl' x X1). specialize (Sr x X2). congruence.
      * apply Forall_app. auto.
      * destruct Case as [(-> & I1 & E)|(-> & I1 & P)].
        -- left. split; [reflexivity|]. split; [apply in_app_iff; auto|]. rewrite E. reflexivity.
        -- right. split; [reflexivity|]. split.
           ++ intro I2. apply in_app_iff in I2. destruct I2 as [I2|I2]; [auto|]. specialize (Sr k I2). congruence.
           ++ change (k :: leaves l ++ leaves r) with ((k :: leaves l) ++ leaves r). apply Permutation_app_tail. exact P.
    + apply bind_ok in H. destruct H as ((r' & b') & H1 & H). injection H as <- <-.
      destruct (IHr k v r' b' Or Nr Fr Rk H1) as (Or' & Nr' & Fr' & Case). cbn [ordered leaves].
      assert (Sr' : forall k', In k' (leaves r') -> nlt (nofZ (kget k' ax)) pv = false).
      { intros k' Hk'. destruct Case as [(_ & _ & E)|(_ & _ & P)].
        - rewrite E in Hk'. apply Sr. exact Hk'.
        - apply (Permutation_in _ P) in Hk'. destruct Hk' as [<-|Hk']; [exact C|apply Sr; exact Hk']. }
      split; [auto|]. split; [|split].
      * apply NoDup_app_intro; [exact Nl|exact Nr'|]. intros x X1 X2. specialize (Sl x X1). specialize (Sr' x X2). congruence.
      * apply Forall_app. auto.
      * destruct Case as [(-> & I1 & E)|(-> & I1 & P)].
        -- left. split; [reflexivity|]. split; [apply in_app_iff; auto|]. rewrite E. reflexivity.
        -- right. split; [reflexivity|]. split.
           ++ intro I2. apply in_app_iff in I2. destruct I2 as [I2|I2]; [|auto]. specialize (Sl k I2). congruence.
           ++ eapply Permutation_trans; [apply Permutation_app_head; exact P|]. apply Permutation_sym, Permutation_middle.
Qed.

(** What the whole tree says about the keys inserted so far. *)
Definition counts (keys : list (vec3 Z)) (t : kd) : Prop :=
  match fst t with
  | None => keys = [] /\ snd t = 0%nat
  | Some root => ordered root /\ NoDup (leaves root) /\ Forall key_range (leaves root) /\
      length (leaves root) = snd t /\ forall k, In k (leaves root) <-> In k keys
  end.

Lemma counts_distinct : forall keys t, counts keys t -> kd_leaf_count t = distinct keys.
Proof.
  intros keys ([root|] & n) H; unfold counts in H; cbn [fst snd] in H.
  - destruct H as (_ & N & _ & L & I). unfold kd_leaf_count, distinct. cbn [snd]. rewrite <- L.
    apply Permutation_length. apply NoDup_Permutation; [exact N|apply NoDup_nodup|].
    intro k. rewrite nodup_In. apply I.
  - destruct H as (-> & ->). reflexivity.
Qed.

Lemma kd_key_range : forall size c k, kd_key size c = Ok k -> key_range k.
Proof.
  intros size c k H. unfold kd_key in H.
  assert (G : forall (x : T) z, cast_int32 x = Ok z -> int_range z).
  { intros x z E. unfold cast_int32 in E. destruct (ntrunc x) as [w|]; [|discriminate].
    destruct (Z.leb_spec (- 2 ^ 31) w); [|discriminate]. destruct (Z.ltb_spec w (2 ^ 31)); [|discriminate].
    cbn in E. injection E as <-. split; assumption. }
  apply bind_ok in H. destruct H as (a & Ha & H). apply bind_ok in H. destruct H as (b & Hb & H).
  apply bind_ok in H. destruct H as (d & Hd & H). injection H as <-.
  apply key_range_iff. cbn [v0 v1 v2]. repeat split; eapply G; eassumption.
Qed.

Lemma kd_add_counts : half_exact -> forall size t c v t' keys k,
  counts keys t -> kd_key size c = Ok k -> kd_add size t c v = Ok t' -> counts (keys ++ [k]) t'.
Proof.
  intros HE size (root & n) c v t' keys k C K H. unfold kd_add in H. rewrite K in H. cbn [bind fst snd] in H.
  pose proof (kd_key_range _ _ _ K) as Rk. unfold counts in C. cbn [fst snd] in C.
  destruct root as [root|].
  - destruct C as (O & N & F & L & I). apply bind_ok in H. destruct H as ((root' & b) & H1 & H). injection H as <-.
    destruct (insert_spec HE root k v root' b O N F Rk H1) as (O' & N' & F' & Case).
    unfold counts. cbn [fst snd]. split; [exact O'|]. split; [exact N'|]. split; [exact F'|].
    destruct Case as [(-> & I1 & E)|(-> & I1 & P)].
    + split; [rewrite E; exact L|]. intro k'. rewrite E, in_app_iff, I. cbn [In].
      split; [auto|]. intros [H|[<-|[]]]; [exact H|]. apply I. exact I1.
    + split; [rewrite (Permutation_length P); cbn; congruence|]. intro k'. rewrite in_app_iff, <- I.
      split.
      * intro H. apply (Permutation_in _ P) in H. cbn [In] in *. tauto.
      * intro H. apply (Permutation_in _ (Permutation_sym P)). cbn [In] in *. tauto.
  - destruct C as (-> & ->). injection H as <-. unfold counts. cbn [fst snd ordered leaves app length].
    split; [exact I|]. split; [constructor; [intros []|constructor]|]. split; [constructor; [exact Rk|constructor]|].
    split; [reflexivity|]. intro k'. tauto.
Qed.

Theorem kd_count_spec : half_exact -> forall size cs t keys,
  mapM (fun cv => kd_key size (fst cv)) cs = Ok keys ->
  kd_add_all size kd_empty cs = Ok t -> kd_leaf_count t = distinct keys.
Proof.
  intros HE size cs t keys K H. apply (counts_distinct keys t).
  assert (G : forall cs t0 keys0 keys t, counts keys0 t0 -> mapM (fun cv => kd_key size (fst cv)) cs = Ok keys ->
    kd_add_all size t0 cs = Ok t -> counts (keys0 ++ keys) t).
  { clear - HE. induction cs as [|cv cs IH]; intros t0 keys0 keys t C K H; cbn [mapM] in K; unfold kd_add_all in H; cbn [foldM] in H.
    - injection K as <-. injection H as <-. rewrite app_nil_r. exact C.
    - apply bind_ok in K. destruct K as (k & K1 & K). apply bind_ok in K. destruct K as (ks & K2 & K). injection K as <-.
      apply bind_ok in H. destruct H as (t1 & H1 & H). 
      pose proof (kd_add_counts HE size t0 _ _ t1 keys0 k C K1 H1) as C1.
      specialize (IH t1 (keys0 ++ [k]) ks t C1 K2 H). rewrite <- app_assoc in IH. exact IH. }
  apply (G cs kd_empty [] keys t); [split; reflexivity|exact K|exact H].
Qed.

(** Insertions only fail on the conversion, or on keys about 2^30 bins apart. *)
Definition small_key (k : vec3 Z) : Prop := forall i, Z.abs (kget k i) < 2 ^ 30.

Lemma insert_total : forall t k v, Forall small_key (leaves t) -> small_key k ->
  exists t' b, kd_insert t k v = Ok (t', b) /\ (forall k', In k' (leaves t') -> k' = k \/ In k' (leaves t)).
Proof.
  induction t as [pk pw|ax pv l IHl r IHr]; intros k v F Sk.
  - cbn [kd_insert leaves]. destruct (key_eqb_spec pk k) as [->|NE].
    { do 2 eexists. split; [reflexivity|]. cbn. tauto. }
    assert (Sp : small_key pk) by (inversion F; assumption).
    pose proof (Sp 0%nat) as P0. pose proof (Sp 1%nat) as P1. pose proof (Sp 2%nat) as P2.
    pose proof (Sk 0%nat) as K0. pose proof (Sk 1%nat) as K1. pose proof (Sk 2%nat) as K2. cbn [kget] in *.
    rewrite !check_int_ok by (unfold int_range; lia). cbn [bind].
    destruct (pick_axis pk k) as [ax|] eqn:PA; [|apply pick_axis_none in PA; contradiction].
    specialize (Sp ax). specialize (Sk ax). rewrite check_int_ok by (unfold int_range; lia). cbn [bind].
    do 2 eexists. split; [reflexivity|]. intros k' Hk'. cbn [In].
    destruct (nlt _ _); cbn in Hk'; intuition.
  - cbn [leaves] in F. apply Forall_app in F. destruct F as (Fl & Fr). cbn [kd_insert].
    destruct (nlt (nofZ (kget k ax)) pv).
    + destruct (IHl k v Fl Sk) as (l' & b & -> & H). cbn [bind]. do 2 eexists. split; [reflexivity|].
      cbn [leaves]. intros k' Hk'. rewrite in_app_iff in *. destruct Hk' as [Hk'|Hk']; [apply H in Hk'|]; tauto.
    + destruct (IHr k v Fr Sk) as (r' & b & -> & H). cbn [bind]. do 2 eexists. split; [reflexivity|].
      cbn [leaves]. intros k' Hk'. rewrite in_app_iff in *. destruct Hk' as [Hk'|Hk']; [|apply H in Hk']; tauto.
Qed.

Theorem kd_total : forall size cs, 
  (forall cv, In cv cs -> exists k, kd_key size (fst cv) = Ok k /\ small_key k) ->
  exists t, kd_add_all size kd_empty cs = Ok t.
Proof.
  intros size cs H.
  assert (G : forall cs (t : kd), (forall cv, In cv cs -> exists k, kd_key size (fst cv) = Ok k /\ small_key k) ->
     match fst t with None => True | Some r => Forall small_key (leaves r) end ->
     exists t', kd_add_all size t cs = Ok t').
  { clear. induction cs as [|cv cs IH]; intros t H F; [eexists; reflexivity|].
    unfold kd_add_all. cbn [foldM]. destruct (H cv (or_introl eq_refl)) as (k & K & S).
    unfold kd_add at 1. rewrite K. cbn [bind]. destruct t as ([root|] & n); cbn [fst snd] in *.
    - destruct (insert_total root k (snd cv) F S) as (root' & b & E & I). rewrite E. cbn [bind].
      apply IH; [intros; apply H; right; assumption|]. cbn [fst]. apply Forall_forall. intros k' Hk'.
      apply I in Hk'. destruct Hk' as [->|Hk']; [exact S|]. rewrite Forall_forall in F. apply F. exact Hk'.
    - apply IH; [intros; apply H; right; assumption|]. cbn [fst leaves]. constructor; [exact S|constructor]. }
  apply G; [exact H|exact I].
Qed.

End Tree.

Lemma half_exact_R : half_exact (T := R).
Proof.
  intros k s _ _. cbn [nlt ndiv nofZ RA].
  destruct (Z.ltb_spec (2 * k) s) as [L|L].
  - apply Rlt_bool_true. apply IZR_lt in L. rewrite mult_IZR in L. lra.
  - apply Rlt_bool_false. apply IZR_le in L. rewrite mult_IZR in L. lra.
Qed.

Lemma half_exact_b64 : forall lm, half_exact (A := BA lm).
Proof.
  intros lm k s Hk Hs. unfold int_range in *. cbn [nlt ndiv nofZ BA].
  destruct (b64_ofZ k) as (K1 & K2); [lia|]. destruct (b64_ofZ s) as (S1 & S2); [lia|]. destruct (b64_ofZ 2) as (T1 & T2); [lia|].
  destruct (b64_div_ok (b64_of s 0) (b64_of 2 0)) as (D1 & D2); [exact S2|rewrite T1; lra| |].
  - rewrite S1, T1. unfold Rdiv. rewrite Rabs_mult, (Rabs_pos_eq (/ 2)) by lra.
    apply Rle_trans with (Rabs (IZR s)); [pose proof (Rabs_pos (IZR s)); lra|]. apply IZR_bpow1023. lia.
  - assert (E : B2R (Bdiv mode_NE (b64_of s 0) (b64_of 2 0)) = (IZR s / 2)%R).
    { rewrite D1, S1, T1. apply rnd_fmt. apply fmt_half. lia. }
    rewrite Bltb_correct by assumption. rewrite E, K1. exact (half_exact_R k s Hk Hs).
Qed.


(** * Bins *)
Lemma kd_add_all_keys {T : Type} {A : Arith T} : forall size (cs : list (vec3 T * T)) (t t' : kd), kd_add_all size t cs = Ok t' ->
  exists keys, mapM (fun cv => kd_key size (fst cv)) cs = Ok keys.
Proof.
  intros size cs. induction cs as [|cv cs IH]; intros t t' H; [eexists; reflexivity|].
  unfold kd_add_all in H. cbn [foldM] in H. apply bind_ok in H. destruct H as (t1 & H1 & H).
  destruct (IH _ _ H) as (keys & K). unfold kd_add in H1. apply bind_ok in H1. destruct H1 as (k & Hk & _).
  cbn [mapM]. rewrite Hk. cbn [bind]. rewrite K. eexists. reflexivity.
Qed.

Lemma mapM_is_map {X Y} (g : X -> outcome Y) (h : X -> Y) (l : list X) r :
  (forall x y, g x = Ok y -> y = h x) -> mapM g l = Ok r -> r = map h l.
Proof.
  intro H. revert r. induction l as [|x l IH]; intros r E; cbn [mapM] in E; [injection E as <-; reflexivity|].
  apply bind_ok in E. destruct E as (y & Hy & E). apply bind_ok in E. destruct E as (ys & Hys & E). injection E as <-.
  cbn [map]. rewrite (H _ _ Hy), (IH _ Hys). reflexivity.
Qed.

Theorem kd_counts_bins_R : forall size (cs : list (vec3 R * R)) t, kd_add_all size kd_empty cs = Ok t ->
  kd_leaf_count t = distinct (map (fun cv => bin_of size (fst cv)) cs).
Proof.
  intros size cs t H. destruct (kd_add_all_keys _ _ _ _ H) as (keys & K).
  rewrite (kd_count_spec half_exact_R size cs t keys K H). f_equal.
  eapply mapM_is_map; [|exact K]. intros cv k E. cbn beta in E. unfold kd_key in E.
  apply bind_ok in E. destruct E as (a & Ha & E). apply bind_ok in E. destruct E as (b & Hb & E).
  apply bind_ok in E. destruct E as (d & Hd & E). injection E as <-.
  apply cast_int32_inv in Ha, Hb, Hd. subst. reflexivity.
Qed.

Lemma cast_int32_b64 : forall lm (x : b64) z, cast_int32 (A := BA lm) x = Ok z -> z = Ztrunc (B2R x).
Proof.
  intros lm x z H. unfold cast_int32 in H. change (@ntrunc b64 (BA lm) x) with (b64_trunc x) in H.
  destruct (is_finite x) eqn:F.
  - rewrite b64_trunc_ok in H by exact F. destruct (_ && _)%bool; congruence.
  - unfold b64_trunc in H. rewrite F in H. discriminate.
Qed.

Theorem kd_counts_bins_b64 : forall lm size (cs : list (vec3 b64 * b64)) t, kd_add_all (A := BA lm) size kd_empty cs = Ok t ->
  kd_leaf_count t = distinct (map (fun cv => bin_of_b64 size (fst cv)) cs).
Proof.
  intros lm size cs t H. destruct (kd_add_all_keys (A := BA lm) _ _ _ _ H) as (keys & K).
  rewrite (kd_count_spec (A := BA lm) (half_exact_b64 lm) size cs t keys K H). f_equal.
  eapply mapM_is_map; [|exact K]. intros cv k E. cbn beta in E. unfold kd_key in E.
  apply bind_ok in E. destruct E as (a & Ha & E). apply bind_ok in E. destruct E as (b & Hb & E).
  apply bind_ok in E. destruct E as (d & Hd & E). injection E as <-.
  apply cast_int32_b64 in Ha, Hb, Hd. subst. reflexivity.
Qed.
