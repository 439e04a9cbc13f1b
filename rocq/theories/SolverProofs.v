(** Proofs about the optimizer; every statement holds in every arithmetic. *)

From Coq Require Import ZArith List Bool Lia.
From Verif Require Import Outcome Arith TypesModel ScanModel ConstraintModel SolverModel SpecSolver NdtProofs.
Import ListNotations.

Section G.
Context {T : Type} {A : Arith T}.

(** * Nodes *)
Lemma nodes_find_put_same : forall (ns : nodes T) k v, nodes_find (nodes_put ns k v) k = Some v.
Proof.
  induction ns as [|(j, w) ns IH]; intros k v; cbn.
  - rewrite Z.eqb_refl. reflexivity.
  - destruct (Z.eqb_spec j k) as [E|E]; cbn.
    + subst. rewrite Z.eqb_refl. reflexivity.
    + destruct (Z.eqb_spec j k); [contradiction|]. apply IH.
Qed.
Lemma nodes_find_put_other : forall (ns : nodes T) k k' v, k <> k' ->
  nodes_find (nodes_put ns k v) k' = nodes_find ns k'.
Proof.
  induction ns as [|(j, w) ns IH]; intros k k' v N; cbn.
  - destruct (Z.eqb_spec k k'); [contradiction|reflexivity].
  - destruct (Z.eqb_spec j k) as [E|E]; cbn.
    + subst. destruct (Z.eqb_spec k k'); [contradiction|reflexivity].
    + destruct (Z.eqb_spec j k'); [reflexivity|]. apply IH, N.
Qed.
Lemma nodes_find_put_some : forall (ns : nodes T) k k' v, nodes_find ns k' <> None ->
  nodes_find (nodes_put ns k v) k' <> None.
Proof.
  intros ns k k' v H. destruct (Z.eq_dec k k') as [->|N].
  - rewrite nodes_find_put_same. discriminate.
  - rewrite nodes_find_put_other by exact N. exact H.
Qed.

Lemma update_nodes_cons : forall s scans (ns : nodes T),
  update_nodes ns (s :: scans) = update_nodes (nodes_put ns (scan_key s) (pose_vec (s_pose s))) scans.
Proof. reflexivity. Qed.

Lemma update_nodes_keep : forall scans (ns : nodes T) k, nodes_find ns k <> None ->
  nodes_find (update_nodes ns scans) k <> None.
Proof.
  induction scans as [|s scans IH]; intros ns k H; cbn; [exact H|].
  apply IH. apply nodes_find_put_some, H.
Qed.
Lemma update_nodes_has : forall scans (ns : nodes T) s, In s scans ->
  nodes_find (update_nodes ns scans) (scan_key s) <> None.
Proof.
  induction scans as [|s0 scans IH]; intros ns s H; [destruct H|].
  cbn. destruct H as [->|H].
  - apply update_nodes_keep. rewrite nodes_find_put_same. discriminate.
  - apply IH, H.
Qed.
Lemma update_nodes_other : forall scans (ns : nodes T) k, ~ In k (int_ids scans) ->
  nodes_find (update_nodes ns scans) k = nodes_find ns k.
Proof.
  induction scans as [|s0 scans IH]; intros ns k H; [reflexivity|].
  rewrite update_nodes_cons, IH.
  - apply nodes_find_put_other. intro E. apply H. left. exact E.
  - intro E. apply H. right. exact E.
Qed.
Lemma update_nodes_value : forall scans (ns : nodes T) s, NoDup (int_ids scans) -> In s scans ->
  nodes_find (update_nodes ns scans) (scan_key s) = Some (pose_vec (s_pose s)).
Proof.
  induction scans as [|s0 scans IH]; intros ns s N H; [destruct H|].
  rewrite update_nodes_cons. cbn in N. inversion N as [|? ? N1 N2]; subst. destruct H as [->|H].
  - rewrite (update_nodes_other scans _ (scan_key s)) by exact N1. apply nodes_find_put_same.
  - apply IH; assumption.
Qed.

(** * addConstraint *)
Lemma vec_get_nth : forall {X} (v : list X) i x, vec_get v i = Ok x ->
  (0 <= i)%Z /\ nth_error v (Z.to_nat i) = Some x.
Proof.
  intros X v i x H. unfold vec_get in H. destruct (Z.ltb_spec i 0); [discriminate|].
  destruct (nth_error v (Z.to_nat i)); inversion H. auto.
Qed.
Lemma nth_vec_get : forall {X} (v : list X) i x, (0 <= i)%Z -> nth_error v (Z.to_nat i) = Some x ->
  vec_get v i = Ok x.
Proof.
  intros X v i x H E. unfold vec_get. destruct (Z.ltb_spec i 0); [lia|]. rewrite E. reflexivity.
Qed.

Lemma nth_ids : forall (scans : list (scan T)) i s, nth_error scans i = Some s ->
  nth_error (int_ids scans) i = Some (scan_key s).
Proof. intros scans i s H. unfold int_ids. rewrite nth_error_map, H. reflexivity. Qed.

Lemma add_constraint_inv : forall ns scans bl (c : constraint T) bl',
  add_constraint ns scans bl c = Ok bl' ->
  exists b, bl' = bl ++ [b] /\ block_for (int_ids scans) c b /\ rb_begin b <> rb_end b.
Proof.
  intros ns scans bl c bl' H. unfold add_constraint in H.
  destruct (vec_get scans (c_begin c)) as [b|] eqn:Eb; [|discriminate]. cbn [bind] in H.
  destruct (vec_get scans (c_end c)) as [e|] eqn:Ee; [|discriminate]. cbn [bind] in H.
  destruct (nodes_find ns (scan_key b)); [|discriminate].
  destruct (nodes_find ns (scan_key e)); [|discriminate].
  destruct (Z.eqb_spec (scan_key b) (scan_key e)) as [E|E]; [discriminate|].
  injection H as <-. eexists. split; [reflexivity|].
  apply vec_get_nth in Eb. apply vec_get_nth in Ee.
  destruct Eb as (B1 & B2), Ee as (E1 & E2).
  split; [|exact E]. unfold block_for. cbn.
  repeat split; auto using nth_ids.
Qed.

Lemma add_constraints_inv : forall ns scans cs bl bl',
  foldM (add_constraint ns scans) bl cs = Ok bl' ->
  exists bs, bl' = bl ++ bs /\ Forall2 (block_for (int_ids scans)) cs bs.
Proof.
  induction cs as [|c cs IH]; intros bl bl' H; cbn in H.
  - injection H as <-. exists []. rewrite app_nil_r. split; [reflexivity|constructor].
  - destruct (add_constraint ns scans bl c) as [b1|] eqn:E; [|discriminate]. cbn [bind] in H.
    destruct (add_constraint_inv _ _ _ _ _ E) as (b & -> & Hb & _).
    destruct (IH _ _ H) as (bs & -> & Hbs).
    exists (b :: bs). rewrite <- app_assoc. split; [reflexivity|constructor; assumption].
Qed.

Lemma prepare_inv : forall st cs scans p, prepare st cs scans = Ok p ->
  exists bs s, sv_blocks p = sv_blocks st ++ bs /\
    Forall2 (block_for (int_ids scans)) (skipn (sv_num st) cs) bs /\
    nth_error scans 0 = Some s /\ sv_const p = scan_key s :: sv_const st /\
    sv_nodes p = update_nodes (sv_nodes st) scans /\ sv_num p = length cs.
Proof.
  intros st cs scans p H. unfold prepare in H.
  destruct (foldM _ _ _) as [bl|] eqn:E; [|discriminate]. cbn [bind] in H.
  destruct (add_constraints_inv _ _ _ _ _ E) as (bs & -> & Hbs).
  destruct (vec_get scans 0) as [s|] eqn:Es; [|discriminate]. cbn [bind] in H.
  apply vec_get_nth in Es. destruct Es as (_ & Es).
  destruct (in_problem _ _); [|discriminate]. injection H as <-.
  exists bs, s. cbn. repeat split; auto.
Qed.

(** * C53 *)
Lemma optimize_inv : forall ceres st cs scans b st' scans',
  optimize ceres st cs scans = Ok (b, st', scans') ->
  (scans = [] /\ b = false /\ st' = st /\ scans' = []) \/
  (scans <> [] /\ exists p, prepare st cs scans = Ok p /\
     let r := ceres (sv_blocks p) (sv_const p) (sv_nodes p) in
     b = fst r /\ st' = mkSolver (sv_blocks p) (sv_const p) (snd r) (sv_num p) /\
     scans' = if b then map (write_back (snd r)) scans else scans).
Proof.
  intros ceres st cs scans b st' scans' H. unfold optimize in H.
  destruct scans as [|s0 rest] eqn:E.
  - injection H as <- <- <-. left. auto.
  - right. split; [discriminate|]. rewrite <- E in *.
    destruct (prepare st cs scans) as [p|] eqn:P; [|discriminate]. cbn [bind] in H.
    exists p. split; [reflexivity|]. cbn zeta.
    destruct (ceres (sv_blocks p) (sv_const p) (sv_nodes p)) as (u, ns) eqn:C. cbn [fst snd].
    destruct u; injection H as <- <- <-; auto.
Qed.

Lemma write_back_same : forall ns (s : scan T),
  s_id (write_back ns s) = s_id s /\ s_pts (write_back ns s) = s_pts s.
Proof. intros ns s. unfold write_back. destruct (nodes_find ns (scan_key s)); cbn; auto. Qed.

Theorem optimize_failure : forall ceres st cs scans st' scans',
  optimize ceres st cs scans = Ok (false, st', scans') -> scans' = scans.
Proof.
  intros ceres st cs scans st' scans' H. apply optimize_inv in H.
  destruct H as [(-> & _ & _ & ->)|(_ & p & _ & _ & _ & ->)]; reflexivity.
Qed.

Theorem optimize_result : forall ceres st cs scans b st' scans',
  optimize ceres st cs scans = Ok (b, st', scans') ->
  (b = true <-> scans <> [] /\ exists p, prepare st cs scans = Ok p /\
      fst (ceres (sv_blocks p) (sv_const p) (sv_nodes p)) = true).
Proof.
  intros ceres st cs scans b st' scans' H. apply optimize_inv in H.
  destruct H as [(-> & -> & _)|(N & p & P & -> & _)].
  - split; [discriminate|intros (N & _); contradiction].
  - split.
    + intro E. split; [exact N|]. exists p. auto.
    + intros (_ & q & Q & F). rewrite P in Q. injection Q as <-. exact F.
Qed.

Theorem optimize_keeps : forall ceres st cs scans b st' scans',
  optimize ceres st cs scans = Ok (b, st', scans') ->
  map s_id scans' = map s_id scans /\ map s_pts scans' = map s_pts scans.
Proof.
  intros ceres st cs scans b st' scans' H. apply optimize_inv in H.
  destruct H as [(-> & _ & _ & ->)|(_ & p & _ & _ & _ & ->)]; [auto|].
  destruct b; [|auto]. rewrite !map_map. split; apply map_ext; intro s; apply write_back_same.
Qed.

(** * C54 *)
Lemma vec_pose_vec : forall p : pose T, vec_pose (pose_vec p) = p.
Proof. intros []. reflexivity. Qed.

Theorem optimize_success : forall ceres st cs scans st' scans',
  keeps_constant ceres -> keeps_nodes ceres -> NoDup (int_ids scans) ->
  optimize ceres st cs scans = Ok (true, st', scans') ->
  exists p, prepare st cs scans = Ok p /\
    let sol := snd (ceres (sv_blocks p) (sv_const p) (sv_nodes p)) in
    (forall s, In s scans -> nodes_find (sv_nodes p) (to_int32 (s_id s)) = Some (pose_vec (s_pose s))) /\
    (forall i s, nth_error scans i = Some s ->
       exists v s', nodes_find sol (to_int32 (s_id s)) = Some v /\
         nth_error scans' i = Some s' /\ s_pose s' = vec_pose v) /\
    (forall s, nth_error scans 0 = Some s ->
       exists s', nth_error scans' 0 = Some s' /\ s_pose s' = s_pose s).
Proof.
  intros ceres st cs scans st' scans' KC KN ND H.
  destruct (optimize_inv _ _ _ _ _ _ _ H) as [(_ & E & _)|(N & p & P & _ & _ & ->)]; [discriminate|].
  exists p. split; [exact P|]. cbn zeta.
  destruct (prepare_inv _ _ _ _ P) as (bs & s0 & _ & _ & F & CC & NN & _).
  assert (V : forall s, In s scans -> nodes_find (sv_nodes p) (to_int32 (s_id s)) = Some (pose_vec (s_pose s))).
  { intros s Hs. rewrite NN. apply (update_nodes_value scans (sv_nodes st) s ND Hs). }
  split; [exact V|]. split.
  - intros i s Hi. assert (Hs : In s scans) by (eapply nth_error_In; exact Hi).
    destruct (nodes_find (snd (ceres (sv_blocks p) (sv_const p) (sv_nodes p))) (to_int32 (s_id s))) as [v|] eqn:E.
    + exists v. eexists. split; [reflexivity|]. rewrite nth_error_map, Hi. cbn [option_map]. split; [reflexivity|].
      unfold write_back, scan_key. rewrite E. reflexivity.
    + exfalso. eapply KN; [|exact E]. rewrite V by exact Hs. discriminate.
  - intros s Hs. rewrite Hs in F. injection F as <-.
    assert (In0 : In s scans) by (eapply nth_error_In; exact Hs).
    eexists. rewrite nth_error_map, Hs. cbn [option_map]. split; [reflexivity|].
    unfold write_back. rewrite KC.
    + fold (scan_key s) in V. unfold scan_key. rewrite (V s In0). cbn. apply vec_pose_vec.
    + rewrite CC. left. reflexivity.
Qed.

(** * C55 *)
Lemma block_for_app : forall ids more (c : constraint T) b, block_for ids c b -> block_for (ids ++ more) c b.
Proof.
  intros ids more c b (H1 & H2 & H3 & H4 & H5 & H6). repeat split; auto.
  - rewrite nth_error_app1; [exact H4|]. apply nth_error_Some. rewrite H4. discriminate.
  - rewrite nth_error_app1; [exact H6|]. apply nth_error_Some. rewrite H6. discriminate.
Qed.

Lemma solver_ok_grow : forall cs ids st new more, solver_ok cs ids st -> solver_ok (cs ++ new) (ids ++ more) st.
Proof.
  intros cs ids st new more (H1 & H2). split; [rewrite app_length; lia|].
  rewrite firstn_app. replace (sv_num st - length cs) with 0 by lia. cbn. rewrite app_nil_r.
  induction H2; constructor; [apply block_for_app; assumption|assumption].
Qed.

Lemma prepare_ok : forall st cs scans p, solver_ok cs (int_ids scans) st -> prepare st cs scans = Ok p ->
  Forall2 (block_for (int_ids scans)) cs (sv_blocks p) /\ sv_num p = length cs.
Proof.
  intros st cs scans p (H1 & H2) P.
  destruct (prepare_inv _ _ _ _ P) as (bs & s & E & F & _ & _ & _ & N). split; [|exact N].
  rewrite E. rewrite <- (firstn_skipn (sv_num st) cs) at 1. apply Forall2_app; assumption.
Qed.

Lemma optimize_ok : forall ceres st cs scans b st' scans', solver_ok cs (int_ids scans) st ->
  optimize ceres st cs scans = Ok (b, st', scans') -> solver_ok cs (int_ids scans) st'.
Proof.
  intros ceres st cs scans b st' scans' H O.
  destruct (optimize_inv _ _ _ _ _ _ _ O) as [(_ & _ & -> & _)|(_ & p & P & _ & -> & _)]; [exact H|].
  destruct (prepare_ok _ _ _ _ H P) as (Q1 & Q2). unfold solver_ok. cbn. rewrite Q2, firstn_all.
  split; [lia|exact Q1].
Qed.

Lemma run_ok : forall calls ceres st cs0 ids0 cs scans st',
  solver_ok cs0 ids0 st -> growing cs0 ids0 (calls ++ [(cs, scans)]) ->
  optimize_run ceres st calls = Ok st' -> solver_ok cs (int_ids scans) st'.
Proof.
  induction calls as [|(cs1, scans1) calls IH]; intros ceres st cs0 ids0 cs scans st' H G R.
  - cbn in *. injection R as <-. destruct G as ((new & ->) & (more & ->) & _). apply solver_ok_grow, H.
  - cbn [app growing] in G. destruct G as ((new & E1) & (more & E2) & G).
    cbn [optimize_run] in R.
    destruct (optimize ceres st cs1 scans1) as [((b1, st1), sc1)|] eqn:O; [|discriminate]. cbn [bind] in R.
    eapply IH; [|exact G|exact R].
    eapply optimize_ok; [|exact O]. rewrite E2, E1. apply solver_ok_grow, H.
Qed.

Theorem problem_complete : forall ceres calls cs scans st p,
  growing [] [] (calls ++ [(cs, scans)]) ->
  optimize_run ceres solver_new calls = Ok st -> prepare st cs scans = Ok p ->
  Forall2 (block_for (int_ids scans)) cs (sv_blocks p).
Proof.
  intros ceres calls cs scans st p G R P.
  apply (proj1 (prepare_ok st cs scans p
    (run_ok calls ceres solver_new [] [] cs scans st (conj (le_n 0) (Forall2_nil _)) G R) P)).
Qed.

(** * C56: what happens for any other call *)
Theorem problem_any_call : forall st cs scans p, prepare st cs scans = Ok p ->
  exists bs, sv_blocks p = sv_blocks st ++ bs /\
    Forall2 (block_for (int_ids scans)) (skipn (sv_num st) cs) bs /\ sv_num p = length cs.
Proof.
  intros st cs scans p P. destruct (prepare_inv _ _ _ _ P) as (bs & s & E & F & _ & _ & _ & N). eauto.
Qed.

(** * When optimize is defined *)
Lemma nth_ids_inv : forall (scans : list (scan T)) i k, nth_error (int_ids scans) i = Some k ->
  exists s, nth_error scans i = Some s /\ scan_key s = k.
Proof.
  intros scans i k H. unfold int_ids in H. rewrite nth_error_map in H.
  destruct (nth_error scans i) as [s|] eqn:E; [|discriminate]. cbn in H. injection H as <-. eauto.
Qed.

Lemma add_constraint_defined : forall ns scans bl (c : constraint T),
  (exists bl', add_constraint (update_nodes ns scans) scans bl c = Ok bl') <-> good_constraint (int_ids scans) c.
Proof.
  intros ns scans bl c. split.
  - intros (bl' & H). destruct (add_constraint_inv _ _ _ _ _ H) as (b & _ & (_ & _ & B1 & B2 & E1 & E2) & N).
    split; [exact B1|]. split; [exact E1|]. eauto.
  - intros (B & E & kb & ke & H1 & H2 & N).
    destruct (nth_ids_inv _ _ _ H1) as (b & Hb & Kb). destruct (nth_ids_inv _ _ _ H2) as (e & He & Ke).
    unfold add_constraint. rewrite (nth_vec_get _ _ _ B Hb), (nth_vec_get _ _ _ E He). cbn [bind].
    pose proof (update_nodes_has scans ns b (nth_error_In _ _ Hb)) as F1.
    pose proof (update_nodes_has scans ns e (nth_error_In _ _ He)) as F2.
    destruct (nodes_find (update_nodes ns scans) (scan_key b)); [|contradiction].
    destruct (nodes_find (update_nodes ns scans) (scan_key e)); [|contradiction].
    destruct (Z.eqb_spec (scan_key b) (scan_key e)) as [Q|Q]; [congruence|]. eauto.
Qed.

Lemma add_constraints_defined : forall ns scans cs bl,
  (exists bl', foldM (add_constraint (update_nodes ns scans) scans) bl cs = Ok bl') <->
  Forall (good_constraint (int_ids scans)) cs.
Proof.
  induction cs as [|c cs IH]; intro bl.
  - cbn. split; [constructor|eauto].
  - cbn [foldM]. split.
    + intros (bl' & H). destruct (add_constraint _ _ bl c) as [b1|] eqn:E; [|discriminate]. cbn [bind] in H.
      constructor; [apply (add_constraint_defined ns scans bl); eauto|]. apply (IH b1); eauto.
    + intro H. inversion H as [|? ? H1 H2]; subst.
      destruct (proj2 (add_constraint_defined ns scans bl c) H1) as (b1 & E). rewrite E. cbn [bind].
      apply IH, H2.
Qed.

Lemma in_problem_spec : forall (bl : list (block T)) k,
  in_problem bl k = true <-> exists b, In b bl /\ (rb_begin b = k \/ rb_end b = k).
Proof.
  intros bl k. unfold in_problem. rewrite existsb_exists. split.
  - intros (b & H1 & H2). exists b. split; [exact H1|]. apply orb_prop in H2. rewrite !Z.eqb_eq in H2. exact H2.
  - intros (b & H1 & H2). exists b. split; [exact H1|]. apply orb_true_iff. rewrite !Z.eqb_eq. exact H2.
Qed.

Lemma Forall2_in_l : forall {X Y} (R : X -> Y -> Prop) l l' x, Forall2 R l l' -> In x l -> exists y, In y l' /\ R x y.
Proof.
  intros X Y R l l' x H. induction H as [|a b l l' H1 H2 IH]; intro I; [destruct I|].
  destruct I as [->|I]; [exists b; split; [left; reflexivity|exact H1]|].
  destruct (IH I) as (y & Y1 & Y2). exists y. split; [right; exact Y1|exact Y2].
Qed.
Lemma Forall2_in_r : forall {X Y} (R : X -> Y -> Prop) l l' y, Forall2 R l l' -> In y l' -> exists x, In x l /\ R x y.
Proof.
  intros X Y R l l' y H. induction H as [|a b l l' H1 H2 IH]; intro I; [destruct I|].
  destruct I as [->|I]; [exists a; split; [left; reflexivity|exact H1]|].
  destruct (IH I) as (x & X1 & X2). exists x. split; [right; exact X1|exact X2].
Qed.

(** For a solver that has seen the first [sv_num] constraints of the graph. *)
Theorem optimize_defined : forall ceres st cs scans, solver_ok cs (int_ids scans) st ->
  ((exists r, optimize ceres st cs scans = Ok r) <->
   scans = [] \/
   (Forall (good_constraint (int_ids scans)) (skipn (sv_num st) cs) /\
    exists k c, nth_error (int_ids scans) 0 = Some k /\ In c cs /\ touches (int_ids scans) k c)).
Proof.
  intros ceres st cs scans OK. split.
  - intros (((b, st'), scans') & H). apply optimize_inv in H.
    destruct H as [(-> & _)|(N & p & P & _)]; [left; reflexivity|right].
    pose proof (prepare_ok _ _ _ _ OK P) as (F & _).
    unfold prepare in P.
    destruct (foldM _ _ _) as [bl|] eqn:E; [|discriminate]. cbn [bind] in P.
    split; [apply (add_constraints_defined (sv_nodes st) scans _ (sv_blocks st)); eauto|].
    destruct (vec_get scans 0) as [s|] eqn:Es; [|discriminate]. cbn [bind] in P.
    apply vec_get_nth in Es. destruct Es as (_ & Es). cbn in Es.
    destruct (in_problem bl (scan_key s)) eqn:I; [|discriminate]. injection P as <-. cbn in F.
    apply in_problem_spec in I. destruct I as (b0 & I1 & I2).
    destruct (Forall2_in_r _ _ _ _ F I1) as (c & C1 & (_ & _ & _ & C2 & _ & C3)).
    exists (scan_key s), c. split; [apply (nth_ids scans 0 s Es)|]. split; [exact C1|].
    unfold touches. destruct I2 as [<-|<-]; auto.
  - intros [->|(F & k & c & K & C1 & C2)]; [cbn; eauto|].
    destruct (proj2 (add_constraints_defined (sv_nodes st) scans _ (sv_blocks st)) F) as (bl & E).
    destruct (nth_ids_inv _ _ _ K) as (s & Hs & Ks).
    assert (P : prepare st cs scans = Ok (mkSolver bl (scan_key s :: sv_const st) (update_nodes (sv_nodes st) scans) (length cs))).
    { unfold prepare. rewrite E. cbn [bind]. rewrite (nth_vec_get scans 0 s (Z.le_refl 0) Hs). cbn [bind].
      assert (I : in_problem bl (scan_key s) = true).
      { apply in_problem_spec.
        destruct (add_constraints_inv _ _ _ _ _ E) as (bs & -> & Hbs).
        assert (F2 : Forall2 (block_for (int_ids scans)) cs (sv_blocks st ++ bs)).
        { rewrite <- (firstn_skipn (sv_num st) cs) at 1. apply Forall2_app; [apply OK|exact Hbs]. }
        destruct (Forall2_in_l _ _ _ _ F2 C1) as (b & B1 & (_ & _ & _ & B2 & _ & B3)).
        exists b. split; [exact B1|]. subst k. destruct C2 as [C2|C2]; [left|right]; congruence. }
      rewrite I. reflexivity. }
    unfold optimize. destruct scans as [|s0 rest]; [discriminate|]. rewrite P. cbn [bind].
    destruct (ceres _ _ _) as ([|], ns); eauto.
Qed.
End G.

(** * Concrete runs (exact arithmetic; no computation on numbers is needed) *)
From Coq Require Import Reals Lra.

Definition keep_all (u : bool) : ceres_oracle R := fun _ _ ns => (u, ns).
Lemma keep_all_constant : forall u, keeps_constant (keep_all u).
Proof. intros u blocks const ns k _. reflexivity. Qed.
Lemma keep_all_nodes : forall u, keeps_nodes (keep_all u).
Proof. intros u blocks const ns k H. exact H. Qed.

Definition demo_scan (i : Z) (x : R) : scan R := mkScan i true (mkPose x 0%R 0%R) pose0 [].
Definition demo_edge (b e : Z) (x : R) : constraint R :=
  mkConstraint b e (mkVec3 x 0%R 0%R) (mkMat3 1 0 0 0 1 0 0 0 1)%R false.
Definition map1_scans : list (scan R) := [demo_scan 0 0; demo_scan 1 1].
Definition map1_edges : list (constraint R) := [demo_edge 0 1 1].
Definition map2_scans : list (scan R) := [demo_scan 0 0; demo_scan 1 2].
Definition map2_edges : list (constraint R) := [demo_edge 0 1 2].


Lemma demo_success : exists st sc, optimize (keep_all true) solver_new map1_edges map1_scans = Ok (true, st, sc).
Proof. do 2 eexists. cbn. reflexivity. Qed.
Lemma demo_failure : exists st, optimize (keep_all false) solver_new map1_edges map1_scans = Ok (false, st, map1_scans).
Proof. eexists. cbn. reflexivity. Qed.
Lemma demo_nodup : NoDup (int_ids map1_scans).
Proof. cbn. repeat constructor; cbn; intuition discriminate. Qed.

Lemma demo_growing : growing [] [] ([(map1_edges, map1_scans)] ++
    [(map1_edges ++ [demo_edge 1 0 3], map1_scans)]) /\
  exists st p, optimize_run (keep_all true) solver_new [(map1_edges, map1_scans)] = Ok st /\
    prepare st (map1_edges ++ [demo_edge 1 0 3]) map1_scans = Ok p.
Proof.
  split.
  - cbn [app growing]. split; [eexists; reflexivity|]. split; [eexists; reflexivity|].
    split; [exists [demo_edge 1 0 3]; reflexivity|]. split; [exists []; reflexivity|exact I].
  - do 2 eexists. split; cbn; reflexivity.
Qed.

Lemma loaded_map_ignored :
  exists b st sc p, optimize (keep_all true) solver_new map1_edges map1_scans = Ok (b, st, sc) /\
    prepare st map2_edges map2_scans = Ok p /\
    ~ Forall2 (block_for (int_ids map2_scans)) map2_edges (sv_blocks p).
Proof.
  do 4 eexists. split; [cbn; reflexivity|]. split; [cbn; reflexivity|].
  cbn [sv_blocks]. intro F. inversion F as [|? ? ? ? (E & _) _]; subst. cbn in E.
  injection E as E. lra.
Qed.

Theorem loaded_map_refuted :
  ~ (forall (ceres : ceres_oracle R) cs1 scans1 b st sc cs2 scans2 p,
      optimize ceres solver_new cs1 scans1 = Ok (b, st, sc) ->
      prepare st cs2 scans2 = Ok p ->
      Forall2 (block_for (int_ids scans2)) cs2 (sv_blocks p)).
Proof.
  intro H. destruct loaded_map_ignored as (b & st & sc & p & H1 & H2 & H3).
  exact (H3 (H _ _ _ _ _ _ _ _ _ H1 H2)).
Qed.
