(** Proofs about the ray tracing loop. *)

From Coq Require Import ZArith List Bool Lia Psatz.
From Verif Require Import Outcome Arith TypesModel ScanModel OccGridModel SpecRay.
Import ListNotations.
Local Open Scope Z_scope.

Section Ray.
Context (a b x0 y0 sx sy : Z).
Context (Ha : 0 <= a) (Hb : 0 <= b) (Hsx : sx = 1 \/ sx = -1) (Hsy : sy = 1 \/ sy = -1).

Let cell (o : Z * Z) : gcell := (x0 + fst o * sx, y0 + snd o * sy).
Let ex := x0 + a * sx.
Let ey := y0 + b * sy.

(** Offsets reached at the top of the loop. *)
Definition ray_inv (i j e : Z) : Prop :=
  0 <= i <= a /\ 0 <= j <= b /\ e = a - b + a * j - b * i /\
  ((b <= a /\ j <= i /\ (a - b <= e \/ a < 2 * e) /\ (i = a -> ~ (b < a <= 2 * b))) \/
   (a < b /\ e < a)).

(** Offset of the hit. *)
Definition hit_offset : Z * Z :=
  if ((b <? a) && (a <=? 2 * b)) then (a - 1, b) else (a, b).

Lemma x_eq : forall i, (x0 + i * sx =? ex) = (i =? a).
Proof.
  intro i. unfold ex. destruct (Z.eqb_spec i a) as [->|N].
  - apply Z.eqb_refl.
  - apply Z.eqb_neq. destruct Hsx; subst; lia.
Qed.
Lemma y_eq : forall j, (y0 + j * sy =? ey) = (j =? b).
Proof.
  intro j. unfold ey. destruct (Z.eqb_spec j b) as [->|N].
  - apply Z.eqb_refl.
  - apply Z.eqb_neq. destruct Hsy; subst; lia.
Qed.

(** One iteration that is not the last one: either the early break, or a step
    to a new offset. *)
Lemma step_shallow : forall i j e, ray_inv i j e -> b <= a -> ~ (i = a /\ j = b) ->
  i < a /\ (- b <=? 2 * e) = true /\
  ((j = b /\ (2 * (e - b) <=? a) = true /\ i = a - 1 /\ b < a <= 2 * b) \/
   (j < b /\ (2 * (e - b) <=? a) = true /\ ray_inv (i + 1) (j + 1) (e - b + a)) \/
   ((2 * (e - b) <=? a) = false /\ ray_inv (i + 1) j (e - b))).
Proof.
  intros i j e (Hi & Hj & He & [(S1 & S2 & S3 & S4)|(S1 & S2)]) Sh NE; [|lia].
  assert (E0 : 0 <= e) by lia.
  assert (Ia : i < a).
  { destruct (Z.eq_dec i a) as [->|]; [|lia]. exfalso.
    assert (j < b) by lia. assert (a * j <= a * (b - 1)) by (apply Z.mul_le_mono_nonneg_l; lia).
    assert (e <= - b) by nia. lia. }
  split; [exact Ia|]. split; [apply Z.leb_le; lia|].
  destruct (Z.leb_spec (2 * (e - b)) a) as [Y|Y].
  - destruct (Z.eq_dec j b) as [->|Nj].
    + left. split; [reflexivity|]. split; [reflexivity|].
      assert (E1 : e - b = a + b * (a - i - 2)) by (rewrite He; ring).
      rewrite E1 in Y.
      assert (I1 : i = a - 1).
      { destruct (Z_le_gt_dec i (a - 2)); [|lia]. exfalso. assert (0 <= b * (a - i - 2)) by (apply Z.mul_nonneg_nonneg; lia). lia. }
      split; [exact I1|]. subst i. replace (a - (a - 1) - 2) with (-1) in Y by ring. lia.
    + right. left. split; [lia|]. split; [reflexivity|].
      unfold ray_inv. split; [lia|]. split; [lia|]. split; [rewrite He; ring|]. left.
      split; [exact S1|]. split; [lia|]. split; [lia|].
      intros I1 [H1 H2]. assert (i = a - 1) by lia. subst i.
      assert (e = a + a * (j - b)) by (rewrite He; ring).
      assert (a * (j - b) <= a * (-1)) by (apply Z.mul_le_mono_nonneg_l; lia). lia.
  - right. right. split; [reflexivity|].
    unfold ray_inv. split; [lia|]. split; [lia|]. split; [rewrite He; ring|]. left.
    split; [exact S1|]. split; [lia|]. split; [lia|].
    intros I1 [H1 H2]. assert (i = a - 1) by lia. subst i.
    destruct (Z.eq_dec j b) as [->|Nj].
    + assert (e = a) by (rewrite He; ring). lia.
    + assert (e = a + a * (j - b)) by (rewrite He; ring).
      assert (a * (j - b) <= a * (-1)) by (apply Z.mul_le_mono_nonneg_l; lia). lia.
Qed.

Lemma step_steep : forall i j e, ray_inv i j e -> a < b -> ~ (i = a /\ j = b) ->
  j < b /\
  (((- b <=? 2 * e) = true /\ i < a /\ (2 * (e - b) <=? a) = true /\ ray_inv (i + 1) (j + 1) (e - b + a)) \/
   ((- b <=? 2 * e) = false /\ (2 * e <=? a) = true /\ ray_inv i (j + 1) (e + a))).
Proof.
  intros i j e (Hi & Hj & He & [(S1 & S2 & S3 & S4)|(S1 & S2)]) St NE; [lia|].
  assert (Jb : j < b).
  { destruct (Z.eq_dec j b) as [->|]; [|lia]. exfalso. assert (i < a) by lia.
    assert (E1 : e = a + b * (a - i - 1)) by (rewrite He; ring).
    assert (0 <= b * (a - i - 1)) by (apply Z.mul_nonneg_nonneg; lia). lia. }
  split; [exact Jb|].
  destruct (Z.leb_spec (- b) (2 * e)) as [X|X].
  - left. split; [reflexivity|].
    assert (Ia : i < a).
    { destruct (Z.eq_dec i a) as [->|]; [|lia]. exfalso.
      assert (E1 : e = - b + a * (1 - (b - j))) by (rewrite He; ring).
      assert (a * (1 - (b - j)) <= 0) by (apply Z.mul_nonneg_nonpos; lia). lia. }
    split; [exact Ia|]. split; [apply Z.leb_le; lia|].
    unfold ray_inv. split; [lia|]. split; [lia|]. split; [rewrite He; ring|]. right. lia.
  - right. split; [reflexivity|]. split; [apply Z.leb_le; lia|].
    unfold ray_inv. split; [lia|]. split; [lia|]. split; [rewrite He; ring|]. right. lia.
Qed.

Definition misplaced : bool := (b <? a) && (a <=? 2 * b).

(** The loop from offset (i, j): the offsets counted as empty and the one
    counted as hit.  [early] tells whether the loop ended by the early break, in
    which case the hit cell is also the last empty one. *)
Inductive path : bool -> Z -> Z -> list (Z * Z) -> Z * Z -> Prop :=
| path_end : forall i j, 0 <= i <= a -> 0 <= j <= b -> path false i j [] (i, j)
| path_early : forall i j, 0 <= i <= a -> 0 <= j <= b -> path true i j [(i, j)] (i, j)
| path_step : forall early i j i2 j2 l h, 0 <= i <= a -> 0 <= j <= b ->
    i <= i2 <= i + 1 -> j <= j2 <= j + 1 -> i + j < i2 + j2 ->
    path early i2 j2 l h -> path early i j ((i, j) :: l) h.

Lemma ray_main : forall fuel i j e,
  ray_inv i j e -> (Z.to_nat ((a - i) + (b - j)) < fuel)%nat ->
  exists l, ray_loop fuel ex ey a (- b) sx sy (x0 + i * sx) (y0 + j * sy) e =
      Ok (map cell l, cell hit_offset) /\ path misplaced i j l hit_offset.
Proof.
  induction fuel as [|fuel IH]; intros i j e Inv F; [lia|].
  assert (Hi : 0 <= i <= a) by apply Inv. assert (Hj : 0 <= j <= b) by apply Inv.
  cbn [ray_loop]. rewrite x_eq, y_eq.
  assert (Case : (i = a /\ j = b) \/ ~ (i = a /\ j = b)) by lia.
  destruct Case as [(Ia & Jb)|NE].
  { (* the end cell *)
    assert (M : misplaced = false).
    { unfold misplaced. destruct Inv as (_ & _ & He & [(S1 & S2 & S3 & S4)|(S1 & S2)]).
      - specialize (S4 Ia). destruct (Z.ltb_spec b a), (Z.leb_spec a (2 * b)); cbn [andb]; try reflexivity. exfalso; apply S4; lia.
      - destruct (Z.ltb_spec b a); [lia|]. reflexivity. }
    rewrite (proj2 (Z.eqb_eq i a) Ia), (proj2 (Z.eqb_eq j b) Jb). cbn [andb].
    assert (Hh : hit_offset = (i, j)) by (unfold hit_offset; unfold misplaced in M; rewrite M; congruence).
    exists []. rewrite M, Hh. split; [reflexivity|]. constructor; assumption. }
  assert (NB : ((i =? a) && (j =? b)) = false)
    by (destruct (Z.eqb_spec i a), (Z.eqb_spec j b); cbn [andb]; try reflexivity; exfalso; tauto).
  rewrite NB. clear NB.
  replace (x0 + i * sx + sx) with (x0 + (i + 1) * sx) by ring.
  replace (y0 + j * sy + sy) with (y0 + (j + 1) * sy) by ring.
  replace (e + - b) with (e - b) by ring.
  assert (Finish : forall i' j' e', ray_inv i' j' e' -> i <= i' <= i + 1 -> j <= j' <= j + 1 -> i + j < i' + j' ->
    exists l, bind (ray_loop fuel ex ey a (- b) sx sy (x0 + i' * sx) (y0 + j' * sy) e')
       (fun '(es, h) => Ok ((x0 + i * sx, y0 + j * sy) :: es, h)) = Ok (map cell l, cell hit_offset) /\
       path misplaced i j l hit_offset).
  { intros i' j' e' I' B1 B2 B3.
    assert (0 <= i' <= a) by apply I'. assert (0 <= j' <= b) by apply I'.
    destruct (IH i' j' e' I') as (l & R & P); [lia|].
    rewrite R. cbn [bind]. exists ((i, j) :: l). split; [reflexivity|].
    eapply path_step; [assumption|assumption| | | |exact P]; lia. }
  destruct (Z_le_gt_dec b a) as [Sh|St].
  - destruct (step_shallow i j e Inv Sh NE) as (Ilt & X & [(Jb' & Y & I1 & HM)|[(Jlt & Y & Inv')|(Y & Inv')]]);
      rewrite X, (proj2 (Z.eqb_neq i a)) by lia; cbn [andb]; rewrite Y.
    + rewrite (proj2 (Z.eqb_eq j b)) by lia. cbn [andb].
      assert (M : misplaced = true) by (unfold misplaced; apply andb_true_iff; split; [apply Z.ltb_lt|apply Z.leb_le]; lia).
      assert (Hh : hit_offset = (i, j)) by (unfold hit_offset; unfold misplaced in M; rewrite M; congruence).
      exists [(i, j)]. rewrite M, Hh. split; [reflexivity|]. constructor; assumption.
    + rewrite (proj2 (Z.eqb_neq j b)) by lia. cbn [andb]. apply Finish; [exact Inv'|lia|lia|lia].
    + cbn [andb]. apply Finish; [exact Inv'|lia|lia|lia].
  - destruct (step_steep i j e Inv (Z.gt_lt _ _ St) NE) as (Jlt & [(X & Ilt & Y & Inv')|(X & Y & Inv')]); rewrite X.
    + rewrite (proj2 (Z.eqb_neq i a)) by lia. cbn [andb]. rewrite Y, (proj2 (Z.eqb_neq j b)) by lia. cbn [andb].
      apply Finish; [exact Inv'|lia|lia|lia].
    + cbn [andb]. rewrite Y, (proj2 (Z.eqb_neq j b)) by lia. cbn [andb].
      apply Finish; [exact Inv'|lia|lia|lia].
Qed.

(** * Consequences *)
Lemma path_bounds : forall early i j l h, path early i j l h ->
  (forall p, In p l -> 0 <= fst p <= a /\ 0 <= snd p <= b /\ i + j <= fst p + snd p) /\
  0 <= fst h <= a /\ 0 <= snd h <= b.
Proof.
  intros early i j l h P. induction P as [i j Hi Hj|i j Hi Hj|early i j i2 j2 l h Hi Hj H1 H2 H3 P IH].
  - split; [intros p []|cbn; auto].
  - split; [|cbn; auto]. intros p [<-|[]]. cbn. lia.
  - destruct IH as (IH1 & IH2). split; [|exact IH2]. intros p [<-|Hp]; [cbn; lia|].
    specialize (IH1 p Hp). lia.
Qed.

Lemma path_nodup : forall early i j l h, path early i j l h -> NoDup l.
Proof.
  intros early i j l h P. induction P as [i j Hi Hj|i j Hi Hj|early i j i2 j2 l h Hi Hj H1 H2 H3 P IH].
  - constructor.
  - repeat constructor. intros [].
  - constructor; [|exact IH]. intro Hin. destruct (path_bounds _ _ _ _ _ P) as (B & _).
    specialize (B _ Hin). cbn in B. lia.
Qed.

Lemma path_hit : forall early i j l h, path early i j l h -> (In h l <-> early = true).
Proof.
  intros early i j l h P. induction P as [i j Hi Hj|i j Hi Hj|early i j i2 j2 l h Hi Hj H1 H2 H3 P IH].
  - split; [intros []|discriminate].
  - split; [reflexivity|left; reflexivity].
  - cbn [In]. rewrite <- IH. split; [|tauto]. intros [E|E]; [|exact E].
    exfalso. subst h. clear IH.
    assert (G : forall early i' j' l h, path early i' j' l h -> i' + j' <= fst h + snd h).
    { clear. intros early i' j' l h P. induction P; cbn in *; lia. }
    specialize (G _ _ _ _ _ P). cbn in G. lia.
Qed.

Lemma cell_inj : forall p q, cell p = cell q -> p = q.
Proof.
  intros [p1 p2] [q1 q2] H. unfold cell in H. cbn in H. injection H as H1 H2.
  f_equal; [destruct Hsx|destruct Hsy]; subst; lia.
Qed.
Definition ocell (o : Z * Z) : gcell := (x0 + fst o * sx, y0 + snd o * sy).

Lemma adjacent_cell : forall p q, 
  fst p <= fst q <= fst p + 1 -> snd p <= snd q <= snd p + 1 -> fst p + snd p < fst q + snd q ->
  adjacent (ocell p) (ocell q).
Proof.
  intros [p1 p2] [q1 q2] H1 H2 H3. unfold adjacent, ocell. cbn in *.
  split; [destruct Hsx; subst; lia|]. split; [destruct Hsy; subst; lia|].
  intro E. injection E as E1 E2. destruct Hsx, Hsy; subst; lia.
Qed.

Lemma path_connected : forall early i j l h, path early i j l h ->
  h = (if early then (a - 1, b) else (a, b)) ->
  connected (ocell (i, j)) (match map ocell (l ++ [(a, b)]) with [] => [] | _ :: r => r end) /\
  exists r, l ++ [(a, b)] = (i, j) :: r.
Proof.
  intros early i j l h P E.
  induction P as [i j Hi Hj|i j Hi Hj|early i j i2 j2 l h Hi Hj H1 H2 H3 P IH].
  - injection E as -> ->. cbn. split; [exact I|eauto].
  - injection E as -> ->. cbn [app map]. split; [|eauto]. cbn [connected]. split; [|exact I].
    apply adjacent_cell; cbn; lia.
  - destruct (IH E) as (IH1 & r & R). cbn [app map]. split; [|eauto].
    rewrite R in IH1 |- *. cbn [map] in IH1 |- *. cbn [connected]. split; [|exact IH1].
    apply adjacent_cell; cbn; lia.
Qed.

Lemma ray_result : forall fuel, (Z.to_nat (a + b) < fuel)%nat ->
  exists l, ray_loop fuel ex ey a (- b) sx sy x0 y0 (a + - b) = Ok (map ocell l, ocell hit_offset) /\
    path misplaced 0 0 l hit_offset.
Proof.
  intros fuel F.
  assert (I0 : ray_inv 0 0 (a + - b)).
  { unfold ray_inv. split; [lia|]. split; [lia|]. split; [ring|].
    destruct (Z_le_gt_dec b a); [left|right; lia]. repeat split; try lia. }
  destruct (ray_main fuel 0 0 (a + - b) I0) as (l & R & P); [lia|].
  exists l. split; [|exact P]. replace (x0 + 0 * sx) with x0 in R by ring. replace (y0 + 0 * sy) with y0 in R by ring.
  exact R.
Qed.
End Ray.

Definition ray_fits (s e : gcell) : Prop :=
  2 * (Z.abs (fst e - fst s) + Z.abs (snd e - snd s)) < 2 ^ 31.

Lemma NoDup_map_inj : forall {X Y} (f : X -> Y) l, (forall x y, f x = f y -> x = y) -> NoDup l -> NoDup (map f l).
Proof.
  intros X Y f l H N. induction N as [|x l N1 N2 IH]; cbn; constructor; [|exact IH].
  intro I. apply in_map_iff in I. destruct I as (y & E & I). apply H in E. subst. contradiction.
Qed.

Theorem trace_ray_spec : forall s e : gcell, ray_fits s e ->
  exists es h, trace_ray s e = Ok (es, h) /\
    Forall (in_rect s e) es /\ in_rect s e h /\ NoDup es /\
    (exists r, es ++ [e] = s :: r /\ connected s r) /\
    (~ half_diagonal s e -> h = e /\ ~ In h es) /\
    (half_diagonal s e -> h = (fst e - Z.sgn (fst e - fst s), snd e) /\ In h es).
Proof.
  intros [x0 y0] [ex ey] F. unfold ray_fits in F. cbn [fst snd] in F.
  unfold trace_ray.
  set (a := Z.abs (ex - x0)) in *. set (b := Z.abs (ey - y0)) in *.
  set (sx := if (x0 <? ex) then 1 else -1). set (sy := if (y0 <? ey) then 1 else -1).
  assert (Ha : 0 <= a) by (unfold a; lia). assert (Hb : 0 <= b) by (unfold b; lia).
  assert (Hsx : sx = 1 \/ sx = -1) by (unfold sx; destruct (x0 <? ex); auto).
  assert (Hsy : sy = 1 \/ sy = -1) by (unfold sy; destruct (y0 <? ey); auto).
  assert (Eex : ex = x0 + a * sx).
  { unfold a, sx. destruct (Z.ltb_spec x0 ex); [rewrite Z.abs_eq by lia|rewrite Z.abs_neq by lia]; ring. }
  assert (Eey : ey = y0 + b * sy).
  { unfold b, sy. destruct (Z.ltb_spec y0 ey); [rewrite Z.abs_eq by lia|rewrite Z.abs_neq by lia]; ring. }
  destruct (Z.ltb_spec (2 * (a - - b)) (2 ^ 31)) as [L|L]; [|lia].
  destruct (ray_result a b x0 y0 sx sy Ha Hb Hsx Hsy (S (S (Z.to_nat (a - - b))))) as (l & R & P); [lia|].
  rewrite <- Eex, <- Eey in R. rewrite R.
  do 2 eexists. split; [reflexivity|].
  assert (PB := P). apply path_bounds in PB; try assumption. destruct PB as (B1 & B2 & B3).
  assert (RECT : forall p, 0 <= fst p <= a -> 0 <= snd p <= b -> in_rect (x0, y0) (ex, ey) (ocell x0 y0 sx sy p)).
  { intros [p1 p2] P1 P2. unfold in_rect, between, ocell. cbn in *. rewrite Eex, Eey.
    destruct Hsx as [->| ->], Hsy as [->| ->]; lia. }
  assert (HD : half_diagonal (x0, y0) (ex, ey) <-> misplaced a b = true).
  { unfold half_diagonal, misplaced. cbn [fst snd]. fold a b. rewrite andb_true_iff, Z.ltb_lt, Z.leb_le. lia. }
  assert (HO : hit_offset a b = if misplaced a b then (a - 1, b) else (a, b)) by reflexivity.
  assert (INJ : forall p q, ocell x0 y0 sx sy p = ocell x0 y0 sx sy q -> p = q).
  { intros [p1 p2] [q1 q2] Hpq. unfold ocell in Hpq. cbn [fst snd] in Hpq. injection Hpq as H1 H2. f_equal; nia. }
  split; [|split; [|split; [|split; [|split]]]].
  - apply Forall_forall. intros c Hc. apply in_map_iff in Hc. destruct Hc as (p & <- & Hp).
    destruct (B1 p Hp) as (Q1 & Q2 & _). apply RECT; assumption.
  - apply RECT; assumption.
  - apply NoDup_map_inj; [exact INJ|]. assert (PN := P). apply path_nodup in PN; assumption.
  - destruct (path_connected a b x0 y0 sx sy Hsx Hsy _ _ _ _ _ P HO) as (C & r & Er).
    exists (map (ocell x0 y0 sx sy) r).
    assert (E0 : ocell x0 y0 sx sy (0, 0) = (x0, y0)) by (unfold ocell; cbn; f_equal; ring).
    assert (E1 : ocell x0 y0 sx sy (a, b) = (ex, ey)) by (unfold ocell; cbn; f_equal; congruence).
    split.
    + rewrite <- E1, <- E0. change ([ocell x0 y0 sx sy (a, b)]) with (map (ocell x0 y0 sx sy) [(a, b)]).
      rewrite <- map_app, Er. reflexivity.
    + rewrite Er in C. cbn [map] in C. rewrite E0 in C. exact C.
  - intro N. assert (M : misplaced a b = false) by (destruct (misplaced a b) eqn:M; [exfalso; tauto|reflexivity]).
    rewrite HO, M. split; [unfold ocell; cbn; congruence|].
    intro I. apply in_map_iff in I. destruct I as (p & E & I). apply INJ in E. subst p.
    pose proof (path_hit a b x0 y0 sx sy Hsx Hsy _ _ _ _ _ P) as PH. rewrite HO, M in PH. apply PH in I. congruence.
  - intro N. apply HD in N. rewrite HO, N. split.
    + unfold ocell. cbn [fst snd]. f_equal; [|congruence].
      unfold misplaced in N. apply andb_true_iff in N. destruct N as (N1 & N2). apply Z.ltb_lt in N1.
      rewrite Eex at 1. unfold sx. destruct (Z.ltb_spec x0 ex).
      * rewrite Z.sgn_pos by lia. ring.
      * rewrite Z.sgn_neg by (unfold a in *; lia). ring.
    + apply in_map. pose proof (path_hit a b x0 y0 sx sy Hsx Hsy _ _ _ _ _ P) as PH. rewrite HO, N in PH. apply PH. reflexivity.
Qed.

(** A ray is only refused for an integer overflow. *)
Lemma trace_ray_total : forall s e, (exists r, trace_ray s e = Ok r) <-> ray_fits s e.
Proof.
  intros s e. split.
  - intros (r & H). unfold trace_ray in H. destruct s as (x0, y0), e as (ex, ey). unfold ray_fits. cbn [fst snd].
    destruct (Z.ltb_spec (2 * (Z.abs (ex - x0) - - Z.abs (ey - y0))) (2 ^ 31)); [lia|discriminate].
  - intro F. destruct (trace_ray_spec s e F) as (es & h & H & _). eauto.
Qed.

Theorem hit_misplaced : ~ (forall s e es h, ray_fits s e -> trace_ray s e = Ok (es, h) -> h = e).
Proof.
  intro H. assert (E : (1, 1) = ((2, 1) : gcell)); [|discriminate E].
  apply (H (0, 0) (2, 1) [(0, 0); (1, 1)]); [reflexivity|vm_compute; reflexivity].
Qed.

Theorem hit_exact : forall s e free hit, trace_ray s e = Ok (free, hit) ->
  (~ half_diagonal s e -> hit = e /\ ~ In hit free) /\
  (half_diagonal s e -> hit = (fst e - Z.sgn (fst e - fst s), snd e) /\ In hit free /\ hit <> e).
Proof.
  intros s e free hit H. assert (F : ray_fits s e) by (apply trace_ray_total; eauto).
  destruct (trace_ray_spec s e F) as (es & h & E & _ & _ & _ & _ & H1 & H2). rewrite E in H. injection H as -> ->.
  split; [exact H1|]. intro D. destruct (H2 D) as (D1 & D2). split; [exact D1|]. split; [exact D2|].
  rewrite D1. destruct e as (ex, ey). cbn [fst snd] in *. intro Q. injection Q as Q.
  unfold half_diagonal in D. cbn [fst snd] in D. assert (ex - fst s <> 0) by lia.
  destruct (Z.sgn_spec (ex - fst s)) as [(? & S)|[(? & S)|(? & S)]]; rewrite S in Q; lia.
Qed.

(** * Distance from the straight line *)
Section Line.
Context (a b x0 y0 sx sy ex ey : Z).
Context (Ha : 0 <= a) (Hb : 0 <= b).

Definition dev (i j : Z) : Prop :=
  (a < b /\ - b <= 2 * (a * j - b * i) <= b) \/ (b <= a /\ - a <= 2 * (a * j - b * i) <= 2 * b + a).

Lemma ray_dev : forall fuel i j e es h,
  ray_loop fuel ex ey a (- b) sx sy (x0 + i * sx) (y0 + j * sy) e = Ok (es, h) ->
  e = a - b + a * j - b * i -> dev i j ->
  Forall (fun c => exists i' j', c = (x0 + i' * sx, y0 + j' * sy) /\ dev i' j') es.
Proof.
  induction fuel as [|fuel IH]; intros i j e es h H He D; [discriminate|]. cbn [ray_loop] in H.
  destruct ((x0 + i * sx =? ex) && (y0 + j * sy =? ey)); [injection H as <- <-; constructor|].
  assert (HERE : exists i' j', (x0 + i * sx, y0 + j * sy) = (x0 + i' * sx, y0 + j' * sy) /\ dev i' j') by eauto.
  destruct ((- b <=? 2 * e) && (x0 + i * sx =? ex)); [injection H as <- <-; repeat constructor; exact HERE|].
  destruct (Z.leb_spec (- b) (2 * e)) as [X|X].
  - destruct ((2 * (e + - b) <=? a) && (y0 + j * sy =? ey)); [injection H as <- <-; repeat constructor; exact HERE|].
    destruct (Z.leb_spec (2 * (e + - b)) a) as [Y|Y].
    + destruct (ray_loop fuel ex ey a (- b) sx sy (x0 + i * sx + sx) (y0 + j * sy + sy) (e + - b + a)) as [[es' h']|] eqn:R;
        cbn [bind] in H; [|discriminate]. injection H as <- <-. constructor; [exact HERE|].
      replace (x0 + i * sx + sx) with (x0 + (i + 1) * sx) in R by ring.
      replace (y0 + j * sy + sy) with (y0 + (j + 1) * sy) in R by ring.
      eapply IH; [exact R|rewrite He; ring|]. unfold dev in *.
      replace (a * (j + 1) - b * (i + 1)) with (a * j - b * i + a - b) by ring. lia.
    + destruct (ray_loop fuel ex ey a (- b) sx sy (x0 + i * sx + sx) (y0 + j * sy) (e + - b)) as [[es' h']|] eqn:R;
        cbn [bind] in H; [|discriminate]. injection H as <- <-. constructor; [exact HERE|].
      replace (x0 + i * sx + sx) with (x0 + (i + 1) * sx) in R by ring.
      eapply IH; [exact R|rewrite He; ring|]. unfold dev in *.
      replace (a * j - b * (i + 1)) with (a * j - b * i - b) by ring. lia.
  - destruct ((2 * e <=? a) && (y0 + j * sy =? ey)); [injection H as <- <-; repeat constructor; exact HERE|].
    destruct (Z.leb_spec (2 * e) a) as [Y|Y].
    + destruct (ray_loop fuel ex ey a (- b) sx sy (x0 + i * sx) (y0 + j * sy + sy) (e + a)) as [[es' h']|] eqn:R;
        cbn [bind] in H; [|discriminate]. injection H as <- <-. constructor; [exact HERE|].
      replace (y0 + j * sy + sy) with (y0 + (j + 1) * sy) in R by ring.
      eapply IH; [exact R|rewrite He; ring|]. unfold dev in *.
      replace (a * (j + 1) - b * i) with (a * j - b * i + a) by ring. lia.
    + lia.
Qed.
End Line.

(** Steep rays stay within half a cell of the straight line, shallow ones within
    one and a half. *)
Theorem ray_near : forall s e free hit, trace_ray s e = Ok (free, hit) ->
  Forall (near_line s e 3) free /\
  (Z.abs (fst e - fst s) < Z.abs (snd e - snd s) -> Forall (near_line s e 1) free).
Proof.
  intros [x0 y0] [ex ey] free hit H. unfold trace_ray in H.
  destruct (2 * (Z.abs (ex - x0) - - Z.abs (ey - y0)) <? 2 ^ 31); [|discriminate].
  remember (S (S (Z.to_nat (Z.abs (ex - x0) - - Z.abs (ey - y0))))) as fuel. clear Heqfuel.
  set (a := Z.abs (ex - x0)) in *. set (b := Z.abs (ey - y0)) in *.
  set (sx := if x0 <? ex then 1 else -1) in *. set (sy := if y0 <? ey then 1 else -1) in *.
  assert (Ha : 0 <= a) by (unfold a; lia). assert (Hb : 0 <= b) by (unfold b; lia).
  assert (R : Forall (fun c => exists i' j', c = (x0 + i' * sx, y0 + j' * sy) /\ dev a b i' j') free).
  { eapply (ray_dev a b x0 y0 sx sy ex ey Ha Hb fuel 0 0).
    - replace (x0 + 0 * sx) with x0 by ring. replace (y0 + 0 * sy) with y0 by ring. exact H.
    - ring.
    - unfold dev. lia. }
  assert (Dx : ex - x0 = a * sx).
  { unfold a, sx. destruct (Z.ltb_spec x0 ex); [rewrite Z.abs_eq by lia|rewrite Z.abs_neq by lia]; ring. }
  assert (Dy : ey - y0 = b * sy).
  { unfold b, sy. destruct (Z.ltb_spec y0 ey); [rewrite Z.abs_eq by lia|rewrite Z.abs_neq by lia]; ring. }
  assert (Sx : sx = 1 \/ sx = -1) by (unfold sx; destruct (x0 <? ex); auto).
  assert (Sy : sy = 1 \/ sy = -1) by (unfold sy; destruct (y0 <? ey); auto).
  cbn [fst snd]. fold a b. rewrite Forall_forall in R.
  assert (G : forall i j, Z.abs ((ex - x0) * (y0 + j * sy - y0) - (ey - y0) * (x0 + i * sx - x0)) = Z.abs (a * j - b * i)).
  { intros i j. rewrite Dx, Dy.
    replace (a * sx * (y0 + j * sy - y0) - b * sy * (x0 + i * sx - x0)) with ((sx * sy) * (a * j - b * i)) by ring.
    assert (U : sx * sy = 1 \/ sx * sy = -1) by (destruct Sx as [U1|U1], Sy as [U2|U2]; rewrite U1, U2; auto).
    destruct U as [U|U]; rewrite U; lia. }
  split; [|intro St]; apply Forall_forall; intros c Hc; destruct (R c Hc) as (i & j & -> & D);
    unfold near_line; cbn [fst snd]; fold a b; rewrite G; unfold dev in D; lia.
Qed.

Theorem ray_far : ~ (forall s e free hit, ray_fits s e -> trace_ray s e = Ok (free, hit) -> Forall (near_line s e 2) free).
Proof.
  intro H. specialize (H (0, 0) (7, 5) [(0, 0); (1, 1); (2, 2); (3, 3); (4, 4); (5, 4); (6, 5)] (6, 5) eq_refl).
  assert (E : trace_ray (0, 0) (7, 5) = Ok ([(0, 0); (1, 1); (2, 2); (3, 3); (4, 4); (5, 4); (6, 5)], (6, 5))) by (vm_compute; reflexivity).
  specialize (H E). rewrite Forall_forall in H. specialize (H (4, 4)).
  assert (I : In (4, 4) [(0, 0); (1, 1); (2, 2); (3, 3); (4, 4); (5, 4); (6, 5)]) by (cbn; tauto).
  apply H in I. vm_compute in I. apply I. reflexivity.
Qed.
