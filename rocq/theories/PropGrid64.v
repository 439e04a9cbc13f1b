(** Properties C123, C124: the grid of the NDT and its coverage in doubles. *)

From Coq Require Import ZArith Reals List Bool Lia Lra Psatz.
From Flocq Require Import Core BinarySingleNaN.
From Verif Require Import Outcome Arith TypesModel CellModel ScanModel NdtModel MatcherModel
  NdtProofs MatcherProofs B64Lemmas MapperWitness2 SpecB64 PropCell64 PropScore64 SpecGrid64.
Import ListNotations.
Local Open Scope R_scope.

Lemma sub_finite (x y : b64) : is_finite x = true -> is_finite y = true -> Rabs (rnd (B2R x - B2R y)) < bpow radix2 1024 ->
  is_finite (Bminus mode_NE x y) = true /\ B2R (Bminus mode_NE x y) = rnd (B2R x - B2R y).
Proof.
  intros Fx Fy H. pose proof (Bminus_correct 53 1024 _ _ mode_NE x y Fx Fy) as P.
  unfold rnd, fexp64 in H. cbn [round_mode] in P. rewrite Rlt_bool_true in P by exact H. destruct P as (E & F & _). split; [exact F|exact E].
Qed.

Lemma div_finite (x y : b64) : is_finite x = true -> B2R y <> 0 -> Rabs (rnd (B2R x / B2R y)) < bpow radix2 1024 ->
  is_finite (Bdiv mode_NE x y) = true /\ B2R (Bdiv mode_NE x y) = rnd (B2R x / B2R y).
Proof.
  intros Fx Hy H. pose proof (Bdiv_correct 53 1024 _ _ mode_NE x y Hy) as P.
  unfold rnd, fexp64 in H. cbn [round_mode] in P. rewrite Rlt_bool_true in P by exact H. destruct P as (E & F & _).
  split; [rewrite F; exact Fx|exact E].
Qed.

(** A quotient that came out finite did not overflow. *)
Lemma div_value (x y : b64) : is_finite x = true -> is_finite y = true -> B2R y <> 0 -> is_finite (Bdiv mode_NE x y) = true ->
  B2R (Bdiv mode_NE x y) = rnd (B2R x / B2R y).
Proof.
  intros Fx Fy Hy F. pose proof (Bdiv_correct 53 1024 _ _ mode_NE x y Hy) as P. cbn [round_mode] in P.
  destruct (Rlt_bool _ _) in P; [exact (proj1 P)|]. exfalso.
  destruct (Bdiv mode_NE x y); cbn in P, F; try discriminate.
Qed.

Lemma plus_one_finite (x : b64) : is_finite (Bplus mode_NE x (b64_of 1 0)) = true -> is_finite x = true.
Proof. destruct x as [s|[]| |s m e He]; intros H; try reflexivity; vm_compute in H; discriminate H. Qed.

Lemma b64_dy (m e : Z) : (Z.abs m < 2 ^ 53)%Z -> (-1074 <= e <= 900)%Z ->
  B2R (b64_of m e) = IZR m * bpow radix2 e /\ is_finite (b64_of m e) = true.
Proof.
  intros Hm He. unfold b64_of.
  pose proof (binary_normalize_correct 53 1024 prec64_gt_0 prec64_lt_emax mode_NE m e false) as C. cbv zeta in C.
  assert (E : F2R (Float radix2 m e) = (IZR m * bpow radix2 e)%R) by reflexivity. rewrite E in C.
  change (round radix2 (SpecFloat.fexp 53 1024) (round_mode mode_NE) (IZR m * bpow radix2 e)%R) with (rnd (IZR m * bpow radix2 e)) in C.
  rewrite (rnd_fmt _ (fmt_dyadic m e Hm (proj1 He))) in C.
  rewrite Rlt_bool_true in C; [destruct C as (V & F & _); split; assumption|].
  rewrite Rabs_mult, (Rabs_right (bpow radix2 e)) by (apply Rle_ge, bpow_ge_0). rewrite <- abs_IZR.
  apply Rlt_le_trans with (IZR (2 ^ 53) * bpow radix2 e).
  - apply Rmult_lt_compat_r; [apply bpow_gt_0|apply IZR_lt; exact Hm].
  - change (IZR (2 ^ 53)) with (bpow radix2 53). rewrite <- bpow_plus. apply bpow_le. lia.
Qed.

Lemma fmt_max (x : b64) : is_finite x = true -> Rabs (B2R x) < bpow radix2 1024.
Proof. intros _. apply abs_B2R_lt_emax. Qed.

Section Axis.
Context (lm : libm).
Let A : Arith b64 := BA lm.
Existing Instance A.

(** One axis of the constructor against one axis of the lookup. *)
Lemma axis_covers (cs size o x : b64) (n : Z) :
  is_finite cs = true -> 0 < B2R cs -> is_finite size = true -> is_finite o = true -> is_finite x = true ->
  cast_unsigned 64 (nadd (ndiv size cs) none_) = Ok n -> (n < 2 ^ 32)%Z ->
  B2R o <= B2R x -> rnd (B2R x - B2R o) <= B2R size ->
  nlt x o = false /\ exists a, cast_unsigned 32 (ndiv (nsub x o) cs) = Ok a /\ (0 <= a < n)%Z.
Proof.
  intros Fc Hc Fs Fo Fx Hn Hn32 Hx Hsz.
  assert (Hd0 : 0 <= rnd (B2R x - B2R o)) by (apply rnd_lb; [apply (fmt_int 0); cbn; lia|lra]).
  pose proof (fmt_max size Fs) as Ms. apply Rabs_lt_inv in Ms.
  destruct (sub_finite x o Fx Fo) as [Fd Ed]; [apply Rabs_lt; lra|].
  apply cast_unsigned_inv in Hn. destruct Hn as [Hn Rn]. change (b64_trunc (Bplus mode_NE (Bdiv mode_NE size cs) (b64_of 1 0)) = Some n) in Hn.
  set (q := Bdiv mode_NE size cs) in *.
  assert (Fp : is_finite (Bplus mode_NE q (b64_of 1 0)) = true).
  { unfold b64_trunc in Hn. destruct (is_finite (Bplus mode_NE q (b64_of 1 0))); [reflexivity|discriminate Hn]. }
  pose proof (plus_one_finite q Fp) as Fq.
  assert (Hcn : B2R cs <> 0) by lra.
  pose proof (div_value size cs Fs Fc Hcn Fq) as Eq. fold q in Eq.
  assert (Hi : 0 < / B2R cs) by (apply Rinv_0_lt_compat; exact Hc).
  set (d := Bminus mode_NE x o) in *.
  assert (Hq0 : 0 <= rnd (B2R d / B2R cs)).
  { apply rnd_lb; [apply (fmt_int 0); cbn; lia|]. unfold Rdiv. apply Rmult_le_pos; [rewrite Ed; exact Hd0|lra]. }
  assert (Hqq : rnd (B2R d / B2R cs) <= B2R q).
  { rewrite Eq. apply rnd_le. unfold Rdiv. apply Rmult_le_compat_r; [lra|]. rewrite Ed. exact Hsz. }
  pose proof (fmt_max q Fq) as Mq. apply Rabs_lt_inv in Mq.
  destruct (div_finite d cs Fd Hcn) as [Fe Ee]; [apply Rabs_lt; lra|].
  split.
  { cbn [nlt A BA]. rewrite Bltb_correct by assumption. apply Rlt_bool_false. exact Hx. }
  rewrite b64_trunc_ok in Hn by exact Fp. apply (f_equal (fun o => match o with Some z => z | None => n end)) in Hn. cbv beta iota in Hn.
  (* q + 1 *)
  assert (F1 : is_finite (b64_of 1 0) = true /\ B2R (b64_of 1 0) = 1) by (destruct (b64_ofZ 1 ltac:(lia)) as [E1 F1]; split; assumption).
  destruct F1 as [F1 E1].
  pose proof (Bplus_correct 53 1024 _ _ mode_NE q (b64_of 1 0) Fq F1) as P. cbn [round_mode] in P.
  destruct (Rlt_bool _ _) in P; [|exfalso; destruct (Bplus mode_NE q (b64_of 1 0)); cbn in P, Fp; destruct P as [P _]; discriminate].
  destruct P as (Ep & _ & _). rewrite E1 in Ep. change (B2R (Bplus mode_NE q (b64_of 1 0)) = rnd (B2R q + 1)) in Ep.
  set (e := Bdiv mode_NE d cs) in *.
  assert (He : 0 <= B2R e <= B2R q) by (rewrite Ee; split; assumption).
  assert (Hp0 : 0 <= rnd (B2R q + 1)) by (apply rnd_lb; [apply (fmt_int 0); cbn; lia|lra]).
  rewrite Ep, Ztrunc_floor in Hn by exact Hp0.
  (* the value of q is below 2^32 *)
  assert (Hq32 : B2R q < IZR (2 ^ 33)).
  { destruct (Rlt_le_dec (B2R q) (IZR (2 ^ 33))) as [H|H]; [exact H|exfalso].
    assert (IZR (2 ^ 33) <= rnd (B2R q + 1)) by (apply rnd_lb; [apply fmt_int; cbn; lia|lra]).
    assert (2 ^ 33 <= Zfloor (rnd (B2R q + 1)))%Z by (apply Zfloor_lub; assumption). lia. }
  assert (Hfl : (Zfloor (B2R q) < 2 ^ 33)%Z).
  { apply lt_IZR. apply Rle_lt_trans with (B2R q); [apply Zfloor_lb|exact Hq32]. }
  assert (Hfl0 : (0 <= Zfloor (B2R q))%Z) by (apply Zfloor_lub; lra).
  assert (Hstep : (Zfloor (B2R q) + 1 <= n)%Z).
  { rewrite <- Hn. apply Zfloor_lub. apply rnd_lb; [apply fmt_int; lia|]. rewrite plus_IZR. pose proof (Zfloor_lb (B2R q)). lra. }
  assert (Hea : (0 <= Zfloor (B2R e) <= Zfloor (B2R q))%Z) by (split; [apply Zfloor_lub; lra|apply Zfloor_le; lra]).
  exists (Zfloor (B2R e)). split; [|lia].
  unfold cast_unsigned. cbn [ntrunc ndiv nsub A BA]. fold d. fold e. rewrite b64_trunc_ok by exact Fe. rewrite Ztrunc_floor by lra.
  destruct (Z.leb_spec 0 (Zfloor (B2R e))); [|lia]. destruct (Z.ltb_spec (Zfloor (B2R e)) (2 ^ 32)); [reflexivity|lia].
Qed.

Lemma ndt_new_casts (cs sx sy ox oy : b64) (g : ndt b64) :
  ndt_new cs sx sy ox oy = Ok g ->
  cast_unsigned 64 (nadd (ndiv sx cs) none_) = Ok (g_sx g) /\ cast_unsigned 64 (nadd (ndiv sy cs) none_) = Ok (g_sy g).
Proof.
  unfold ndt_new. intros H. apply bind_ok in H. destruct H as (nx & Hx & H). apply bind_ok in H. destruct H as (ny & Hy & H).
  injection H as <-. split; assumption.
Qed.

Lemma index_of_axes (g : ndt b64) (x y : b64) (a b : Z) :
  ndt_wf g -> nlt x (g_ox g) = false -> nlt y (g_oy g) = false ->
  cast_unsigned 32 (ndiv (nsub x (g_ox g)) (g_cs g)) = Ok a -> cast_unsigned 32 (ndiv (nsub y (g_oy g)) (g_cs g)) = Ok b ->
  (0 <= a < g_sx g)%Z -> (0 <= b < g_sy g)%Z ->
  ndt_index g x y = Ok (b * g_sx g + a)%Z /\ (0 <= b * g_sx g + a < Z.of_nat (length (g_cells g)))%Z.
Proof.
  intros (Hsx & Hsy & Hn & Hlen) Hx Hy Ha Hb Ra Rb.
  assert (B : (0 <= b * g_sx g /\ b * g_sx g + a < g_sx g * g_sy g)%Z) by nia.
  unfold ndt_index. rewrite Hx, Hy. cbn [orb]. rewrite Ha. cbn [bind]. rewrite Hb. cbn [bind].
  destruct (Z.leb_spec (g_sx g) a); [lia|]. destruct (Z.leb_spec (g_sy g) b); [lia|]. cbn [orb].
  rewrite (wrap64_small (b * g_sx g)) by lia. rewrite wrap64_small by lia. rewrite to_int32_small by lia. split; [reflexivity|lia].
Qed.

Lemma covers_core (cs sx sy ox oy : b64) (g : ndt b64) (p : point b64) :
  is_finite cs = true -> 0 < B2R cs -> is_finite sx = true -> is_finite sy = true -> is_finite ox = true -> is_finite oy = true ->
  ndt_new cs sx sy ox oy = Ok g -> (g_sx g * g_sy g < 2 ^ 31)%Z -> finite_point p ->
  B2R ox <= B2R (px p) -> rnd (B2R (px p) - B2R ox) <= B2R sx ->
  B2R oy <= B2R (py p) -> rnd (B2R (py p) - B2R oy) <= B2R sy ->
  exists i, ndt_index g (px p) (py p) = Ok i /\ (0 <= i < Z.of_nat (length (g_cells g)))%Z.
Proof.
  intros Fc Hc Fsx Fsy Fox Foy Hnew Hn [Fx Fy] Hx Hx' Hy Hy'.
  pose proof (ndt_new_wf _ _ _ _ _ g Hnew Hn) as Hw. destruct (ndt_new_casts _ _ _ _ _ _ Hnew) as [Cx Cy].
  destruct (ndt_new_cells _ _ _ _ _ g Hnew) as (Ec & Eox & Eoy & _).
  assert (Pos : forall (size o x : b64) n, is_finite size = true -> is_finite o = true -> is_finite x = true ->
     B2R o <= B2R x -> rnd (B2R x - B2R o) <= B2R size -> cast_unsigned 64 (nadd (ndiv size cs) none_) = Ok n -> (1 <= n)%Z).
  { intros size o x n Fs Fo Fx' H1 H2 Hn'. assert (0 <= B2R size).
    { apply Rle_trans with (rnd (B2R x - B2R o)); [|exact H2]. apply rnd_lb; [apply (fmt_int 0); cbn; lia|lra]. }
    destruct (Z_lt_le_dec n (2 ^ 32)) as [L|L]; [|lia].
    destruct (axis_covers cs size o x n Fc Hc Fs Fo Fx' Hn' L H1 H2) as (_ & a & _ & Ra). lia. }
  pose proof (Pos sx ox (px p) (g_sx g) Fsx Fox Fx Hx Hx' Cx) as Px.
  pose proof (Pos sy oy (py p) (g_sy g) Fsy Foy Fy Hy Hy' Cy) as Py.
  destruct (axis_covers cs sx ox (px p) (g_sx g) Fc Hc Fsx Fox Fx Cx ltac:(nia) Hx Hx') as (Lx & a & Ca & Ra).
  destruct (axis_covers cs sy oy (py p) (g_sy g) Fc Hc Fsy Foy Fy Cy ltac:(nia) Hy Hy') as (Ly & b & Cb & Rb).
  exists (b * g_sx g + a)%Z. apply index_of_axes; rewrite ?Ec, ?Eox, ?Eoy; assumption.
Qed.
End Axis.

(** C123: the declared rectangle is covered. *)
Theorem C123_covers_rectangle (lm : libm) (cs sx sy ox oy : b64) (g : ndt b64) (p : point b64) :
  is_finite cs = true -> 0 < B2R cs -> is_finite sx = true -> is_finite sy = true -> is_finite ox = true -> is_finite oy = true ->
  ndt_new (A := BA lm) cs sx sy ox oy = Ok g -> (g_sx g * g_sy g < 2 ^ 31)%Z -> finite_point p ->
  B2R ox <= B2R (px p) <= B2R ox + B2R sx -> B2R oy <= B2R (py p) <= B2R oy + B2R sy ->
  exists i, ndt_index (A := BA lm) g (px p) (py p) = Ok i /\ (0 <= i < Z.of_nat (length (g_cells g)))%Z.
Proof.
  intros Fc Hc Fsx Fsy Fox Foy Hnew Hn Fp Hx Hy.
  apply (covers_core lm cs sx sy ox oy g p); try assumption; try (apply Hx || apply Hy); apply rnd_ub; try apply fmt_b64; lra.
Qed.

Theorem C123_left_below_outside (lm : libm) (g : ndt b64) (p : point b64) :
  is_finite (g_ox g) = true -> is_finite (g_oy g) = true -> finite_point p ->
  B2R (px p) < B2R (g_ox g) \/ B2R (py p) < B2R (g_oy g) -> ndt_index (A := BA lm) g (px p) (py p) = Ok (-1)%Z.
Proof.
  intros Fx Fy [F1 F2] H. unfold ndt_index. cbn [nlt BA]. rewrite !Bltb_correct by assumption.
  destruct H as [H|H]; rewrite (Rlt_bool_true _ _ H); [|rewrite orb_true_r]; reflexivity.
Qed.

(** Away from the borders by (a+2) 2^-52 cells the right square is chosen. *)
Lemma axis_square (lm : libm) (cs o x : b64) (a : Z) :
  is_finite cs = true -> bpow radix2 (-1000) <= B2R cs -> is_finite o = true -> is_finite x = true ->
  Rabs (B2R o) <= bpow radix2 1000 -> Rabs (B2R x) <= bpow radix2 1000 -> (0 <= a < 2 ^ 31)%Z ->
  clearly_in_interval (B2R o) (B2R cs) a (B2R x) ->
  nlt (Arith := BA lm) x o = false /\ cast_unsigned (A := BA lm) 32 (ndiv (Arith := BA lm) (nsub (Arith := BA lm) x o) cs) = Ok a.
Proof.
  intros Fc Hc Fo Fx Bo Bx Ha (Hlo & Hl & Hu). apply Rabs_le_inv in Bo, Bx.
  assert (B1 : 2 * bpow radix2 1000 <= bpow radix2 1023).
  { change 2 with (bpow radix2 1). rewrite <- bpow_plus. apply bpow_le. lia. }
  destruct (b64_sub_ok x o Fx Fo) as [Ed Fd]; [apply Rabs_le; lra|].
  assert (Hc0 : 0 < B2R cs) by (pose proof (bpow_gt_0 radix2 (-1000)); lra).
  assert (Hi : 0 < / B2R cs) by (apply Rinv_0_lt_compat; exact Hc0).
  set (w := B2R cs) in *. set (t := B2R x - B2R o) in *. set (u := t / w).
  set (E := bpow radix2 (-52)) in *.
  assert (HE : 0 < E) by apply bpow_gt_0.
  assert (HE1 : E <= / 1048576) by (apply (bpow_le radix2 (-52) (-20)); lia).
  assert (Ha' : 0 <= IZR a <= 2147483647).
  { split; [apply (IZR_le 0); lia|apply (IZR_le a 2147483647); lia]. }
  assert (Ht : t = u * w) by (unfold u; field; lra).
  assert (Hu0 : 0 <= u) by (unfold u, Rdiv; apply Rmult_le_pos; unfold t; lra).
  assert (Hua : u <= IZR a + 1 - (IZR a + 2) * E).
  { apply Rmult_le_reg_r with w; [exact Hc0|]. rewrite <- Ht. unfold t. lra. }
  assert (Hlu : a = 0%Z \/ IZR a + (IZR a + 2) * E <= u).
  { destruct Hl as [Hl|Hl]; [left; exact Hl|right]. apply Rmult_le_reg_r with w; [exact Hc0|]. rewrite <- Ht. unfold t. lra. }
  set (d := rnd t) in *.
  assert (Hd0 : 0 <= d) by (apply rnd_lb; [apply (fmt_int 0); cbn; lia|unfold t; lra]).
  pose proof (rnd_error t) as Et. fold d in Et.
  assert (E53 : bpow radix2 (-53) = E / 2) by (unfold E; replace (-52)%Z with (1 + -53)%Z by lia; rewrite bpow_plus; cbn; lra).
  rewrite E53 in Et.
  set (eta := bpow radix2 (-75)).
  assert (Heta : 0 < eta) by apply bpow_gt_0.
  assert (Heta' : eta * 8388608 = E) by (unfold eta, E; change 8388608 with (bpow radix2 23); rewrite <- bpow_plus; reflexivity).
  assert (Hsm : bpow radix2 (-1075) <= eta * w).
  { apply Rle_trans with (eta * bpow radix2 (-1000)); [|apply Rmult_le_compat_l; lra].
    unfold eta. rewrite <- bpow_plus. apply bpow_le. lia. }
  assert (Hdw : Rabs (d / w - u) <= eta + E / 2 * u).
  { replace (d / w - u) with ((d - t) * / w) by (unfold u; field; lra).
    rewrite Rabs_mult, (Rabs_right (/ w)) by lra. apply Rmult_le_reg_r with w; [exact Hc0|].
    rewrite Rmult_assoc, Rinv_l, Rmult_1_r by lra.
    rewrite (Rabs_right t) in Et by (unfold t; lra).
    eapply Rle_trans; [exact Et|]. apply Rmax_lub.
    - rewrite Rmult_plus_distr_r. assert (0 <= E / 2 * u * w) by (apply Rmult_le_pos; [apply Rmult_le_pos|]; lra). lra.
    - rewrite Ht. rewrite Rmult_plus_distr_r. assert (0 <= eta * w) by (apply Rmult_le_pos; lra). lra. }
  apply Rabs_le_inv in Hdw.
  assert (HaE : 0 <= (IZR a + 2) * E) by (apply Rmult_le_pos; lra).
  assert (Hu2 : u <= 2147483648) by lra.
  assert (HEu2 : E / 2 * u <= E / 2 * 2147483648) by (apply Rmult_le_compat_l; lra).
  assert (HEu : 0 <= E / 2 * u <= 1024) by (split; [apply Rmult_le_pos; lra|lra]).
  assert (Heta1 : eta <= 1) by lra.
  assert (Hq0 : 0 <= d / w) by (unfold Rdiv; apply Rmult_le_pos; lra).
  destruct (b64_div_ok (Bminus mode_NE x o) cs Fd) as [Eq Fq].
  { fold w. lra. }
  { fold w. rewrite Ed. fold t. fold d. apply Rle_trans with (IZR (2 ^ 33)); [|apply (bpow_le radix2 33 1023); lia]. apply Rabs_le. change (IZR (2 ^ 33)) with 8589934592. split; lra. }
  fold w in Eq. rewrite Ed in Eq. fold t in Eq. fold d in Eq.
  set (q := Bdiv mode_NE (Bminus mode_NE x o) cs) in *.
  pose proof (rnd_error (d / w)) as Er. rewrite <- Eq, E53 in Er. rewrite (Rabs_right (d / w)) in Er by lra.
  assert (He75 : bpow radix2 (-1075) <= eta) by (apply bpow_le; lia).
  assert (Er' : Rabs (B2R q - d / w) <= eta + E / 2 * (d / w)).
  { eapply Rle_trans; [exact Er|]. assert (0 <= E / 2 * (d / w)) by (apply Rmult_le_pos; lra). apply Rmax_lub; lra. }
  apply Rabs_le_inv in Er'.
  assert (Hq1 : 0 <= B2R q) by (rewrite Eq; apply rnd_lb; [apply (fmt_int 0); cbn; lia|exact Hq0]).
  assert (Hdwu : d / w <= u + eta + E / 2 * u) by lra.
  assert (K : E / 2 * (d / w) <= E / 2 * u + E / 2 * (eta + E / 2 * u)).
  { rewrite <- Rmult_plus_distr_l. apply Rmult_le_compat_l; lra. }
  assert (K2 : E / 2 * (eta + E / 2 * u) <= E / 8).
  { assert (E * 4503599627370496 = 1) by (unfold E; change 4503599627370496 with (bpow radix2 52); rewrite <- bpow_plus; reflexivity).
    replace (E / 8) with (E / 2 * / 4) by lra. apply Rmult_le_compat_l; lra. }
  assert (Tot : Rabs (B2R q - u) < (u + 1) * E).
  { apply Rabs_lt. split; lra. }
  apply Rabs_lt_inv in Tot.
  assert (Fl : Zfloor (B2R q) = a).
  { apply Zfloor_imp. rewrite plus_IZR. split.
    - destruct Hlu as [->|Hlu]; [exact Hq1|].
      assert (u * E <= (IZR a + 1) * E) by (apply Rmult_le_compat_r; lra). lra.
    - assert (u * E <= (IZR a + 1) * E) by (apply Rmult_le_compat_r; lra). lra. }
  split.
  - cbn [nlt BA]. rewrite Bltb_correct by assumption. apply Rlt_bool_false. exact Hlo.
  - unfold cast_unsigned. cbn [ntrunc ndiv nsub BA]. fold q. rewrite b64_trunc_ok by exact Fq. rewrite Ztrunc_floor by exact Hq1. rewrite Fl.
    destruct (Z.leb_spec 0 a); [|lia]. destruct (Z.ltb_spec a (2 ^ 32)); [reflexivity|lia].
Qed.

Theorem C123_squares (lm : libm) (cs sx sy ox oy : b64) (g : ndt b64) (p : point b64) (a b : Z) :
  is_finite cs = true -> bpow radix2 (-1000) <= B2R cs -> is_finite ox = true -> is_finite oy = true ->
  Rabs (B2R ox) <= bpow radix2 1000 -> Rabs (B2R oy) <= bpow radix2 1000 ->
  ndt_new (A := BA lm) cs sx sy ox oy = Ok g -> (g_sx g * g_sy g < 2 ^ 31)%Z ->
  finite_point p -> Rabs (B2R (px p)) <= bpow radix2 1000 -> Rabs (B2R (py p)) <= bpow radix2 1000 ->
  (0 <= a < g_sx g)%Z -> (0 <= b < g_sy g)%Z ->
  clearly_in_square (B2R ox) (B2R oy) (B2R cs) a b p ->
  ndt_index (A := BA lm) g (px p) (py p) = Ok (b * g_sx g + a)%Z.
Proof.
  intros Fc Hc Fox Foy Box Boy Hnew Hn [Fx Fy] Bx By Ra Rb [Sx Sy].
  pose proof (ndt_new_wf (A := BA lm) _ _ _ _ _ g Hnew Hn) as Hw.
  destruct (ndt_new_cells (A := BA lm) _ _ _ _ _ g Hnew) as (Ec & Eox & Eoy & _).
  destruct (axis_square lm cs ox (px p) a Fc Hc Fox Fx Box Bx ltac:(nia) Sx) as [Lx Ca].
  destruct (axis_square lm cs oy (py p) b Fc Hc Foy Fy Boy By ltac:(nia) Sy) as [Ly Cb].
  apply (index_of_axes lm g (px p) (py p) a b); rewrite ?Ec, ?Eox, ?Eoy; assumption.
Qed.
Print Assumptions C123_covers_rectangle.
Print Assumptions C123_squares.
Print Assumptions C123_left_below_outside.

Definition grid5 (lm : libm) : outcome (ndt b64) := ndt_new (A := BA lm) (b64_of 1 0) (b64_of 4 0) (b64_of 4 0) (b64_of 0 0) (b64_of 0 0).

Lemma grid5_size (lm : libm) : match grid5 lm with Ok g => (g_sx g =? 5)%Z && (g_sy g =? 5)%Z | Fault _ => false end = true.
Proof. vm_compute. reflexivity. Qed.

Example C123_nonvacuous (lm : libm) :
  exists g, grid5 lm = Ok g /\ (g_sx g * g_sy g < 2 ^ 31)%Z /\ (2 < g_sx g)%Z /\ (1 < g_sy g)%Z /\
  let p := mkPoint (b64_of 5 (-1)) (b64_of 3 (-1)) in
  finite_point p /\ clearly_in_square (B2R (b64_of 0 0)) (B2R (b64_of 0 0)) (B2R (b64_of 1 0)) 2 1 p /\
  ndt_index (A := BA lm) g (px p) (py p) = Ok (1 * g_sx g + 2)%Z.
Proof.
  destruct (b64_ofZ 0 ltac:(lia)) as [E0 F0]. destruct (b64_ofZ 1 ltac:(lia)) as [E1 F1]. destruct (b64_ofZ 4 ltac:(lia)) as [E4 F4].
  assert (X1 : B2R (b64_of 5 (-1)) = 5 / 2) by (rewrite (proj1 (b64_dy 5 (-1) ltac:(lia) ltac:(lia))); cbn; lra).
  assert (X2 : B2R (b64_of 3 (-1)) = 3 / 2) by (rewrite (proj1 (b64_dy 3 (-1) ltac:(lia) ltac:(lia))); cbn; lra).
  pose proof (grid5_size lm) as K. destruct (grid5 lm) as [g|] eqn:Hg; [|discriminate K].
  apply andb_true_iff in K. destruct K as [Sx Sy]. apply Z.eqb_eq in Sx, Sy.
  exists g. split; [reflexivity|]. rewrite Sx, Sy. split; [lia|]. split; [lia|]. split; [lia|].
  cbn [px py]. set (p := mkPoint (b64_of 5 (-1)) (b64_of 3 (-1))). cbv zeta.
  assert (Fp : finite_point p) by (split; reflexivity).
  assert (Hm : bpow radix2 (-52) <= / 16) by (apply (bpow_le radix2 (-52) (-4)); lia).
  assert (Sq : clearly_in_square (B2R (b64_of 0 0)) (B2R (b64_of 0 0)) (B2R (b64_of 1 0)) 2 1 p).
  { unfold clearly_in_square, clearly_in_interval, p. cbn [px py]. rewrite E0, E1, X1, X2. split; (split; [lra|]; split; [right; lra|lra]). }
  split; [exact Fp|]. split; [exact Sq|]. replace (1 * 5 + 2)%Z with (1 * g_sx g + 2)%Z by (rewrite Sx; reflexivity).
  assert (B1 : 4 <= bpow radix2 1000) by (apply (bpow_le radix2 2 1000); lia).
  apply (C123_squares lm (b64_of 1 0) (b64_of 4 0) (b64_of 4 0) (b64_of 0 0) (b64_of 0 0) g p 2 1); try assumption; rewrite ?E0, ?E1, ?Sx, ?Sy; try lia.
  - apply (bpow_le radix2 (-1000) 0). lia.
  - rewrite Rabs_R0. lra.
  - rewrite Rabs_R0. lra.
  - unfold p. cbn [px]. rewrite X1. apply Rabs_le. lra.
  - unfold p. cbn [py]. rewrite X2. apply Rabs_le. lra.
Qed.

Definition border_check (lm : libm) : bool :=
  match ndt_new (A := BA lm) (b64_of 7205759403792794 (-56)) (b64_of 4 0) (b64_of 0 0) (b64_of 0 0) (b64_of 0 0) with
  | Ok g => match ndt_index (A := BA lm) g (b64_of 1 0) (b64_of 0 0) with Ok i => (i =? 10)%Z | Fault _ => false end
  | Fault _ => false
  end.
Lemma border_index (lm : libm) : border_check lm = true.
Proof. vm_compute. reflexivity. Qed.

(** The margin is needed: with cells of 0.1 the point at 1.0 is below 10 cell sizes
    and is put into interval 10. *)
Example C123_border (lm : libm) :
  let cs := b64_of 7205759403792794 (-56) in
  B2R (b64_of 1 0) < 10 * B2R cs /\
  exists g, ndt_new (A := BA lm) cs (b64_of 4 0) (b64_of 0 0) (b64_of 0 0) (b64_of 0 0) = Ok g /\ ndt_index (A := BA lm) g (b64_of 1 0) (b64_of 0 0) = Ok 10%Z.
Proof.
  intros cs. split.
  - rewrite (proj1 (b64_ofZ 1 ltac:(lia))). unfold cs. rewrite (proj1 (b64_dy 7205759403792794 (-56) ltac:(lia) ltac:(lia))). cbn. lra.
  - pose proof (border_index lm) as K. unfold border_check in K. fold cs in K.
    destruct (ndt_new (A := BA lm) cs (b64_of 4 0) (b64_of 0 0) (b64_of 0 0) (b64_of 0 0)) as [g|]; [|discriminate K].
    exists g. split; [reflexivity|]. destruct (ndt_index (A := BA lm) g (b64_of 1 0) (b64_of 0 0)) as [i|]; [|discriminate K]. apply Z.eqb_eq in K. congruence.
Qed.

(** C124: addScans. *)
Lemma leb_trans (a b c : b64) : Bleb a b = true -> Bleb b c = true -> Bleb a c = true.
Proof.
  intros H1 H2. destruct (is_finite a) eqn:Fa, (is_finite b) eqn:Fb, (is_finite c) eqn:Fc.
  1: rewrite Bleb_correct in * by assumption; apply Rle_bool_true; apply (Rle_trans _ (B2R b)); [revert H1|revert H2]; case Rle_bool_spec; easy.
  all: destruct a as [sa|[]| |[] ma ea Ha], b as [sb|[]| |[] mb eb Hb], c as [sc|[]| |[] mc ec Hc]; try discriminate; try reflexivity.
Qed.

Lemma leb_total (a b : b64) : is_nan a = false -> is_nan b = false -> Bltb b a = false -> Bleb a b = true.
Proof.
  intros Na Nb H. destruct (is_finite a) eqn:Fa, (is_finite b) eqn:Fb.
  1: rewrite Bltb_correct in H by assumption; rewrite Bleb_correct by assumption; apply Rle_bool_true; revert H; case Rlt_bool_spec; easy.
  all: destruct a as [sa|[]| |[] ma ea Ha], b as [sb|[]| |[] mb eb Hb]; try discriminate; try reflexivity.
Qed.

Lemma ltb_leb (a b : b64) : Bltb a b = true -> Bleb a b = true.
Proof.
  unfold Bltb, Bleb, SpecFloat.SFltb, SpecFloat.SFleb. destruct (SpecFloat.SFcompare (B2SF a) (B2SF b)) as [[]|]; easy.
Qed.

Lemma leb_not_nan (a b : b64) : Bleb a b = true -> is_nan a = false /\ is_nan b = false.
Proof. destruct a as [sa|[]| |[] ma ea Ha], b as [sb|[]| |[] mb eb Hb]; intros H; try discriminate; split; reflexivity. Qed.

Lemma leb_refl (a : b64) : is_nan a = false -> Bleb a a = true.
Proof.
  intros N. apply leb_total; try assumption. unfold Bltb, SpecFloat.SFltb.
  destruct a as [sa|[]| |[] ma ea Ha]; try reflexivity; try discriminate; cbn; rewrite Z.compare_refl, Pos.compare_refl; reflexivity.
Qed.

Lemma sub_below (a r x : b64) : is_finite a = true -> is_finite r = true -> is_finite x = true ->
  is_nan (Bminus mode_NE a r) = false /\ (B2R a - B2R r <= B2R x -> Bleb (Bminus mode_NE a r) x = true).
Proof.
  intros Fa Fr Fx. pose proof (Bminus_correct 53 1024 _ _ mode_NE a r Fa Fr) as P. cbn [round_mode] in P.
  destruct (Rlt_bool_spec (Rabs (round radix2 (SpecFloat.fexp 53 1024) ZnearestE (B2R a - B2R r))) (bpow radix2 1024)) as [_|Hov].
  - destruct P as (E & F & _). split; [destruct (Bminus mode_NE a r); easy|]. intros H.
    rewrite Bleb_correct by assumption. apply Rle_bool_true. rewrite E. apply rnd_ub; [apply fmt_b64|exact H].
  - destruct P as (E & S). change (round radix2 (SpecFloat.fexp 53 1024) ZnearestE (B2R a - B2R r)) with (rnd (B2R a - B2R r)) in Hov.
    destruct (Bminus mode_NE a r) as [s|s| |s m e He] eqn:D; try (cbn in E; destruct (Bsign a); discriminate E).
    cbn in E. injection E as Es. split; [reflexivity|]. intros H. subst s.
    destruct a as [sa|sa| |sa ma ea Ha]; try discriminate Fa; cbn [Bsign] in *.
    + exfalso. destruct r as [sr|sr| |sr mr er Hr]; try discriminate Fr; cbn in D; destruct sa, sr; discriminate D.
    + destruct sa; [destruct x as [|[]| |]; try discriminate Fx; reflexivity|]. exfalso.
      assert (Hu : rnd (B2R (B754_finite false ma ea Ha) - B2R r) <= B2R x) by (apply rnd_ub; [apply fmt_b64|exact H]).
      assert (Hr : B2R r <= 0).
      { destruct r as [sr|sr| |[] mr er Hr]; try discriminate Fr; try discriminate S; cbn; try lra. apply F2R_le_0. cbn. lia. }
      assert (Hp : 0 <= B2R (B754_finite false ma ea Ha)) by (cbn; apply F2R_ge_0; cbn; lia).
      assert (H0 : 0 <= rnd (B2R (B754_finite false ma ea Ha) - B2R r)) by (apply rnd_lb; [apply (fmt_int 0); cbn; lia|lra]).
      rewrite Rabs_right in Hov by lra. pose proof (fmt_max x Fx) as Mx. apply Rabs_lt_inv in Mx. lra.
Qed.

Lemma add_above (a r x : b64) : is_finite a = true -> is_finite r = true -> is_finite x = true ->
  is_nan (Bplus mode_NE a r) = false /\ (B2R x <= B2R a + B2R r -> Bleb x (Bplus mode_NE a r) = true).
Proof.
  intros Fa Fr Fx. pose proof (Bplus_correct 53 1024 _ _ mode_NE a r Fa Fr) as P. cbn [round_mode] in P.
  destruct (Rlt_bool_spec (Rabs (round radix2 (SpecFloat.fexp 53 1024) ZnearestE (B2R a + B2R r))) (bpow radix2 1024)) as [_|Hov].
  - destruct P as (E & F & _). split; [destruct (Bplus mode_NE a r); easy|]. intros H.
    rewrite Bleb_correct by assumption. apply Rle_bool_true. rewrite E. apply rnd_lb; [apply fmt_b64|exact H].
  - destruct P as (E & S). change (round radix2 (SpecFloat.fexp 53 1024) ZnearestE (B2R a + B2R r)) with (rnd (B2R a + B2R r)) in Hov.
    destruct (Bplus mode_NE a r) as [s|s| |s m e He] eqn:D; try (cbn in E; destruct (Bsign a); discriminate E).
    cbn in E. injection E as Es. split; [reflexivity|]. intros H. subst s.
    destruct a as [sa|sa| |sa ma ea Ha]; try discriminate Fa; cbn [Bsign] in *.
    + exfalso. destruct r as [sr|sr| |sr mr er Hr]; try discriminate Fr; cbn in D; destruct sa, sr; discriminate D.
    + destruct sa; [|destruct x as [|[]| |[]]; try discriminate Fx; reflexivity]. exfalso.
      assert (Hu : B2R x <= rnd (B2R (B754_finite true ma ea Ha) + B2R r)) by (apply rnd_lb; [apply fmt_b64|exact H]).
      assert (Hr : B2R r <= 0).
      { destruct r as [sr|sr| |[] mr er Hr]; try discriminate Fr; try discriminate S; cbn; try lra. apply F2R_le_0. cbn. lia. }
      assert (Hp : B2R (B754_finite true ma ea Ha) <= 0) by (cbn; apply F2R_le_0; cbn; lia).
      assert (H0 : rnd (B2R (B754_finite true ma ea Ha) + B2R r) <= 0) by (apply rnd_ub; [apply (fmt_int 0); cbn; lia|lra]).
      rewrite Rabs_left1 in Hov by lra. pose proof (fmt_max x Fx) as Mx. apply Rabs_lt_inv in Mx. lra.
Qed.

Section Box.
Context (lm : libm).
Let A : Arith b64 := BA lm.
Existing Instance A.

Lemma min_below (a b : b64) : is_nan a = false -> is_nan b = false ->
  is_nan (nmin a b) = false /\ Bleb (nmin a b) a = true /\ Bleb (nmin a b) b = true.
Proof.
  intros Na Nb. unfold nmin. cbn [nlt A BA]. destruct (Bltb b a) eqn:E.
  - split; [exact Nb|]. split; [apply ltb_leb, E|apply leb_refl, Nb].
  - split; [exact Na|]. split; [apply leb_refl, Na|apply leb_total; assumption].
Qed.
Lemma max_above (a b : b64) : is_nan a = false -> is_nan b = false ->
  is_nan (nmax a b) = false /\ Bleb a (nmax a b) = true /\ Bleb b (nmax a b) = true.
Proof.
  intros Na Nb. unfold nmax. cbn [nlt A BA]. destruct (Bltb a b) eqn:E.
  - split; [exact Nb|]. split; [apply ltb_leb, E|apply leb_refl, Nb].
  - split; [exact Na|]. split; [apply leb_refl, Na|apply leb_total; assumption].
Qed.

Definition box_ok (b : box b64) : Prop :=
  is_nan (b_minx b) = false /\ is_nan (b_maxx b) = false /\ is_nan (b_miny b) = false /\ is_nan (b_maxy b) = false.
Definition box_in (b c : box b64) : Prop :=
  Bleb (b_minx c) (b_minx b) = true /\ Bleb (b_maxx b) (b_maxx c) = true /\
  Bleb (b_miny c) (b_miny b) = true /\ Bleb (b_maxy b) (b_maxy c) = true.

Lemma zero_finite : is_finite (b64_of 0 0) = true. Proof. reflexivity. Qed.

Lemma step_in (range : b64) (b : box b64) (s : scan b64) : is_finite range = true -> finite_scan_pose s -> box_ok b ->
  box_ok (box_step range b s) /\ box_in b (box_step range b s).
Proof.
  intros Fr [Fx Fy] (N1 & N2 & N3 & N4). unfold box_step.
  destruct (sub_below (pox (s_pose s)) range (b64_of 0 0) Fx Fr zero_finite) as [S1 _].
  destruct (add_above (pox (s_pose s)) range (b64_of 0 0) Fx Fr zero_finite) as [S2 _].
  destruct (sub_below (poy (s_pose s)) range (b64_of 0 0) Fy Fr zero_finite) as [S3 _].
  destruct (add_above (poy (s_pose s)) range (b64_of 0 0) Fy Fr zero_finite) as [S4 _].
  destruct (min_below _ _ S1 N1) as (U1 & _ & V1). destruct (max_above _ _ S2 N2) as (U2 & _ & V2).
  destruct (min_below _ _ S3 N3) as (U3 & _ & V3). destruct (max_above _ _ S4 N4) as (U4 & _ & V4).
  split; [split; [exact U1|split; [exact U2|split; [exact U3|exact U4]]]|].
  split; [exact V1|split; [exact V2|split; [exact V3|exact V4]]].
Qed.

Lemma fold_in (range : b64) (scans : list (scan b64)) : is_finite range = true -> (forall s, In s scans -> finite_scan_pose s) ->
  forall b, box_ok b -> box_ok (fold_left (box_step range) scans b) /\ box_in b (fold_left (box_step range) scans b).
Proof.
  intros Fr. induction scans as [|s l IH]; intros Hs b Hb; cbn [fold_left].
  - split; [exact Hb|]. destruct Hb as (N1 & N2 & N3 & N4). repeat split; apply leb_refl; assumption.
  - destruct (step_in range b s Fr (Hs s (or_introl eq_refl)) Hb) as [B1 (I1 & I2 & I3 & I4)].
    destruct (IH (fun t Ht => Hs t (or_intror Ht)) _ B1) as [B2 (J1 & J2 & J3 & J4)].
    split; [exact B2|]. repeat split; eapply leb_trans; eassumption.
Qed.

Lemma box_holds (range x y : b64) (scans : list (scan b64)) (s : scan b64) :
  is_finite range = true -> (forall t, In t scans -> finite_scan_pose t) -> In s scans -> is_finite x = true -> is_finite y = true ->
  Rabs (B2R x - B2R (pox (s_pose s))) <= B2R range -> Rabs (B2R y - B2R (poy (s_pose s))) <= B2R range ->
  let b := scans_box range scans in
  Bleb (b_minx b) x = true /\ Bleb x (b_maxx b) = true /\ Bleb (b_miny b) y = true /\ Bleb y (b_maxy b) = true.
Proof.
  intros Fr Hs Hin Fx Fy Hx Hy. cbv zeta. unfold scans_box. apply Rabs_le_inv in Hx, Hy.
  apply in_split in Hin. destruct Hin as (pre & post & ->). rewrite fold_left_app. cbn [fold_left].
  assert (B0 : box_ok (box_init (T := b64))) by (repeat split; reflexivity).
  destruct (fold_in range pre Fr (fun t Ht => Hs t (in_or_app _ _ _ (or_introl Ht))) _ B0) as [B1 _].
  set (b1 := fold_left (box_step range) pre box_init) in *. clearbody b1.
  assert (Hps : finite_scan_pose s) by (apply Hs, in_or_app; right; left; reflexivity).
  destruct (step_in range b1 s Fr Hps B1) as [B2 _].
  destruct (fold_in range post Fr (fun t Ht => Hs t (in_or_app _ _ _ (or_intror (in_cons _ _ _ Ht)))) _ B2) as [_ (J1 & J2 & J3 & J4)].
  set (b3 := fold_left (box_step range) post (box_step range b1 s)) in *. clearbody b3.
  destruct Hps as [Px Py]. destruct B1 as (N1 & N2 & N3 & N4).
  destruct (sub_below (pox (s_pose s)) range x Px Fr Fx) as [S1 T1]. specialize (T1 ltac:(lra)).
  destruct (add_above (pox (s_pose s)) range x Px Fr Fx) as [S2 T2]. specialize (T2 ltac:(lra)).
  destruct (sub_below (poy (s_pose s)) range y Py Fr Fy) as [S3 T3]. specialize (T3 ltac:(lra)).
  destruct (add_above (poy (s_pose s)) range y Py Fr Fy) as [S4 T4]. specialize (T4 ltac:(lra)).
  destruct (min_below _ _ S1 N1) as (_ & V1 & _). destruct (max_above _ _ S2 N2) as (_ & V2 & _).
  destruct (min_below _ _ S3 N3) as (_ & V3 & _). destruct (max_above _ _ S4 N4) as (_ & V4 & _).
  split; [eapply leb_trans; [exact J1|]; eapply leb_trans; [exact V1|exact T1]|].
  split; [eapply leb_trans; [exact T2|]; eapply leb_trans; [exact V2|exact J2]|].
  split; [eapply leb_trans; [exact J3|]; eapply leb_trans; [exact V3|exact T3]|].
  eapply leb_trans; [exact T4|]; eapply leb_trans; [exact V4|exact J4].
Qed.

(** A size that could be converted was finite, and so were both ends. *)
Lemma extent_finite (lo hi cs : b64) (n : Z) : is_finite cs = true -> 0 < B2R cs ->
  cast_unsigned 64 (nadd (ndiv (nsub hi lo) cs) none_) = Ok n ->
  is_finite lo = true /\ is_finite hi = true /\ is_finite (Bminus mode_NE hi lo) = true.
Proof.
  intros Fc Hc H. apply cast_unsigned_inv in H. destruct H as [H _].
  change (b64_trunc (Bplus mode_NE (Bdiv mode_NE (Bminus mode_NE hi lo) cs) (b64_of 1 0)) = Some n) in H.
  assert (Fp : is_finite (Bplus mode_NE (Bdiv mode_NE (Bminus mode_NE hi lo) cs) (b64_of 1 0)) = true).
  { unfold b64_trunc in H. destruct (is_finite (Bplus mode_NE (Bdiv mode_NE (Bminus mode_NE hi lo) cs) (b64_of 1 0))); [reflexivity|discriminate H]. }
  apply plus_one_finite in Fp.
  assert (Fd : is_finite (Bminus mode_NE hi lo) = true).
  { destruct (Bminus mode_NE hi lo) as [s|s| |s m e He]; try reflexivity; exfalso; destruct cs as [sc|sc| |sc mc ec Hc']; try discriminate Fc; discriminate Fp. }
  split; [|split; [|exact Fd]]; clear - Fd; destruct lo as [s|[]| |s m e He], hi as [s'|[]| |s' m' e' He']; try reflexivity; discriminate Fd.
Qed.
End Box.

Theorem C124_add_scans_covers (lm : libm) (eig : mat2 b64 -> b64 * b64) (m m' : matcher b64) (g : ndt b64)
    (scans : list (scan b64)) (s : scan b64) (q : point b64) :
  is_finite (k_resolution m) = true -> 0 < B2R (k_resolution m) -> is_finite (k_range m) = true ->
  (forall t, In t scans -> finite_scan_pose t) ->
  add_scans (A := BA lm) eig m scans = Ok m' -> k_ndt m' = Some g -> (g_sx g * g_sy g < 2 ^ 31)%Z ->
  In s scans -> finite_point q ->
  Rabs (B2R (px q) - B2R (pox (s_pose s))) <= B2R (k_range m) -> Rabs (B2R (py q) - B2R (poy (s_pose s))) <= B2R (k_range m) ->
  exists i, ndt_index (A := BA lm) g (px q) (py q) = Ok i /\ (0 <= i < Z.of_nat (length (g_cells g)))%Z.
Proof.
  intros Fc Hc Fr Hs H Hg Hn Hin [Fx Fy] Hx Hy.
  destruct (box_holds lm (k_range m) (px q) (py q) scans s Fr Hs Hin Fx Fy Hx Hy) as (L1 & L2 & L3 & L4).
  unfold add_scans in H. cbv zeta in H. set (b := scans_box (A := BA lm) (k_range m) scans) in *. clearbody b.
  apply bind_ok in H. destruct H as (g0 & H0 & H). apply bind_ok in H. destruct H as (g1 & H1 & H). injection H as <-. cbn in Hg. injection Hg as <-.
  assert (G : same_geom g0 (ndt_compute (A := BA lm) eig g1)).
  { apply same_geom_trans with g1; [|apply ndt_compute_geom].
    refine (foldM_inv (same_geom g0) _ _ _ _ _ (same_geom_refl g0) H1).
    intros ga sc gb Ha _ Hb. eapply same_geom_trans; [exact Ha|]. eapply ndt_add_scan_geom, Hb. }
  rewrite <- (same_geom_index (A := BA lm) _ _ _ _ G).
  assert (Geq : g_sx g0 = g_sx (ndt_compute (A := BA lm) eig g1) /\ g_sy g0 = g_sy (ndt_compute (A := BA lm) eig g1) /\
                length (g_cells g0) = length (g_cells (ndt_compute (A := BA lm) eig g1))) by (unfold same_geom in G; tauto).
  destruct Geq as (Gx & Gy & Gl). rewrite <- Gx, <- Gy in Hn. rewrite <- Gl.
  destruct (ndt_new_casts lm _ _ _ _ _ _ H0) as [Cx Cy].
  destruct (extent_finite lm _ _ _ _ Fc Hc Cx) as (F1 & F2 & F3). destruct (extent_finite lm _ _ _ _ Fc Hc Cy) as (F4 & F5 & F6).
  assert (V : forall hi lo : b64, is_finite hi = true -> is_finite lo = true -> is_finite (Bminus mode_NE hi lo) = true -> B2R (Bminus mode_NE hi lo) = rnd (B2R hi - B2R lo)).
  { intros hi lo Fh Fl Fm. pose proof (Bminus_correct 53 1024 _ _ mode_NE hi lo Fh Fl) as P. cbn [round_mode] in P.
    destruct (Rlt_bool _ _) in P; [exact (proj1 P)|]. exfalso. destruct P as [P _]. destruct (Bminus mode_NE hi lo); cbn in P, Fm; discriminate. }
  rewrite Bleb_correct in L1, L2, L3, L4 by assumption.
  assert (Rl : forall a b, Rle_bool a b = true -> a <= b) by (intros a c; case Rle_bool_spec; easy).
  apply Rl in L1, L2, L3, L4.
  apply (covers_core lm (k_resolution m) (Bminus mode_NE (b_maxx b) (b_minx b)) (Bminus mode_NE (b_maxy b) (b_miny b)) (b_minx b) (b_miny b) g0 q);
    try assumption; try (split; assumption).
  - rewrite (V _ _ F2 F1 F3). apply rnd_le. lra.
  - rewrite (V _ _ F5 F4 F6). apply rnd_le. lra.
Qed.
Print Assumptions C124_add_scans_covers.

Example C124_nonvacuous (lm : libm) :
  let lm := easy (step_libm lm) in
  is_finite (k_resolution matcher64) = true /\ 0 < B2R (k_resolution matcher64) /\ is_finite (k_range matcher64) = true /\
  (forall t, In t [cross_scan] -> finite_scan_pose t) /\
  exists m g, add_scans (A := BA lm) eig_ad matcher64 [cross_scan] = Ok m /\ k_ndt m = Some g /\ (g_sx g * g_sy g < 2 ^ 31)%Z /\
  let q := mkPoint (z64 2) (z64 (-2)) in
  finite_point q /\ Rabs (B2R (px q) - B2R (pox (s_pose cross_scan))) <= B2R (k_range matcher64) /\
  Rabs (B2R (py q) - B2R (poy (s_pose cross_scan))) <= B2R (k_range matcher64).
Proof.
  intros lm'. split; [reflexivity|].
  destruct (b64_ofZ 4 ltac:(lia)) as [E4 _]. destruct (b64_ofZ 2 ltac:(lia)) as [E2 F2]. destruct (b64_ofZ 0 ltac:(lia)) as [E0 _]. destruct (b64_ofZ (-2) ltac:(lia)) as [Em Fm].
  split; [change (k_resolution matcher64) with (b64_of 4 0); rewrite E4; lra|]. split; [reflexivity|].
  split; [intros t [<-|[]]; split; reflexivity|].
  destruct (C120_nonvacuous lm) as (_ & _ & m & g & H1 & H2 & H3 & _).
  exists m, g. split; [exact H1|]. split; [exact H2|]. split; [exact H3|]. cbv zeta.
  change (pox (s_pose cross_scan)) with (b64_of 0 0). change (poy (s_pose cross_scan)) with (b64_of 0 0).
  change (k_range matcher64) with (b64_of 2 0). cbn [px py]. change (z64 2) with (b64_of 2 0). change (z64 (-2)) with (b64_of (-2) 0).
  split; [split; assumption|]. rewrite E0, E2, Em. split; apply Rabs_le; lra.
Qed.
