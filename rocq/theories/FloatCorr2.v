(** The correlation formula of the optimised rowwise functions, cov / sqrt vx / sqrt vy, in double precision. *)
From Coq Require Import Reals Lra Lia List Arith Bool ZArith Psatz.
From Flocq Require Import Core Relative Plus_error IEEE754.BinarySingleNaN.
From Verif Require Import Num Numpy MUtils MDcor MFloat RefFloat FloatError FloatCorr.
Local Open Scope R_scope.

Lemma round_err_tiny z : Rabs (b64_round z - z) <= ulp1 * Rabs z + bpow radix2 (-1000).
Proof.
  destruct (error_N_FLT radix2 (3 - 1024 - 53) 53 ltac:(lia) (fun x => negb (Z.even x)) z) as (e & h & He & Hh & _ & Hr).
  change (round radix2 (FLT_exp (3 - 1024 - 53) 53) (Znearest (fun x => negb (Z.even x))) z) with (b64_round z) in Hr. rewrite Hr.
  assert (He' : Rabs e <= ulp1).
  { eapply Rle_trans; [exact He|]. apply Req_le. change (bpow radix2 (- (53) + 1)) with (/ 4503599627370496). unfold ulp1. lra. }
  assert (Hh' : Rabs h <= bpow radix2 (-1000)).
  { eapply Rle_trans; [exact Hh|]. apply Rle_trans with (/ 2 * bpow radix2 (-1000)).
    - apply Rmult_le_compat_l; [lra|]. apply bpow_le. lia.
    - pose proof (bpow_ge_0 radix2 (-1000)). lra. }
  replace (z * (1 + e) + h - z) with (e * z + h) by ring. eapply Rle_trans; [apply Rabs_triang|]. apply Rplus_le_compat; auto.
  rewrite Rabs_mult. apply Rmult_le_compat_r; [apply Rabs_pos|auto].
Qed.

Section Root.
  Context (lib : flib).

  (** The computed root of a number close to [X]. *)
  Lemma root_error (w : b64) X rho : is_finite w = true -> / 2 ^ 450 <= X <= 2 ^ 450 -> 0 <= rho <= / 4 -> Rabs (B2R w - X) <= rho * X ->
    let h := sqrt_clamp (B64Num lib) w in
    is_finite h = true /\ 0 < B2R w /\ (1 - ulp1) * sqrt (B2R w) <= B2R h <= (1 + ulp1) * sqrt (B2R w) /\ / 2 * sqrt X <= B2R h <= 2 * sqrt X.
  Proof.
    intros Fw HX Hr Ew h. apply Rabs_le_inv in Ew. pose proof ulp1_pos as U0. pose proof ulp1_small as U1.
    assert (P450 : 0 < / 2 ^ 450) by (apply Rinv_0_lt_compat; apply pow_lt; lra).
    assert (W0 : 3 / 4 * X <= B2R w <= 5 / 4 * X) by nra.
    assert (Wp : 0 < B2R w) by lra.
    assert (h = b64_sqrt w) as ->.
    { unfold h, sqrt_clamp. cbn [nltb nzero nsqrt B64Num]. assert (Bltb w (B754_zero false) = false) as ->; [|reflexivity].
      rewrite Bltb_correct by auto. cbn [B2R]. apply Rlt_bool_false. lra. }
    destruct (sqrt_real w Fw) as [Fs Rs]; [lra|].
    set (s := sqrt (B2R w)) in *. assert (S0 : 0 < s) by (apply sqrt_lt_R0; auto).
    set (r := sqrt X). assert (r0 : 0 < r) by (apply sqrt_lt_R0; lra). assert (rr : r * r = X) by (apply sqrt_sqrt; lra).
    assert (ss : s * s = B2R w) by (apply sqrt_sqrt; lra).
    assert (SB : 3 / 4 * r <= s <= 5 / 4 * r).
    { split; apply Rnot_lt_le; intros L.
      - assert (s * s < (3 / 4 * r) * (3 / 4 * r)) by (apply Rmult_le_0_lt_compat; lra). nra.
      - assert ((5 / 4 * r) * (5 / 4 * r) < s * s) by (apply Rmult_le_0_lt_compat; lra). nra. }
    assert (B450 : bpow radix2 (-450) = / 2 ^ 450) by (change (-450)%Z with (- Z.of_nat 450)%Z; rewrite bpow_opp, <- IZR_Zpower by lia; f_equal; rewrite pow_IZR; reflexivity).
    assert (B450' : bpow radix2 450 = 2 ^ 450) by (rewrite <- IZR_Zpower by lia; rewrite pow_IZR; reflexivity).
    assert (RB : bpow radix2 (-450) <= r <= bpow radix2 450).
    { assert (1 <= 2 ^ 450) by (apply pow_R1_Rle; lra). assert (/ 2 ^ 450 <= 1) by (rewrite <- Rinv_1; apply Rinv_le; lra). rewrite B450, B450'.
      split; apply Rnot_lt_le; intros L.
      - assert (r * r < / 2 ^ 450 * / 2 ^ 450) by (apply Rmult_le_0_lt_compat; lra).
        assert (/ 2 ^ 450 * / 2 ^ 450 <= 1 * / 2 ^ 450) by (apply Rmult_le_compat_r; lra). lra.
      - assert (2 ^ 450 * 2 ^ 450 < r * r) by (apply Rmult_le_0_lt_compat; lra).
        assert (1 * 2 ^ 450 <= 2 ^ 450 * 2 ^ 450) by (apply Rmult_le_compat_r; lra). lra. }
    assert (Ns : normal s).
    { right. rewrite Rabs_pos_eq by lra. split.
      - apply Rle_trans with (/ 2 * bpow radix2 (-450)); [|lra]. change (/ 2) with (bpow radix2 (-1)). rewrite <- bpow_plus. apply bpow_le. lia.
      - apply Rle_trans with (2 * bpow radix2 450); [lra|]. change 2 with (bpow radix2 1). rewrite <- bpow_plus. apply bpow_le. lia. }
    destruct (normal_round _ Ns) as [Es _]. rewrite (Rabs_pos_eq s) in Es by lra. apply Rabs_le_inv in Es. rewrite Rs.
    assert (ulp1 * s <= / 1024 * s) by (apply Rmult_le_compat_r; lra).
    split; [exact Fs|]. split; [exact Wp|]. split; lra.
  Qed.

  Lemma fcorr2_error c wx wy C X Y rho : is_finite c = true -> is_finite wx = true -> is_finite wy = true ->
    / 2 ^ 450 <= X <= 2 ^ 450 -> / 2 ^ 450 <= Y <= 2 ^ 450 -> C * C <= X * Y -> 0 <= rho <= / 4 ->
    Rabs (B2R c - C) <= rho * sqrt (X * Y) -> Rabs (B2R wx - X) <= rho * X -> Rabs (B2R wy - Y) <= rho * Y ->
    let q := b64_div (b64_div c (sqrt_clamp (B64Num lib) wx)) (sqrt_clamp (B64Num lib) wy) in
    is_finite q = true /\ Rabs (B2R q - C / sqrt (X * Y)) <= 3 * rho + / 2 ^ 49.
  Proof.
    intros Fc Fx Fy HX HY HC Hr Ec Ex Ey q.
    destruct (root_error wx X rho Fx HX Hr Ex) as (Fh1 & W1 & Q1 & R1). destruct (root_error wy Y rho Fy HY Hr Ey) as (Fh2 & W2 & Q2 & R2).
    apply Rabs_le_inv in Ex, Ey. pose proof ulp1_pos as U0. pose proof ulp1_small as U1.
    assert (P450 : 0 < / 2 ^ 450) by (apply Rinv_0_lt_compat; apply pow_lt; lra).
    assert (X0 : 0 < X) by lra. assert (Y0 : 0 < Y) by lra.
    assert (SM : sqrt (X * Y) = sqrt X * sqrt Y) by (apply sqrt_mult; lra).
    set (s := sqrt (X * Y)) in *. assert (S0 : 0 < s) by (apply sqrt_lt_R0, Rmult_lt_0_compat; auto). assert (SS : s * s = X * Y) by (apply sqrt_sqrt, Rmult_le_pos; lra).
    assert (x0 : 0 < sqrt X) by (apply sqrt_lt_R0; auto). assert (y0 : 0 < sqrt Y) by (apply sqrt_lt_R0; auto).
    set (H1 := sqrt_clamp (B64Num lib) wx) in *. set (H2 := sqrt_clamp (B64Num lib) wy) in *. set (h1 := B2R H1) in *. set (h2 := B2R H2) in *.
    assert (h10 : 0 < h1) by lra. assert (h20 : 0 < h2) by lra.
    assert (WW : (1 - rho) * s <= sqrt (B2R wx) * sqrt (B2R wy) <= (1 + rho) * s).
    { rewrite <- sqrt_mult by lra. split.
      - rewrite <- (sqrt_square ((1 - rho) * s)) by (apply Rmult_le_pos; lra). apply sqrt_le_1; [apply Rle_0_sqr|apply Rmult_le_pos; lra|].
        replace ((1 - rho) * s * ((1 - rho) * s)) with ((1 - rho) * (1 - rho) * (s * s)) by ring. rewrite SS.
        replace ((1 - rho) * (1 - rho) * (X * Y)) with (((1 - rho) * X) * ((1 - rho) * Y)) by ring. apply Rmult_le_compat; nra.
      - rewrite <- (sqrt_square ((1 + rho) * s)) by (apply Rmult_le_pos; lra). apply sqrt_le_1; [apply Rmult_le_pos; lra|apply Rle_0_sqr|].
        replace ((1 + rho) * s * ((1 + rho) * s)) with ((1 + rho) * (1 + rho) * (s * s)) by ring. rewrite SS.
        replace ((1 + rho) * (1 + rho) * (X * Y)) with (((1 + rho) * X) * ((1 + rho) * Y)) by ring. apply Rmult_le_compat; nra. }
    set (p1 := sqrt (B2R wx)) in *. set (p2 := sqrt (B2R wy)) in *.
    assert (p10 : 0 < p1) by (apply sqrt_lt_R0; auto). assert (p20 : 0 < p2) by (apply sqrt_lt_R0; auto).
    set (k := h1 * h2 / s).
    assert (Kb : (1 - rho) * ((1 - ulp1) * (1 - ulp1)) <= k <= (1 + rho) * ((1 + ulp1) * (1 + ulp1))).
    { assert (L : ((1 - ulp1) * p1) * ((1 - ulp1) * p2) <= h1 * h2) by (apply Rmult_le_compat; try lra; apply Rmult_le_pos; lra).
      assert (U : h1 * h2 <= ((1 + ulp1) * p1) * ((1 + ulp1) * p2)) by (apply Rmult_le_compat; lra).
      assert (0 <= (1 - ulp1) * (1 - ulp1)) by (apply Rmult_le_pos; lra). assert (0 <= (1 + ulp1) * (1 + ulp1)) by (apply Rmult_le_pos; lra).
      unfold k. split; apply (Rmult_le_reg_r s); auto; unfold Rdiv; rewrite (Rmult_assoc (h1 * h2)), Rinv_l, Rmult_1_r by lra.
      - apply Rle_trans with ((1 - ulp1) * (1 - ulp1) * (p1 * p2)); [|lra].
        replace ((1 - rho) * ((1 - ulp1) * (1 - ulp1)) * s) with ((1 - ulp1) * (1 - ulp1) * ((1 - rho) * s)) by ring. apply Rmult_le_compat_l; lra.
      - apply Rle_trans with ((1 + ulp1) * (1 + ulp1) * (p1 * p2)); [lra|].
        replace ((1 + rho) * ((1 + ulp1) * (1 + ulp1)) * s) with ((1 + ulp1) * (1 + ulp1) * ((1 + rho) * s)) by ring. apply Rmult_le_compat_l; lra. }
    assert (Zc : Rabs (C / s) <= 1).
    { unfold Rdiv. rewrite Rabs_mult, (Rabs_pos_eq (/ s)) by (left; apply Rinv_0_lt_compat; lra).
      apply (Rmult_le_reg_r s); auto. rewrite Rmult_assoc, Rinv_l by lra. rewrite Rmult_1_r, Rmult_1_l.
      assert (C * C <= s * s) by lra. apply Rabs_le; split; nra. }
    assert (Wc : Rabs (B2R c / s - C / s) <= rho).
    { replace (B2R c / s - C / s) with ((B2R c - C) / s) by (field; lra). unfold Rdiv. rewrite Rabs_mult, (Rabs_pos_eq (/ s)) by (left; apply Rinv_0_lt_compat; lra).
      apply (Rmult_le_reg_r s); auto. rewrite Rmult_assoc, Rinv_l by lra. lra. }
    destruct (ratio_error (C / s) (B2R c / s) k rho ulp1 Hr ltac:(lra) Zc Wc Kb) as [E1 E2].
    assert (Hq : B2R c / s / k = B2R c / h1 / h2) by (unfold k; field; lra). rewrite Hq in E1, E2.
    (* first quotient *)
    set (z1 := B2R c / h1) in *.
    assert (P225 : sqrt Y <= bpow radix2 450).
    { rewrite <- (sqrt_square (bpow radix2 450)) by apply bpow_ge_0. apply sqrt_le_1; [lra|apply Rle_0_sqr|].
      assert (B450' : bpow radix2 450 = 2 ^ 450) by (rewrite <- IZR_Zpower by lia; rewrite pow_IZR; reflexivity). rewrite B450'.
      assert (1 <= 2 ^ 450) by (apply pow_R1_Rle; lra). assert (1 * 2 ^ 450 <= 2 ^ 450 * 2 ^ 450) by (apply Rmult_le_compat_r; lra). lra. }
    assert (L225 : bpow radix2 (-450) <= sqrt Y).
    { rewrite <- (sqrt_square (bpow radix2 (-450))) by apply bpow_ge_0. apply sqrt_le_1; [apply Rle_0_sqr|lra|].
      assert (B450 : bpow radix2 (-450) = / 2 ^ 450) by (change (-450)%Z with (- Z.of_nat 450)%Z; rewrite bpow_opp, <- IZR_Zpower by lia; f_equal; rewrite pow_IZR; reflexivity).
      rewrite B450. assert (1 <= 2 ^ 450) by (apply pow_R1_Rle; lra). assert (/ 2 ^ 450 <= 1) by (rewrite <- Rinv_1; apply Rinv_le; lra).
      assert (/ 2 ^ 450 * / 2 ^ 450 <= 1 * / 2 ^ 450) by (apply Rmult_le_compat_r; lra). lra. }
    assert (Z1 : Rabs z1 <= 4 * sqrt Y).
    { assert (Rabs (z1 / h2) * h2 <= 2 * (2 * sqrt Y)) by (apply Rmult_le_compat; try lra; apply Rabs_pos).
      assert (Rabs (z1 / h2) * h2 = Rabs z1) as <-; [|lra].
      unfold Rdiv. rewrite Rabs_mult, (Rabs_pos_eq (/ h2)) by (left; apply Rinv_0_lt_compat; lra). rewrite Rmult_assoc, Rinv_l by lra. ring. }
    pose proof (round_err_tiny z1) as T1. set (q1 := b64_round z1) in *.
    assert (tiny : 0 <= bpow radix2 (-1000)) by apply bpow_ge_0.
    assert (tinyle : bpow radix2 (-1000) <= 1) by (change 1 with (bpow radix2 0); apply bpow_le; lia).
    assert (A1 : Rabs q1 < bpow radix2 1024).
    { replace q1 with ((q1 - z1) + z1) by ring. eapply Rle_lt_trans; [apply Rabs_triang|].
      assert (ulp1 * Rabs z1 <= 1 * Rabs z1) by (apply Rmult_le_compat_r; [apply Rabs_pos|lra]).
      assert (1 <= bpow radix2 450) by (change 1 with (bpow radix2 0); apply bpow_le; lia).
      apply Rle_lt_trans with (16 * bpow radix2 450); [lra|]. change 16 with (bpow radix2 4). rewrite <- bpow_plus. apply bpow_lt. lia. }
    destruct (div_real c H1 Fc) as [Fd1 Rd1]; [fold h1; lra|exact A1|]. fold h1 z1 q1 in Rd1.
    (* second quotient *)
    set (z2 := q1 / h2).
    assert (T2 : Rabs (z2 - z1 / h2) <= ulp1 * 2 + / 2 ^ 60).
    { unfold z2. replace (q1 / h2 - z1 / h2) with ((q1 - z1) / h2) by (field; lra).
      assert (D : forall v, Rabs (v / h2) = Rabs v / h2).
      { intros v. unfold Rdiv. rewrite Rabs_mult, (Rabs_pos_eq (/ h2)) by (left; apply Rinv_0_lt_compat; lra). reflexivity. }
      rewrite D in *. assert (I2 : 0 < / h2) by (apply Rinv_0_lt_compat; lra).
      apply Rle_trans with ((ulp1 * Rabs z1 + bpow radix2 (-1000)) * / h2); [apply Rmult_le_compat_r; lra|].
      rewrite Rmult_plus_distr_r. apply Rplus_le_compat.
      - rewrite Rmult_assoc. apply Rmult_le_compat_l; [lra|exact E2].
      - apply (Rmult_le_reg_r h2); auto. rewrite Rmult_assoc, Rinv_l, Rmult_1_r by lra.
        apply Rle_trans with (/ 2 ^ 60 * (/ 2 * bpow radix2 (-450))); [|apply Rmult_le_compat_l; lra].
        replace (/ 2 ^ 60) with (bpow radix2 (-60)).
        + change (/ 2) with (bpow radix2 (-1)). rewrite <- !bpow_plus. apply bpow_le. lia.
        + change (bpow radix2 (-60)) with (/ 1152921504606846976). lra. }
    assert (Z2 : Rabs z2 <= 3).
    { replace z2 with ((z2 - z1 / h2) + z1 / h2) by ring. eapply Rle_trans; [apply Rabs_triang|]. unfold ulp1 in T2. lra. }
    pose proof (round_err z2) as T3. assert (U3 : ulp1 * Rabs z2 <= ulp1 * 3) by (apply Rmult_le_compat_l; lra).
    destruct (div_real (b64_div c H1) H2 Fd1) as [Fd2 Rd2].
    - fold h2. lra.
    - rewrite Rd1. fold h2 z2. apply Rle_lt_trans with 4; [|change 4 with (bpow radix2 2); apply bpow_lt; lia].
      replace (b64_round z2) with ((b64_round z2 - z2) + z2) by ring. eapply Rle_trans; [apply Rabs_triang|]. lra.
    - split; [exact Fd2|]. unfold q. rewrite Rd2, Rd1. fold h2 z2.
      replace (b64_round z2 - C / s) with ((b64_round z2 - z2) + ((z2 - z1 / h2) + (z1 / h2 - C / s))) by ring.
      eapply Rle_trans; [apply Rabs_triang|]. eapply Rle_trans; [apply Rplus_le_compat_l, Rabs_triang|].
      assert (ulp1 = / 2 ^ 53) by reflexivity. lra.
  Qed.
End Root.
