(** The correlation formula in double precision: its error, and that sqrt(v * v) is v. *)
From Coq Require Import Reals Lra Lia List Arith Bool ZArith Psatz.
From Flocq Require Import Core Relative Plus_error IEEE754.BinarySingleNaN.
From Verif Require Import Num Numpy MUtils MDcor MFloat RefFloat FloatError.
Local Open Scope R_scope.

Lemma mul_real (a b : b64) : is_finite a = true -> is_finite b = true -> normal (B2R a * B2R b) ->
  is_finite (b64_mul a b) = true /\ B2R (b64_mul a b) = b64_round (B2R a * B2R b).
Proof.
  intros Fa Fb N. pose proof (Bmult_correct 53 1024 b64_prec b64_emax mode_NE a b) as HC.
  destruct (normal_round _ N) as [_ Hov]. rewrite Rlt_bool_true in HC by exact Hov. destruct HC as (H1 & H2 & _).
  fold (b64_mul a b) in H1, H2. rewrite Fa, Fb in H2. auto.
Qed.

Lemma sqrt_real (a : b64) : is_finite a = true -> 0 <= B2R a ->
  is_finite (b64_sqrt a) = true /\ B2R (b64_sqrt a) = b64_round (sqrt (B2R a)).
Proof.
  intros F Hpos. pose proof (Bsqrt_correct 53 1024 b64_prec b64_emax mode_NE a) as (C1 & C2 & _). change (Bsqrt mode_NE a) with (b64_sqrt a) in C1, C2.
  split; [|exact C1]. rewrite C2. destruct a as [?|?| |s m e p]; try discriminate; auto. destruct s; auto. cbn in Hpos. exfalso.
  assert (F2R (Float radix2 (Z.neg m) e) < 0) by (apply F2R_lt_0; reflexivity). cbn in Hpos. lra.
Qed.

Lemma div_real (a b : b64) : is_finite a = true -> B2R b <> 0 -> Rabs (b64_round (B2R a / B2R b)) < bpow radix2 1024 ->
  is_finite (b64_div a b) = true /\ B2R (b64_div a b) = b64_round (B2R a / B2R b).
Proof.
  intros Fa Nb Hov. pose proof (Bdiv_correct 53 1024 b64_prec b64_emax mode_NE a b Nb) as HC.
  rewrite Rlt_bool_true in HC by exact Hov. destruct HC as (H1 & H2 & _). fold (b64_div a b) in H1, H2. rewrite Fa in H2. auto.
Qed.

(** Rounding in general. *)
Lemma round_err z : Rabs (b64_round z - z) <= ulp1 * Rabs z + / 2 ^ 60.
Proof.
  destruct (error_N_FLT radix2 (3 - 1024 - 53) 53 ltac:(lia) (fun x => negb (Z.even x)) z) as (e & h & He & Hh & _ & Hr).
  change (round radix2 (FLT_exp (3 - 1024 - 53) 53) (Znearest (fun x => negb (Z.even x))) z) with (b64_round z) in Hr. rewrite Hr.
  assert (He' : Rabs e <= ulp1).
  { eapply Rle_trans; [exact He|]. apply Req_le. change (bpow radix2 (- (53) + 1)) with (/ 4503599627370496). unfold ulp1. lra. }
  assert (Hh' : Rabs h <= / 2 ^ 60).
  { eapply Rle_trans; [exact Hh|]. apply Rle_trans with (/ 2 * bpow radix2 (-60)).
    - apply Rmult_le_compat_l; [lra|]. apply bpow_le. lia.
    - change (bpow radix2 (-60)) with (/ 1152921504606846976). lra. }
  replace (z * (1 + e) + h - z) with (e * z + h) by ring. eapply Rle_trans; [apply Rabs_triang|]. apply Rplus_le_compat; auto.
  rewrite Rabs_mult. apply Rmult_le_compat_r; [apply Rabs_pos|auto].
Qed.

(** The error of a quotient by a square root, in exact terms: [k] is the ratio of the computed and the exact denominator. *)
Lemma ratio_error z w k rho u : 0 <= rho <= / 4 -> 0 <= u <= / 1024 -> Rabs z <= 1 -> Rabs (w - z) <= rho ->
  (1 - rho) * ((1 - u) * (1 - u)) <= k <= (1 + rho) * ((1 + u) * (1 + u)) ->
  Rabs (w / k - z) <= 8 / 3 * rho + 7 * u /\ Rabs (w / k) <= 2.
Proof.
  intros Hr Hu Hz Hw Hk.
  assert (K0 : 3 / 4 * (1 - 2 * u) <= k) by nra.
  assert (K1 : Rabs (1 - k) <= rho + 3 * u) by (apply Rabs_le; nra).
  assert (Kp : 0 < k) by lra.
  assert (E : Rabs (w / k - z) <= 8 / 3 * rho + 7 * u).
  { replace (w / k - z) with (((w - z) + z * (1 - k)) / k) by (field; lra).
    unfold Rdiv. rewrite Rabs_mult, (Rabs_pos_eq (/ k)) by (left; apply Rinv_0_lt_compat; lra).
    apply (Rmult_le_reg_r k); auto. rewrite Rmult_assoc, Rinv_l, Rmult_1_r by lra.
    assert (Rabs (z * (1 - k)) <= rho + 3 * u).
    { rewrite Rabs_mult. apply Rle_trans with (1 * (rho + 3 * u)); [apply Rmult_le_compat; auto using Rabs_pos|lra]. }
    eapply Rle_trans; [apply Rabs_triang|]. apply Rle_trans with (2 * rho + 3 * u); [lra|].
    apply Rle_trans with ((8 * / 3 * rho + 7 * u) * (3 / 4 * (1 - 2 * u))); [nra|].
    apply Rmult_le_compat_l; nra. }
  split; [exact E|]. replace (w / k) with (w / k - z + z) by ring. eapply Rle_trans; [apply Rabs_triang|]. lra.
Qed.

Section Corr.
  Context (lib : flib).
  Definition fcorr (c vx vy : b64) : b64 :=
    let d := sqrt_clamp (B64Num lib) (nabs (B64Num lib) (b64_mul vx vy)) in
    if Beqb d (B754_zero false) then B754_zero false else b64_div c d.

  Lemma fcorr_error c vx vy C X Y rho : is_finite c = true -> is_finite vx = true -> is_finite vy = true ->
    0 < X -> 0 < Y -> bpow radix2 (-900) <= X * Y <= bpow radix2 900 -> C * C <= X * Y -> 0 <= rho <= / 4 ->
    Rabs (B2R c - C) <= rho * sqrt (X * Y) -> Rabs (B2R vx - X) <= rho * X -> Rabs (B2R vy - Y) <= rho * Y ->
    is_finite (fcorr c vx vy) = true /\ Rabs (B2R (fcorr c vx vy) - C / sqrt (X * Y)) <= 3 * rho + / 2 ^ 49.
  Proof.
    intros Fc Fx Fy HX HY HXY HC Hr Ec Ex Ey. apply Rabs_le_inv in Ex, Ey.
    pose proof ulp1_pos as U0. pose proof ulp1_small as U1.
    assert (P0 : 0 < X * Y) by (apply Rmult_lt_0_compat; auto).
    set (s := sqrt (X * Y)) in *. assert (S0 : 0 < s) by (apply sqrt_lt_R0; auto). assert (SS : s * s = X * Y) by (apply sqrt_sqrt; lra).
    set (P := B2R vx * B2R vy).
    assert (PL : (1 - rho) * (1 - rho) * (X * Y) <= P).
    { unfold P. replace ((1 - rho) * (1 - rho) * (X * Y)) with (((1 - rho) * X) * ((1 - rho) * Y)) by ring. apply Rmult_le_compat; nra. }
    assert (PU : P <= (1 + rho) * (1 + rho) * (X * Y)).
    { unfold P. replace ((1 + rho) * (1 + rho) * (X * Y)) with (((1 + rho) * X) * ((1 + rho) * Y)) by ring. apply Rmult_le_compat; nra. }
    assert (PB : / 2 * (X * Y) <= P <= 2 * (X * Y)) by nra.
    assert (NP : normal P).
    { right. rewrite Rabs_pos_eq by lra. split.
      - apply Rle_trans with (/ 2 * bpow radix2 (-900)); [|lra]. change (/ 2) with (bpow radix2 (-1)). rewrite <- bpow_plus. apply bpow_le. lia.
      - apply Rle_trans with (2 * bpow radix2 900); [lra|]. change 2 with (bpow radix2 1). rewrite <- bpow_plus. apply bpow_le. lia. }
    destruct (mul_real vx vy Fx Fy NP) as [Fm Rm]. fold P in Rm. destruct (normal_round P NP) as [Em _]. rewrite (Rabs_pos_eq P) in Em by lra. apply Rabs_le_inv in Em.
    set (p := b64_round P) in *.
    assert (p0 : 0 < p) by nra.
    assert (Fa : is_finite (Babs (b64_mul vx vy)) = true) by (rewrite is_finite_Babs; exact Fm).
    assert (Ra : B2R (Babs (b64_mul vx vy)) = p) by (rewrite B2R_Babs, Rm; apply Rabs_pos_eq; lra).
    assert (Sq : sqrt_clamp (B64Num lib) (nabs (B64Num lib) (b64_mul vx vy)) = b64_sqrt (Babs (b64_mul vx vy))).
    { unfold sqrt_clamp. cbn [nabs nltb nzero nsqrt B64Num].
      assert (Bltb (Babs (b64_mul vx vy)) (B754_zero false) = false) as ->; [|reflexivity].
      rewrite Bltb_correct by auto. cbn [B2R]. apply Rlt_bool_false. lra. }
    destruct (sqrt_real _ Fa) as [Fs Rs]; [lra|]. rewrite Ra in Rs.
    (* sqrt p against s *)
    assert (Q : (1 - ulp1) * ((1 - rho) * s) <= sqrt p <= (1 + ulp1) * ((1 + rho) * s)).
    { split.
      - rewrite <- (sqrt_square ((1 - ulp1) * ((1 - rho) * s))) by (apply Rmult_le_pos; [lra|apply Rmult_le_pos; lra]).
        apply sqrt_le_1; [apply Rle_0_sqr|lra|].
        replace ((1 - ulp1) * ((1 - rho) * s) * ((1 - ulp1) * ((1 - rho) * s))) with ((1 - ulp1) * (1 - ulp1) * ((1 - rho) * (1 - rho) * (s * s))) by ring.
        rewrite SS. set (t := (1 - rho) * (1 - rho) * (X * Y)) in *. assert (0 <= t) by (unfold t; nra). nra.
      - rewrite <- (sqrt_square ((1 + ulp1) * ((1 + rho) * s))) by (apply Rmult_le_pos; [lra|apply Rmult_le_pos; lra]).
        apply sqrt_le_1; [lra|apply Rle_0_sqr|].
        replace ((1 + ulp1) * ((1 + rho) * s) * ((1 + ulp1) * ((1 + rho) * s))) with ((1 + ulp1) * (1 + ulp1) * ((1 + rho) * (1 + rho) * (s * s))) by ring.
        rewrite SS. set (t := (1 + rho) * (1 + rho) * (X * Y)) in *. assert (0 <= t) by (unfold t; nra). nra. }
    assert (Ns : normal (sqrt p)).
    { right. pose proof (sqrt_pos p) as Sp. rewrite Rabs_pos_eq by exact Sp.
      assert (B : bpow radix2 (-900) <= s <= bpow radix2 900).
      { split.
        - apply Rle_trans with (sqrt (bpow radix2 (-900))).
          + rewrite <- (sqrt_square (bpow radix2 (-900))) at 1 by apply bpow_ge_0. apply sqrt_le_1; auto using bpow_ge_0.
            * rewrite <- bpow_plus. apply bpow_ge_0.
            * rewrite <- bpow_plus. apply bpow_le. lia.
          + apply sqrt_le_1; [apply bpow_ge_0|lra|lra].
        - apply Rle_trans with (sqrt (bpow radix2 900)).
          + apply sqrt_le_1; [lra|apply bpow_ge_0|lra].
          + rewrite <- (sqrt_square (bpow radix2 900)) at 2 by apply bpow_ge_0. apply sqrt_le_1; auto using bpow_ge_0.
            * rewrite <- bpow_plus. apply bpow_ge_0.
            * rewrite <- bpow_plus. apply bpow_le. lia. }
      split.
      - apply Rle_trans with (/ 2 * bpow radix2 (-900)); [|nra]. change (/ 2) with (bpow radix2 (-1)). rewrite <- bpow_plus. apply bpow_le. lia.
      - apply Rle_trans with (2 * bpow radix2 900); [nra|]. change 2 with (bpow radix2 1). rewrite <- bpow_plus. apply bpow_le. lia. }
    destruct (normal_round _ Ns) as [Es _]. rewrite (Rabs_pos_eq (sqrt p)) in Es by apply sqrt_pos. apply Rabs_le_inv in Es.
    set (h := b64_round (sqrt p)) in *.
    set (k := h / s).
    assert (Kb : (1 - rho) * ((1 - ulp1) * (1 - ulp1)) <= k <= (1 + rho) * ((1 + ulp1) * (1 + ulp1))).
    { unfold k. split.
      - apply (Rmult_le_reg_r s); auto. unfold Rdiv. rewrite (Rmult_assoc h), Rinv_l, Rmult_1_r by lra. nra.
      - apply (Rmult_le_reg_r s); auto. unfold Rdiv. rewrite (Rmult_assoc h), Rinv_l, Rmult_1_r by lra. nra. }
    assert (h0 : 0 < h).
    { assert (0 < sqrt p) by (apply sqrt_lt_R0; auto). assert (ulp1 * sqrt p <= / 1024 * sqrt p) by (apply Rmult_le_compat_r; lra). lra. }
    assert (Zc : Rabs (C / s) <= 1).
    { unfold Rdiv. rewrite Rabs_mult, (Rabs_pos_eq (/ s)) by (left; apply Rinv_0_lt_compat; lra).
      apply (Rmult_le_reg_r s); auto. rewrite Rmult_assoc, Rinv_l by lra. rewrite Rmult_1_r, Rmult_1_l.
      assert (C * C <= s * s) by lra. apply Rabs_le; split; nra. }
    assert (Wc : Rabs (B2R c / s - C / s) <= rho).
    { replace (B2R c / s - C / s) with ((B2R c - C) / s) by (field; lra). unfold Rdiv. rewrite Rabs_mult, (Rabs_pos_eq (/ s)) by (left; apply Rinv_0_lt_compat; lra).
      apply (Rmult_le_reg_r s); auto. rewrite Rmult_assoc, Rinv_l by lra. lra. }
    destruct (ratio_error (C / s) (B2R c / s) k rho ulp1 Hr ltac:(lra) Zc Wc Kb) as [E1 E2].
    assert (Hq : B2R c / s / k = B2R c / h) by (unfold k; field; lra). rewrite Hq in E1, E2.
    pose proof (round_err (B2R c / h)) as E3.
    assert (E4 : ulp1 * Rabs (B2R c / h) <= ulp1 * 2) by (apply Rmult_le_compat_l; lra).
    assert (Bd : B2R (b64_sqrt (Babs (b64_mul vx vy))) = h) by exact Rs.
    assert (Neq : Beqb (b64_sqrt (Babs (b64_mul vx vy))) (B754_zero false) = false).
    { rewrite Beqb_correct by auto. rewrite Bd. cbn [B2R]. apply Req_bool_false. lra. }
    unfold fcorr. rewrite Sq, Neq.
    destruct (div_real c (b64_sqrt (Babs (b64_mul vx vy))) Fc) as [Fd Rd].
    - rewrite Bd. lra.
    - rewrite Bd. apply Rle_lt_trans with 4; [|change 4 with (bpow radix2 2); apply bpow_lt; lia].
      replace (b64_round (B2R c / h)) with ((b64_round (B2R c / h) - B2R c / h) + B2R c / h) by ring.
      eapply Rle_trans; [apply Rabs_triang|]. lra.
    - split; [exact Fd|]. rewrite Rd, Bd.
      replace (b64_round (B2R c / h) - C / s) with ((b64_round (B2R c / h) - B2R c / h) + (B2R c / h - C / s)) by ring.
      eapply Rle_trans; [apply Rabs_triang|].
      assert (ulp1 = / 2 ^ 53) by reflexivity. lra.
  Qed.
End Corr.

(** ** The square root of a square *)
Lemma sqrt_sqr (a : b64) : is_finite a = true -> bpow radix2 (-500) <= B2R a <= bpow radix2 500 -> b64_sqrt (b64_mul a a) = a.
Proof.
  intros Fa Ha. set (A := B2R a) in *. assert (A0 : 0 < A) by (pose proof (bpow_gt_0 radix2 (-500)); lra).
  assert (N : normal (A * A)).
  { right. rewrite Rabs_pos_eq by nra. split.
    - change (-1000)%Z with (-500 + -500)%Z. rewrite bpow_plus. pose proof (bpow_ge_0 radix2 (-500)). apply Rmult_le_compat; lra.
    - change 1000%Z with (500 + 500)%Z. rewrite bpow_plus. apply Rmult_le_compat; lra. }
  destruct (mul_real a a Fa Fa N) as [Fm Rm]. fold A in Rm. destruct (normal_round _ N) as [Em _]. rewrite (Rabs_pos_eq (A * A)) in Em by nra. apply Rabs_le_inv in Em.
  pose proof ulp1_pos as U0. pose proof ulp1_small as U1. set (p := b64_round (A * A)) in *.
  assert (p0 : 0 < p) by nra.
  destruct (sqrt_real _ Fm) as [Fs Rs]; [lra|]. rewrite Rm in Rs.
  assert (FA : generic_format radix2 (SpecFloat.fexp 53 1024) A) by apply generic_format_B2R.
  assert (V : b64_round (sqrt p) = A).
  { set (g := mag_val radix2 A (mag radix2 A)).
    pose proof (bpow_mag_le radix2 A ltac:(lra)) as G1. pose proof (bpow_mag_gt radix2 A) as G2.
    rewrite Rabs_pos_eq in G1, G2 by lra. fold g in G1, G2.
    assert (Gl : (-501 < g)%Z) by (apply (lt_bpow radix2); apply Rlt_trans with (bpow radix2 (-500)); [apply bpow_lt; lia|lra]).
    assert (Gc : SpecFloat.fexp 53 1024 g = (g - 53)%Z) by (unfold SpecFloat.fexp, SpecFloat.emin; lia).
    set (e := (g - 53)%Z) in *.
    assert (AE : A = F2R (Float radix2 (Ztrunc (scaled_mantissa radix2 (SpecFloat.fexp 53 1024) A)) e)).
    { rewrite FA at 1. unfold cexp. fold g. rewrite Gc. reflexivity. }
    set (m := Ztrunc _) in AE. unfold F2R in AE. cbn [Fnum Fexp] in AE.
    pose proof (bpow_gt_0 radix2 e) as B0. set (b := bpow radix2 e) in *.
    assert (Hlo : bpow radix2 (g - 1) = 4503599627370496 * b).
    { replace (g - 1)%Z with (52 + e)%Z by (unfold e; lia). rewrite bpow_plus. reflexivity. }
    assert (Hhi : bpow radix2 g = 9007199254740992 * b).
    { replace g with (53 + e)%Z by (unfold e; lia). rewrite bpow_plus. reflexivity. }
    assert (M1 : (4503599627370496 <= m)%Z) by (apply le_IZR; apply (Rmult_le_reg_r b); lra).
    assert (M2 : (m < 9007199254740992)%Z) by (apply lt_IZR; apply (Rmult_lt_reg_r b); lra).
    destruct (Z.eq_dec m 4503599627370496) as [Em0|Nm].
    - assert (Ab : A = bpow radix2 (g - 1)) by (rewrite AE, Em0, Hlo; reflexivity).
      assert (Pp : p = A * A).
      { unfold p. apply round_generic; [apply valid_rnd_N|]. rewrite Ab, <- bpow_plus. apply generic_format_bpow. unfold SpecFloat.fexp, SpecFloat.emin. lia. }
      rewrite Pp, sqrt_square by lra. apply round_generic; [apply valid_rnd_N|exact FA].
    - assert (M3 : (4503599627370497 <= m)%Z) by lia. assert (M4 : (m <= 9007199254740991)%Z) by lia.
      apply IZR_le in M3, M4.
      set (r := sqrt p). assert (r0 : 0 < r) by (apply sqrt_lt_R0; auto). assert (rr : r * r = p) by (apply sqrt_sqrt; lra).
      assert (rl : (1 - ulp1) * A <= r).
      { unfold r. rewrite <- (sqrt_square ((1 - ulp1) * A)) by (apply Rmult_le_pos; lra). apply sqrt_le_1; [apply Rle_0_sqr|lra|].
        replace ((1 - ulp1) * A * ((1 - ulp1) * A)) with ((1 - ulp1) * (1 - ulp1) * (A * A)) by ring. assert (0 <= A * A) by nra. nra. }
      assert (UA : ulp1 * A <= (1 - ulp1) * b).
      { rewrite AE. replace (ulp1 * (IZR m * b)) with (ulp1 * IZR m * b) by ring. apply Rmult_le_compat_r; [lra|]. unfold ulp1. lra. }
      assert (Dr : (r - A) * (r + A) = p - A * A) by (rewrite <- rr; ring).
      assert (Du : ulp1 * (A * A) <= (1 - ulp1) * b * A) by (rewrite <- Rmult_assoc; apply Rmult_le_compat_r; lra).
      assert (Lo : - (/ 2 * b) < r - A).
      { apply Rnot_le_lt. intros L. assert ((r - A) * (r + A) <= - (/ 2 * b) * (r + A)) by (apply Rmult_le_compat_r; lra).
        assert (/ 2 * b * ((2 - ulp1) * A) <= / 2 * b * (r + A)) by (apply Rmult_le_compat_l; lra).
        assert (0 < ulp1 * (b * A)) by (apply Rmult_lt_0_compat; [lra|apply Rmult_lt_0_compat; lra]). lra. }
      assert (Hi : r - A < / 2 * b).
      { apply Rnot_le_lt. intros L. assert (/ 2 * b * (r + A) <= (r - A) * (r + A)) by (apply Rmult_le_compat_r; lra).
        assert (/ 2 * b * ((2 - ulp1) * A) <= / 2 * b * (r + A)) by (apply Rmult_le_compat_l; lra).
        assert (0 < ulp1 * (b * A)) by (apply Rmult_lt_0_compat; [lra|apply Rmult_lt_0_compat; lra]). lra. }
      assert (mb1 : 4503599627370497 * b <= A) by (rewrite AE; apply Rmult_le_compat_r; lra).
      assert (mb2 : A <= 9007199254740991 * b) by (rewrite AE; apply Rmult_le_compat_r; lra).
      assert (Mg : mag_val radix2 r (mag radix2 r) = g).
      { apply mag_unique. rewrite Rabs_pos_eq by lra. rewrite Hlo, Hhi. lra. }
      unfold b64_round, round, scaled_mantissa, cexp. fold r. rewrite Mg, Gc. cbn [round_mode].
      assert (Zn : Znearest (fun x => negb (Z.even x)) (r * bpow radix2 (- e)) = m).
      { apply Znearest_imp. rewrite bpow_opp. fold b.
        replace (r * / b - IZR m) with ((r - A) * / b) by (rewrite AE; field; lra).
        rewrite Rabs_mult, (Rabs_pos_eq (/ b)) by (left; apply Rinv_0_lt_compat; lra). apply (Rmult_lt_reg_r b); auto.
        rewrite Rmult_assoc, Rinv_l, Rmult_1_r by lra. apply Rabs_lt. lra. }
      rewrite Zn. unfold F2R. cbn [Fnum Fexp]. rewrite AE. reflexivity. }
  apply B2R_inj.
  - apply is_finite_strict_B2R. rewrite Rs, V. lra.
  - apply is_finite_strict_B2R. fold A. lra.
  - rewrite Rs, V. reflexivity.
Qed.

(** ** The final square root: the square of the result is as close to the squared correlation. *)
Lemma sqrt_clamp_error lib (r : b64) R0 e : is_finite r = true -> 0 <= R0 <= 1 -> Rabs (B2R r - R0) <= e -> e <= 1 ->
  let d := sqrt_clamp (B64Num lib) r in is_finite d = true /\ 0 <= B2R d /\ Rabs (B2R d * B2R d - R0) <= e + / 2 ^ 49.
Proof.
  intros Fr HR He He1 d. unfold d, sqrt_clamp. cbn [nltb nzero nsqrt B64Num]. apply Rabs_le_inv in He.
  assert (Bltb r (B754_zero false) = Rlt_bool (B2R r) 0) as -> by (rewrite Bltb_correct by auto; reflexivity).
  assert (p49 : 0 < / 2 ^ 49) by lra.
  destruct (Rlt_bool_spec (B2R r) 0) as [Hn|Hp].
  - assert (b64_sqrt (B754_zero false) = B754_zero false) as Z by reflexivity. rewrite ?Z. cbn [is_finite B2R]. split; auto. split; [lra|].
    apply Rabs_le. lra.
  - destruct (sqrt_real r Fr Hp) as [Fs Rs]. split; [exact Fs|]. rewrite Rs. set (s := sqrt (B2R r)).
    assert (s0 : 0 <= s) by apply sqrt_pos. assert (ss : s * s = B2R r) by (apply sqrt_sqrt; auto).
    assert (s2 : s <= 2) by nra.
    assert (h0 : 0 <= b64_round s) by (apply round_ge_generic; [apply FLT_exp_valid; reflexivity|apply valid_rnd_N|apply generic_format_0|auto]).
    split; [exact h0|]. pose proof (round_err s) as Er. rewrite (Rabs_pos_eq s) in Er by auto. set (h := b64_round s) in *.
    assert (Eb : Rabs (h - s) <= / 2 ^ 51) by (eapply Rle_trans; [exact Er|]; unfold ulp1; lra).
    apply Rabs_le_inv in Eb.
    assert (h3 : h <= 3) by lra.
    replace (h * h - R0) with ((h - s) * (h + s) + (B2R r - R0)) by (rewrite <- ss; ring).
    assert (Q : Rabs ((h - s) * (h + s)) <= / 2 ^ 51 * 4).
    { rewrite Rabs_mult. apply Rmult_le_compat; try apply Rabs_pos; [apply Rabs_le; lra|]. rewrite Rabs_pos_eq by lra.
      assert (s <= 3 / 2) by nra. lra. }
    apply Rabs_le_inv in Q. apply Rabs_le. lra.
Qed.
