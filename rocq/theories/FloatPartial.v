(** The arithmetic of the partial functions in double precision: clipped correlations, the quotient of the partial correlation,
    and the error of a product of U-centred matrices. *)
From Coq Require Import Reals Lra Lia List Arith Bool ZArith Psatz.
From Flocq Require Import Core IEEE754.BinarySingleNaN.
From Verif Require Import Num Numpy MUtils MDistances MInternals MDcor MPartial MFloat Sums Spec Centering Tab RefDist RefCenter RefFloat
  FloatApi FloatSum FloatError FloatAccuracy FloatNaive FloatCorr FloatTStat FloatAvlErr FloatAvlForm FloatCenter FloatExact NanInst.
Import ListNotations.
Local Open Scope R_scope.

Lemma minus_one_real : is_finite (b64_ofZ (-1)) = true /\ B2R (b64_ofZ (-1)) = -1.
Proof. destruct (rep_ofZ (-1)) as (F & R1 & _); [lia|]. auto. Qed.

(** ** Clipping *)
Section Clip.
  Context (lib : flib) (E : Env b64) (EN : e_num E = B64Num lib).

  (** The real value of a clipped double that is not NaN. *)
  Definition clipR (t : R) : R := Rmax (-1) (Rmin 1 t).
  Lemma clipR_range t : -1 <= clipR t <= 1.
  Proof. unfold clipR. split; [apply Rmax_l|apply Rmax_lub; [lra|apply Rmin_l]]. Qed.
  Lemma clipR_id t : -1 <= t <= 1 -> clipR t = t.
  Proof. intros H. unfold clipR. rewrite Rmin_right, Rmax_right; lra. Qed.
  Lemma clipR_near t r : -1 <= r <= 1 -> Rabs (clipR t - r) <= Rabs (t - r).
  Proof.
    intros H. unfold clipR. destruct (Rle_dec t 1); [rewrite (Rmin_right 1 t) by lra|rewrite (Rmin_left 1 t) by lra].
    - destruct (Rle_dec (-1) t); [rewrite Rmax_right by lra; lra|]. rewrite Rmax_left by lra. unfold Rabs. repeat destruct Rcase_abs; lra.
    - rewrite Rmax_right by lra. unfold Rabs. repeat destruct Rcase_abs; lra.
  Qed.

  Lemma clip_value v : is_nan v = false -> is_finite (clip1 E v) = true /\ B2R (clip1 E v) = clipR (ext v).
  Proof.
    intros Nv. unfold clip1. rewrite EN. cbn [nltb nofZ B64Num]. destruct one_real as (F1 & R1 & _). destruct minus_one_real as (Fm & Rm).
    destruct (is_finite v) eqn:Fv.
    - rewrite !Bltb_correct by auto. rewrite R1, Rm, ext_finite by auto. unfold clipR.
      destruct (Rlt_bool_spec (B2R v) (-1)); [rewrite Rmin_right, Rmax_left by lra; auto|].
      destruct (Rlt_bool_spec 1 (B2R v)); [rewrite Rmin_left, Rmax_right by lra; auto|]. rewrite Rmin_right, Rmax_right by lra. auto.
    - pose proof Omega_gt1. destruct v as [?|w| |? ? ? ?]; try discriminate. unfold clipR. destruct w; cbn [ext].
      + assert (Bltb (B754_infinity true) (b64_ofZ (-1)) = true) as -> by reflexivity. rewrite Rmin_right, Rmax_left by lra. auto.
      + assert (Bltb (B754_infinity false) (b64_ofZ (-1)) = false) as -> by reflexivity.
        assert (Bltb (b64_ofZ 1) (B754_infinity false) = true) as -> by reflexivity. rewrite Rmin_left, Rmax_right by lra. auto.
  Qed.

  Lemma f_nn_real v : is_finite v = true -> f_nn v -> 0 <= B2R v.
  Proof. destruct v as [s|s| |s m e H]; cbn; try discriminate; try lra. destruct s; [contradiction|]. intros _ _. apply F2R_ge_0. cbn. lia. Qed.

  (** A clipped correlation of finite products, the variances nonnegative, is a number of [-1, 1]. *)
  Lemma clipped_finite ab aa bb : is_finite ab = true -> is_finite aa = true -> is_finite bb = true -> 0 <= B2R aa -> 0 <= B2R bb ->
    let r := clipped_correlation E ab aa bb in is_finite r = true /\ -1 <= B2R r <= 1.
  Proof.
    intros Fab Fa Fb Pa Pb r. enough (is_nan (if Beqb (b64_mul aa bb) (B754_zero false) then b64_mul aa bb
      else b64_div ab (sqrt_clamp (B64Num lib) (b64_mul aa bb))) = false) as N.
    { destruct (clip_value _ N) as [F V]. unfold r, clipped_correlation. rewrite EN. split; [exact F|].
      eapply eq_ind_r with (P := fun t => -1 <= t <= 1); [apply clipR_range|exact V]. }
    destruct (ext_mul aa bb Fa Fb) as [Nq Eq]. set (q := b64_mul aa bb) in *.
    destruct (Beqb q (B754_zero false)) eqn:Zq; [exact Nq|].
    assert (Q0 : 0 <= ext q).
    { rewrite Eq. pose proof Omega_gt1. rewrite <- (clamp_id 0) by (rewrite Rabs_R0; lra). apply clamp_le. rewrite <- rnd_0. apply rnd_le. nra. }
    unfold sqrt_clamp. cbn [nltb nzero nsqrt B64Num]. destruct (is_finite q) eqn:Fq.
    - rewrite ext_finite in Q0 by auto. rewrite Beqb_correct in Zq by auto. cbn [B2R] in Zq.
      assert (B2R q <> 0) by (intros H; rewrite H, Req_bool_true in Zq; auto; discriminate).
      rewrite Bltb_correct by auto. cbn [B2R]. rewrite Rlt_bool_false by auto.
      destruct (sqrt_real q Fq Q0) as [Fs Rs].
      assert (Q1 : 0 < sqrt (B2R q)) by (apply sqrt_lt_R0; lra).
      assert (P : 0 < b64_round (sqrt (B2R q))).
      { apply Rlt_le_trans with (bpow radix2 (-600)); [apply bpow_gt_0|]. apply rnd_ge; [apply format_bpow; lia|].
        rewrite <- (sqrt_square (bpow radix2 (-600))) by apply bpow_ge_0. apply sqrt_le_1_alt. rewrite <- bpow_plus.
        apply Rle_trans with (bpow radix2 (3 - 1024 - 53)); [apply bpow_le; lia|].
        rewrite <- (Rabs_pos_eq (B2R q)) by auto. apply (abs_B2R_ge_emin 53 1024 q). apply is_finite_strict_B2R. auto. }
      apply ext_div; auto. rewrite Rs. lra.
    - destruct q as [?|w| |? ? ? ?]; try discriminate. destruct w; cbn [ext] in Q0; [pose proof Omega_gt1; lra|].
      cbn. destruct ab as [[]|?| |[] ? ? ?]; try discriminate; reflexivity.
  Qed.
End Clip.

(** ** Operations on numbers of moderate size *)
Lemma ext_fin v z : is_nan v = false -> ext v = clamp z -> Rabs z < Omega -> is_finite v = true /\ B2R v = z.
Proof.
  intros N Ev H. rewrite clamp_id in Ev by lra. destruct (is_finite v) eqn:F; [rewrite ext_finite in Ev by auto; auto|].
  exfalso. destruct v as [?|w| |? ? ? ?]; try discriminate. pose proof Omega_gt1. cbn [ext] in Ev. rewrite <- Ev in H.
  destruct w; [rewrite Rabs_Ropp in H|]; rewrite Rabs_pos_eq in H; lra.
Qed.
Lemma rnd_abs z e : (-1000 <= e <= 1000)%Z -> Rabs z <= bpow radix2 e -> Rabs (b64_round z) <= bpow radix2 e.
Proof.
  intros He H. apply Rabs_le_inv in H. assert (format (bpow radix2 e)) by (apply format_bpow; lia). apply Rabs_le. split.
  - apply rnd_ge; [apply generic_format_opp; auto|lra].
  - apply rnd_le_f; auto. lra.
Qed.
Lemma below_Omega z e : (e <= 1000)%Z -> Rabs z <= bpow radix2 e -> Rabs z < Omega.
Proof. intros He H. eapply Rle_lt_trans; [exact H|]. unfold Omega. apply bpow_lt. lia. Qed.
Lemma fin_mul_small a b e : (-1000 <= e <= 1000)%Z -> is_finite a = true -> is_finite b = true -> Rabs (B2R a * B2R b) <= bpow radix2 e ->
  is_finite (b64_mul a b) = true /\ B2R (b64_mul a b) = b64_round (B2R a * B2R b).
Proof.
  intros He Fa Fb H. destruct (ext_mul a b Fa Fb) as [N Ev]. apply ext_fin; auto. apply (below_Omega _ e); [lia|]. apply rnd_abs; auto.
Qed.
Lemma fin_div_small a b e : (-1000 <= e <= 1000)%Z -> is_finite a = true -> is_finite b = true -> B2R b <> 0 -> Rabs (B2R a / B2R b) <= bpow radix2 e ->
  is_finite (b64_div a b) = true /\ B2R (b64_div a b) = b64_round (B2R a / B2R b).
Proof.
  intros He Fa Fb Nb H. destruct (ext_div a b Fa Fb Nb) as [N Ev]. apply ext_fin; auto. apply (below_Omega _ e); [lia|]. apply rnd_abs; auto.
Qed.
Lemma fin_sub_small a b e : (-1000 <= e <= 1000)%Z -> is_finite a = true -> is_finite b = true -> Rabs (B2R a - B2R b) <= bpow radix2 e ->
  is_finite (b64_sub a b) = true /\ B2R (b64_sub a b) = b64_round (B2R a - B2R b).
Proof.
  intros He Fa Fb H. pose proof (Bminus_correct 53 1024 b64_prec b64_emax mode_NE a b Fa Fb) as HC. fold (b64_sub a b) in HC.
  rewrite Rlt_bool_true in HC; [destruct HC as (H1 & H2 & _); auto|].
  apply (below_Omega _ e); [lia|]. apply rnd_abs; auto.
Qed.

(** ** The quotient of the partial correlation *)
Section Quotient.
  Context (lib : flib) (rxy rxz ryz : b64).
  Context (Fxy : is_finite rxy = true) (Fxz : is_finite rxz = true) (Fyz : is_finite ryz = true).
  Context (Bxy : -1 <= B2R rxy <= 1) (Bxz : -1 <= B2R rxz <= 1) (Byz : -1 <= B2R ryz <= 1).
  Definition rest (v : b64) : b64 := sqrt_clamp (B64Num lib) (b64_sub (b64_ofZ 1) (b64_mul v v)).
  Definition numer : b64 := b64_sub rxy (b64_mul rxz ryz).
  Definition denom : b64 := b64_mul (rest rxz) (rest ryz).
  Definition quotient : b64 := if Beqb denom (B754_zero false) then denom else b64_div numer denom.

  Lemma rest_real v : is_finite v = true -> is_finite (rest v) = true /\ B2R (rest v) = den (B2R v).
  Proof.
    intros F. destruct (den_correct lib v (finite_not_nan v F)) as (F1 & _ & R1). rewrite ext_finite in R1 by auto. split; auto.
  Qed.
  Lemma abs_prod_le a b A B : Rabs a <= A -> Rabs b <= B -> Rabs (a * b) <= A * B.
  Proof. intros. rewrite Rabs_mult. apply Rmult_le_compat; auto using Rabs_pos. Qed.

  Lemma numer_real : is_finite numer = true /\ B2R numer = b64_round (B2R rxy - b64_round (B2R rxz * B2R ryz)) /\ Rabs (B2R numer) <= 2.
  Proof.
    assert (P : Rabs (B2R rxz * B2R ryz) <= bpow radix2 0).
    { change (bpow radix2 0) with 1. replace 1 with (1 * 1) by ring. apply abs_prod_le; apply Rabs_le; lra. }
    destruct (fin_mul_small rxz ryz 0 ltac:(lia) Fxz Fyz P) as [Fm Rm]. pose proof (rnd_abs _ 0 ltac:(lia) P) as P'. rewrite <- Rm in P'.
    change (bpow radix2 0) with 1 in P'. apply Rabs_le_inv in P'.
    assert (Q : Rabs (B2R rxy - B2R (b64_mul rxz ryz)) <= bpow radix2 1) by (change (bpow radix2 1) with 2; apply Rabs_le; lra).
    destruct (fin_sub_small rxy (b64_mul rxz ryz) 1 ltac:(lia) Fxy Fm Q) as [Fn Rn]. split; [exact Fn|]. unfold numer. rewrite Rn, Rm in *. split; auto.
    rewrite <- Rn in *. rewrite Rn. change 2 with (bpow radix2 1). apply rnd_abs; [lia|]. exact Q.
  Qed.
  Lemma denom_real : is_finite denom = true /\ B2R denom = b64_round (den (B2R rxz) * den (B2R ryz)) /\ (B2R denom = 0 \/ bpow radix2 (-54) <= B2R denom).
  Proof.
    destruct (rest_real rxz Fxz) as [F1 R1]. destruct (rest_real ryz Fyz) as [F2 R2].
    pose proof (den_range (B2R rxz)) as D1. pose proof (den_range (B2R ryz)) as D2.
    assert (P : Rabs (B2R (rest rxz) * B2R (rest ryz)) <= bpow radix2 0).
    { change (bpow radix2 0) with 1. replace 1 with (1 * 1) by ring. apply abs_prod_le; apply Rabs_le; lra. }
    destruct (fin_mul_small _ _ 0 ltac:(lia) F1 F2 P) as [Fm Rm]. split; [exact Fm|]. unfold denom. rewrite Rm, R1, R2. split; [reflexivity|].
    assert (C : forall v : b64, -1 <= B2R v <= 1 -> den (B2R v) = 0 \/ bpow radix2 (-27) <= den (B2R v)).
    { intros v B. destruct (Rlt_le_dec (Rabs (B2R v)) 1); [right; apply den_inside; auto; apply generic_format_B2R|left; apply den_outside; auto]. }
    destruct (C rxz Bxz) as [->|C1]; [left; rewrite Rmult_0_l; apply rnd_0|]. destruct (C ryz Byz) as [->|C2]; [left; rewrite Rmult_0_r; apply rnd_0|].
    right. apply rnd_ge; [apply format_bpow; lia|]. change (-54)%Z with (-27 + -27)%Z. rewrite bpow_plus. pose proof (bpow_gt_0 radix2 (-27)). apply Rmult_le_compat; lra.
  Qed.

  Lemma quotient_finite : is_finite quotient = true /\ Rabs (B2R quotient) <= 2 ^ 55.
  Proof.
    destruct numer_real as (Fn & _ & Bn). destruct denom_real as (Fd & _ & Bd). unfold quotient. rewrite Beqb_correct by auto. cbn [B2R].
    destruct (Req_bool_spec (B2R denom) 0) as [Z|NZ]; [rewrite Z, Rabs_R0; split; auto; apply pow_le; lra|].
    destruct Bd as [|Bd]; [contradiction|]. pose proof (bpow_gt_0 radix2 (-54)) as P54.
    assert (Q : Rabs (B2R numer / B2R denom) <= bpow radix2 55).
    { unfold Rdiv. change 55%Z with (1 + 54)%Z. rewrite bpow_plus. apply abs_prod_le; [exact Bn|].
      rewrite Rabs_pos_eq by (left; apply Rinv_0_lt_compat; lra). change 54%Z with (- (-54))%Z. rewrite bpow_opp. apply Rinv_le; auto. }
    destruct (fin_div_small numer denom 55 ltac:(lia) Fn Fd NZ Q) as [Fq Rq]. split; auto. rewrite Rq.
    eapply Rle_trans; [apply (rnd_abs _ 55); auto; lia|]. change 55%Z with (Z.of_nat 55). rewrite <- IZR_Zpower, pow_IZR by lia. apply Rle_refl.
  Qed.
End Quotient.

(** ** Its error *)
Lemma rest_error r z e dl : -1 <= r <= 1 -> -1 <= z <= 1 -> / 2 ^ 49 <= e -> Rabs (r - z) <= e -> dl <= 1 - z * z -> 16 * e <= dl ->
  let S := sqrt (1 - z * z) in Rabs (den r - S) <= 23 / 10 * (e / dl) * S.
Proof.
  intros Hr Hz He Hrz Hd H16 S. apply Rabs_le_inv in Hrz. assert (e0 : 0 < e) by lra. assert (d0 : 0 < dl) by lra.
  assert (u1 : ulp1 <= e / 16) by (unfold ulp1; lra). assert (u2 : / 2 ^ 60 <= e / 2048) by lra. pose proof ulp1_pos as u0.
  pose proof (round_err (r * r)) as E1. assert (rr : 0 <= r * r <= 1) by nra. rewrite (Rabs_pos_eq (r * r)) in E1 by lra. apply Rabs_le_inv in E1.
  set (q0 := b64_round (r * r)) in *.
  assert (Q0 : 0 <= q0) by (unfold q0; rewrite <- rnd_0; apply rnd_le; lra).
  assert (Q1 : q0 <= 1) by (unfold q0; apply rnd_le_f; [apply format_1|lra]).
  assert (ur : ulp1 * (r * r) <= e / 16) by nra.
  assert (D1 : - (2 * e) <= r * r - z * z <= 2 * e) by nra.
  assert (Q2 : - (207 / 100 * e) <= q0 - z * z <= 207 / 100 * e) by lra.
  pose proof (round_err (1 - q0)) as E2. rewrite (Rabs_pos_eq (1 - q0)) in E2 by lra. apply Rabs_le_inv in E2. set (t := b64_round (1 - q0)) in *.
  assert (uq : ulp1 * (1 - q0) <= e / 16) by nra.
  assert (T1 : - (214 / 100 * e) <= t - (1 - z * z) <= 214 / 100 * e) by lra.
  assert (t0 : 0 < t) by lra.
  pose proof Omega_gt1 as O1.
  assert (den r = b64_round (sqrt t)) as ->.
  { unfold den. fold q0. rewrite clamp_id by (rewrite Rabs_pos_eq; lra). fold t. rewrite Rmax_right by lra. reflexivity. }
  assert (SS : S * S = 1 - z * z) by (apply sqrt_sqrt; nra). assert (S0 : 0 < S) by (apply sqrt_lt_R0; lra). assert (S1 : S <= 1) by nra.
  assert (Sd : dl <= S) by nra.
  set (s := sqrt t). assert (ss : s * s = t) by (apply sqrt_sqrt; lra). assert (s0 : 0 < s) by (apply sqrt_lt_R0; lra).
  assert (th : 0 < e / dl <= / 16).
  { split; [apply Rdiv_lt_0_compat; lra|]. apply (Rmult_le_reg_r dl); auto. unfold Rdiv. rewrite Rmult_assoc, Rinv_l by lra. lra. }
  set (th0 := e / dl) in *. assert (eth : e = th0 * dl) by (unfold th0; field; lra).
  assert (W : - (214 / 100 * th0 * S) <= s - S <= 214 / 100 * th0 * S).
  { assert (S * S >= dl) by lra. assert (e <= th0 * (S * S)) by (rewrite eth; apply Rmult_le_compat_l; lra).
    assert (K : - (214 / 100 * (th0 * (S * S))) <= s * s - S * S <= 214 / 100 * (th0 * (S * S))) by lra.
    assert (0 < th0 * S) by (apply Rmult_lt_0_compat; lra). set (w := th0 * S) in *. replace (th0 * (S * S)) with (w * S) in K by (unfold w; ring).
    replace (214 / 100 * th0 * S) with (214 / 100 * w) by (unfold w; ring).
    assert (ws : w <= / 16 * S) by (unfold w; apply Rmult_le_compat_r; lra). split.
    - apply Rnot_lt_le. intros C. assert (s < S - 214 / 100 * w) by lra. assert (0 < S - 214 / 100 * w) by lra. nra.
    - apply Rnot_lt_le. intros C. assert (S + 214 / 100 * w < s) by lra. nra. }
  pose proof (round_err s) as E3. rewrite (Rabs_pos_eq s) in E3 by lra. apply Rabs_le_inv in E3.
  assert (0 < th0 * S) by (apply Rmult_lt_0_compat; lra).
  assert (w2 : th0 * S <= / 16 * S) by (apply Rmult_le_compat_r; lra).
  assert (s2 : s <= 114 / 100 * S) by lra.
  assert (eS : e <= th0 * S) by (rewrite eth; apply Rmult_le_compat_l; lra).
  assert (ut : ulp1 <= th0 / 16). { apply Rle_trans with (e / 16); auto. assert (e <= th0); [|lra]. rewrite eth. assert (dl <= 1) by lra. nra. }
  assert (us : ulp1 * s <= 114 / 100 * (th0 / 16 * S)).
  { apply Rle_trans with (th0 / 16 * (114 / 100 * S)); [apply Rmult_le_compat; lra|lra]. }
  apply Rabs_le. lra.
Qed.

(** The last three operations, on reals: the errors of the numerator and of the denominator. *)
Lemma last_quotient n d N D th : 0 < D -> 0 <= th <= / 16 -> Rabs N <= D -> Rabs (n - N) <= 33 / 10 * th * D -> Rabs (d - D) <= 52 / 10 * th * D ->
  0 < d /\ Rabs (n / d - N / D) <= 135 / 10 * th /\ Rabs (n / d) <= 2.
Proof.
  intros HD Ht HN En Ed. apply Rabs_le_inv in En. apply Rabs_le_inv in Ed. apply Rabs_le_inv in HN.
  assert (tD : 0 <= th * D <= / 16 * D) by (split; [apply Rmult_le_pos; lra|apply Rmult_le_compat_r; lra]).
  assert (d1 : 675 / 1000 * D <= d) by lra. assert (d0 : 0 < d) by lra. split; [exact d0|].
  assert (K : Rabs (n / d - N / D) <= 135 / 10 * th).
  { replace (n / d - N / D) with (((n - N) + N / D * (D - d)) / d) by (field; lra).
    unfold Rdiv at 1. rewrite Rabs_mult, (Rabs_pos_eq (/ d)) by (left; apply Rinv_0_lt_compat; auto).
    apply (Rmult_le_reg_r d); auto. rewrite Rmult_assoc, Rinv_l, Rmult_1_r by lra.
    assert (ND : Rabs (N / D) <= 1).
    { unfold Rdiv. rewrite Rabs_mult, (Rabs_pos_eq (/ D)) by (left; apply Rinv_0_lt_compat; auto). apply (Rmult_le_reg_r D); auto.
      rewrite Rmult_assoc, Rinv_l by lra. rewrite Rmult_1_r, Rmult_1_l. apply Rabs_le. lra. }
    assert (P : Rabs (N / D * (D - d)) <= 1 * (52 / 10 * th * D)) by (apply abs_prod_le; auto; apply Rabs_le; lra).
    eapply Rle_trans; [apply Rabs_triang|].
    apply Rle_trans with (33 / 10 * th * D + 52 / 10 * th * D); [apply Rplus_le_compat; [apply Rabs_le; lra|lra]|].
    apply Rle_trans with (135 / 10 * th * (675 / 1000 * D)); [lra|]. apply Rmult_le_compat_l; lra. }
  split; [exact K|]. replace (n / d) with ((n / d - N / D) + N / D) by ring. eapply Rle_trans; [apply Rabs_triang|].
  assert (Rabs (N / D) <= 1).
  { unfold Rdiv. rewrite Rabs_mult, (Rabs_pos_eq (/ D)) by (left; apply Rinv_0_lt_compat; auto). apply (Rmult_le_reg_r D); auto.
    rewrite Rmult_assoc, Rinv_l by lra. rewrite Rmult_1_r, Rmult_1_l. apply Rabs_le. lra. }
  lra.
Qed.

Section QuotientError.
  Context (lib : flib) (rxy rxz ryz : b64) (Zxy Zxz Zyz e dl : R).
  Context (Fxy : is_finite rxy = true) (Fxz : is_finite rxz = true) (Fyz : is_finite ryz = true).
  Context (Bxy : -1 <= B2R rxy <= 1) (Bxz : -1 <= B2R rxz <= 1) (Byz : -1 <= B2R ryz <= 1).
  Context (Cxy : -1 <= Zxy <= 1) (Cxz : -1 <= Zxz <= 1) (Cyz : -1 <= Zyz <= 1).
  Context (He : / 2 ^ 49 <= e) (Exy : Rabs (B2R rxy - Zxy) <= e) (Exz : Rabs (B2R rxz - Zxz) <= e) (Eyz : Rabs (B2R ryz - Zyz) <= e).
  Context (Hxz : dl <= 1 - Zxz * Zxz) (Hyz : dl <= 1 - Zyz * Zyz) (H16 : 16 * e <= dl).
  Let N := Zxy - Zxz * Zyz.
  Let D := sqrt (1 - Zxz * Zxz) * sqrt (1 - Zyz * Zyz).
  Context (ND : Rabs N <= D).

  Lemma quotient_error : is_finite (quotient lib rxy rxz ryz) = true /\ Rabs (B2R (quotient lib rxy rxz ryz) - N / D) <= 16 * (e / dl).
  Proof.
    destruct (numer_real rxy rxz ryz Fxy Fxz Fyz Bxy Bxz Byz) as (Fn & Rn & _). destruct (denom_real lib rxz ryz Fxz Fyz Bxz Byz) as (Fd & Rd & _).
    assert (e0 : 0 < e) by lra. assert (d0 : 0 < dl) by lra. assert (dl1 : dl <= 1) by nra.
    assert (u1 : ulp1 <= e / 16) by (unfold ulp1; lra). assert (u2 : / 2 ^ 60 <= e / 2048) by lra. pose proof ulp1_pos as u0.
    pose proof (rest_error _ Zxz e dl Bxz Cxz He Exz Hxz H16) as S1. pose proof (rest_error _ Zyz e dl Byz Cyz He Eyz Hyz H16) as S2. cbv zeta in S1, S2.
    set (s1 := den (B2R rxz)) in *. set (s2 := den (B2R ryz)) in *.
    assert (SS1 : sqrt (1 - Zxz * Zxz) * sqrt (1 - Zxz * Zxz) = 1 - Zxz * Zxz) by (apply sqrt_sqrt; lra).
    assert (SS2 : sqrt (1 - Zyz * Zyz) * sqrt (1 - Zyz * Zyz) = 1 - Zyz * Zyz) by (apply sqrt_sqrt; lra).
    assert (P1 : 0 < sqrt (1 - Zxz * Zxz)) by (apply sqrt_lt_R0; lra). assert (P2 : 0 < sqrt (1 - Zyz * Zyz)) by (apply sqrt_lt_R0; lra).
    unfold D. set (A := sqrt (1 - Zxz * Zxz)) in *. set (B := sqrt (1 - Zyz * Zyz)) in *. fold D in ND.
    assert (A1 : A <= 1) by nra. assert (B1 : B <= 1) by nra.
    assert (Dp : 0 < D) by (apply Rmult_lt_0_compat; auto). assert (DB : D = A * B) by reflexivity.
    assert (Dl : dl <= D). { unfold D. fold A B. assert (dl * dl <= A * A * (B * B)) by (rewrite SS1, SS2; nra). assert (0 < A * B) by (apply Rmult_lt_0_compat; auto). nra. }
    set (th := e / dl) in *. assert (eth : e = th * dl) by (unfold th; field; lra).
    assert (th1 : 0 < th <= / 16).
    { split; [apply Rdiv_lt_0_compat; lra|]. apply (Rmult_le_reg_r dl); auto. rewrite <- eth. lra. }
    assert (eD : e <= th * D) by (rewrite eth; apply Rmult_le_compat_l; lra).
    apply Rabs_le_inv in S1. apply Rabs_le_inv in S2.
    assert (tA : 0 < th * A <= / 16 * A) by (split; [apply Rmult_lt_0_compat; lra|apply Rmult_le_compat_r; lra]).
    assert (tB : 0 < th * B <= / 16 * B) by (split; [apply Rmult_lt_0_compat; lra|apply Rmult_le_compat_r; lra]).
    (* the denominator *)
    assert (E1 : Rabs (s1 * s2 - D) <= 4932 / 1000 * th * D).
    { rewrite DB. replace (s1 * s2 - A * B) with ((s1 - A) * B + A * (s2 - B) + (s1 - A) * (s2 - B)) by ring.
      assert (K1 : Rabs ((s1 - A) * B) <= 23 / 10 * th * A * B) by (apply abs_prod_le; [apply Rabs_le; lra|rewrite Rabs_pos_eq; lra]).
      assert (K2 : Rabs (A * (s2 - B)) <= A * (23 / 10 * th * B)) by (apply abs_prod_le; [rewrite Rabs_pos_eq; lra|apply Rabs_le; lra]).
      assert (K3 : Rabs ((s1 - A) * (s2 - B)) <= 23 / 10 * th * A * (23 / 10 * th * B)) by (apply abs_prod_le; apply Rabs_le; lra).
      assert (K4 : th * A * (th * B) <= / 16 * (th * (A * B))).
      { replace (th * A * (th * B)) with (th * (th * (A * B))) by ring. apply Rmult_le_compat_r; [|lra]. rewrite <- DB. apply Rmult_le_pos; lra. }
      apply Rabs_le_inv in K1. apply Rabs_le_inv in K2. apply Rabs_le_inv in K3. apply Rabs_le. lra. }
    pose proof (round_err (s1 * s2)) as E2.
    assert (Bs : Rabs (s1 * s2) <= 2 * D).
    { replace (s1 * s2) with ((s1 * s2 - D) + D) by ring. eapply Rle_trans; [apply Rabs_triang|]. rewrite (Rabs_pos_eq D) by lra.
      assert (th * D <= / 16 * D) by (apply Rmult_le_compat_r; lra). lra. }
    assert (uD : ulp1 * Rabs (s1 * s2) <= th / 16 * (2 * D)).
    { apply Rmult_le_compat; [lra|apply Rabs_pos| |exact Bs]. apply Rle_trans with (e / 16); auto. assert (e <= th); [|lra]. rewrite eth. nra. }
    assert (E3 : Rabs (B2R (denom lib rxz ryz) - D) <= 52 / 10 * th * D).
    { rewrite Rd. replace (b64_round (s1 * s2) - D) with ((b64_round (s1 * s2) - s1 * s2) + (s1 * s2 - D)) by ring. eapply Rle_trans; [apply Rabs_triang|]. lra. }
    (* the numerator *)
    apply Rabs_le_inv in Exy. apply Rabs_le_inv in Exz. apply Rabs_le_inv in Eyz.
    set (p := B2R rxz) in *. set (q := B2R ryz) in *. set (w := B2R rxy) in *.
    assert (pq : Rabs (p * q) <= 1 * 1) by (apply abs_prod_le; apply Rabs_le; lra).
    pose proof (round_err (p * q)) as E4. assert (ulp1 * Rabs (p * q) <= ulp1 * 1) by (apply Rmult_le_compat_l; lra). apply Rabs_le_inv in E4.
    assert (PQ : Rabs (p * q - Zxz * Zyz) <= 2 * e).
    { replace (p * q - Zxz * Zyz) with ((p - Zxz) * q + Zxz * (q - Zyz)) by ring.
      assert (K1 : Rabs ((p - Zxz) * q) <= e * 1) by (apply abs_prod_le; apply Rabs_le; lra).
      assert (K2 : Rabs (Zxz * (q - Zyz)) <= 1 * e) by (apply abs_prod_le; apply Rabs_le; lra).
      eapply Rle_trans; [apply Rabs_triang|]. lra. }
    apply Rabs_le_inv in PQ. set (g := b64_round (p * q)) in *.
    assert (g1 : Rabs g <= bpow radix2 0) by (apply rnd_abs; [lia|]; change (bpow radix2 0) with 1; lra).
    change (bpow radix2 0) with 1 in g1. apply Rabs_le_inv in g1.
    pose proof (round_err (w - g)) as E5. assert (Rabs (w - g) <= 2) by (apply Rabs_le; lra).
    assert (ulp1 * Rabs (w - g) <= ulp1 * 2) by (apply Rmult_le_compat_l; lra). apply Rabs_le_inv in E5.
    assert (E6 : Rabs (B2R (numer rxy rxz ryz) - N) <= 33 / 10 * th * D).
    { rewrite Rn. fold p q w g. apply Rle_trans with (33 / 10 * e); [|lra]. unfold N. apply Rabs_le. lra. }
    destruct (last_quotient _ _ N D th Dp ltac:(lra) ND E6 E3) as (dp & E7 & E8).
    unfold quotient. rewrite Beqb_correct by auto. cbn [B2R]. rewrite Req_bool_false by lra.
    destruct (fin_div_small _ _ 1 ltac:(lia) Fn Fd ltac:(lra) E8) as [Fq Rq]. split; [exact Fq|]. rewrite Rq.
    set (z := B2R (numer rxy rxz ryz) / B2R (denom lib rxz ryz)) in *. pose proof (round_err z) as E9.
    assert (ulp1 * Rabs z <= ulp1 * 2) by (apply Rmult_le_compat_l; lra).
    assert (e <= th) by (rewrite eth; nra).
    change (A * B) with D. replace (b64_round z - N / D) with ((b64_round z - z) + (z - N / D)) by ring. eapply Rle_trans; [apply Rabs_triang|]. lra.
  Qed.
End QuotientError.

(** ** Clipped correlations and the correlations of C58 *)
Lemma sqrt_fin_pos q : is_finite q = true -> 0 < B2R q -> 0 < B2R (b64_sqrt q).
Proof.
  intros Fq Q0. destruct (sqrt_real q Fq) as [Fs Rs]; [lra|]. rewrite Rs.
  apply Rlt_le_trans with (bpow radix2 (-600)); [apply bpow_gt_0|]. apply rnd_ge; [apply format_bpow; lia|].
  rewrite <- (sqrt_square (bpow radix2 (-600))) by apply bpow_ge_0. apply sqrt_le_1_alt. rewrite <- bpow_plus.
  apply Rle_trans with (bpow radix2 (3 - 1024 - 53)); [apply bpow_le; lia|].
  rewrite <- (Rabs_pos_eq (B2R q)) by lra. apply (abs_B2R_ge_emin 53 1024 q). apply is_finite_strict_B2R. lra.
Qed.

Lemma clipped_fcorr lib E ab aa bb : e_num E = B64Num lib -> is_finite aa = true -> is_finite bb = true -> 0 < B2R aa -> 0 < B2R bb ->
  clipped_correlation E ab aa bb = clip1 E (fcorr lib ab aa bb).
Proof.
  intros EN Fa Fb Pa Pb. unfold clipped_correlation. rewrite EN. cbn [nmul neqb nzero ndiv B64Num]. f_equal. unfold fcorr. cbn [nabs B64Num].
  assert (Sg : forall v : b64, 0 < B2R v -> Bsign v = false).
  { intros [s|s| |s m e H] P; cbn in P; try lra. destruct s; auto. exfalso. assert (F2R (Float radix2 (Z.neg m) e) < 0) by (apply F2R_lt_0; reflexivity). cbn in *. lra. }
  destruct (ext_mul aa bb Fa Fb) as [Nq Eq]. destruct (mul_sign aa bb) as [C|Sq]; [congruence|]. rewrite (Sg aa Pa), (Sg bb Pb) in Sq. cbn [xorb] in Sq.
  set (q := b64_mul aa bb) in *.
  assert (Babs q = q) as -> by (destruct q; cbn in *; try discriminate; subst; reflexivity).
  destruct q as [s|s| |s m e H] eqn:Dq; cbn [Bsign] in Sq; try discriminate; subst s.
  - reflexivity.
  - reflexivity.
  - assert (Q0 : 0 < B2R (B754_finite false m e H : b64)) by (apply F2R_gt_0; reflexivity).
    assert (Z1 : Beqb (B754_finite false m e H : b64) (B754_zero false) = false) by reflexivity. rewrite Z1.
    assert (SC : sqrt_clamp (B64Num lib) (B754_finite false m e H : b64) = b64_sqrt (B754_finite false m e H)) by reflexivity. rewrite SC.
    pose proof (sqrt_fin_pos (B754_finite false m e H : b64) eq_refl Q0) as P. destruct (sqrt_real (B754_finite false m e H : b64) eq_refl ltac:(lra)) as [Fs _].
    rewrite Beqb_correct by auto. cbn [B2R]. rewrite Req_bool_false by lra. reflexivity.
Qed.

(** ** The product of two matrices *)
Section UProduct.
  Context (lib : flib) (GL : good_lib lib) (E : Env b64) (EN : e_num E = B64Num lib).
  Context (k l n : nat) (D D' : R) (f g : nat -> nat -> b64) (a b : nat -> nat -> R).
  Context (Hn : (4 <= n)%nat) (Hn' : INR n <= 2 ^ 18) (HD : bpow radix2 (-400) <= D <= 2 ^ 300) (HD' : bpow radix2 (-400) <= D' <= 2 ^ 300).
  Context (Hf : few (k + l + n * n + 5)).
  Context (Ha : forall i j, (i < n)%nat -> (j < n)%nat -> apx k D (f i j) (a i j)) (Hb : forall i j, (i < n)%nat -> (j < n)%nat -> apx l D' (g i j) (b i j)).

  Lemma fu_product : exists v, u_product E (tab2 n n f) (tab2 n n g) = Ok v /\ apx (k + l + n * n + 4) (4 * (D * D')) v (uprod n a b).
  Proof.
    assert (N4 : 4 <= INR n) by (replace 4 with (INR 4) by (cbn; ring); apply le_INR; auto). pose proof (bpow_gt_0 radix2 (-400)) as P4.
    assert (DD : bpow radix2 (-800) <= D * D') by (change (-800)%Z with (-400 + -400)%Z; rewrite bpow_plus; apply Rmult_le_compat; lra).
    assert (DB : D * D' <= 2 ^ 600) by (change 600%nat with (300 + 300)%nat; rewrite pow_add; apply Rmult_le_compat; lra).
    assert (L9 : bpow radix2 (-900) <= bpow radix2 (-800)) by (apply bpow_le; lia).
    pose proof (bpow_gt_0 radix2 (-800)) as P8.
    eexists. split.
    - unfold u_product, elt_product, elt_op. rewrite same_shape_tab2. cbn [rbind]. rewrite tab2_map2, EN, tab2_length. reflexivity.
    - cbn [ndiv nofZ nmul B64Num].
      pose proof (fproduct_sum lib GL k l n D D' f g a b ltac:(lia) Hn' HD HD' Hf Ha Hb) as S.
      set (d := INR n * (INR n - 3)). assert (d0 : 0 < d) by (unfold d; nra).
      assert (Q : D * D' <= INR (n * n) * (D * D') / d <= 4 * (D * D')).
      { rewrite mult_INR. split; apply (Rmult_le_reg_r d); auto; unfold Rdiv; rewrite ?(Rmult_assoc _ (/ d)), ?Rinv_l, ?Rmult_1_r by lra.
        - rewrite (Rmult_comm (D * D') d). apply Rmult_le_compat_r; [lra|]. unfold d. nra.
        - replace (4 * (D * D') * d) with (4 * d * (D * D')) by ring. apply Rmult_le_compat_r; [lra|]. unfold d. nra. }
      unfold uprod. replace (/ (INR n * (INR n - 3)) * rsum2 n n (fun i j => a i j * b i j)) with (rsum2 n n (fun i j => a i j * b i j) / d) by (unfold d, Rdiv; ring).
      apply (apx_weaken (3 + (k + l + 1 + n * n)) _ (INR (n * n) * (D * D') / d)); [|lia|lra|right; lra|].
      + apply apx_div; auto; [nia|unfold d; rewrite mult_IZR, minus_IZR, <- INR_IZR_INZ; reflexivity| |apply (few_le _ _ Hf); lia|right; lra].
        unfold d. apply Rle_trans with (2 ^ 18 * 2 ^ 18); [apply Rmult_le_compat; lra|]. rewrite <- pow_add. apply pow2_le. lia.
      + apply Rle_trans with (2 ^ 2 * 2 ^ 600); [lra|]. rewrite <- pow_add. apply pow2_le. lia.
  Qed.
End UProduct.
