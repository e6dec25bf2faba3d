(** Rounding errors of double precision: relative error of products, quotients and sums of non-negative numbers,
    absolute error of differences. *)
From Coq Require Import Reals Lra Lia List Arith Bool ZArith Psatz.
From Flocq Require Import Core Relative Plus_error IEEE754.BinarySingleNaN.
From Verif Require Import Num Numpy MFloat RefFloat.
Import ListNotations.
Local Open Scope R_scope.

Definition ulp1 : R := / 2 ^ 53.
Lemma ulp1_pos : 0 < ulp1. Proof. unfold ulp1. lra. Qed.
Lemma ulp1_small : ulp1 <= / 1024. Proof. unfold ulp1. lra. Qed.

(** accumulated relative error of [k] roundings *)
Definition gam (k : nat) : R := (1 + ulp1) ^ k - 1.
Lemma gam_0 : gam 0 = 0. Proof. unfold gam. cbn. ring. Qed.
Lemma gam_nonneg k : 0 <= gam k.
Proof. unfold gam. pose proof ulp1_pos. assert (1 <= (1 + ulp1) ^ k) by (apply pow_R1_Rle; lra). lra. Qed.
Lemma gam_add k l : 1 + gam (k + l) = (1 + gam k) * (1 + gam l).
Proof. unfold gam. rewrite pow_add. ring. Qed.
Lemma gam_S k : gam (S k) = gam k + (1 + gam k) * ulp1.
Proof. unfold gam. cbn. ring. Qed.
Lemma gam_1 : gam 1 = ulp1. Proof. rewrite gam_S, gam_0. ring. Qed.
Lemma gam_mono k l : (k <= l)%nat -> gam k <= gam l.
Proof.
  intros H. unfold gam. pose proof ulp1_pos. assert ((1 + ulp1) ^ k <= (1 + ulp1) ^ l) by (apply Rle_pow; [lra|auto]). lra.
Qed.
Lemma gam_lin k : INR k * ulp1 <= / 2 -> gam k <= 2 * INR k * ulp1.
Proof.
  pose proof ulp1_pos as U. induction k as [|k IH]; intros H.
  - rewrite gam_0. cbn. lra.
  - rewrite S_INR in *. rewrite gam_S. assert (Hk : INR k * ulp1 <= / 2) by lra. specialize (IH Hk). nra.
Qed.
(** few enough roundings *)
Definition few (k : nat) : Prop := INR k <= 2 ^ 40.
Lemma few_gam k : few k -> gam k <= / 4.
Proof.
  unfold few. intros H. assert (INR k * ulp1 <= / 8192) as H1.
  { apply Rle_trans with (2 ^ 40 * ulp1); [apply Rmult_le_compat_r; auto; pose proof ulp1_pos; lra|unfold ulp1; lra]. }
  pose proof (gam_lin k ltac:(lra)). lra.
Qed.
Lemma few_le k l : few l -> (k <= l)%nat -> few k.
Proof. unfold few. intros H Hk. apply le_INR in Hk. lra. Qed.

(** rounding *)
Definition normal (z : R) : Prop := z = 0 \/ bpow radix2 (-1000) <= Rabs z <= bpow radix2 1000.
Lemma normal_round z : normal z -> Rabs (b64_round z - z) <= ulp1 * Rabs z /\ Rabs (b64_round z) < bpow radix2 1024.
Proof.
  intros [->|[H1 H2]].
  - rewrite round_0 by apply valid_rnd_N. rewrite Rminus_0_r, Rabs_R0. split; [lra|apply bpow_gt_0].
  - destruct (relative_error_N_FLT_ex radix2 (3 - 1024 - 53) 53 ltac:(lia) (fun x => negb (Z.even x)) z) as (e & He & Hr).
    { eapply Rle_trans; [|exact H1]. apply bpow_le. lia. }
    change (round radix2 (FLT_exp (3 - 1024 - 53) 53) (Znearest (fun x => negb (Z.even x))) z) with (b64_round z) in Hr. rewrite Hr.
    assert (He' : Rabs e <= ulp1).
    { eapply Rle_trans; [exact He|]. apply Req_le. change (bpow radix2 (- (53) + 1)) with (/ 4503599627370496). unfold ulp1. rewrite <- Rinv_mult. f_equal. ring. }
    split.
    + replace (z * (1 + e) - z) with (e * z) by ring. rewrite Rabs_mult. apply Rmult_le_compat_r; [apply Rabs_pos|auto].
    + rewrite Rabs_mult. assert (Rabs (1 + e) <= 2).
      { eapply Rle_trans; [apply Rabs_triang|]. rewrite Rabs_R1. pose proof ulp1_small. lra. }
      apply Rle_lt_trans with (bpow radix2 1000 * 2).
      * apply Rmult_le_compat; auto using Rabs_pos.
      * change 2 with (bpow radix2 1). rewrite <- bpow_plus. apply bpow_lt. lia.
Qed.

(** The double [a] approximates the non-negative real [r]; [r] is zero or between 1/M and M. *)
Definition near (k : nat) (M : R) (a : b64) (r : R) : Prop :=
  is_finite a = true /\ Rabs (B2R a - r) <= gam k * r /\ (r = 0 \/ 0 < r /\ / M <= r) /\ 0 <= r <= M /\ 1 <= M.

Lemma near_weaken k l M a r : near k M a r -> (k <= l)%nat -> near l M a r.
Proof.
  intros (F & H & H1 & H2 & H3) Hk. repeat split; auto; try tauto. eapply Rle_trans; [exact H|].
  apply Rmult_le_compat_r; [lra|]. apply gam_mono; auto.
Qed.
Lemma near_bounds k M a r : few k -> near k M a r -> 3 / 4 * r <= B2R a <= 5 / 4 * r.
Proof.
  intros Hk (_ & H & _ & H2 & _). pose proof (few_gam k Hk). pose proof (gam_nonneg k).
  assert (gam k * r <= / 4 * r) by (apply Rmult_le_compat_r; lra). apply Rabs_le_inv in H. lra.
Qed.

Lemma round_step k r z : Rabs (z - r) <= gam k * r -> 0 <= r -> normal z -> Rabs (b64_round z - r) <= gam (S k) * r.
Proof.
  intros H Hr Hz. destruct (normal_round z Hz) as [H1 _]. rewrite gam_S.
  replace (b64_round z - r) with ((b64_round z - z) + (z - r)) by ring.
  eapply Rle_trans; [apply Rabs_triang|].
  assert (Rabs z <= (1 + gam k) * r).
  { replace z with ((z - r) + r) by ring. eapply Rle_trans; [apply Rabs_triang|]. rewrite (Rabs_pos_eq r) by auto. lra. }
  pose proof ulp1_pos. assert (ulp1 * Rabs z <= ulp1 * ((1 + gam k) * r)) by (apply Rmult_le_compat_l; lra). lra.
Qed.

Lemma bpow_big M : 1 <= M <= 2 ^ 900 -> 5 / 4 * M * (5 / 4) * 4 <= bpow radix2 1000 /\ bpow radix2 (-1000) <= / M * / 8.
Proof.
  intros HM. assert (HB : 2 ^ 900 * 8 <= bpow radix2 1000).
  { rewrite (pow_IZR 2 900). change (2 ^ Z.of_nat 900)%Z with (2 ^ 900)%Z. change (bpow radix2 1000) with (IZR (2 ^ 1000)). rewrite <- mult_IZR. apply IZR_le. vm_compute. discriminate. }
  split; [lra|]. change (-1000)%Z with (- (1000))%Z. rewrite bpow_opp, <- Rinv_mult. apply Rinv_le; lra.
Qed.

Lemma normal_pos z M : 1 <= M <= 2 ^ 900 -> / M * / 8 <= z -> z <= 6 * M -> normal z.
Proof.
  intros HM H1 H2. destruct (bpow_big M HM) as [B1 B2]. assert (0 < / M) by (apply Rinv_0_lt_compat; lra).
  right. rewrite Rabs_pos_eq by lra. lra.
Qed.

Lemma near_mul k l M M' a b r s : near k M a r -> near l M' b s -> few (S (k + l)) -> M * M' <= 2 ^ 900 ->
  near (S (k + l)) (M * M') (b64_mul a b) (r * s).
Proof.
  intros Ha Hb Hf HM.
  assert (fk : few k) by (apply (few_le _ _ Hf); lia). assert (fl : few l) by (apply (few_le _ _ Hf); lia).
  pose proof (near_bounds _ _ _ _ fk Ha) as Ba. pose proof (near_bounds _ _ _ _ fl Hb) as Bb.
  destruct Ha as (Fa & Ea & La & Ra & Ma), Hb as (Fb & Eb & Lb & Rb & Mb).
  set (x := B2R a) in *. set (y := B2R b) in *.
  assert (Hrs : 0 <= r * s) by (apply Rmult_le_pos; lra).
  assert (HMM : 1 <= M * M') by nra.
  assert (Err : Rabs (x * y - r * s) <= gam (k + l) * (r * s)).
  { replace (x * y - r * s) with ((x - r) * (y - s) + (x - r) * s + r * (y - s)) by ring.
    pose proof (gam_add k l) as G. pose proof (gam_nonneg k) as Gk. pose proof (gam_nonneg l) as Gl.
    assert (E1 : Rabs ((x - r) * (y - s)) <= gam k * r * (gam l * s)) by (rewrite Rabs_mult; apply Rmult_le_compat; auto using Rabs_pos).
    assert (E2 : Rabs ((x - r) * s) <= gam k * r * s) by (rewrite Rabs_mult, (Rabs_pos_eq s) by lra; apply Rmult_le_compat_r; lra).
    assert (E3 : Rabs (r * (y - s)) <= r * (gam l * s)) by (rewrite Rabs_mult, (Rabs_pos_eq r) by lra; apply Rmult_le_compat_l; lra).
    eapply Rle_trans; [apply Rabs_triang|]. eapply Rle_trans; [apply Rplus_le_compat_r, Rabs_triang|].
    replace (gam (k + l)) with (gam k + gam l + gam k * gam l) by lra. lra. }
  assert (Low : r * s = 0 \/ 0 < r * s /\ / (M * M') <= r * s).
  { destruct La as [->|[La1 La2]]; [left; ring|]. destruct Lb as [->|[Lb1 Lb2]]; [left; ring|]. right. split; [nra|].
    rewrite Rinv_mult. apply Rmult_le_compat; auto; left; apply Rinv_0_lt_compat; lra. }
  assert (Nz : normal (x * y)).
  { destruct Low as [H0|[H0 H1]].
    - left. apply Rmult_integral in H0. destruct H0 as [H0|H0]; rewrite H0 in *; [assert (x = 0) by lra|assert (y = 0) by lra]; nra.
    - apply (normal_pos _ (M * M')); [lra| |].
      + assert (3 / 4 * r * (3 / 4 * s) <= x * y) by (apply Rmult_le_compat; lra). nra.
      + assert (x * y <= 5 / 4 * r * (5 / 4 * s)) by (apply Rmult_le_compat; lra).
        assert (r * s <= M * M') by (apply Rmult_le_compat; lra). nra. }
  pose proof (Bmult_correct 53 1024 b64_prec b64_emax mode_NE a b) as HC. fold x y in HC.
  destruct (normal_round _ Nz) as [_ Hov]. rewrite Rlt_bool_true in HC by exact Hov. destruct HC as (H1 & H2 & _).
  fold (b64_mul a b) in H1, H2. rewrite Fa, Fb in H2.
  split; [exact H2|]. rewrite H1. split; [apply round_step; auto|]. split; [exact Low|]. split; [|exact HMM].
  split; auto. apply Rmult_le_compat; lra.
Qed.

Lemma near_div k M D a b r d : near k M a r -> is_finite b = true -> Rabs (B2R b - d) <= ulp1 * d -> 1 <= d <= D ->
  few (3 + k) -> M * D <= 2 ^ 900 -> near (3 + k) (M * D) (b64_div a b) (r / d).
Proof.
  intros Ha Fb Eb Hd Hf HM.
  assert (fk : few k) by (apply (few_le _ _ Hf); lia).
  pose proof (near_bounds _ _ _ _ fk Ha) as Ba. destruct Ha as (Fa & Ea & La & Ra & Ma).
  set (x := B2R a) in *. set (y := B2R b) in *. pose proof ulp1_pos as U0. pose proof ulp1_small as U1.
  apply Rabs_le_inv in Eb.
  assert (U2 : ulp1 * d <= / 1024 * d) by (apply Rmult_le_compat_r; lra).
  assert (Hy : 0 < y) by lra.
  assert (Hrd : 0 <= r / d) by (apply Rmult_le_pos; [lra|left; apply Rinv_0_lt_compat; lra]).
  assert (HMM : 1 <= M * D) by nra.
  assert (Q1 : r / d / y * d = r / y) by (field; lra).
  assert (Err : Rabs (x / y - r / d) <= gam (2 + k) * (r / d)).
  { (* |x - r y/d| <= ... *)
    replace (x / y - r / d) with ((x - r + r / d * (d - y)) / y) by (field; lra).
    unfold Rdiv at 1. rewrite Rabs_mult, (Rabs_pos_eq (/ y)) by (left; apply Rinv_0_lt_compat; lra).
    apply (Rmult_le_reg_r y); auto. rewrite Rmult_assoc, Rinv_l, Rmult_1_r by lra.
    assert (E1 : Rabs (r / d * (d - y)) <= r / d * (ulp1 * d)).
    { rewrite Rabs_mult, (Rabs_pos_eq (r / d)) by auto. apply Rmult_le_compat_l; auto. apply Rabs_le. lra. }
    eapply Rle_trans; [apply Rabs_triang|]. eapply Rle_trans; [apply Rplus_le_compat; [exact Ea|exact E1]|].
    set (q := r / d) in *. assert (Hr : r = q * d) by (unfold q; field; lra). rewrite Hr.
    change (2 + k)%nat with (S (S k)); rewrite !gam_S. pose proof (gam_nonneg k) as Gk. pose proof (few_gam k fk) as Gk'.
    set (g := gam k) in *. assert (Hyd : (1 - ulp1) * d <= y) by lra.
    assert (0 <= q * d) by (apply Rmult_le_pos; lra).
    apply Rle_trans with ((g + (1 + g) * ulp1 + (1 + (g + (1 + g) * ulp1)) * ulp1) * q * ((1 - ulp1) * d)).
    - replace (g * (q * d) + q * (ulp1 * d)) with ((g + ulp1) * (q * d)) by ring.
      replace ((g + (1 + g) * ulp1 + (1 + (g + (1 + g) * ulp1)) * ulp1) * q * ((1 - ulp1) * d))
        with (((g + (1 + g) * ulp1 + (1 + (g + (1 + g) * ulp1)) * ulp1) * (1 - ulp1)) * (q * d)) by ring.
      apply Rmult_le_compat_r; auto. apply Rge_le, Rminus_ge, Rle_ge.
      replace ((g + (1 + g) * ulp1 + (1 + (g + (1 + g) * ulp1)) * ulp1) * (1 - ulp1) - (g + ulp1)) with ((1 + g) * (ulp1 * (1 - ulp1 - ulp1 * ulp1))) by ring.
      assert (ulp1 * ulp1 <= / 1024 * (/ 1024)) by (apply Rmult_le_compat; lra).
      apply Rmult_le_pos; [lra|]. apply Rmult_le_pos; lra.
    - apply Rmult_le_compat_l; auto. apply Rmult_le_pos; [|lra]. assert (0 <= g * ulp1) by (apply Rmult_le_pos; lra). assert (0 <= (1 + (g + (1 + g) * ulp1)) * ulp1) by (apply Rmult_le_pos; lra). lra. }
  assert (Low : r / d = 0 \/ 0 < r / d /\ / (M * D) <= r / d).
  { destruct La as [->|[La1 La2]]; [left; unfold Rdiv; ring|]. right. split; [apply Rdiv_lt_0_compat; lra|].
    rewrite Rinv_mult. apply Rmult_le_compat; auto; try (left; apply Rinv_0_lt_compat; lra). apply Rinv_le; lra. }
  assert (Upp : r / d <= M * D).
  { apply Rle_trans with (M * 1); [|apply Rmult_le_compat_l; lra]. apply Rmult_le_compat; try lra; [left; apply Rinv_0_lt_compat; lra|].
    rewrite <- Rinv_1. apply Rinv_le; lra. }
  assert (f2 : few (2 + k)) by (apply (few_le _ _ Hf); lia). pose proof (few_gam _ f2) as G2.
  assert (Bz : 3 / 4 * (r / d) <= x / y <= 5 / 4 * (r / d)).
  { apply Rabs_le_inv in Err. assert (gam (2 + k) * (r / d) <= / 4 * (r / d)) by (apply Rmult_le_compat_r; auto). lra. }
  assert (Nz : normal (x / y)).
  { destruct Low as [H0|[H0 H1]].
    - left. lra.
    - apply (normal_pos _ (M * D)); lra. }
  pose proof (Bdiv_correct 53 1024 b64_prec b64_emax mode_NE a b) as HC. fold x y in HC.
  specialize (HC ltac:(lra)).
  destruct (normal_round _ Nz) as [_ Hov]. rewrite Rlt_bool_true in HC by exact Hov. destruct HC as (H1 & H2 & _).
  fold (b64_div a b) in H1, H2. rewrite Fa in H2.
  split; [exact H2|]. rewrite H1. split; [apply (round_step (2 + k)); auto|]. split; [exact Low|]. split; [|exact HMM].
  split; auto.
Qed.

Lemma b64_plus_rel (x y : R) : generic_format radix2 (SpecFloat.fexp 53 1024) x -> generic_format radix2 (SpecFloat.fexp 53 1024) y ->
  Rabs (b64_round (x + y) - (x + y)) <= ulp1 * Rabs (x + y).
Proof.
  intros Fx Fy. destruct (FLT_plus_error_N_ex radix2 (3 - 1024 - 53) 53 (prec_gt_0_ := b64_prec) (fun x => negb (Z.even x)) x y Fx Fy) as (e & He & Hr).
  change (round radix2 (FLT_exp (3 - 1024 - 53) 53) (Znearest (fun x => negb (Z.even x))) (x + y)) with (b64_round (x + y)) in Hr. rewrite Hr.
  assert (u_ro radix2 53 = ulp1) as Hu.
  { unfold u_ro. change (bpow radix2 (- (53) + 1)) with (/ 4503599627370496). unfold ulp1. rewrite <- Rinv_mult. f_equal. ring. }
  rewrite Hu in He. pose proof ulp1_pos as U.
  assert (Rabs e <= ulp1).
  { eapply Rle_trans; [exact He|]. unfold Rdiv. rewrite <- (Rmult_1_r ulp1) at 3. apply Rmult_le_compat_l; [lra|].
    apply Rle_trans with (/ 1); [apply Rinv_le; lra|lra]. }
  replace ((x + y) * (1 + e) - (x + y)) with (e * (x + y)) by ring. rewrite Rabs_mult. apply Rmult_le_compat_r; auto using Rabs_pos.
Qed.
Lemma round_small z : Rabs z <= 2 ^ 902 -> Rabs (b64_round z - z) <= ulp1 * Rabs z -> Rabs (b64_round z) < bpow radix2 1024.
Proof.
  intros H He. replace (b64_round z) with ((b64_round z - z) + z) by ring.
  eapply Rle_lt_trans; [apply Rabs_triang|]. pose proof ulp1_small. pose proof ulp1_pos. pose proof (Rabs_pos z).
  assert (ulp1 * Rabs z <= 1 * Rabs z) by (apply Rmult_le_compat_r; lra).
  apply Rle_lt_trans with (2 ^ 903); [cbn [pow] in *; lra|].
  rewrite (pow_IZR 2 903). change (2 ^ Z.of_nat 903)%Z with (2 ^ 903)%Z. change (IZR (2 ^ 903)) with (bpow radix2 903). apply bpow_lt. lia.
Qed.

Lemma near_add k M a b r s : near k M a r -> near k M b s -> few (S k) -> r + s <= M -> M <= 2 ^ 900 ->
  near (S k) M (b64_add a b) (r + s).
Proof.
  intros Ha Hb Hf Hs HM. assert (fk : few k) by (apply (few_le _ _ Hf); lia).
  pose proof (near_bounds _ _ _ _ fk Ha) as Ba. pose proof (near_bounds _ _ _ _ fk Hb) as Bb.
  destruct Ha as (Fa & Ea & La & Ra & Ma), Hb as (Fb & Eb & Lb & Rb & _).
  pose proof (b64_plus_rel (B2R a) (B2R b) (generic_format_B2R 53 1024 a) (generic_format_B2R 53 1024 b)) as Hr.
  set (x := B2R a) in *. set (y := B2R b) in *.
  assert (Err : Rabs (x + y - (r + s)) <= gam k * (r + s)).
  { replace (x + y - (r + s)) with ((x - r) + (y - s)) by ring. eapply Rle_trans; [apply Rabs_triang|]. lra. }
  assert (Hov : Rabs (b64_round (x + y)) < bpow radix2 1024).
  { apply round_small; auto. rewrite Rabs_pos_eq by lra. cbn [pow] in *. lra. }
  pose proof (Bplus_correct 53 1024 b64_prec b64_emax mode_NE a b Fa Fb) as HC. fold x y in HC.
  rewrite Rlt_bool_true in HC by exact Hov. destruct HC as (H1 & H2 & _). fold (b64_add a b) in H1, H2.
  split; [exact H2|]. rewrite H1. split.
  - rewrite gam_S. replace (b64_round (x + y) - (r + s)) with ((b64_round (x + y) - (x + y)) + (x + y - (r + s))) by ring.
    eapply Rle_trans; [apply Rabs_triang|].
    assert (Rabs (x + y) <= (1 + gam k) * (r + s)).
    { replace (x + y) with ((x + y - (r + s)) + (r + s)) by ring. eapply Rle_trans; [apply Rabs_triang|]. rewrite (Rabs_pos_eq (r + s)) by lra. lra. }
    pose proof ulp1_pos. assert (ulp1 * Rabs (x + y) <= ulp1 * ((1 + gam k) * (r + s))) by (apply Rmult_le_compat_l; lra). lra.
  - split; [|split; auto; lra]. destruct La as [->|[La1 La2]]; [rewrite Rplus_0_l; auto|]. right. lra.
Qed.

(** Absolute error: [a] approximates [r] within the error of numbers of size [s]. *)
Definition absn (k : nat) (a : b64) (r s : R) : Prop :=
  is_finite a = true /\ Rabs (B2R a - r) <= gam k * s /\ Rabs r <= s /\ s <= 2 ^ 900.
Lemma near_absn k M a r : near k M a r -> M <= 2 ^ 900 -> absn k a r r.
Proof. intros (F & H & _ & H2 & _) HM. repeat split; auto; [rewrite Rabs_pos_eq by lra; lra|]. lra. Qed.
Lemma absn_weaken k l a r s : absn k a r s -> (k <= l)%nat -> absn l a r s.
Proof.
  intros (F & H & H1 & H2) Hk. repeat split; auto. eapply Rle_trans; [exact H|].
  apply Rmult_le_compat_r; [eapply Rle_trans; [apply Rabs_pos|exact H1]|]. apply gam_mono; auto.
Qed.

Lemma absn_round k x y r s r' s' : generic_format radix2 (SpecFloat.fexp 53 1024) x -> generic_format radix2 (SpecFloat.fexp 53 1024) y ->
  Rabs (x - r) <= gam k * s -> Rabs (y - r') <= gam k * s' -> Rabs r <= s -> Rabs r' <= s' -> s + s' <= 2 ^ 900 -> few k ->
  Rabs (b64_round (x + y) - (r + r')) <= gam (S k) * (s + s') /\ Rabs (b64_round (x + y)) < bpow radix2 1024.
Proof.
  intros Fx Fy Ex Ey Hr Hr' Hs Hf. pose proof (b64_plus_rel x y Fx Fy) as He.
  pose proof (Rabs_pos r). pose proof (Rabs_pos r').
  assert (Err : Rabs (x + y - (r + r')) <= gam k * (s + s')).
  { replace (x + y - (r + r')) with ((x - r) + (y - r')) by ring. eapply Rle_trans; [apply Rabs_triang|]. lra. }
  assert (Hxy : Rabs (x + y) <= (1 + gam k) * (s + s')).
  { replace (x + y) with ((x + y - (r + r')) + (r + r')) by ring. eapply Rle_trans; [apply Rabs_triang|].
    pose proof (Rabs_triang r r'). lra. }
  pose proof (few_gam k Hf). pose proof (gam_nonneg k).
  split.
  - rewrite gam_S. replace (b64_round (x + y) - (r + r')) with ((b64_round (x + y) - (x + y)) + (x + y - (r + r'))) by ring.
    eapply Rle_trans; [apply Rabs_triang|]. pose proof ulp1_pos.
    assert (ulp1 * Rabs (x + y) <= ulp1 * ((1 + gam k) * (s + s'))) by (apply Rmult_le_compat_l; lra). lra.
  - apply round_small; auto. assert ((1 + gam k) * (s + s') <= 2 * (s + s')) by (apply Rmult_le_compat_r; lra). cbn [pow] in *. lra.
Qed.
Lemma absn_add k a b r s r' s' : absn k a r s -> absn k b r' s' -> few k -> s + s' <= 2 ^ 900 ->
  absn (S k) (b64_add a b) (r + r') (s + s').
Proof.
  intros (Fa & Ea & Ra & _) (Fb & Eb & Rb & _) Hf Hs.
  destruct (absn_round k (B2R a) (B2R b) r s r' s') as [H1 H2]; auto using generic_format_B2R.
  pose proof (Bplus_correct 53 1024 b64_prec b64_emax mode_NE a b Fa Fb) as HC.
  rewrite Rlt_bool_true in HC by exact H2. destruct HC as (C1 & C2 & _). fold (b64_add a b) in C1, C2.
  split; [exact C2|]. rewrite C1. split; [exact H1|]. split; auto.
  eapply Rle_trans; [apply Rabs_triang|]. lra.
Qed.
Lemma absn_sub k a b r s r' s' : absn k a r s -> absn k b r' s' -> few k -> s + s' <= 2 ^ 900 ->
  absn (S k) (b64_sub a b) (r - r') (s + s').
Proof.
  intros (Fa & Ea & Ra & _) (Fb & Eb & Rb & _) Hf Hs.
  destruct (absn_round k (B2R a) (- B2R b) r s (- r') s') as [H1 H2]; auto using generic_format_B2R, generic_format_opp.
  - replace (- B2R b - - r') with (- (B2R b - r')) by ring. rewrite Rabs_Ropp. auto.
  - rewrite Rabs_Ropp. auto.
  - pose proof (Bminus_correct 53 1024 b64_prec b64_emax mode_NE a b Fa Fb) as HC.
    rewrite Rlt_bool_true in HC by exact H2. destruct HC as (C1 & C2 & _). fold (b64_sub a b) in C1, C2.
    split; [exact C2|]. rewrite C1. split; [exact H1|]. split; auto.
    unfold Rminus. eapply Rle_trans; [apply Rabs_triang|]. rewrite Rabs_Ropp. lra.
Qed.
