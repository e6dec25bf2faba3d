(** The formula of the squared covariances on terms known up to absolute errors, and the terms of the AVL method on doubles. *)
From Coq Require Import Reals Lra Lia List Arith Bool ZArith Psatz.
From Flocq Require Import Core IEEE754.BinarySingleNaN.
From Verif Require Import Num Numpy MUtils MDistances MInternals MMergesort MAvl MDcor MInteger MFloat Sums Spec Centering Tab
  Samples RefDist RefAvl RefDcor Api Witness RefApi SpecFacts Calls AvlGeneric Transfer Hom RefInteger RefFloat FloatAvl FloatApi
  FloatEnv FloatError FloatSum FloatAccuracy PInteger PFloat FloatNaive FloatAvlErr.
Import ListNotations.
Local Open Scope R_scope.

Lemma b64_div_R a b M : is_finite a = true -> is_finite b = true -> 0 < B2R b -> Rabs (B2R a / B2R b) <= M -> M <= 2 * BB -> lowM M ->
  is_finite (b64_div a b) = true /\ Rabs (B2R (b64_div a b) - B2R a / B2R b) <= ulp1 * M.
Proof.
  intros Fa Fb H1 HM HB HL. set (z := B2R a / B2R b) in *. pose proof ulp1_pos. pose proof ulp1_small.
  assert (HR : Rabs (b64_round z - z) <= ulp1 * M).
  { destruct HL as [HL0|HL].
    - assert (z = 0) as -> by (apply Rabs_eq_R0; pose proof (Rabs_pos z); lra). rewrite round_0 by apply valid_rnd_N. rewrite Rminus_0_r, Rabs_R0, HL0. lra.
    - apply round_abs; auto. }
  assert (Hov : Rabs (b64_round z) < bpow radix2 1024).
  { replace (b64_round z) with ((b64_round z - z) + z) by ring. eapply Rle_lt_trans; [apply Rabs_triang|].
    pose proof (lowM_nonneg _ HL). assert (ulp1 * M <= 1 * M) by (apply Rmult_le_compat_r; lra).
    apply Rle_lt_trans with (4 * BB); [lra|].
    rewrite (pow_IZR 2 900), <- mult_IZR. change (bpow radix2 1024) with (IZR (2 ^ 1024)). apply IZR_lt. vm_compute. reflexivity. }
  pose proof (Bdiv_correct 53 1024 b64_prec b64_emax mode_NE a b ltac:(lra)) as HC. rewrite Rlt_bool_true in HC by exact Hov. destruct HC as (C1 & C2 & _).
  fold (b64_div a b) in C1, C2. rewrite C1, C2. split; auto.
Qed.

Lemma gam_2 : gam 2 = 2 * ulp1 + ulp1 * ulp1.
Proof. unfold gam. ring. Qed.

Lemma apx_div k M a r z D : apx k M a r -> (1 <= z)%Z -> D = IZR z -> D <= BB -> few (3 + k) -> lowM (M / D) -> apx (3 + k) (M / D) (b64_div a (b64_ofZ z)) (r / D).
Proof.
  intros [(Fa & Ea & Ra & HB) La] Hz HD HDB Hf HL. rewrite HD in HDB. destruct (near_ofZ z _ Hz (Rle_refl _) HDB) as (Fz & Ez & Dz & _). rewrite <- HD in Ez, Dz, HDB.
  set (b := B2R (b64_ofZ z)) in *. pose proof ulp1_pos as u0. pose proof ulp1_small as u1.
  assert (iD : 0 < / D) by (apply Rinv_0_lt_compat; lra).
  pose proof (lowM_nonneg _ La) as M0. pose proof (gam_nonneg k) as G0. pose proof (few_gam (2 + k) ltac:(apply (few_le _ _ Hf); lia)) as G4.
  assert (iD1 : / D <= 1) by (rewrite <- Rinv_1; apply Rinv_le; lra).
  assert (MD : 0 <= M / D <= M).
  { unfold Rdiv. split; [apply Rmult_le_pos; lra|]. rewrite <- (Rmult_1_r M) at 2. apply Rmult_le_compat_l; lra. }
  assert (E1 : Rabs (B2R a / D - r / D) <= gam k * (M / D)).
  { replace (B2R a / D - r / D) with ((B2R a - r) * / D) by (unfold Rdiv; ring). rewrite Rabs_mult, (Rabs_pos_eq (/ D)) by lra.
    unfold Rdiv. rewrite <- Rmult_assoc. apply Rmult_le_compat_r; lra. }
  assert (E2 : Rabs (r / D) <= M / D).
  { unfold Rdiv. rewrite Rabs_mult, (Rabs_pos_eq (/ D)) by lra. apply Rmult_le_compat_r; lra. }
  assert (E3 : Rabs (B2R a / D) <= (1 + gam k) * (M / D)).
  { replace (B2R a / D) with ((B2R a / D - r / D) + r / D) by ring. eapply Rle_trans; [apply Rabs_triang|]. lra. }
  apply Rabs_le_inv in Ez. assert (uD : ulp1 * D <= / 1024 * D) by (apply Rmult_le_compat_r; lra). assert (b0 : 0 < b) by lra.
  assert (Q : Rabs ((D - b) / b) <= gam 2).
  { unfold Rdiv. rewrite Rabs_mult, (Rabs_pos_eq (/ b)) by (left; apply Rinv_0_lt_compat; auto).
    apply (Rmult_le_reg_r b); auto. rewrite Rmult_assoc, Rinv_l, Rmult_1_r by lra.
    apply Rle_trans with (ulp1 * D); [apply Rabs_le; lra|]. rewrite gam_2.
    assert (0 <= ulp1 * ulp1) by nra. apply Rle_trans with ((2 * ulp1 + ulp1 * ulp1) * ((1 - ulp1) * D)); [|apply Rmult_le_compat_l; lra].
    replace ((2 * ulp1 + ulp1 * ulp1) * ((1 - ulp1) * D)) with (ulp1 * D * (2 - ulp1 - ulp1 * ulp1)) by ring.
    rewrite <- (Rmult_1_r (ulp1 * D)) at 1. apply Rmult_le_compat_l; [apply Rmult_le_pos; lra|nra]. }
  assert (E4 : Rabs (B2R a / b - r / D) <= gam (2 + k) * (M / D)).
  { replace (B2R a / b - r / D) with (B2R a / D * ((D - b) / b) + (B2R a / D - r / D)) by (field; lra).
    eapply Rle_trans; [apply Rabs_triang|]. rewrite Rabs_mult.
    assert (Rabs (B2R a / D) * Rabs ((D - b) / b) <= ((1 + gam k) * (M / D)) * gam 2) by (apply Rmult_le_compat; auto using Rabs_pos).
    assert (gam (2 + k) = gam 2 + gam k + gam 2 * gam k) as -> by (pose proof (gam_add 2 k); lra). lra. }
  pose proof (gam_nonneg (2 + k)) as G2.
  assert (E5 : Rabs (B2R a / b) <= (1 + gam (2 + k)) * (M / D)).
  { replace (B2R a / b) with ((B2R a / b - r / D) + r / D) by ring. eapply Rle_trans; [apply Rabs_triang|]. lra. }
  assert (E6 : (1 + gam (2 + k)) * (M / D) <= 2 * (M / D)) by (apply Rmult_le_compat_r; lra).
  destruct (b64_div_R a (b64_ofZ z) ((1 + gam (2 + k)) * (M / D))) as (F & E7); auto; try lra.
  { apply lowM_mul; auto. lra. }
  fold b in E7. split; [|exact HL]. split; [exact F|]. split; [|split; [exact E2|lra]].
  replace (3 + k)%nat with (S (2 + k)) by lia. rewrite gam_S.
  replace (B2R (b64_div a (b64_ofZ z)) - r / D) with ((B2R (b64_div a (b64_ofZ z)) - B2R a / b) + (B2R a / b - r / D)) by ring.
  eapply Rle_trans; [apply Rabs_triang|]. lra.
Qed.

Lemma pow_inv_pos k : 0 < / 2 ^ k. Proof. apply Rinv_0_lt_compat, pow_lt. lra. Qed.
Lemma low_inv M k : (k <= 900)%nat -> / 2 ^ k <= M -> lowM M.
Proof.
  intros Hk H. right. eapply Rle_trans; [|exact H]. change (-900)%Z with (- (900))%Z. rewrite bpow_opp, <- IZR_Zpower by lia.
  change (Zpower radix2 900) with (2 ^ Z.of_nat 900)%Z. rewrite <- pow_IZR.
  apply Rinv_le; [apply pow_lt; lra|]. apply pow2_le. auto.
Qed.

Section Formula.
  Context (lib : flib) (GL : good_lib lib) (E : Env b64) (EN : e_num E = B64Num lib).
  Context (n : nat) (Hn : (4 <= n)%nat) (Hbig : INR n <= 2 ^ 37) (bc : bool).
  Context (X Y : R) (HX : / 2 ^ 300 <= X <= 2 ^ 300) (HY : / 2 ^ 300 <= Y <= 2 ^ 300).
  Notation m := (INR n).
  Notation L := (Nat.log2_up n).
  Notation lm := (INR L).

  Lemma fewn : few (4 * n + L + 60).
  Proof.
    unfold few. assert (INR L <= INR n) by (apply le_INR, Nat.log2_up_le_lin; lia).
    rewrite !plus_INR, mult_INR. cbn [INR]. assert (2 ^ 40 = 8 * 2 ^ 37) by ring. assert (60 <= 2 ^ 37) by (eapply Rle_trans; [|apply (pow2_le 6 37); lia]; cbn; lra). lra.
  Qed.
  Lemma L_le : lm <= 2 ^ 37.
  Proof. eapply Rle_trans; [|exact Hbig]. apply le_INR, Nat.log2_up_le_lin; lia. Qed.

  (** sizes between 2^-700 and 2^800 *)
  Definition mid (M : R) : Prop := / 2 ^ 620 <= M <= 2 ^ 740.
  Lemma mid_low M D : mid M -> 1 <= D <= 2 ^ 159 -> lowM (M / D).
  Proof.
    intros [H _] HD. apply (low_inv _ (620 + 159)); [lia|]. rewrite pow_add, Rinv_mult.
    unfold Rdiv. apply Rmult_le_compat; auto; try (left; apply pow_inv_pos). apply Rinv_le; lra.
  Qed.

  Lemma from_terms_apx k mp aa at_ ba bt P ras A rbs B :
    apx (4 * n + L + 12) (32 * (lm * (m * (m * (X * Y))))) mp P ->
    apxs (4 + n) (5 * (m * X)) aa ras -> apx (2 * n + 4) (5 * (m * (m * X))) at_ A ->
    apxs (4 + n) (5 * (m * Y)) ba rbs -> apx (2 * n + 4) (5 * (m * (m * Y))) bt B -> length aa = n -> length ba = n ->
    exists v, dcov_from_terms E k mp aa at_ ba bt n bc = Ok v /\
      absn (4 * n + L + 20) v
        (P / m / den1 n bc - 2 * (np_sum RNum (map2 Rmult (map (fun v => v / m) ras) rbs) / den2 n bc) + A / m * B / den3 n bc)
        (32 * (lm * (m * (m * (X * Y)))) / m / den1 n bc + 2 * (m * (5 * (m * X) / m * (5 * (m * Y))) / den2 n bc)
          + 5 * (m * (m * X)) / m * (5 * (m * (m * Y))) / den3 n bc).
  Proof.
    intros HP HA1 HA2 HB1 HB2 La Lb.
    assert (Hbig39 : m <= 2 ^ 39) by (eapply Rle_trans; [exact Hbig|apply pow2_le; lia]).
    destruct (dens_pos n Hn bc) as (D1 & D2 & D3). destruct (dens_le n Hn Hbig39 bc) as (Dn & D1' & D2' & D3').
    assert (m4 : 4 <= m) by (replace 4 with (INR 4) by (cbn; ring); apply le_INR; auto).
    assert (l2 : 2 <= lm) by (replace 2 with (INR 2) by (cbn; ring); apply le_INR; apply (Nat.log2_up_le_mono 4 n); auto).
    assert (fw := fewn). assert (F : forall j, (j <= 4 * n + L + 60)%nat -> few j) by (intros j Hj; apply (few_le _ _ fw); auto).
    assert (Lh := L_le).
    assert (LS : (L <= n)%nat) by (apply Nat.log2_up_le_lin; lia).
    assert (n1 : (1 <= Z.of_nat n)%Z) by lia.
    assert (Ofn : m = IZR (Z.of_nat n)) by apply INR_IZR_INZ.
    assert (O1 : den1 n bc = IZR (if bc then Z.of_nat n - 3 else Z.of_nat n)).
    { unfold den1. rewrite Ofn. destruct bc; rewrite ?minus_IZR; reflexivity. }
    assert (O2 : den2 n bc = IZR (if bc then (Z.of_nat n - 2) * (Z.of_nat n - 3) else Z.of_nat n ^ 2)).
    { unfold den2. rewrite Ofn. destruct bc; rewrite ?mult_IZR, ?minus_IZR, ?(pow_IZR _ 2); reflexivity. }
    assert (O3 : den3 n bc = IZR (if bc then (Z.of_nat n - 1) * (Z.of_nat n - 2) * (Z.of_nat n - 3) else Z.of_nat n ^ 3)).
    { unfold den3. rewrite Ofn. destruct bc; rewrite ?mult_IZR, ?minus_IZR, ?(pow_IZR _ 3); reflexivity. }
    assert (P900 : forall j, (j <= 900)%nat -> 2 ^ j <= BB) by (intros; apply pow2_le; auto).
    assert (h53 : 2 ^ 53 <= 2 ^ 159) by (apply pow2_le; lia). assert (h106 : 2 ^ 106 <= 2 ^ 159) by (apply pow2_le; lia).
    pose proof (P900 159%nat ltac:(lia)) as h159.
    assert (Hpos : 0 < X /\ 0 < Y) by (pose proof (pow_inv_pos 300); lra). destruct Hpos as (X0 & Y0).
    assert (XY0 : 0 < X * Y) by (apply Rmult_lt_0_compat; auto).
    assert (LXY : / 2 ^ 600 <= X * Y).
    { change 600%nat with (300 + 300)%nat. rewrite pow_add, Rinv_mult. pose proof (pow_inv_pos 300). apply Rmult_le_compat; lra. }
    assert (HXY : X * Y <= 2 ^ 600).
    { change 600%nat with (300 + 300)%nat. rewrite pow_add. apply Rmult_le_compat; lra. }
    (* product of a number between 1 and 2^130 with XY *)
    assert (MID : forall c, 1 <= c <= 2 ^ 140 -> mid (c * (X * Y))).
    { intros c Hc. split.
      - apply Rle_trans with (1 * (X * Y)); [|apply Rmult_le_compat_r; lra]. rewrite Rmult_1_l. eapply Rle_trans; [|exact LXY]. apply Rinv_le; [apply pow_lt; lra|]. apply pow2_le. lia.
      - change 740%nat with (140 + 600)%nat. rewrite pow_add. apply Rmult_le_compat; lra. }
    assert (Q2 : forall p q i j, 1 <= p <= 2 ^ i -> 1 <= q <= 2 ^ j -> 1 <= p * q <= 2 ^ (i + j)).
    { intros p q i j Hp Hq. rewrite pow_add. split; [replace 1 with (1 * 1) by ring; apply Rmult_le_compat; lra|apply Rmult_le_compat; lra]. }
    assert (b32 : 1 <= 32 <= 2 ^ 5) by (cbn; lra). assert (bl : 1 <= lm <= 2 ^ 37) by lra. assert (bm : 1 <= m <= 2 ^ 37) by lra. assert (b25 : 1 <= 25 <= 2 ^ 5) by (cbn; lra).
    assert (b50 : 1 <= 50 <= 2 ^ 6) by (cbn; lra).
    assert (U : forall c j, 1 <= c <= 2 ^ j -> (j <= 140)%nat -> 1 <= c <= 2 ^ 140).
    { intros c j Hc Hj. split; [lra|]. eapply Rle_trans; [apply Hc|]. apply pow2_le; auto. }
    assert (P1 : 32 * (lm * (m * (m * (X * Y)))) / m = 32 * (lm * m) * (X * Y)) by (field; lra).
    assert (P2 : 5 * (m * X) / m * (5 * (m * Y)) = 25 * m * (X * Y)) by (field; lra).
    assert (P3 : 5 * (m * (m * X)) / m * (5 * (m * (m * Y))) = 25 * (m * (m * m)) * (X * Y)) by (field; lra).
    assert (M1 : mid (32 * (lm * m) * (X * Y))) by (apply MID; eapply U; [apply Q2; [exact b32|apply Q2; [exact bl|exact bm]]|lia]).
    assert (M2 : mid (25 * m * (X * Y))) by (apply MID; eapply U; [apply Q2; [exact b25|exact bm]|lia]).
    assert (M2' : mid (m * (25 * m * (X * Y)))) by (replace (m * (25 * m * (X * Y))) with (25 * (m * m) * (X * Y)) by ring; apply MID; eapply U; [apply Q2; [exact b25|apply Q2; exact bm]|lia]).
    assert (M3 : mid (25 * (m * (m * m)) * (X * Y))) by (apply MID; eapply U; [apply Q2; [exact b25|apply Q2; [exact bm|apply Q2; exact bm]]|lia]).
    assert (lowmid : forall M, mid M -> lowM M).
    { intros M [HM _]. apply (low_inv _ 620); [lia|auto]. }
    assert (one : forall Z0, / 2 ^ 300 <= Z0 <= 2 ^ 300 -> lowM Z0) by (intros Z0 HZ; apply (low_inv _ 300); [lia|lra]).
    assert (lX := one X HX). assert (lY := one Y HY).
    assert (Ba : forall M D, mid M -> 1 <= D -> 0 <= M / D <= 2 ^ 740).
    { intros M D [HM HM'] HD. pose proof (pow_inv_pos 620). assert (iD : 0 < / D) by (apply Rinv_0_lt_compat; lra).
      assert (/ D <= 1) by (rewrite <- Rinv_1; apply Rinv_le; lra). unfold Rdiv. split; [apply Rmult_le_pos; lra|].
      rewrite <- (Rmult_1_r (2 ^ 740)). apply Rmult_le_compat; lra. }
    assert (h740 : 16 * 2 ^ 740 <= BB) by (replace 16 with (2 ^ 4) by (cbn; ring); rewrite <- pow_add; apply pow2_le; lia). assert (p740 : 0 < 2 ^ 740) by (apply pow_lt; lra).
    (* first *)
    assert (N1 : apx (4 * n + L + 18) (32 * (lm * (m * (m * (X * Y)))) / m / den1 n bc)
      (b64_div (b64_div mp (b64_ofZ (Z.of_nat n))) (b64_ofZ (if bc then Z.of_nat n - 3 else Z.of_nat n))) (P / m / den1 n bc)).
    { replace (4 * n + L + 18)%nat with (3 + (3 + (4 * n + L + 12)))%nat by lia. apply apx_div; auto; try lra; try (apply F; lia).
      - apply apx_div; auto; try lra; try (apply F; lia). rewrite P1. auto.
      - destruct bc; lia.
      - rewrite P1. apply mid_low; auto. lra. }
    (* second *)
    assert (Nax : apxs (7 + n) (5 * (m * X) / m) (map (fun v => b64_div v (b64_ofZ (Z.of_nat n))) aa) (map (fun v => v / m) ras)).
    { eapply (apxs_map (4 + n)); [|exact HA1]. intros a r Ha. replace (7 + n)%nat with (3 + (4 + n))%nat by lia. apply apx_div; auto; try lra; try (apply F; lia).
      replace (5 * (m * X) / m) with (5 * X) by (field; lra). apply lowM_mul; auto; lra. }
    set (quots := map (fun v => b64_div v (b64_ofZ (Z.of_nat n))) aa) in *.
    set (rprods := map2 Rmult (map (fun v => v / m) ras) rbs) in *.
    assert (Lq : length quots = n) by (unfold quots; rewrite map_length; auto).
    assert (Lp : length (combine quots ba) = n) by (rewrite combine_length; lia).
    assert (Nsum : apx (3 * n + 12) (m * (25 * m * (X * Y))) (ndot (B64Num lib) quots ba) (np_sum RNum rprods)).
    { assert (Lr : lenR (combine quots ba) = m) by (unfold lenR; rewrite Lp; auto).
      rewrite <- P2. rewrite <- Lr at 1. replace (3 * n + 12)%nat with (S (7 + n + (4 + n) + length (combine quots ba))) by lia.
      assert (0 <= m * X /\ 0 <= m * Y) by (split; apply Rmult_le_pos; lra).
      apply (apxs_dot_of (7 + n) (4 + n)).
      - replace (5 * (m * X) / m) with (5 * X) by (field; lra). lra.
      - lra.
      - rewrite P2. auto.
      - apply ndot_of; auto. lia.
      - apply apx_pairs; auto.
      - rewrite Lr, P2. destruct M2' as [_ M2']. lra.
      - apply F. lia. }
    assert (Nsec : apx (3 * n + 16) (2 * (m * (5 * (m * X) / m * (5 * (m * Y))) / den2 n bc))
      (b64_mul (b64_ofZ 2) (b64_div (ndot (B64Num lib) quots ba) (b64_ofZ (if bc then (Z.of_nat n - 2) * (Z.of_nat n - 3) else Z.of_nat n ^ 2))))
      (2 * (np_sum RNum rprods / den2 n bc))).
    { rewrite P2. assert (lowM (m * (25 * m * (X * Y)) / den2 n bc)) by (apply mid_low; auto; lra). pose proof (Ba _ _ M2' D2).
      replace (3 * n + 16)%nat with (S (0 + (3 + (3 * n + 12)))) by lia. apply apx_mul; auto.
      - apply (apx_ofZ 0 2 2); try lia; try (cbn; lra).
      - apply apx_div; auto; try lra; try (apply F; lia). destruct bc; nia.
      - apply F; lia.
      - lra.
      - apply lowM_mul; auto; lra. }
    (* third *)
    assert (N3 : apx (4 * n + 15) (5 * (m * (m * X)) / m * (5 * (m * (m * Y))) / den3 n bc) (b64_div (b64_mul (b64_div at_ (b64_ofZ (Z.of_nat n))) bt)
        (b64_ofZ (if bc then (Z.of_nat n - 1) * (Z.of_nat n - 2) * (Z.of_nat n - 3) else Z.of_nat n ^ 3))) (A / m * B / den3 n bc)).
    { replace (4 * n + 15)%nat with (3 + S (3 + (2 * n + 4) + (2 * n + 4)))%nat by lia. apply apx_div; auto; try lra; try (apply F; lia).
      - apply apx_mul; auto; rewrite ?P3; auto; [|apply F; lia|destruct M3; lra].
        apply apx_div; auto; try lra; try (apply F; lia). replace (5 * (m * (m * X)) / m) with (5 * (m * X)) by (field; lra). apply lowM_mul; [lra|]. apply lowM_mul; auto; lra.
      - destruct bc; [|nia]. apply Z.le_trans with (1 * 1 * 1)%Z; [lia|]. repeat apply Z.mul_le_mono_nonneg; lia.
      - rewrite P3. apply mid_low; auto. }
    eexists. split.
    - unfold dcov_from_terms. rewrite EN. cbn [ndiv nofZ nmul nsub nadd B64Num]. unfold np_dot. rewrite map_length, La, Lb, Nat.eqb_refl.
      cbn [rbind].
      match goal with |- (if ?z then _ else _) = _ => assert (z = false) as -> end.
      { destruct k, bc; auto; rewrite ?orb_false_iff; repeat split; apply Z.eqb_neq; nia. }
      fold quots. reflexivity.
    - pose proof (Ba _ _ M1 D1) as S1. rewrite <- P1 in S1. pose proof (Ba _ _ M2' D2) as S2. rewrite <- P2 in S2. pose proof (Ba _ _ M3 D3) as S3. rewrite <- P3 in S3.
      replace (4 * n + L + 20)%nat with (S (4 * n + L + 19)) by lia. apply (apx_add (4 * n + L + 19)).
      + replace (4 * n + L + 19)%nat with (S (4 * n + L + 18)) by lia. apply apx_sub; [eapply apx_k; [exact N1|lia]|eapply apx_k; [exact Nsec|lia]|apply F; lia|lra].
      + eapply apx_k; [exact N3|lia].
      + apply F; lia.
      + lra.
  Qed.
End Formula.
