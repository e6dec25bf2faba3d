(** Double precision arithmetic commutes with a change of unit by a power of two, away from overflow and underflow.

    [scaled k q B a b]: [b] is exactly 2^k times [a], [a] is a multiple of 2^-q and at most [B] in absolute value. *)
From Coq Require Import Reals Lra Lia List Arith Bool ZArith Psatz Permutation.
From Flocq Require Import Core IEEE754.BinarySingleNaN.
From Verif Require Import Num Numpy MUtils MFloat RefFloat FloatSum FloatError FloatCorr.
Import ListNotations.
Local Open Scope R_scope.

Local Notation fexp := (SpecFloat.fexp 53 1024).
Local Notation format := (generic_format radix2 fexp).
Local Notation p2 := (bpow radix2).

Lemma fexp_FLT e : fexp e = FLT_exp (3 - 1024 - 53) 53 e. Proof. reflexivity. Qed.
Lemma fexp_val e : fexp e = Z.max (e - 53) (-1074). Proof. reflexivity. Qed.
Lemma format_p2 k : (-1074 <= k)%Z -> format (p2 k).
Proof. intros. apply generic_format_bpow. rewrite fexp_val. lia. Qed.
Lemma format_count (l : nat) M : (Z.of_nat l < 2 ^ 53)%Z -> (-1074 <= M)%Z -> format (INR l * p2 M).
Proof.
  intros Hl HM. apply (generic_format_FLT radix2 (3 - 1024 - 53) 53). exists (Float radix2 (Z.of_nat l) M); cbn [Fnum Fexp]; [|rewrite Z.abs_eq; [exact Hl|lia]|lia].
  unfold F2R. cbn [Fnum Fexp]. rewrite <- INR_IZR_INZ. reflexivity.
Qed.

(** Multiples of 2^-q. *)
Definition fixed (q : Z) (r : R) : Prop := exists z, r = IZR z * p2 (- q).
Lemma fixed_le q q' r : fixed q r -> (q <= q')%Z -> fixed q' r.
Proof.
  intros (z & ->) H. exists (z * 2 ^ (q' - q))%Z. rewrite mult_IZR, Rmult_assoc. f_equal.
  change (2 ^ (q' - q))%Z with (Zpower radix2 (q' - q)). rewrite IZR_Zpower by lia. rewrite <- bpow_plus. f_equal. lia.
Qed.
Lemma fixed_0 q : fixed q 0. Proof. exists 0%Z. ring. Qed.
Lemma fixed_plus q r s : fixed q r -> fixed q s -> fixed q (r + s).
Proof. intros (z & ->) (w & ->). exists (z + w)%Z. rewrite plus_IZR. ring. Qed.
Lemma fixed_minus q r s : fixed q r -> fixed q s -> fixed q (r - s).
Proof. intros (z & ->) (w & ->). exists (z - w)%Z. rewrite minus_IZR. ring. Qed.
Lemma fixed_mult q q' r s : fixed q r -> fixed q' s -> fixed (q + q') (r * s).
Proof. intros (z & ->) (w & ->). exists (z * w)%Z. rewrite mult_IZR. replace (- (q + q'))%Z with (- q + - q')%Z by lia. rewrite bpow_plus. ring. Qed.
Lemma fixed_low q r : fixed q r -> r = 0 \/ p2 (- q) <= Rabs r.
Proof.
  intros (z & ->). destruct (Z.eq_dec z 0) as [-> | H]; [left; ring|right]. rewrite Rabs_mult, (Rabs_pos_eq (p2 (- q))) by apply bpow_ge_0.
  rewrite <- abs_IZR. assert (1 <= IZR (Z.abs z)) by (apply IZR_le; lia). pose proof (bpow_gt_0 radix2 (- q)). nra.
Qed.
Lemma low_fixed h r : format r -> r = 0 \/ p2 (- h) <= Rabs r -> fixed (h + 52) r.
Proof.
  intros F [-> | H]; [apply fixed_0|]. assert (Hr : r <> 0) by (intros ->; rewrite Rabs_R0 in H; pose proof (bpow_gt_0 radix2 (- h)); lra).
  assert (Hm : (- h < mag radix2 r)%Z) by (apply mag_gt_bpow; auto).
  apply (fixed_le (- cexp radix2 fexp r)); [|unfold cexp; rewrite fexp_val; lia].
  exists (Ztrunc (scaled_mantissa radix2 fexp r)). rewrite Z.opp_involutive. unfold generic_format, F2R in F. cbn [Fnum Fexp] in F. exact F.
Qed.

Lemma rnd_fixed q r : (q <= 1000)%Z -> fixed q r -> fixed q (b64_round r).
Proof.
  intros Hq Fr. destruct (Z_le_gt_dec (cexp radix2 fexp r) (- q)) as [H|H].
  - rewrite round_generic; auto; [apply valid_rnd_N|]. destruct Fr as (z & Hz).
    apply (generic_format_F2R' radix2 fexp r (Float radix2 z (- q))); [unfold F2R; cbn [Fnum Fexp]; auto|]. intros _. exact H.
  - unfold round, F2R. cbn [Fnum Fexp].
    apply (fixed_le (- cexp radix2 fexp r)); [|lia]. eexists. rewrite Z.opp_involutive. reflexivity.
Qed.
Lemma rnd_abs_le B r : format B -> Rabs r <= B -> Rabs (b64_round r) <= B.
Proof. intros. apply abs_round_le_generic; auto; [apply b64_fexp_valid|apply valid_rnd_N]. Qed.
Lemma rnd_abs_ge B r : format B -> B <= Rabs r -> B <= Rabs (b64_round r).
Proof. intros. apply abs_round_ge_generic; auto; [apply b64_fexp_valid|apply valid_rnd_N]. Qed.

Lemma rnd_scale k r : r = 0 \/ (p2 (-1020) <= Rabs r /\ p2 (-1020) <= Rabs (p2 k * r)) -> b64_round (p2 k * r) = p2 k * b64_round r.
Proof.
  intros [-> | [H1 H2]]; [rewrite Rmult_0_r, round_0 by apply valid_rnd_N; ring|].
  assert (Hr : r <> 0) by (intros ->; rewrite Rabs_R0 in H1; pose proof (bpow_gt_0 radix2 (-1020)); lra).
  assert (Hr' : p2 k * r <> 0) by (apply Rmult_integral_contrapositive_currified; auto; pose proof (bpow_gt_0 radix2 k); lra).
  assert (M1 : (-1020 < mag radix2 r)%Z) by (apply mag_gt_bpow; auto).
  assert (M2 : mag radix2 (p2 k * r) = (mag radix2 r + k)%Z :> Z) by (rewrite Rmult_comm; apply mag_mult_bpow; auto).
  assert (M3 : (-1020 < mag radix2 r + k)%Z) by (rewrite <- M2; apply mag_gt_bpow; auto).
  assert (C : cexp radix2 fexp (p2 k * r) = (cexp radix2 fexp r + k)%Z) by (unfold cexp; rewrite M2, !fexp_val; lia).
  unfold round, F2R, scaled_mantissa. cbn [Fnum Fexp]. rewrite C.
  replace (p2 k * r * p2 (- (cexp radix2 fexp r + k))) with (r * p2 (- cexp radix2 fexp r)).
  2: { replace (- cexp radix2 fexp r)%Z with (- (cexp radix2 fexp r + k) + k)%Z by lia. rewrite bpow_plus. ring. }
  rewrite bpow_plus. ring.
Qed.

(** ** The relation and the operations *)
Definition scaled (k q : Z) (B : R) (a b : b64) : Prop :=
  is_finite a = true /\ is_finite b = true /\ B2R b = p2 k * B2R a /\ fixed q (B2R a) /\ Rabs (B2R a) <= B.

(** Exponents for which nothing overflows or underflows. *)
Definition calm (k h : Z) : Prop := (-200 <= k <= 200)%Z /\ (h <= 1000)%Z /\ (h - k <= 1000)%Z.

Lemma p2_le e f : (e <= f)%Z -> p2 e <= p2 f. Proof. apply bpow_le. Qed.
Lemma rounds k h B r : calm k h -> (r = 0 \/ p2 (- h) <= Rabs r) -> Rabs r <= B -> format B -> B <= p2 800 ->
  Rabs (b64_round r) < p2 1024 /\ Rabs (b64_round (p2 k * r)) < p2 1024 /\ b64_round (p2 k * r) = p2 k * b64_round r /\ Rabs (b64_round r) <= B.
Proof.
  intros (K & H1 & H2) L U F HB. pose proof (rnd_abs_le B r F U) as A. pose proof (bpow_gt_0 radix2 k).
  assert (S : b64_round (p2 k * r) = p2 k * b64_round r).
  { apply rnd_scale. destruct L as [L|L]; [left; auto|right]. rewrite Rabs_mult, (Rabs_pos_eq (p2 k)) by lra. split.
    - eapply Rle_trans; [|exact L]. apply p2_le. lia.
    - apply Rle_trans with (p2 k * p2 (- h)); [rewrite <- bpow_plus; apply p2_le; lia|apply Rmult_le_compat_l; lra]. }
  assert (p2 800 < p2 1024) by (apply bpow_lt; lia). rewrite S. repeat split; auto; [lra|].
  rewrite Rabs_mult, (Rabs_pos_eq (p2 k)) by lra. apply Rle_lt_trans with (p2 200 * p2 800).
  - apply Rmult_le_compat; try lra; [apply Rabs_pos|apply p2_le; lia].
  - rewrite <- bpow_plus. apply bpow_lt. lia.
Qed.

Lemma scaled_weaken k q q' B B' a b : scaled k q B a b -> (q <= q')%Z -> B <= B' -> scaled k q' B' a b.
Proof. intros (F & G & S & X & L) Hq HB. split; [auto|split; [auto|split; [auto|split; [eapply fixed_le; eauto|lra]]]]. Qed.
Lemma scaled_zero k q B s : 0 <= B -> scaled k q B (B754_zero s) (B754_zero s).
Proof. intros. repeat split; cbn; [ring|apply fixed_0|rewrite Rabs_R0; auto]. Qed.

Lemma add_real (a b : b64) : is_finite a = true -> is_finite b = true -> Rabs (b64_round (B2R a + B2R b)) < p2 1024 ->
  is_finite (b64_add a b) = true /\ B2R (b64_add a b) = b64_round (B2R a + B2R b).
Proof.
  intros Fa Fb Hov. pose proof (Bplus_correct 53 1024 b64_prec b64_emax mode_NE a b Fa Fb) as HC.
  rewrite Rlt_bool_true in HC by exact Hov. destruct HC as (H1 & H2 & _). fold (b64_add a b) in H1, H2. auto.
Qed.
Lemma sub_real (a b : b64) : is_finite a = true -> is_finite b = true -> Rabs (b64_round (B2R a - B2R b)) < p2 1024 ->
  is_finite (b64_sub a b) = true /\ B2R (b64_sub a b) = b64_round (B2R a - B2R b).
Proof.
  intros Fa Fb Hov. pose proof (Bminus_correct 53 1024 b64_prec b64_emax mode_NE a b Fa Fb) as HC.
  rewrite Rlt_bool_true in HC by exact Hov. destruct HC as (H1 & H2 & _). fold (b64_sub a b) in H1, H2. auto.
Qed.
Lemma mult_real (a b : b64) : is_finite a = true -> is_finite b = true -> Rabs (b64_round (B2R a * B2R b)) < p2 1024 ->
  is_finite (b64_mul a b) = true /\ B2R (b64_mul a b) = b64_round (B2R a * B2R b).
Proof.
  intros Fa Fb Hov. pose proof (Bmult_correct 53 1024 b64_prec b64_emax mode_NE a b) as HC.
  rewrite Rlt_bool_true in HC by exact Hov. destruct HC as (H1 & H2 & _). fold (b64_mul a b) in H1, H2. rewrite Fa, Fb in H2. auto.
Qed.
Lemma fma_real (a b c : b64) : is_finite a = true -> is_finite b = true -> is_finite c = true -> Rabs (b64_round (B2R a * B2R b + B2R c)) < p2 1024 ->
  is_finite (b64_fma a b c) = true /\ B2R (b64_fma a b c) = b64_round (B2R a * B2R b + B2R c).
Proof.
  intros Fa Fb Fc Hov. pose proof (Bfma_correct 53 1024 b64_prec b64_emax mode_NE a b c Fa Fb Fc) as HC. cbv zeta in HC.
  rewrite Rlt_bool_true in HC by exact Hov. destruct HC as (H1 & H2 & _). fold (b64_fma a b c) in H1, H2. auto.
Qed.

(** A result that is the rounding of a multiple of 2^-q, or of a number that is 0 or at least 2^-h. *)
Lemma scaled_fixed k q B r a b : calm k q -> fixed q r -> Rabs r <= B -> format B -> B <= p2 800 ->
  (Rabs (b64_round r) < p2 1024 -> is_finite a = true /\ B2R a = b64_round r) ->
  (Rabs (b64_round (p2 k * r)) < p2 1024 -> is_finite b = true /\ B2R b = b64_round (p2 k * r)) -> scaled k q B a b.
Proof.
  intros K X U F HB Ha Hb. destruct (rounds k q B r K (fixed_low _ _ X) U F HB) as (O1 & O2 & S & L).
  destruct (Ha O1) as (A1 & A2). destruct (Hb O2) as (B1 & B2). unfold scaled. rewrite A2, B2. repeat split; auto.
  apply rnd_fixed; auto. destruct K as (_ & K & _). exact K.
Qed.
Lemma scaled_low k h B r a b : calm k h -> (r = 0 \/ p2 (- h) <= Rabs r) -> Rabs r <= B -> format B -> B <= p2 800 ->
  (Rabs (b64_round r) < p2 1024 -> is_finite a = true /\ B2R a = b64_round r) ->
  (Rabs (b64_round (p2 k * r)) < p2 1024 -> is_finite b = true /\ B2R b = b64_round (p2 k * r)) ->
  scaled k (h + 52) B a b /\ (B2R a = 0 \/ p2 (- h) <= Rabs (B2R a)).
Proof.
  intros K X U F HB Ha Hb. destruct (rounds k h B r K X U F HB) as (O1 & O2 & S & L).
  destruct (Ha O1) as (A1 & A2). destruct (Hb O2) as (B1 & B2).
  assert (G : B2R a = 0 \/ p2 (- h) <= Rabs (B2R a)).
  { rewrite A2. destruct X as [-> | X]; [left; apply round_0, valid_rnd_N|right]. apply rnd_abs_ge; auto. apply format_p2. destruct K. lia. }
  split; auto. unfold scaled. split; [auto|split; [auto|split; [rewrite A2, B2; auto|split; [|rewrite A2; auto]]]].
  apply low_fixed; auto. apply generic_format_B2R.
Qed.

Lemma scaled_add k q A B a b c d : calm k q -> scaled k q A a b -> scaled k q B c d -> format (A + B) -> A + B <= p2 800 ->
  scaled k q (A + B) (b64_add a c) (b64_add b d).
Proof.
  intros K (F1 & G1 & S1 & X1 & L1) (F2 & G2 & S2 & X2 & L2) Fm HB. apply (scaled_fixed k q (A + B) (B2R a + B2R c)); auto.
  - apply fixed_plus; auto.
  - eapply Rle_trans; [apply Rabs_triang|lra].
  - intros. apply add_real; auto.
  - replace (p2 k * (B2R a + B2R c)) with (B2R b + B2R d) by (rewrite S1, S2; ring). intros. apply add_real; auto.
Qed.
Lemma scaled_sub k q A B a b c d : calm k q -> scaled k q A a b -> scaled k q B c d -> format (A + B) -> A + B <= p2 800 ->
  scaled k q (A + B) (b64_sub a c) (b64_sub b d).
Proof.
  intros K (F1 & G1 & S1 & X1 & L1) (F2 & G2 & S2 & X2 & L2) Fm HB. apply (scaled_fixed k q (A + B) (B2R a - B2R c)); auto.
  - apply fixed_minus; auto.
  - unfold Rminus. eapply Rle_trans; [apply Rabs_triang|]. rewrite Rabs_Ropp. lra.
  - intros. apply sub_real; auto.
  - replace (p2 k * (B2R a - B2R c)) with (B2R b - B2R d) by (rewrite S1, S2; ring). intros. apply sub_real; auto.
Qed.
Lemma scaled_mul k l q q' A B a b c d : calm (k + l) (q + q') -> scaled k q A a b -> scaled l q' B c d -> format (A * B) -> A * B <= p2 800 ->
  scaled (k + l) (q + q') (A * B) (b64_mul a c) (b64_mul b d).
Proof.
  intros K (F1 & G1 & S1 & X1 & L1) (F2 & G2 & S2 & X2 & L2) Fm HB. apply (scaled_fixed (k + l) (q + q') (A * B) (B2R a * B2R c)); auto.
  - apply fixed_mult; auto.
  - rewrite Rabs_mult. apply Rmult_le_compat; auto using Rabs_pos.
  - intros. apply mult_real; auto.
  - replace (p2 (k + l) * (B2R a * B2R c)) with (B2R b * B2R d) by (rewrite S1, S2, bpow_plus; ring). intros. apply mult_real; auto.
Qed.
Lemma scaled_fma k l q q' A B C a b c d e f : calm (k + l) (q + q') -> scaled k q A a b -> scaled l q' B c d -> scaled (k + l) (q + q') C e f ->
  format (A * B + C) -> A * B + C <= p2 800 ->
  scaled (k + l) (q + q') (A * B + C) (b64_fma a c e) (b64_fma b d f).
Proof.
  intros K (F1 & G1 & S1 & X1 & L1) (F2 & G2 & S2 & X2 & L2) (F3 & G3 & S3 & X3 & L3) Fm HB.
  apply (scaled_fixed (k + l) (q + q') (A * B + C) (B2R a * B2R c + B2R e)); auto.
  - apply fixed_plus; auto. apply fixed_mult; auto.
  - eapply Rle_trans; [apply Rabs_triang|]. apply Rplus_le_compat; auto. rewrite Rabs_mult. apply Rmult_le_compat; auto using Rabs_pos.
  - intros. apply fma_real; auto.
  - replace (p2 (k + l) * (B2R a * B2R c + B2R e)) with (B2R b * B2R d + B2R f) by (rewrite S1, S2, S3, bpow_plus; ring). intros. apply fma_real; auto.
Qed.
(** Division of both by the same number, between 1 and 2^c. *)
Lemma scaled_div k q c B a b d : calm k (q + c) -> scaled k q B a b -> is_finite d = true -> 1 <= B2R d <= p2 c -> format B -> B <= p2 800 ->
  scaled k (q + c + 52) B (b64_div a d) (b64_div b d) /\ (B2R (b64_div a d) = 0 \/ p2 (- (q + c)) <= Rabs (B2R (b64_div a d))).
Proof.
  intros K (F1 & G1 & S1 & X1 & L1) Fd [D1 D2] Fm HB. apply (scaled_low k (q + c) B (B2R a / B2R d)); auto.
  - destruct (fixed_low _ _ X1) as [-> | X]; [left; unfold Rdiv; ring|right].
    unfold Rdiv. rewrite Rabs_mult, (Rabs_pos_eq (/ B2R d)) by (left; apply Rinv_0_lt_compat; lra).
    replace (- (q + c))%Z with (- q + - c)%Z by lia. rewrite bpow_plus. apply Rmult_le_compat; auto using bpow_ge_0.
    rewrite bpow_opp. apply Rinv_le_contravar; lra.
  - unfold Rdiv. rewrite Rabs_mult, (Rabs_pos_eq (/ B2R d)) by (left; apply Rinv_0_lt_compat; lra).
    assert (/ B2R d <= / 1) by (apply Rinv_le_contravar; lra). pose proof (Rabs_pos (B2R a)). rewrite Rinv_1 in *. nra.
  - intros. apply div_real; auto. lra.
  - replace (p2 k * (B2R a / B2R d)) with (B2R b / B2R d) by (rewrite S1; unfold Rdiv; ring). intros. apply div_real; auto. lra.
Qed.
Lemma scaled_sqrt k h M a b : calm k h -> scaled (2 * k) (2 * h) (p2 (2 * M)) a b -> 0 <= B2R a -> (-1074 <= M <= 800)%Z ->
  scaled k (h + 52) (p2 M) (b64_sqrt a) (b64_sqrt b).
Proof.
  intros K (F1 & G1 & S1 & X1 & L1) P HM. pose proof (bpow_gt_0 radix2 k) as Pk.
  assert (SQ : forall e, sqrt (p2 (2 * e)) = p2 e) by (intros e; apply sqrt_bpow).
  assert (P' : 0 <= B2R b) by (rewrite S1; apply Rmult_le_pos; auto using bpow_ge_0).
  apply (scaled_low k h (p2 M) (sqrt (B2R a))); auto.
  - destruct (fixed_low _ _ X1) as [-> | X]; [left; apply sqrt_0|right]. rewrite Rabs_pos_eq in * by auto using sqrt_pos.
    rewrite <- SQ. apply sqrt_le_1_alt. replace (2 * - h)%Z with (- (2 * h))%Z by lia. auto.
  - rewrite Rabs_pos_eq in * by auto using sqrt_pos. rewrite <- (SQ M). apply sqrt_le_1_alt. auto.
  - apply format_p2. lia.
  - apply p2_le. lia.
  - intros. apply sqrt_real; auto.
  - replace (p2 k * sqrt (B2R a)) with (sqrt (B2R b)); [intros; apply sqrt_real; auto|]. rewrite S1, sqrt_mult_alt by apply bpow_ge_0. rewrite SQ. reflexivity.
Qed.

(** ** Sums and dot products, in any order *)
Lemma scaled_seval k q M t (l l' : list b64) : calm k q -> (-1000 <= M <= 700)%Z -> (Z.of_nat (length (sleaves t)) < 2 ^ 53)%Z ->
  (forall i, In i (sleaves t) -> scaled k q (p2 M) (nth i l (B754_zero false)) (nth i l' (B754_zero false))) ->
  scaled k q (INR (length (sleaves t)) * p2 M) (seval t l) (seval t l').
Proof.
  intros K HM. induction t as [s|i|t1 IH1 t2 IH2]; cbn [sleaves seval length]; intros Hl H.
  - apply scaled_zero. cbn. lra.
  - replace (INR 1 * p2 M) with (p2 M) by (cbn; ring). apply H. left. auto.
  - rewrite app_length in *. rewrite plus_INR, Rmult_plus_distr_r. apply scaled_add; auto.
    + apply IH1; [lia|]. intros. apply H. apply in_or_app. auto.
    + apply IH2; [lia|]. intros. apply H. apply in_or_app. auto.
    + rewrite <- Rmult_plus_distr_r, <- plus_INR. apply format_count; lia.
    + rewrite <- Rmult_plus_distr_r, <- plus_INR. apply Rle_trans with (p2 53 * p2 M); [|rewrite <- bpow_plus; apply p2_le; lia].
      apply Rmult_le_compat_r; [apply bpow_ge_0|]. rewrite INR_IZR_INZ. change (p2 53) with (IZR (2 ^ 53)). apply IZR_le. lia.
Qed.
Lemma scaled_deval k l q q' M M' t (u u' v v' : list b64) : calm (k + l) (q + q') -> (-1000 <= M + M' <= 700)%Z -> (Z.of_nat (length (dleaves t)) < 2 ^ 53)%Z ->
  (forall i, In i (dleaves t) -> scaled k q (p2 M) (nth i u (B754_zero false)) (nth i u' (B754_zero false)) /\
    scaled l q' (p2 M') (nth i v (B754_zero false)) (nth i v' (B754_zero false))) ->
  scaled (k + l) (q + q') (INR (length (dleaves t)) * p2 (M + M')) (deval t u v) (deval t u' v').
Proof.
  intros K HM. assert (BIG : forall m : nat, (Z.of_nat m < 2 ^ 53)%Z -> INR m * p2 (M + M') <= p2 800).
  { intros m Hm. apply Rle_trans with (p2 53 * p2 (M + M')); [|rewrite <- bpow_plus; apply p2_le; lia].
    apply Rmult_le_compat_r; [apply bpow_ge_0|]. rewrite INR_IZR_INZ. change (p2 53) with (IZR (2 ^ 53)). apply IZR_le. lia. }
  induction t as [s|i|i t IH|t1 IH1 t2 IH2]; cbn [dleaves deval length]; intros Hl H.
  - apply scaled_zero. cbn. lra.
  - replace (INR 1 * p2 (M + M')) with (p2 M * p2 M') by (rewrite bpow_plus; cbn; ring). destruct (H i) as [H1 H2]; [left; auto|].
    apply scaled_mul; auto; rewrite <- bpow_plus; [apply format_p2; lia|apply p2_le; lia].
  - destruct (H i) as [H1 H2]; [left; auto|].
    replace (INR (S (length (dleaves t))) * p2 (M + M')) with (p2 M * p2 M' + INR (length (dleaves t)) * p2 (M + M')) by (rewrite S_INR, bpow_plus; ring).
    apply scaled_fma; auto.
    + apply IH; [lia|]. intros. apply H. right. auto.
    + replace (p2 M * p2 M' + INR (length (dleaves t)) * p2 (M + M')) with (INR (S (length (dleaves t))) * p2 (M + M')) by (rewrite S_INR, bpow_plus; ring).
      apply format_count; lia.
    + replace (p2 M * p2 M' + INR (length (dleaves t)) * p2 (M + M')) with (INR (S (length (dleaves t))) * p2 (M + M')) by (rewrite S_INR, bpow_plus; ring).
      apply BIG. lia.
  - rewrite app_length in *. rewrite plus_INR, Rmult_plus_distr_r. apply scaled_add; auto.
    + apply IH1; [lia|]. intros. apply H. apply in_or_app. auto.
    + apply IH2; [lia|]. intros. apply H. apply in_or_app. auto.
    + rewrite <- Rmult_plus_distr_r, <- plus_INR. apply format_count; lia.
    + rewrite <- Rmult_plus_distr_r, <- plus_INR. apply BIG. lia.
Qed.

(** Lists of at most 2^c elements. *)
Definition scaleds (k q : Z) (B : R) : list b64 -> list b64 -> Prop := Forall2 (scaled k q B).
Lemma Forall2_len {A B} (P : A -> B -> Prop) l l' : Forall2 P l l' -> length l = length l'.
Proof. induction 1; cbn; congruence. Qed.
Lemma scaleds_nth k q B l l' i : scaleds k q B l l' -> (i < length l)%nat -> scaled k q B (nth i l (B754_zero false)) (nth i l' (B754_zero false)).
Proof. intros H. revert i. induction H; intros [|i] Hi; cbn in *; auto; try lia. apply IHForall2. lia. Qed.
Lemma count_le (m : nat) c M : (0 <= c <= 52)%Z -> (Z.of_nat m <= 2 ^ c)%Z -> INR m * p2 M <= p2 (M + c).
Proof.
  intros Hc Hm. rewrite Z.add_comm, bpow_plus. apply Rmult_le_compat_r; [apply bpow_ge_0|]. rewrite INR_IZR_INZ.
  change 2%Z with (radix_val radix2) in Hm. rewrite <- IZR_Zpower by lia. apply IZR_le. exact Hm.
Qed.
Lemma pow_52 c : (0 <= c <= 52)%Z -> (2 ^ c < 2 ^ 53)%Z.
Proof. intros. apply Z.pow_lt_mono_r; lia. Qed.
Lemma scaled_sum lib k q M c l l' : good_lib lib -> calm k q -> (-1000 <= M <= 700)%Z -> (0 <= c <= 52)%Z -> (Z.of_nat (length l) <= 2 ^ c)%Z ->
  scaleds k q (p2 M) l l' -> scaled k q (p2 (M + c)) (np_sum (B64Num lib) l) (np_sum (B64Num lib) l').
Proof.
  intros GL K HM Hc Hl H. change (scaled k q (p2 (M + c)) (seval (f_sum lib (length l)) l) (seval (f_sum lib (length l')) l')). rewrite <- (Forall2_len _ _ _ H).
  pose proof (gl_sum _ GL (length l)) as P. pose proof (Permutation_length P) as PL. rewrite seq_length in PL.
  apply (scaled_weaken k q q (INR (length l) * p2 M)); [|lia|apply count_le; auto]. rewrite <- PL at 1. pose proof (pow_52 c Hc). apply scaled_seval; auto; [lia|].
  intros i Hi. apply (scaleds_nth _ _ _ _ _ _ H). apply (Permutation_in _ P) in Hi. apply in_seq in Hi. lia.
Qed.
Lemma scaled_dot lib k j q q' M M' c l l' m m' : good_lib lib -> calm (k + j) (q + q') -> (-1000 <= M + M' <= 700)%Z -> (0 <= c <= 52)%Z ->
  (Z.of_nat (length l) <= 2 ^ c)%Z -> length l = length m -> scaleds k q (p2 M) l l' -> scaleds j q' (p2 M') m m' ->
  scaled (k + j) (q + q') (p2 (M + M' + c)) (ndot (B64Num lib) l m) (ndot (B64Num lib) l' m').
Proof.
  intros GL K HM Hc Hl E H H'. change (scaled (k + j) (q + q') (p2 (M + M' + c)) (deval (f_dot lib (length l)) l m) (deval (f_dot lib (length l')) l' m')). rewrite <- (Forall2_len _ _ _ H).
  pose proof (gl_dot _ GL (length l)) as P. pose proof (Permutation_length P) as PL. rewrite seq_length in PL.
  apply (scaled_weaken (k + j) (q + q') (q + q') (INR (length l) * p2 (M + M'))); [|lia|apply count_le; auto]. rewrite <- PL at 1. pose proof (pow_52 c Hc).
  apply scaled_deval; auto; [lia|].
  intros i Hi. apply (Permutation_in _ P) in Hi. apply in_seq in Hi.
  split; [apply (scaleds_nth _ _ _ _ _ _ H)|apply (scaleds_nth _ _ _ _ _ _ H')]; lia.
Qed.

(** Integers converted to doubles. *)
Lemma ofZ_between z c : (1 <= z)%Z -> (z <= 2 ^ c)%Z -> (0 <= c <= 100)%Z -> is_finite (b64_ofZ z) = true /\ 1 <= B2R (b64_ofZ z) <= p2 c.
Proof.
  intros H1 H2 Hc. assert (U : IZR z <= p2 c) by (rewrite <- IZR_Zpower by lia; apply IZR_le; exact H2). assert (L : 1 <= IZR z) by (apply IZR_le; lia).
  pose proof (binary_normalize_correct 53 1024 b64_prec b64_emax mode_NE z 0 false) as HC. cbv zeta in HC.
  replace (F2R {| Fnum := z; Fexp := 0 |}) with (IZR z) in HC by (unfold F2R; cbn; ring).
  pose proof (rnd_abs_le (p2 c) (IZR z) ltac:(apply format_p2; lia) ltac:(rewrite Rabs_pos_eq; lra)) as A.
  assert (p2 c < p2 1024) by (apply bpow_lt; lia).
  rewrite Rlt_bool_true in HC by lra. destruct HC as (C1 & C2 & _). fold (b64_ofZ z) in C1, C2. split; [exact C2|]. rewrite C1.
  assert (1 <= b64_round (IZR z)).
  { rewrite <- (b64_round_Z 1) by lia. apply round_le; auto; [apply b64_fexp_valid|apply valid_rnd_N]. }
  split; auto. rewrite Rabs_pos_eq in A by lra. exact A.
Qed.
