(** The t statistic in double precision, as a function of the correlation: its value in terms of rounding to nearest, order, sign
    and infinities. *)
From Coq Require Import Reals Lra Lia List Arith Bool ZArith Psatz.
From Flocq Require Import Core Relative Plus_error IEEE754.BinarySingleNaN.
From Verif Require Import Num Numpy MUtils MDcor MFloat RefFloat FloatError FloatCorr.
Local Open Scope R_scope.

Definition Omega : R := bpow radix2 1024.
Definition clamp (z : R) : R := Rmax (- Omega) (Rmin Omega z).
(** The value of a double on the real line: plus and minus infinity are put at plus and minus 2^1024. *)
Definition ext (a : b64) : R := match a with B754_infinity s => if s then - Omega else Omega | _ => B2R a end.

Notation format := (generic_format radix2 (SpecFloat.fexp 53 1024)).
Global Instance fexp_valid : Valid_exp (SpecFloat.fexp 53 1024) := FLT_exp_valid (3 - 1024 - 53) 53 (prec_gt_0_ := b64_prec).
Global Instance fexp_monotone : Monotone_exp (SpecFloat.fexp 53 1024) := FLT_exp_monotone (3 - 1024 - 53) 53.

Lemma Omega_big : bpow radix2 1000 <= Omega.
Proof. apply bpow_le. lia. Qed.
Lemma Omega_gt1 : 1 < Omega.
Proof. unfold Omega. change 1 with (bpow radix2 0). apply bpow_lt. lia. Qed.

Lemma clamp_le x y : x <= y -> clamp x <= clamp y.
Proof. intros. unfold clamp. apply Rle_max_compat_l, Rle_min_compat_l. auto. Qed.
Lemma clamp_bounds x : - Omega <= clamp x <= Omega.
Proof. pose proof Omega_gt1. unfold clamp. split; [apply Rmax_l|]. apply Rmax_lub; [lra|apply Rmin_l]. Qed.
Lemma clamp_id x : Rabs x <= Omega -> clamp x = x.
Proof. intros H. apply Rabs_le_inv in H. unfold clamp. rewrite Rmin_right, Rmax_right; lra. Qed.
Lemma clamp_high x : Omega <= x -> clamp x = Omega.
Proof. pose proof Omega_gt1. intros. unfold clamp. rewrite Rmin_left, Rmax_right; lra. Qed.
Lemma clamp_low x : x <= - Omega -> clamp x = - Omega.
Proof. pose proof Omega_gt1. intros. unfold clamp. rewrite Rmin_right, Rmax_left; lra. Qed.
Lemma clamp_opp x : clamp (- x) = - clamp x.
Proof.
  pose proof Omega_gt1. destruct (Rle_dec Omega x); [rewrite (clamp_high x), clamp_low; lra|].
  destruct (Rle_dec x (- Omega)); [rewrite (clamp_low x), clamp_high; lra|]. rewrite !clamp_id; auto; apply Rabs_le; lra.
Qed.

Lemma rnd_le x y : x <= y -> b64_round x <= b64_round y.
Proof. apply round_le; apply fexp_valid || apply valid_rnd_N. Qed.
Lemma rnd_opp x : b64_round (- x) = - b64_round x.
Proof. apply (round_NE_opp radix2 (SpecFloat.fexp 53 1024)). Qed.
Lemma rnd_id x : format x -> b64_round x = x.
Proof. apply round_generic, valid_rnd_N. Qed.
Lemma rnd_0 : b64_round 0 = 0.
Proof. apply round_0, valid_rnd_N. Qed.
Lemma rnd_1 : b64_round 1 = 1.
Proof. apply (b64_round_Z 1). lia. Qed.
Lemma format_1 : format 1.
Proof. apply (b64_format_Z 1). lia. Qed.
Lemma format_Omega : format Omega.
Proof. apply generic_format_bpow. cbv; discriminate. Qed.
Lemma format_bpow k : (-1074 <= k)%Z -> format (bpow radix2 k).
Proof. intros. apply generic_format_bpow. unfold SpecFloat.fexp, SpecFloat.emin. lia. Qed.
Lemma format_rnd x : format (b64_round x).
Proof. apply generic_format_round; apply fexp_valid || apply valid_rnd_N. Qed.
Lemma format_clamp x : format (clamp (b64_round x)).
Proof.
  destruct (Rle_dec Omega (b64_round x)); [rewrite clamp_high by auto; apply format_Omega|].
  destruct (Rle_dec (b64_round x) (- Omega)); [rewrite clamp_low by auto; apply generic_format_opp, format_Omega|].
  rewrite clamp_id by (apply Rabs_le; lra). apply format_rnd.
Qed.
Lemma rnd_ge x y : format x -> x <= y -> x <= b64_round y.
Proof. intros F H. rewrite <- (rnd_id x F). apply rnd_le. auto. Qed.
Lemma rnd_le_f x y : format y -> x <= y -> b64_round x <= y.
Proof. intros F H. rewrite <- (rnd_id y F). apply rnd_le. auto. Qed.

Lemma ext_finite a : is_finite a = true -> ext a = B2R a.
Proof. destruct a; auto; discriminate. Qed.
Lemma finite_small (a : b64) : Rabs (B2R a) < Omega.
Proof. apply abs_B2R_lt_emax. Qed.
Lemma format_ext a : format (ext a).
Proof. destruct a as [s|s| |s m e h]; try apply generic_format_B2R. destruct s; cbn; [apply generic_format_opp|]; apply format_Omega. Qed.
Lemma ext_bounds a : - Omega <= ext a <= Omega.
Proof.
  pose proof Omega_gt1. destruct (is_finite a) eqn:F.
  - rewrite ext_finite by auto. pose proof (finite_small a) as H1. apply Rabs_lt_inv in H1. lra.
  - destruct a as [s|s| |s m e h]; try discriminate; cbn -[Omega]; [destruct s|]; lra.
Qed.

(** The order of the doubles. *)
Lemma ext_order a b : is_nan a = false -> is_nan b = false -> Bleb a b = true <-> ext a <= ext b.
Proof.
  intros Na Nb. pose proof Omega_gt1 as HO. destruct (is_finite a) eqn:Fa, (is_finite b) eqn:Fb.
  - rewrite !ext_finite by auto. rewrite Bleb_correct by auto. destruct (Rle_bool_spec (B2R a) (B2R b)); split; auto; try discriminate; lra.
  - rewrite (ext_finite a) by auto. pose proof (finite_small a) as H1. apply Rabs_lt_inv in H1. destruct b as [s|s| |s m e h]; try discriminate.
    assert (Bleb a (B754_infinity s) = negb s) as -> by (destruct a as [u|u| |[] m' e' h'], s; try discriminate; reflexivity).
    change (ext (B754_infinity s)) with (if s then - Omega else Omega). destruct s; cbn [negb]; split; intros; auto; try discriminate; lra.
  - rewrite (ext_finite b) by auto. pose proof (finite_small b) as H1. apply Rabs_lt_inv in H1. destruct a as [s|s| |s m e h]; try discriminate.
    assert (Bleb (B754_infinity s) b = s) as -> by (destruct b as [u|u| |[] m' e' h'], s; try discriminate; reflexivity).
    change (ext (B754_infinity s)) with (if s then - Omega else Omega). destruct s; split; intros; auto; try discriminate; lra.
  - destruct a as [s|s| |s m e h]; try discriminate. destruct b as [s'|s'| |s' m' e' h']; try discriminate. destruct s, s'; cbn -[Omega]; split; auto; try discriminate; lra.
Qed.

Lemma overflow_inf (a : b64) s : B2SF a = binary_overflow 53 1024 mode_NE s -> a = B754_infinity s.
Proof. intros H. destruct a; cbn in H; try discriminate. injection H as ->. reflexivity. Qed.
Lemma sign_neg (a : b64) : is_nan a = false -> Bsign a = true -> ext a <= 0.
Proof.
  pose proof Omega_gt1. destruct a as [s|s| |s m e h]; cbn -[Omega]; intros N S; try discriminate; try lra.
  - rewrite S. lra.
  - rewrite S. left. apply F2R_lt_0. reflexivity.
Qed.
Lemma sign_pos (a : b64) : is_nan a = false -> Bsign a = false -> 0 <= ext a.
Proof.
  pose proof Omega_gt1. destruct a as [s|s| |s m e h]; cbn -[Omega]; intros N S; try discriminate; try lra.
  - rewrite S. lra.
  - rewrite S. left. apply F2R_gt_0. reflexivity.
Qed.
Lemma finite_not_nan (a : b64) : is_finite a = true -> is_nan a = false.
Proof. destruct a; auto; discriminate. Qed.

Lemma ext_mul a b : is_finite a = true -> is_finite b = true ->
  is_nan (b64_mul a b) = false /\ ext (b64_mul a b) = clamp (b64_round (B2R a * B2R b)).
Proof.
  intros Fa Fb. pose proof (Bmult_correct 53 1024 b64_prec b64_emax mode_NE a b) as HC. fold (b64_mul a b) in HC.
  destruct (Rlt_bool_spec (Rabs (b64_round (B2R a * B2R b))) (bpow radix2 1024)) as [L|L].
  - destruct HC as (H1 & H2 & _). rewrite Fa, Fb in H2. split; [apply finite_not_nan; auto|]. rewrite ext_finite, H1 by auto.
    symmetry. apply clamp_id. left. auto.
  - apply overflow_inf in HC. rewrite HC. split; [reflexivity|]. cbn [ext].
    assert (Sa := sign_neg a (finite_not_nan a Fa)). assert (Sa' := sign_pos a (finite_not_nan a Fa)).
    assert (Sb := sign_neg b (finite_not_nan b Fb)). assert (Sb' := sign_pos b (finite_not_nan b Fb)). rewrite !ext_finite in * by auto.
    fold Omega in L. destruct (Bsign a), (Bsign b); cbn [xorb]; symmetry;
      repeat match goal with H : true = true -> _ |- _ => specialize (H eq_refl) | H : false = false -> _ |- _ => specialize (H eq_refl) end.
    1, 4: apply clamp_high; rewrite Rabs_pos_eq in L; auto; rewrite <- rnd_0; apply rnd_le; nra.
    1, 2: apply clamp_low; rewrite Rabs_left1 in L; [lra|]; rewrite <- rnd_0; apply rnd_le; nra.
Qed.

Lemma ext_div a b : is_finite a = true -> is_finite b = true -> B2R b <> 0 ->
  is_nan (b64_div a b) = false /\ ext (b64_div a b) = clamp (b64_round (B2R a / B2R b)).
Proof.
  intros Fa Fb Nb. pose proof (Bdiv_correct 53 1024 b64_prec b64_emax mode_NE a b Nb) as HC. fold (b64_div a b) in HC.
  destruct (Rlt_bool_spec (Rabs (b64_round (B2R a / B2R b))) (bpow radix2 1024)) as [L|L].
  - destruct HC as (H1 & H2 & _). rewrite Fa in H2. split; [apply finite_not_nan; auto|]. rewrite ext_finite, H1 by auto.
    symmetry. apply clamp_id. left. auto.
  - apply overflow_inf in HC. rewrite HC. split; [reflexivity|]. cbn [ext].
    assert (Sa := sign_neg a (finite_not_nan a Fa)). assert (Sa' := sign_pos a (finite_not_nan a Fa)).
    assert (Sb := sign_neg b (finite_not_nan b Fb)). assert (Sb' := sign_pos b (finite_not_nan b Fb)). rewrite !ext_finite in * by auto.
    fold Omega in L. unfold Rdiv in *.
    assert (Ip : 0 < B2R b -> 0 < / B2R b) by apply Rinv_0_lt_compat. assert (In : B2R b < 0 -> / B2R b < 0) by apply Rinv_lt_0_compat.
    destruct (Bsign a), (Bsign b); cbn [xorb]; symmetry;
      repeat match goal with H : true = true -> _ |- _ => specialize (H eq_refl) | H : false = false -> _ |- _ => specialize (H eq_refl) end.
    1: specialize (In ltac:(lra)). 2: specialize (Ip ltac:(lra)). 3: specialize (In ltac:(lra)). 4: specialize (Ip ltac:(lra)).
    1, 4: apply clamp_high; rewrite Rabs_pos_eq in L; auto; rewrite <- rnd_0; apply rnd_le; nra.
    1, 2: apply clamp_low; rewrite Rabs_left1 in L; [lra|]; rewrite <- rnd_0; apply rnd_le; nra.
Qed.

(** ** The denominator *)
Definition den (a : R) : R := b64_round (sqrt (Rmax 0 (b64_round (1 - clamp (b64_round (a * a)))))).

Lemma one_real : is_finite (b64_ofZ 1) = true /\ B2R (b64_ofZ 1) = 1 /\ Bsign (b64_ofZ 1) = false.
Proof.
  destruct (rep_ofZ 1) as (F & R1 & _); [lia|]. repeat split; auto.
Qed.

Lemma square_nonneg a : 0 <= clamp (b64_round (a * a)).
Proof.
  pose proof Omega_gt1. rewrite <- (clamp_id 0) by (rewrite Rabs_R0; lra). apply clamp_le. rewrite <- rnd_0. apply rnd_le. nra.
Qed.

Lemma sub_one q : is_finite q = true -> 0 <= B2R q ->
  let s := b64_sub (b64_ofZ 1) q in is_finite s = true /\ B2R s = b64_round (1 - B2R q) /\ (0 <= B2R s -> Bsign s = false).
Proof.
  intros Fq Hq s. destruct one_real as (F1 & R1 & S1). pose proof (Bminus_correct 53 1024 b64_prec b64_emax mode_NE (b64_ofZ 1) q F1 Fq) as HC.
  fold (b64_sub (b64_ofZ 1) q) in HC. fold s in HC. rewrite R1 in HC. pose proof (finite_small q) as Sm. rewrite Rabs_pos_eq in Sm by auto.
  assert (Fmt : format (B2R q)) by apply generic_format_B2R.
  assert (Lo : - B2R q <= b64_round (1 - B2R q)) by (apply rnd_ge; [apply generic_format_opp; auto|lra]).
  assert (Hi : b64_round (1 - B2R q) <= 1) by (apply rnd_le_f; [apply format_1|lra]). pose proof Omega_gt1.
  rewrite Rlt_bool_true in HC by (apply Rabs_lt; fold Omega; lra). destruct HC as (H1 & H2 & H3). repeat split; auto.
  intros Hs. rewrite H3, S1. destruct (Rcompare_spec (1 - B2R q) 0) as [L|L|L]; auto. exfalso.
  assert (b64_round (1 + - B2R q) <> 0).
  { apply (round_plus_neq_0 radix2 (SpecFloat.fexp 53 1024)); auto using format_1, generic_format_opp, valid_rnd_N with typeclass_instances. lra. }
  assert (b64_round (1 - B2R q) <= 0) by (rewrite <- rnd_0; apply rnd_le; lra). unfold Rminus in *. lra.
Qed.

Lemma den_correct lib r : is_nan r = false ->
  let d := sqrt_clamp (B64Num lib) (b64_sub (b64_ofZ 1) (b64_mul r r)) in
  is_finite d = true /\ Bsign d = false /\ B2R d = den (ext r).
Proof.
  intros Nr d. assert (Z : b64_sqrt (B754_zero false) = B754_zero false) by reflexivity.
  assert (Ib : forall q, q = B754_infinity false -> sqrt_clamp (B64Num lib) (b64_sub (b64_ofZ 1) q) = B754_zero false) by (intros q ->; reflexivity).
  assert (ID : forall a, clamp (b64_round (a * a)) = Omega -> den a = 0).
  { intros a Ha. unfold den. rewrite Ha. pose proof Omega_gt1. assert (b64_round (1 - Omega) <= 0) by (rewrite <- rnd_0; apply rnd_le; lra).
    rewrite Rmax_left, sqrt_0 by lra. apply rnd_0. }
  destruct (is_finite r) eqn:Fr.
  - destruct (ext_mul r r Fr Fr) as [Nq Eq]. rewrite ext_finite in * by auto. set (q := b64_mul r r) in *.
    pose proof (square_nonneg (B2R r)) as Q0. rewrite <- Eq in Q0.
    destruct (is_finite q) eqn:Fq.
    + rewrite ext_finite in Q0, Eq by auto. destruct (sub_one q Fq Q0) as (Fs & Rs & Ss). set (s := b64_sub (b64_ofZ 1) q) in *.
      unfold den. rewrite <- Eq, <- Rs. unfold d, sqrt_clamp. cbn [nltb nzero nsqrt B64Num].
      assert (Bltb s (B754_zero false) = Rlt_bool (B2R s) 0) as -> by (rewrite Bltb_correct by auto; reflexivity).
      destruct (Rlt_bool_spec (B2R s) 0) as [L|L].
      * rewrite Z, Rmax_left, sqrt_0, rnd_0 by lra. auto.
      * destruct (sqrt_real s Fs L) as [F1 R1]. rewrite Rmax_right by auto. split; auto. split; auto.
        pose proof (Bsqrt_correct 53 1024 b64_prec b64_emax mode_NE s) as (_ & _ & C3). change (Bsqrt mode_NE s) with (b64_sqrt s) in C3.
        rewrite C3 by (apply finite_not_nan; auto). apply Ss. auto.
    + assert (Hq : q = B754_infinity false).
      { destruct q as [?|w| |? ? ? ?]; try discriminate. destruct w; auto. pose proof Omega_gt1. cbn in Q0. lra. }
      unfold d. rewrite (Ib q Hq). rewrite ID; auto. rewrite <- Eq, Hq. reflexivity.
  - destruct r as [?|w| |? ? ? ?]; try discriminate. unfold d. rewrite (Ib _) by (destruct w; reflexivity).
    rewrite ID; auto. apply clamp_high. pose proof Omega_gt1. apply rnd_ge; [apply format_Omega|]. destruct w; cbn -[Omega]; nra.
Qed.

Lemma den_even a : den (- a) = den a.
Proof. unfold den. replace (- a * - a) with (a * a) by ring. reflexivity. Qed.
Lemma den_decreasing a b : 0 <= a <= b -> den b <= den a.
Proof.
  intros H. unfold den. apply rnd_le, sqrt_le_1_alt, Rle_max_compat_l, rnd_le.
  assert (clamp (b64_round (a * a)) <= clamp (b64_round (b * b))) by (apply clamp_le, rnd_le; nra). lra.
Qed.
Lemma den_range a : 0 <= den a <= 1.
Proof.
  unfold den. split; [apply rnd_ge; [apply generic_format_0|apply sqrt_pos]|]. apply rnd_le_f; [apply format_1|]. replace 1 with (sqrt 1) at 2 by apply sqrt_1. apply sqrt_le_1_alt.
  apply Rmax_lub; [lra|]. apply rnd_le_f; [apply format_1|]. pose proof (square_nonneg a). lra.
Qed.
Lemma den_0 : den 0 = 1.
Proof. pose proof Omega_gt1. unfold den. rewrite Rmult_0_r, rnd_0, clamp_id, Rminus_0_r, rnd_1, Rmax_right, sqrt_1 by (rewrite ?Rabs_R0; lra). apply rnd_1. Qed.
Lemma den_outside a : 1 <= Rabs a -> den a = 0.
Proof.
  intros H. pose proof Omega_gt1. unfold den. assert (1 <= clamp (b64_round (a * a))).
  { rewrite <- (clamp_id 1) by (rewrite Rabs_R1; lra). apply clamp_le, rnd_ge; [apply format_1|]. rewrite <- Rabs_pos_eq by nra. rewrite Rabs_mult. nra. }
  rewrite Rmax_left, sqrt_0; [apply rnd_0|]. rewrite <- rnd_0. apply rnd_le. lra.
Qed.
Lemma below_one a : format a -> a < 1 -> a <= 1 - bpow radix2 (-53).
Proof.
  intros F H. pose proof (pred_ge_gt radix2 (SpecFloat.fexp 53 1024) a 1 F format_1 H) as P. change 1 with (bpow radix2 0) in P. rewrite pred_bpow in P.
  exact P.
Qed.
Lemma den_inside a : format a -> Rabs a < 1 -> bpow radix2 (-27) <= den a.
Proof.
  intros F H. assert (Ha : den a = den (Rabs a)) by (unfold Rabs; destruct (Rcase_abs a); auto; rewrite den_even; auto). rewrite Ha.
  apply generic_format_abs in F. set (b := Rabs a) in *. assert (B0 : 0 <= b) by apply Rabs_pos. pose proof Omega_gt1.
  pose proof (below_one b F H) as B1. pose proof (bpow_gt_0 radix2 (-53)).
  assert (Q : clamp (b64_round (b * b)) <= b) by (rewrite <- (clamp_id b) at 3 by (rewrite Rabs_pos_eq; lra); apply clamp_le, rnd_le_f; auto; nra).
  unfold den. apply rnd_ge; [apply format_bpow; lia|]. rewrite <- (sqrt_square (bpow radix2 (-27))) by apply bpow_ge_0.
  apply sqrt_le_1_alt. rewrite <- bpow_plus. eapply Rle_trans; [|apply Rmax_r]. apply rnd_ge; [apply format_bpow; lia|].
  apply Rle_trans with (bpow radix2 (-53)); [apply bpow_le; lia|lra].
Qed.

(** ** The statistic *)
Section Statistic.
  Variable c : R.
  Hypothesis c1 : 1 <= c.

  (** The value of the statistic when the square root of the number of degrees of freedom is [c] and the correlation is [a]. *)
  Definition tval (a : R) : R :=
    if Req_EM_T (den a) 0 then (if Rle_dec 0 a then Omega else - Omega) else clamp (b64_round (clamp (b64_round (c * a)) / den a)).

  Definition numer (a : R) : R := clamp (b64_round (c * a)).
  Lemma numer_odd a : numer (- a) = - numer a.
  Proof. unfold numer. rewrite <- Ropp_mult_distr_r, rnd_opp, clamp_opp. reflexivity. Qed.
  Lemma numer_le a b : a <= b -> numer a <= numer b.
  Proof. intros. apply clamp_le, rnd_le. nra. Qed.
  Lemma numer_ge a : format a -> 0 <= a <= Omega -> a <= numer a.
  Proof. intros F [H0 H1]. unfold numer. rewrite <- (clamp_id a) at 1 by (rewrite Rabs_pos_eq; auto). apply clamp_le, rnd_ge; auto. nra. Qed.

  Lemma den_zero_nonzero a : den a = 0 -> a <> 0.
  Proof. intros H ->. rewrite den_0 in H. lra. Qed.
  Lemma tval_odd a : tval (- a) = - tval a.
  Proof.
    unfold tval. rewrite den_even. destruct (Req_EM_T (den a) 0) as [Z|Z].
    - apply den_zero_nonzero in Z. destruct (Rle_dec 0 (- a)), (Rle_dec 0 a); lra.
    - fold (numer (- a)) (numer a). rewrite numer_odd. unfold Rdiv. rewrite <- Ropp_mult_distr_l, rnd_opp, clamp_opp. reflexivity.
  Qed.
  Lemma tval_bounds a : - Omega <= tval a <= Omega.
  Proof. pose proof Omega_gt1. unfold tval. destruct (Req_EM_T _ _); [destruct (Rle_dec 0 a); lra|apply clamp_bounds]. Qed.
  Lemma tval_ge a : format a -> 0 <= a <= Omega -> a <= tval a.
  Proof.
    intros F H. unfold tval. destruct (Req_EM_T _ _) as [Z|Z]; [destruct (Rle_dec 0 a); lra|]. fold (numer a).
    pose proof (numer_ge a F H). pose proof (den_range a). pose proof (clamp_bounds (b64_round (c * a))) as CB. fold (numer a) in CB.
    apply Rle_trans with (numer a); auto. rewrite <- (clamp_id (numer a)) at 1 by (apply Rabs_le; lra). apply clamp_le, rnd_ge; [apply format_clamp|].
    apply (Rmult_le_reg_r (den a)); [lra|]. unfold Rdiv. rewrite Rmult_assoc, Rinv_l by auto. nra.
  Qed.
  Lemma tval_le_pos a b : 0 <= a <= b -> tval a <= tval b.
  Proof.
    intros H. unfold tval at 2. destruct (Req_EM_T (den b) 0) as [Z|Z].
    - destruct (Rle_dec 0 b); [apply tval_bounds|lra].
    - pose proof (den_decreasing a b H). pose proof (den_range b). unfold tval. destruct (Req_EM_T (den a) 0); [lra|]. apply clamp_le, rnd_le.
      fold (numer a) (numer b). pose proof (numer_le a b ltac:(lra)). assert (0 <= numer a).
      { pose proof Omega_gt1. unfold numer. rewrite <- (clamp_id 0) by (rewrite Rabs_R0; lra). apply clamp_le. rewrite <- rnd_0. apply rnd_le. nra. }
      unfold Rdiv. apply Rmult_le_compat; auto; [left; apply Rinv_0_lt_compat; lra|]. apply Rinv_le; lra.
  Qed.
  Lemma tval_0 : tval 0 = 0.
  Proof.
    pose proof Omega_gt1. unfold tval. rewrite den_0. destruct (Req_EM_T 1 0); [lra|]. assert (C0 : clamp 0 = 0) by (apply clamp_id; rewrite Rabs_R0; lra).
    unfold Rdiv. rewrite Rmult_0_r, rnd_0, C0, Rmult_0_l, rnd_0, C0. reflexivity.
  Qed.
  Lemma tval_le a b : a <= b -> tval a <= tval b.
  Proof.
    intros H. pose proof tval_0. destruct (Rle_dec 0 a); [apply tval_le_pos; lra|]. destruct (Rle_dec 0 b).
    - apply Rle_trans with (tval 0); [|apply tval_le_pos; lra]. rewrite <- (Ropp_involutive a), tval_odd.
      pose proof (tval_le_pos 0 (- a) ltac:(lra)). lra.
    - rewrite <- (Ropp_involutive a), <- (Ropp_involutive b), !(tval_odd (- _)). pose proof (tval_le_pos (- b) (- a) ltac:(lra)). lra.
  Qed.
  Lemma tval_sign a : format a -> - Omega <= a <= Omega -> (0 < tval a <-> 0 < a) /\ (tval a < 0 <-> a < 0).
  Proof.
    intros F H. pose proof tval_0 as T0. destruct (Rtotal_order a 0) as [L|[->|L]].
    - pose proof (tval_ge (- a) (generic_format_opp _ _ _ F) ltac:(lra)) as G. rewrite tval_odd in G. split; split; lra.
    - split; split; lra.
    - pose proof (tval_ge a F ltac:(lra)). split; split; lra.
  Qed.
  Lemma tval_outside a : 1 <= Rabs a -> Rabs (tval a) = Omega.
  Proof.
    intros H. pose proof Omega_gt1. unfold tval. rewrite den_outside by auto. destruct (Req_EM_T 0 0); [|lra].
    destruct (Rle_dec 0 a); [apply Rabs_pos_eq; lra|]. rewrite Rabs_left; lra.
  Qed.
  Lemma tval_inside a : format a -> format c -> Rabs a < 1 -> c <= bpow radix2 900 -> Rabs (tval a) < Omega.
  Proof.
    intros F Fc H Hc. pose proof Omega_gt1. pose proof (den_inside a F H) as D. pose proof (bpow_gt_0 radix2 (-27)).
    unfold tval. destruct (Req_EM_T _ _); [lra|]. fold (numer a).
    assert (Nb : Rabs (numer a) <= c).
    { apply Rabs_lt_inv in H. assert (c < Omega) by (eapply Rle_lt_trans; [exact Hc|]; apply bpow_lt; lia). apply Rabs_le. split.
      - unfold numer. rewrite <- (clamp_id (- c)) by (rewrite Rabs_Ropp, Rabs_pos_eq; lra). apply clamp_le, rnd_ge; [apply generic_format_opp; auto|nra].
      - unfold numer. rewrite <- (clamp_id c) at 2 by (rewrite Rabs_pos_eq; lra). apply clamp_le, rnd_le_f; [auto|nra]. }
    set (z := numer a / den a).
    assert (Zb : Rabs z <= bpow radix2 927).
    { unfold z, Rdiv. rewrite Rabs_mult, Rabs_inv, (Rabs_pos_eq (den a)) by lra. change 927%Z with (900 + 27)%Z. rewrite bpow_plus.
      apply Rmult_le_compat; try apply Rabs_pos; [left; apply Rinv_0_lt_compat; lra|lra|].
      replace (bpow radix2 27) with (/ bpow radix2 (-27)) by (rewrite <- (bpow_opp radix2 (-27)); reflexivity). apply Rinv_le; auto. }
    assert (Rb : Rabs (b64_round z) <= bpow radix2 927) by (apply abs_round_le_generic; auto using valid_rnd_N with typeclass_instances; apply format_bpow; lia).
    assert (bpow radix2 927 < Omega) by (apply bpow_lt; lia).
    rewrite clamp_id; lra.
  Qed.
End Statistic.

(** ** The computed statistic *)
Lemma inf_mul_pos c w : is_finite c = true -> 0 < B2R c -> b64_mul c (B754_infinity w) = B754_infinity w.
Proof.
  intros F P. destruct c as [?|?| |s m e h]; try discriminate; cbn in P; try lra. destruct s; [|destruct w; reflexivity].
  assert (F2R (Float radix2 (Z.neg m) e) < 0) by (apply F2R_lt_0; reflexivity). cbn in *. lra.
Qed.
Lemma inf_div_pos d w : is_finite d = true -> 0 < B2R d -> b64_div (B754_infinity w) d = B754_infinity w.
Proof.
  intros F P. destruct d as [?|?| |s m e h]; try discriminate; cbn in P; try lra. destruct s; [|destruct w; reflexivity].
  assert (F2R (Float radix2 (Z.neg m) e) < 0) by (apply F2R_lt_0; reflexivity). cbn in *. lra.
Qed.
Lemma div_zero a d : is_nan a = false -> ext a <> 0 -> is_finite d = true -> B2R d = 0 -> Bsign d = false ->
  b64_div a d = B754_infinity (Bsign a).
Proof.
  intros Na Za Fd Zd Sd. destruct d as [s'|?| |s' m' e' h']; try discriminate.
  - cbn in Sd. subst s'. destruct a as [s|s| |s m e h]; try discriminate; cbn in *; try lra; destruct s; reflexivity.
  - exfalso. assert (is_finite_strict (B754_finite s' m' e' h' : b64) = true) by reflexivity. cbn in Zd.
    destruct s'; [assert (F2R (Float radix2 (Z.neg m') e') < 0) by (apply F2R_lt_0; reflexivity)|assert (0 < F2R (Float radix2 (Z.pos m') e')) by (apply F2R_gt_0; reflexivity)]; cbn in *; lra.
Qed.

Definition fstat (lib : flib) (c r : b64) : b64 :=
  b64_div (b64_mul c r) (sqrt_clamp (B64Num lib) (b64_sub (b64_ofZ 1) (b64_mul r r))).

Lemma fstat_nan lib c r : is_nan r = true -> is_nan (fstat lib c r) = true.
Proof. destruct r; try discriminate. intros _. unfold fstat. destruct c; reflexivity. Qed.

Lemma fstat_correct lib c r : is_finite c = true -> 1 <= B2R c -> is_nan r = false ->
  is_nan (fstat lib c r) = false /\ ext (fstat lib c r) = tval (B2R c) (ext r).
Proof.
  intros Fc C1 Nr. pose proof Omega_gt1. destruct (den_correct lib r Nr) as (Fd & Sd & Rd). unfold fstat.
  set (d := sqrt_clamp (B64Num lib) (b64_sub (b64_ofZ 1) (b64_mul r r))) in *. set (num := b64_mul c r).
  assert (Hnum : is_nan num = false /\ ext num = numer (B2R c) (ext r)).
  { destruct (is_finite r) eqn:Fr.
    - rewrite (ext_finite r) by auto. apply ext_mul; auto.
    - destruct r as [?|w| |? ? ? ?]; try discriminate. unfold num. rewrite inf_mul_pos by (auto; lra). split; auto. unfold numer. cbn [ext].
      assert (G : Omega <= b64_round (B2R c * Omega)) by (apply rnd_ge; [apply format_Omega|nra]).
      destruct w; [|symmetry; apply clamp_high; auto]. rewrite <- Ropp_mult_distr_r, rnd_opp. symmetry. apply clamp_low. lra. }
  destruct Hnum as [Nn En]. pose proof (ext_bounds r) as Br. pose proof (format_ext r) as Fmt. unfold tval. rewrite <- Rd.
  assert (Snum : (0 < ext r -> 0 < ext num) /\ (ext r < 0 -> ext num < 0)).
  { rewrite En. split; intros Hr.
    - pose proof (numer_ge (B2R c) C1 (ext r) Fmt ltac:(lra)). lra.
    - pose proof (numer_ge (B2R c) C1 (- ext r) (generic_format_opp _ _ _ Fmt) ltac:(lra)) as G. rewrite numer_odd in G. lra. }
  destruct (Req_EM_T (B2R d) 0) as [Z|Z].
  - assert (Zr : ext r <> 0) by (apply den_zero_nonzero; congruence).
    rewrite div_zero; auto; [|lra]. split; auto. cbn [ext]. pose proof (sign_neg num Nn). pose proof (sign_pos num Nn).
    destruct (Bsign num), (Rle_dec 0 (ext r)); auto; exfalso; [specialize (H0 eq_refl)|specialize (H1 eq_refl)]; lra.
  - pose proof (den_range (ext r)) as DR. rewrite <- Rd in DR. fold (numer (B2R c) (ext r)). rewrite <- En.
    destruct (is_finite num) eqn:Fn.
    + rewrite (ext_finite num) by auto. apply ext_div; auto.
    + destruct num as [?|w| |? ? ? ?]; try discriminate. rewrite inf_div_pos by (auto; lra). split; auto. cbn [ext].
      assert (G : Omega <= b64_round (Omega / B2R d)).
      { apply rnd_ge; [apply format_Omega|]. apply (Rmult_le_reg_r (B2R d)); [lra|]. unfold Rdiv. rewrite Rmult_assoc, Rinv_l by auto. nra. }
      destruct w; [|symmetry; apply clamp_high; auto]. unfold Rdiv in *. rewrite <- Ropp_mult_distr_l, rnd_opp. symmetry. apply clamp_low. lra.
Qed.

Lemma finite_ext a : is_nan a = false -> is_finite a = true <-> Rabs (ext a) < Omega.
Proof.
  intros N. pose proof Omega_gt1. split; intros F.
  - rewrite ext_finite by auto. apply finite_small.
  - destruct a as [s|s| |s m e h]; auto; try discriminate. exfalso. cbn [ext] in F. destruct s; [rewrite Rabs_left in F; lra|rewrite Rabs_pos_eq in F; lra].
Qed.
