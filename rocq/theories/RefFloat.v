(** Exactness of double precision arithmetic on integers of magnitude at most 2^53. *)
From Coq Require Import Reals Lra Lia List Arith Bool ZArith Psatz.
From Flocq Require Import Core IEEE754.BinarySingleNaN.
From Verif Require Import Num Numpy MFloat.
Import ListNotations.

Notation b64_round := (round radix2 (SpecFloat.fexp 53 1024) (round_mode mode_NE)).

Global Instance b64_fexp_valid : Valid_exp (SpecFloat.fexp 53 1024).
Proof. apply (fexp_correct 53 1024 b64_prec). Qed.

Lemma b64_format_Z z : (Z.abs z <= 2 ^ 53)%Z -> generic_format radix2 (SpecFloat.fexp 53 1024) (IZR z).
Proof.
  intros Hz. destruct (Z.eq_dec (Z.abs z) (2 ^ 53)) as [He|Hne].
  - assert (exists s : Z, z = (s * 2 ^ 53)%Z /\ (s = 1 \/ s = -1)%Z) as (s & -> & Hs).
    { destruct (Z.abs_eq_or_opp z) as [H|H]; [exists 1%Z|exists (-1)%Z]; lia. }
    assert (IZR (s * 2 ^ 53) = F2R (Float radix2 s 53)) as ->.
    { unfold F2R; cbn [Fnum Fexp]. rewrite mult_IZR. f_equal. }
    apply (generic_format_FLT radix2 (3 - 1024 - 53) 53). exists (Float radix2 s 53); cbn [Fnum Fexp]; try lia.
    + reflexivity.
    + destruct Hs as [-> | ->]; reflexivity.
  - apply (generic_format_FLT radix2 (3 - 1024 - 53) 53). exists (Float radix2 z 0); cbn [Fnum Fexp]; try lia.
    + unfold F2R; cbn [Fnum Fexp]. rewrite Rmult_1_r. reflexivity.
    + change (Zpower radix2 53) with (2 ^ 53)%Z. lia.
Qed.

Lemma b64_round_Z z : (Z.abs z <= 2 ^ 53)%Z -> b64_round (IZR z) = IZR z.
Proof. intros. apply round_generic; [apply valid_rnd_N|]. apply b64_format_Z. auto. Qed.

Lemma b64_small z : (Z.abs z <= 2 ^ 53)%Z -> Rlt_bool (Rabs (b64_round (IZR z))) (bpow radix2 1024) = true.
Proof.
  intros Hz. rewrite b64_round_Z by auto. apply Rlt_bool_true. rewrite <- abs_IZR.
  apply (Rle_lt_trans _ (IZR (2 ^ 53))); [apply IZR_le; auto|].
  change (IZR (2 ^ 53)) with (bpow radix2 53). apply bpow_lt. lia.
Qed.

(** The double [a] is the integer [z], of magnitude at most [K]. *)
Definition rep (K : Z) (a : b64) (z : Z) : Prop := is_finite a = true /\ B2R a = IZR z /\ (Z.abs z <= K)%Z.

(** Not the negative zero. *)
Definition nnz (a : b64) : Prop := B2R a = 0%R -> Bsign a = false.

Lemma rep_weaken K L a z : rep K a z -> (K <= L)%Z -> rep L a z.
Proof. intros (H1 & H2 & H3) H. repeat split; auto. lia. Qed.

Lemma rep_eq K L a b z : rep K a z -> rep L b z -> nnz a -> nnz b -> a = b.
Proof.
  intros (Fa & Ra & _) (Fb & Rb & _) Na Nb. apply B2R_Bsign_inj; auto; [congruence|].
  destruct (Req_dec (IZR z) 0) as [H0|H0].
  - rewrite Na, Nb; auto; congruence.
  - assert (S : forall a : b64, is_finite a = true -> B2R a = IZR z -> Bsign a = Rlt_bool (IZR z) 0).
    { clear - H0. intros a Fa Ra. destruct a as [s|s| |s m e He]; try discriminate; cbn in *.
      - congruence.
      - rewrite <- Ra. destruct s; symmetry; [apply Rlt_bool_true, F2R_lt_0 | apply Rlt_bool_false, F2R_ge_0]; cbn; lia. }
    rewrite (S a), (S b); auto.
Qed.

Lemma rep_ofZ z : (Z.abs z <= 2 ^ 53)%Z -> rep (Z.abs z) (b64_ofZ z) z.
Proof.
  intros Hz. pose proof (binary_normalize_correct 53 1024 b64_prec b64_emax mode_NE z 0 false) as H. cbv zeta in H.
  assert (F2R (Float radix2 z 0) = IZR z) as E by (unfold F2R; cbn [Fnum Fexp]; apply Rmult_1_r).
  rewrite E, b64_small in H by auto. destruct H as (H1 & H2 & H3). rewrite b64_round_Z in H1 by auto.
  repeat split; auto; lia.
Qed.
Lemma rep_zero : rep 0 (B754_zero false) 0.
Proof. repeat split; cbn; lia. Qed.
Lemma nnz_zero : nnz (B754_zero false).
Proof. intros _. reflexivity. Qed.

Lemma rep_add K L a b x y : rep K a x -> rep L b y -> (K + L <= 2 ^ 53)%Z -> rep (K + L) (b64_add a b) (x + y).
Proof.
  intros (Fa & Ra & Ka) (Fb & Rb & Kb) HK.
  pose proof (Bplus_correct 53 1024 b64_prec b64_emax mode_NE a b Fa Fb) as H.
  assert (Hz : (Z.abs (x + y) <= 2 ^ 53)%Z) by lia.
  rewrite Ra, Rb, <- plus_IZR, b64_small in H by auto. destruct H as (H1 & H2 & _).
  rewrite b64_round_Z in H1 by auto. repeat split; auto. lia.
Qed.
Lemma nnz_add K L a b x y : rep K a x -> rep L b y -> (K + L <= 2 ^ 53)%Z -> nnz a -> nnz (b64_add a b).
Proof.
  intros HA HB HK Na H0. pose proof (rep_add _ _ _ _ _ _ HA HB HK) as (_ & R0 & _).
  destruct HA as (Fa & Ra & Ka), HB as (Fb & Rb & Kb).
  pose proof (Bplus_correct 53 1024 b64_prec b64_emax mode_NE a b Fa Fb) as H.
  assert (Hz : (Z.abs (x + y) <= 2 ^ 53)%Z) by lia.
  rewrite Ra, Rb, <- plus_IZR, b64_small in H by auto. destruct H as (_ & _ & H3).
  fold (b64_add a b) in H3. rewrite H3. rewrite R0 in H0. rewrite H0. rewrite Rcompare_Eq by reflexivity.
  destruct (Bsign a) eqn:Sa; [|reflexivity]. cbn.
  destruct (Req_dec (B2R a) 0) as [Ha|Ha]; [rewrite Na in Sa; auto; discriminate|].
  (* a < 0, so b > 0 *)
  apply eq_IZR in H0. assert (y = - x)%Z by lia. subst y.
  destruct a as [s|s| |s m e He]; try discriminate; [exfalso; apply Ha; reflexivity|]. cbn in Sa, Ra. subst s.
  assert (IZR x < 0)%R by (rewrite <- Ra; apply F2R_lt_0; cbn; lia).
  destruct b as [t|t| |t m' e' He']; try discriminate; cbn [Bsign B2R] in *.
  - exfalso. rewrite opp_IZR in Rb. lra.
  - destruct t; auto. exfalso. rewrite opp_IZR in Rb. assert (F2R (Float radix2 (cond_Zopp true (Zpos m')) e') < 0)%R by (apply F2R_lt_0; cbn; lia). lra.
Qed.

Lemma rep_sub K L a b x y : rep K a x -> rep L b y -> (K + L <= 2 ^ 53)%Z -> rep (K + L) (b64_sub a b) (x - y).
Proof.
  intros (Fa & Ra & Ka) (Fb & Rb & Kb) HK.
  pose proof (Bminus_correct 53 1024 b64_prec b64_emax mode_NE a b Fa Fb) as H.
  assert (Hz : (Z.abs (x - y) <= 2 ^ 53)%Z) by lia.
  rewrite Ra, Rb, <- minus_IZR, b64_small in H by auto. destruct H as (H1 & H2 & _).
  rewrite b64_round_Z in H1 by auto. repeat split; auto. lia.
Qed.
Lemma sign_of_rep K a x : rep K a x -> x <> 0%Z -> Bsign a = (x <? 0)%Z.
Proof.
  intros (Fa & Ra & _) Hx. destruct a as [s|s| |s m e He]; try discriminate; cbn in *.
  - symmetry in Ra. apply eq_IZR in Ra. congruence.
  - destruct s; symmetry; [apply Z.ltb_lt, lt_IZR | apply Z.ltb_ge, le_IZR]; rewrite <- Ra; [apply F2R_lt_0 | apply F2R_ge_0]; cbn; lia.
Qed.
Lemma nnz_sub K L a b x y : rep K a x -> rep L b y -> (K + L <= 2 ^ 53)%Z -> nnz a -> nnz (b64_sub a b).
Proof.
  intros HA HB HK Na H0. pose proof (rep_sub _ _ _ _ _ _ HA HB HK) as (_ & R0 & _).
  pose proof (sign_of_rep _ _ _ HA) as SA. pose proof (sign_of_rep _ _ _ HB) as SB.
  destruct HA as (Fa & Ra & Ka), HB as (Fb & Rb & Kb).
  pose proof (Bminus_correct 53 1024 b64_prec b64_emax mode_NE a b Fa Fb) as H.
  assert (Hz : (Z.abs (x - y) <= 2 ^ 53)%Z) by lia.
  rewrite Ra, Rb, <- minus_IZR, b64_small in H by auto. destruct H as (_ & _ & H3).
  fold (b64_sub a b) in H3. rewrite H3. rewrite R0 in H0. rewrite H0. rewrite Rcompare_Eq by reflexivity.
  apply eq_IZR in H0. assert (y = x) by lia. subst y.
  destruct (Z.eq_dec x 0) as [->|Hx]; [rewrite Na by auto; reflexivity|].
  rewrite SA, SB by auto. destruct (x <? 0)%Z; reflexivity.
Qed.

Lemma rep_mul K L a b x y : rep K a x -> rep L b y -> (K * L <= 2 ^ 53)%Z -> rep (K * L) (b64_mul a b) (x * y).
Proof.
  intros (Fa & Ra & Ka) (Fb & Rb & Kb) HK.
  pose proof (Bmult_correct 53 1024 b64_prec b64_emax mode_NE a b) as H.
  assert (Hk : (Z.abs (x * y) <= K * L)%Z) by (rewrite Z.abs_mul; apply Z.mul_le_mono_nonneg; lia).
  assert (Hz : (Z.abs (x * y) <= 2 ^ 53)%Z) by lia.
  rewrite Ra, Rb, <- mult_IZR, b64_small in H by auto. destruct H as (H1 & H2 & _).
  rewrite b64_round_Z in H1 by auto. rewrite Fa, Fb in H2. repeat split; auto.
Qed.
Lemma nnz_mul_sign K L a b x y : rep K a x -> rep L b y -> (K * L <= 2 ^ 53)%Z -> Bsign a = Bsign b -> nnz (b64_mul a b).
Proof.
  intros (Fa & Ra & Ka) (Fb & Rb & Kb) HK HS _.
  pose proof (Bmult_correct 53 1024 b64_prec b64_emax mode_NE a b) as H.
  assert (Hz : (Z.abs (x * y) <= 2 ^ 53)%Z) by (eapply Z.le_trans; [|exact HK]; rewrite Z.abs_mul; apply Z.mul_le_mono_nonneg; lia).
  rewrite Ra, Rb, <- mult_IZR, b64_small in H by auto. destruct H as (_ & H2 & H3).
  unfold b64_mul. rewrite H3; [rewrite HS; apply xorb_nilpotent|].
  rewrite Fa, Fb in H2. destruct (Bmult mode_NE a b); auto; discriminate.
Qed.
(** a positive integer times a number that is not the negative zero *)
Lemma nnz_mul_pos K L a b x y : rep K a x -> rep L b y -> (K * L <= 2 ^ 53)%Z -> (0 < x)%Z -> nnz b -> nnz (b64_mul a b).
Proof.
  intros HA HB HK Hx Nb H0. pose proof (rep_mul _ _ _ _ _ _ HA HB HK) as (_ & R0 & _). rewrite R0 in H0. apply eq_IZR in H0.
  assert (y = 0)%Z by nia. subst y. apply (nnz_mul_sign K L a b x 0); auto.
  - rewrite (sign_of_rep _ _ _ HA) by lia. rewrite Nb by apply HB. apply Z.ltb_ge. lia.
  - rewrite R0, H0. reflexivity.
Qed.

Lemma rep_sqrt K a x : rep K a (x * x) -> (0 <= x)%Z -> (x <= 2 ^ 53)%Z -> rep x (b64_sqrt a) x.
Proof.
  intros (Fa & Ra & Ka) Hx HK.
  pose proof (Bsqrt_correct 53 1024 b64_prec b64_emax mode_NE a) as (H1 & H2 & _).
  assert (sqrt (B2R a) = IZR x) as E by (rewrite Ra, mult_IZR; apply sqrt_square, IZR_le; auto).
  rewrite E, b64_round_Z in H1 by lia. repeat split; auto; [|lia].
  unfold b64_sqrt. rewrite H2. destruct a as [s|s| |s m e He]; try discriminate; auto.
  destruct s; auto. exfalso. cbn in Ra. assert (F2R (Float radix2 (Zneg m) e) < 0)%R by (apply F2R_lt_0; cbn; lia).
  rewrite Ra, mult_IZR in H. assert (0 <= IZR x)%R by (apply IZR_le; auto). nra.
Qed.
Lemma nnz_sqrt a : nnz a -> nnz (b64_sqrt a).
Proof.
  intros Na H. destruct a as [s|[]| |[] m e He]; try (cbn; reflexivity).
  - cbn. apply Na. reflexivity.
  - pose proof (Bsqrt_correct 53 1024 b64_prec b64_emax mode_NE (B754_finite false m e He)) as (_ & H2 & H3).
    unfold b64_sqrt. rewrite H3; [reflexivity|]. destruct (Bsqrt _ _); auto; discriminate.
Qed.

Lemma rep_le K L a b x y : rep K a x -> rep L b y -> Bleb a b = (x <=? y)%Z.
Proof.
  intros (Fa & Ra & _) (Fb & Rb & _). rewrite Bleb_correct, Ra, Rb by auto.
  destruct (Z.leb_spec x y); [apply Rle_bool_true, IZR_le; auto | apply Rle_bool_false, IZR_lt; auto].
Qed.
Lemma rep_eqb K L a b x y : rep K a x -> rep L b y -> Beqb a b = (x =? y)%Z.
Proof.
  intros (Fa & Ra & _) (Fb & Rb & _). rewrite Beqb_correct, Ra, Rb by auto.
  destruct (Z.eqb_spec x y); [apply Req_bool_true; congruence | apply Req_bool_false; intros H; apply eq_IZR in H; auto].
Qed.
