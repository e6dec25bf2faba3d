(** The distance correlation t-test in double precision: C73. *)
From Coq Require Import Reals Lra Lia List Arith Bool ZArith Psatz.
From Flocq Require Import Core Relative Plus_error IEEE754.BinarySingleNaN.
From Verif Require Import Num Numpy MUtils MDistances MInternals MDcor MHypothesis MIndependence MFloat Sums Spec Tab Samples Api RefDist RefDcor RefFloat FloatError FloatApi FloatCorr FloatCorr2
  FloatTStat FloatEnv PTTest PFloat PFloatCorr.
Import ListNotations.
Local Open Scope R_scope.

(** The bias-corrected distance correlation that the library computes. *)
Definition fbcdcor (E : Env b64) (x y : array b64) : res b64 := outcome (u_distance_correlation_sqr E x y (b64_ofZ 1) (MethodEnum MAuto) CAuto).

Lemma Ok_inj {A} (a b : A) : Ok a = Ok b -> a = b.
Proof. congruence. Qed.

(** The square root of v - 1. *)
Definition root_df (n : nat) : b64 := b64_sqrt (b64_sub (b64_div (b64_ofZ (Z.of_nat n * (Z.of_nat n - 3))) (b64_ofZ 2)) (b64_ofZ 1)).

Lemma t_statistic_float lib E x y r : e_num E = B64Num lib -> fbcdcor E x y = Ok r ->
  outcome (distance_correlation_t_statistic E x y) = Ok (fstat lib (root_df (shape0 x)) r).
Proof.
  intros EN Hr. unfold fbcdcor in Hr. unfold distance_correlation_t_statistic. rewrite EN at 1. change (nunit (B64Num lib)) with (b64_ofZ 1).
  rewrite outcome_bind, Hr. cbv zeta. unfold t_v. rewrite EN. reflexivity.
Qed.

Lemma ofZ_range z lo hi : (0 <= lo)%Z -> (lo <= 2 ^ 53)%Z -> (lo <= z)%Z -> IZR z <= bpow radix2 hi -> (0 <= hi < 1024)%Z ->
  is_finite (b64_ofZ z) = true /\ B2R (b64_ofZ z) = b64_round (IZR z) /\ IZR lo <= B2R (b64_ofZ z) <= bpow radix2 hi.
Proof.
  intros L0 L1 L H Hh. pose proof (binary_normalize_correct 53 1024 b64_prec b64_emax mode_NE z 0 false) as HC. cbv zeta in HC.
  assert (F2R (Float radix2 z 0) = IZR z) as Ez by (unfold F2R; cbn; ring). rewrite Ez in HC. fold (b64_ofZ z) in HC.
  assert (B1 : IZR lo <= b64_round (IZR z)) by (apply rnd_ge; [apply b64_format_Z; lia|apply IZR_le; auto]).
  assert (B2 : b64_round (IZR z) <= bpow radix2 hi) by (apply rnd_le_f; [apply format_bpow; lia|auto]).
  apply IZR_le in L0. rewrite Rlt_bool_true in HC.
  - destruct HC as (H1 & H2 & _). rewrite H1. auto.
  - rewrite Rabs_pos_eq by lra. eapply Rle_lt_trans; [exact B2|]. apply bpow_lt. lia.
Qed.

Lemma root_df_range n : (4 <= n)%nat -> (Z.of_nat n <= 2 ^ 100)%Z ->
  is_finite (root_df n) = true /\ 1 <= B2R (root_df n) <= bpow radix2 200.
Proof.
  intros Hn Hb. unfold root_df. set (z := (Z.of_nat n * (Z.of_nat n - 3))%Z).
  assert (Hz : (4 <= z <= 2 ^ 200)%Z).
  { unfold z. change (2 ^ 200)%Z with (2 ^ 100 * 2 ^ 100)%Z. nia. }
  destruct (ofZ_range z 4 200) as (F & _ & B); try lia; [change (bpow radix2 200) with (IZR (2 ^ 200)); apply IZR_le; lia|].
  destruct (rep_ofZ 2) as (F2 & R2 & _); [lia|]. destruct (rep_ofZ 1) as (F1 & R1 & _); [lia|].
  set (a := b64_ofZ z) in *. clearbody a. set (two := b64_ofZ 2) in *. set (one := b64_ofZ 1) in *.
  assert (Q : 2 <= b64_round (B2R a / B2R two) <= bpow radix2 200).
  { rewrite R2. split; [apply rnd_ge; [apply (b64_format_Z 2); lia|lra]|]. apply rnd_le_f; [apply format_bpow; lia|]. pose proof (bpow_ge_0 radix2 200). lra. }
  assert (P : bpow radix2 200 < bpow radix2 1024) by (apply bpow_lt; lia).
  destruct (div_real a two) as [Fq Rq]; auto; [rewrite R2; lra|rewrite Rabs_pos_eq; lra|]. rewrite <- Rq in Q. set (q := b64_div a two) in *. clearbody q.
  pose proof (Bminus_correct 53 1024 b64_prec b64_emax mode_NE q one Fq F1) as HC. fold (b64_sub q one) in HC. rewrite R1 in HC.
  assert (S : 1 <= b64_round (B2R q - 1) <= bpow radix2 200).
  { split; [apply rnd_ge; [apply format_1|lra]|]. apply rnd_le_f; [apply format_bpow; lia|lra]. }
  rewrite Rlt_bool_true in HC by (rewrite Rabs_pos_eq; lra). destruct HC as (H1 & H2 & _). rewrite <- H1 in S. set (s := b64_sub q one) in *. clearbody s.
  destruct (sqrt_real s H2) as [Fr Rr]; [lra|]. split; auto. rewrite Rr. split.
  - apply rnd_ge; [apply format_1|]. rewrite <- sqrt_1. apply sqrt_le_1_alt. lra.
  - apply rnd_le_f; [apply format_bpow; lia|]. rewrite <- (sqrt_square (bpow radix2 200)) by apply bpow_ge_0. apply sqrt_le_1_alt.
    assert (1 <= bpow radix2 200) by (change 1 with (bpow radix2 0); apply bpow_le; lia). nra.
Qed.

(** The sizes considered: no rounding to infinity in n (n - 3) / 2. *)
Definition size_ok (n : nat) : Prop := (4 <= n)%nat /\ (Z.of_nat n <= 2 ^ 100)%Z.

Definition fzero : b64 := B754_zero false.

Lemma ltb_zero a : is_nan a = false -> (Bltb fzero a = true <-> 0 < ext a) /\ (Bltb a fzero = true <-> ext a < 0).
Proof.
  intros N. pose proof Omega_gt1. destruct (is_finite a) eqn:F.
  - rewrite ext_finite by auto. rewrite !Bltb_correct by auto. cbn [B2R fzero].
    destruct (Rlt_bool_spec 0 (B2R a)), (Rlt_bool_spec (B2R a) 0); repeat split; auto; try discriminate; lra.
  - destruct a as [s|s| |s m e h]; try discriminate. destruct s; cbn; repeat split; auto; try discriminate; lra.
Qed.

Lemma abs_one a : is_nan a = false -> Bltb (Babs a) (b64_ofZ 1) = true <-> Rabs (ext a) < 1.
Proof.
  intros N. pose proof Omega_gt1. destruct one_real as (F1 & R1 & _). destruct (is_finite a) eqn:F.
  - rewrite ext_finite by auto. rewrite Bltb_correct by (auto; destruct a; auto). rewrite B2R_Babs, R1.
    destruct (Rlt_bool_spec (Rabs (B2R a)) 1); split; auto; try discriminate; lra.
  - destruct a as [s|s| |s m e h]; try discriminate. split; [intros D; discriminate D|]. cbn [ext]. destruct s; [rewrite Rabs_left by lra|rewrite Rabs_pos_eq by lra]; lra.
Qed.

(** The statistic exists whenever the correlation does, and is NaN only if the correlation is. *)
Theorem C73_never_nan lib E x y r : e_num E = B64Num lib -> size_ok (shape0 x) -> fbcdcor E x y = Ok r ->
  exists t, outcome (distance_correlation_t_statistic E x y) = Ok t /\ is_nan t = is_nan r.
Proof.
  intros EN [Hn Hb] Hr. eexists. split; [apply t_statistic_float; eauto|]. destruct (root_df_range (shape0 x) Hn Hb) as [Fc [C1 _]].
  destruct (is_nan r) eqn:N; [apply fstat_nan; auto|]. apply fstat_correct; auto.
Qed.

(** It is finite exactly if the correlation is strictly between -1 and 1 (rounding can push a correlation beyond 1). *)
Theorem C73_finite lib E x y r t : e_num E = B64Num lib -> size_ok (shape0 x) -> fbcdcor E x y = Ok r -> is_nan r = false ->
  outcome (distance_correlation_t_statistic E x y) = Ok t ->
  is_finite t = Bltb (Babs r) (b64_ofZ 1).
Proof.
  intros EN [Hn Hb] Hr Nr Ht. rewrite (t_statistic_float lib E x y r) in Ht by auto. injection Ht as <-. destruct (root_df_range (shape0 x) Hn Hb) as [Fc [C1 C2]].
  destruct (fstat_correct lib _ r Fc C1 Nr) as [Nt Et]. apply eq_true_iff_eq. rewrite finite_ext, abs_one by auto. rewrite Et. split; intros H.
  - apply Rnot_le_lt. intros L. rewrite (tval_outside (B2R (root_df (shape0 x)))) in H by auto. lra.
  - apply tval_inside; auto using format_ext; [apply generic_format_B2R|]. eapply Rle_trans; [exact C2|]. apply bpow_le. lia.
Qed.

(** It has the sign of the correlation. *)
Theorem C73_sign lib E x y r t : e_num E = B64Num lib -> size_ok (shape0 x) -> fbcdcor E x y = Ok r -> is_nan r = false ->
  outcome (distance_correlation_t_statistic E x y) = Ok t ->
  Bltb fzero t = Bltb fzero r /\ Bltb t fzero = Bltb r fzero.
Proof.
  intros EN [Hn Hb] Hr Nr Ht. rewrite (t_statistic_float lib E x y r) in Ht by auto. injection Ht as <-. destruct (root_df_range (shape0 x) Hn Hb) as [Fc [C1 C2]].
  destruct (fstat_correct lib _ r Fc C1 Nr) as [Nt Et]. destruct (tval_sign _ C1 (ext r) (format_ext r) (ext_bounds r)) as [S1 S2]. rewrite <- Et in S1, S2.
  destruct (ltb_zero r Nr) as [Z1 Z2]. destruct (ltb_zero _ Nt) as [Z3 Z4]. split; apply eq_true_iff_eq; [rewrite Z3, Z1|rewrite Z4, Z2]; auto.
Qed.

(** On samples of the same size it does not decrease when the correlation increases. *)
Theorem C73_increasing lib E x y x' y' r r' t t' : e_num E = B64Num lib -> shape0 x' = shape0 x -> size_ok (shape0 x) ->
  fbcdcor E x y = Ok r -> fbcdcor E x' y' = Ok r' -> Bleb r r' = true ->
  outcome (distance_correlation_t_statistic E x y) = Ok t -> outcome (distance_correlation_t_statistic E x' y') = Ok t' ->
  Bleb t t' = true.
Proof.
  intros EN Hs [Hn Hb] Hr Hr' L Ht Ht'. rewrite (t_statistic_float lib E x y r) in Ht by auto. rewrite (t_statistic_float lib E x' y' r'), Hs in Ht' by auto.
  injection Ht as <-. injection Ht' as <-. destruct (root_df_range (shape0 x) Hn Hb) as [Fc [C1 C2]].
  assert (N : is_nan r = false /\ is_nan r' = false) by (destruct r, r'; try discriminate L; auto). destruct N as [N N'].
  destruct (fstat_correct lib _ r Fc C1 N) as [Nt Et]. destruct (fstat_correct lib _ r' Fc C1 N') as [Nt' Et'].
  apply ext_order; auto. rewrite Et, Et'. apply tval_le; auto. apply ext_order; auto.
Qed.

(** What is used of scipy's [t.cdf] on doubles: a number in [0, 1], not decreasing, 1 at plus infinity. *)
Definition cdf_contract_float (E : Env b64) : Prop := forall df, Bltb fzero df = true ->
  (forall t, is_nan t = false -> is_finite (e_tcdf E t df) = true /\ 0 <= B2R (e_tcdf E t df) <= 1) /\
  (forall t t', Bleb t t' = true -> B2R (e_tcdf E t df) <= B2R (e_tcdf E t' df)) /\
  B2R (e_tcdf E (B754_infinity false) df) = 1.

Definition degrees (n : nat) : b64 := b64_sub (b64_div (b64_ofZ (Z.of_nat n * (Z.of_nat n - 3))) (b64_ofZ 2)) (b64_ofZ 1).

Lemma degrees_pos n : size_ok n -> Bltb fzero (degrees n) = true.
Proof.
  intros [Hn Hb]. destruct (root_df_range n Hn Hb) as [F [C1 _]]. change (root_df n) with (b64_sqrt (degrees n)) in *.
  destruct (Bltb fzero (degrees n)) eqn:L; auto. exfalso.
  pose proof (Bsqrt_correct 53 1024 b64_prec b64_emax mode_NE (degrees n)) as (R1 & F1 & _). change (Bsqrt mode_NE (degrees n)) with (b64_sqrt (degrees n)) in *.
  rewrite F in F1. destruct (degrees n) as [s|s| |s m e h]; try discriminate; [cbn in C1; lra|]. destruct s; [discriminate|]. discriminate.
Qed.

Lemma t_test_float lib E x y r : e_num E = B64Num lib -> fbcdcor E x y = Ok r ->
  let t := fstat lib (root_df (shape0 x)) r in
  outcome (distance_correlation_t_test E x y) = Ok (mkTest (b64_sub (b64_ofZ 1) (e_tcdf E t (degrees (shape0 x)))) t).
Proof.
  intros EN Hr t. unfold distance_correlation_t_test. rewrite outcome_bind, (t_statistic_float lib E x y r EN Hr). cbv zeta. unfold t_v. rewrite EN. reflexivity.
Qed.

(** The p-value is a number in [0, 1], and 0 when the correlation is at least 1. *)
Theorem C73_p_value lib E x y r : e_num E = B64Num lib -> cdf_contract_float E -> size_ok (shape0 x) -> fbcdcor E x y = Ok r -> is_nan r = false ->
  exists p t, outcome (distance_correlation_t_test E x y) = Ok (mkTest p t) /\ outcome (distance_correlation_t_statistic E x y) = Ok t /\
    is_finite p = true /\ 0 <= B2R p <= 1 /\ (Bleb (b64_ofZ 1) r = true -> B2R p = 0).
Proof.
  intros EN Hc Hs Hr Nr. pose proof (t_test_float lib E x y r EN Hr) as Ht. cbv zeta in Ht. pose proof (t_statistic_float lib E x y r EN Hr) as Ht'.
  destruct (root_df_range (shape0 x) (proj1 Hs) (proj2 Hs)) as [Fc [C1 C2]]. destruct (fstat_correct lib _ r Fc C1 Nr) as [Nt Et].
  set (t := fstat lib (root_df (shape0 x)) r) in *. eexists. exists t. split; [exact Ht|]. split; [exact Ht'|].
  destruct (Hc _ (degrees_pos _ Hs)) as (Hd & Hm & Hi). destruct (Hd t Nt) as [Fq Bq]. destruct (sub_one _ Fq ltac:(lra)) as (Fp & Rp & _). split; auto. rewrite Rp. split.
  - split; [apply rnd_ge; [apply generic_format_0|lra]|apply rnd_le_f; [apply format_1|lra]].
  - intros L. destruct one_real as (F1 & R1 & _). apply ext_order in L; auto using finite_not_nan. rewrite (ext_finite (b64_ofZ 1)), R1 in L by auto.
    assert (t = B754_infinity false) as ->.
    { assert (ext t = Omega) as T. { pose proof (tval_outside (B2R (root_df (shape0 x))) (ext r)) as T. rewrite Rabs_pos_eq in T by lra. specialize (T L). rewrite <- Et in T.
        destruct (tval_sign _ C1 (ext r) (format_ext r) (ext_bounds r)) as [[_ S1] _]. specialize (S1 ltac:(lra)). rewrite <- Et in S1. rewrite Rabs_pos_eq in T; lra. }
      pose proof Omega_gt1. pose proof (finite_small t). destruct t as [s|s| |s m e h]; try discriminate.
      - cbn in T. lra.
      - destruct s; auto. cbn in T. lra.
      - cbn [ext] in T. rewrite T, Rabs_pos_eq in H0; lra. }
    rewrite Hi. replace (1 - 1) with 0 by ring. apply rnd_0.
Qed.

(** It does not increase when the correlation increases. *)
Theorem C73_p_decreasing lib E x y x' y' r r' u u' : e_num E = B64Num lib -> cdf_contract_float E -> shape0 x' = shape0 x -> size_ok (shape0 x) ->
  fbcdcor E x y = Ok r -> fbcdcor E x' y' = Ok r' -> Bleb r r' = true ->
  outcome (distance_correlation_t_test E x y) = Ok u -> outcome (distance_correlation_t_test E x' y') = Ok u' ->
  B2R (pvalue u') <= B2R (pvalue u).
Proof.
  intros EN Hc Hs Hz Hr Hr' L Hu Hu'.
  assert (N : is_nan r = false /\ is_nan r' = false) by (destruct r, r'; try discriminate L; auto). destruct N as [N N'].
  pose proof (C73_increasing lib E x y x' y' r r' _ _ EN Hs Hz Hr Hr' L (t_statistic_float lib E x y r EN Hr) (t_statistic_float lib E x' y' r' EN Hr')) as M.
  destruct (root_df_range (shape0 x) (proj1 Hz) (proj2 Hz)) as [Fc [C1 C2]]. destruct (fstat_correct lib _ r Fc C1 N) as [Nt _]. destruct (fstat_correct lib _ r' Fc C1 N') as [Nt' _].
  rewrite (t_test_float lib E x y r EN Hr) in Hu. rewrite (t_test_float lib E x' y' r' EN Hr') in Hu'. apply Ok_inj in Hu, Hu'. subst u u'. cbn [pvalue].
  rewrite Hs in *. destruct (Hc _ (degrees_pos _ Hz)) as (Hd & Hm & _). destruct (Hd _ Nt) as [F B]. destruct (Hd _ Nt') as [F' B']. specialize (Hm _ _ M).
  destruct (sub_one _ F ltac:(lra)) as (_ & R1 & _). destruct (sub_one _ F' ltac:(lra)) as (_ & R2 & _). rewrite R1, R2. apply rnd_le. lra.
Qed.

(** ** Accuracy *)
Lemma root_df_value n : (4 <= n)%nat -> (Z.of_nat n <= 2 ^ 26)%Z ->
  is_finite (root_df n) = true /\ Rabs (B2R (root_df n) - sqrt (pairs_v n - 1)) <= ulp1 * sqrt (pairs_v n - 1).
Proof.
  intros Hn Hb. pose proof (pairs_v_large n Hn) as Hv. split; [apply root_df_range; auto; lia|].
  set (z := (Z.of_nat n * (Z.of_nat n - 3))%Z). assert (Hz : (Z.abs z <= 2 ^ 53)%Z) by (unfold z; change (2 ^ 53)%Z with (2 ^ 26 * 2 ^ 27)%Z; nia).
  destruct (rep_ofZ z Hz) as (Fz & Rz & _). destruct (rep_ofZ 2) as (F2 & R2 & _); [lia|]. destruct (rep_ofZ 1) as (F1 & R1 & _); [lia|].
  assert (Hk : exists k, z = (2 * k)%Z /\ (2 <= k <= 2 ^ 51)%Z).
  { destruct (Z.Even_or_Odd (Z.of_nat n)) as [[m Hm]|[m Hm]].
    - exists (m * (Z.of_nat n - 3))%Z. unfold z. split; [rewrite Hm; ring|]. change (2 ^ 51)%Z with (2 ^ 25 * 2 ^ 26)%Z. nia.
    - exists (Z.of_nat n * (m - 1))%Z. unfold z. split; [rewrite Hm; ring|]. change (2 ^ 51)%Z with (2 ^ 26 * 2 ^ 25)%Z. nia. }
  destruct Hk as (k & Ek & Bk). unfold root_df. fold z.
  assert (Hpv : pairs_v n = IZR k).
  { unfold pairs_v. rewrite INR_IZR_INZ, <- minus_IZR, <- mult_IZR. fold z. rewrite Ek, mult_IZR. field. }
  assert (Dv : IZR z / 2 = IZR k) by (rewrite Ek, mult_IZR; field).
  assert (Kf : b64_round (IZR k) = IZR k) by (apply b64_round_Z; lia).
  assert (Km : b64_round (IZR k - 1) = IZR k - 1) by (rewrite <- minus_IZR; apply b64_round_Z; lia).
  assert (K0 : 2 <= IZR k <= 2 ^ 51) by (split; [apply (IZR_le 2); lia|rewrite pow_IZR; apply IZR_le; change (2 ^ Z.of_nat 51)%Z with (2 ^ 51)%Z; lia]).
  assert (P : 2 ^ 51 < bpow radix2 1024) by (replace (2 ^ 51) with (bpow radix2 51) by (rewrite pow_IZR; reflexivity); apply bpow_lt; lia).
  set (a := b64_ofZ z) in *. set (two := b64_ofZ 2) in *. set (one := b64_ofZ 1) in *. clearbody a two one.
  destruct (div_real a two) as [Fq Rq]; auto; [rewrite R2; lra|rewrite Rz, R2, Dv, Kf, Rabs_pos_eq; lra|]. rewrite Rz, R2, Dv, Kf in Rq.
  set (q := b64_div a two) in *. clearbody q.
  pose proof (Bminus_correct 53 1024 b64_prec b64_emax mode_NE q one Fq F1) as HC. fold (b64_sub q one) in HC. rewrite R1, Rq, Km in HC.
  rewrite Rlt_bool_true in HC by (rewrite Rabs_pos_eq; lra). destruct HC as (H1 & H2 & _). set (s := b64_sub q one) in *. clearbody s.
  destruct (sqrt_real s H2) as [Fr Rr]; [lra|]. rewrite Rr, H1, Hpv. set (h := sqrt (IZR k - 1)).
  assert (h1 : 1 <= h) by (unfold h; replace 1 with (sqrt 1) at 1 by apply sqrt_1; apply sqrt_le_1_alt; lra).
  assert (h2 : h <= 2 ^ 51) by (unfold h; rewrite <- (sqrt_square (2 ^ 51)) by lra; apply sqrt_le_1_alt; lra).
  destruct (normal_round h) as [Hr _]; [right|rewrite (Rabs_pos_eq h) in Hr by lra; exact Hr].
  rewrite Rabs_pos_eq by lra. split; [apply Rle_trans with 1; [change 1 with (bpow radix2 0); apply bpow_le; lia|lra]|].
  apply Rle_trans with (2 ^ 51); [lra|]. replace (2 ^ 51) with (bpow radix2 51) by (rewrite pow_IZR; reflexivity). apply bpow_le; lia.
Qed.

Lemma factor x y e : Rabs (x - y) <= e * Rabs y -> y <> 0 -> exists d, Rabs d <= e /\ x = y * (1 + d).
Proof.
  intros H N. exists ((x - y) / y). split; [|field; auto]. unfold Rdiv. rewrite Rabs_mult, Rabs_inv. apply (Rmult_le_reg_r (Rabs y)); [apply Rabs_pos_lt; auto|].
  rewrite Rmult_assoc, Rinv_l, Rmult_1_r; auto. apply Rabs_no_R0. auto.
Qed.

(** The product of the relative errors. *)
Lemma factors u y e1 e2 e4 e5 k : 0 <= u <= y -> y <= / 32 -> Rabs e1 <= u -> Rabs e2 <= u -> Rabs e4 <= u -> Rabs e5 <= u -> 1 - 3 * y <= k <= 1 + 3 * y ->
  Rabs ((1 + e1) * (1 + e2) * (1 + e5) / ((1 + e4) * k) - 1) <= 16 * y.
Proof.
  intros Hu Hy H1 H2 H4 H5 Hk. apply Rabs_le_inv in H1, H2, H4, H5.
  set (D := (1 + e4) * k). assert (D1 : 1 - 4 * y <= D <= 1 + 5 * y) by (unfold D; split; nra).
  set (N := (1 + e1) * (1 + e2) * (1 + e5)).
  assert (N0 : 1 - 2 * y <= (1 + e1) * (1 + e2) <= 1 + 3 * y) by (split; nra).
  assert (N1 : 1 - 4 * y <= N <= 1 + 5 * y) by (unfold N; split; nra).
  replace (N / D - 1) with ((N - D) / D) by (field; lra). unfold Rdiv. rewrite Rabs_mult, Rabs_inv, (Rabs_pos_eq D) by lra.
  apply (Rmult_le_reg_r D); [lra|]. rewrite Rmult_assoc, Rinv_l, Rmult_1_r by lra. apply Rabs_le. split; nra.
Qed.

(** Whenever the computed correlation r is not extremely close to -1 or 1, the statistic is within the relative error 2^-49 / (1 - r^2) of
    the exact value of its formula at r. *)
Theorem C73_accuracy lib E x y n r t : e_num E = B64Num lib -> shape0 x = n -> (4 <= n)%nat -> (Z.of_nat n <= 2 ^ 26)%Z ->
  fbcdcor E x y = Ok r -> is_finite r = true -> B2R r = 0 \/ bpow radix2 (-400) <= Rabs (B2R r) -> / 2 ^ 48 <= 1 - B2R r * B2R r ->
  outcome (distance_correlation_t_statistic E x y) = Ok t ->
  let exact := sqrt (INR n * (INR n - 3) / 2 - 1) * B2R r / sqrt (1 - B2R r * B2R r) in
  is_finite t = true /\ Rabs (B2R t - exact) <= / 2 ^ 49 / (1 - B2R r * B2R r) * Rabs exact.
Proof.
  intros EN Hs Hn Hb Hr Fr Hlow Hw Ht exact. pose proof ulp1_pos as U0. pose proof ulp1_small as U1. pose proof Omega_gt1 as HO.
  pose proof (C73_finite lib E x y r t EN ltac:(rewrite Hs; split; auto; lia) Hr (finite_not_nan r Fr) Ht) as Hfin.
  set (a := B2R r) in *. assert (a1 : Rabs a < 1) by (apply Rabs_lt; split; nra).
  assert (Ft : is_finite t = true) by (rewrite Hfin; apply abs_one; [apply finite_not_nan; auto|rewrite ext_finite; auto]). split; auto.
  rewrite (t_statistic_float lib E x y r EN Hr), Hs in Ht. apply Ok_inj in Ht. destruct (root_df_value n Hn Hb) as [Fc Ec]. pose proof (pairs_v_large n Hn) as Hv.
  destruct (root_df_range n Hn ltac:(lia)) as [_ [C1 C2]]. destruct (fstat_correct lib _ r Fc C1 (finite_not_nan r Fr)) as [_ Et]. rewrite Ht, ext_finite, (ext_finite r) in Et by auto.
  fold a in Et. set (c := B2R (root_df n)) in *. set (C := sqrt (pairs_v n - 1)) in *. change (INR n * (INR n - 3) / 2) with (pairs_v n) in exact. fold C in exact.
  assert (HC : 1 <= C) by (unfold C; replace 1 with (sqrt 1) at 1 by apply sqrt_1; apply sqrt_le_1_alt; lra).
  set (w := 1 - a * a) in *. set (rw := sqrt w) in *. assert (w0 : 0 < w) by lra. assert (rw0 : 0 < rw) by (apply sqrt_lt_R0; auto). assert (ww : rw * rw = w) by (apply sqrt_sqrt; lra).
  destruct (Req_dec a 0) as [Za|Za].
  { assert (exact = 0) as -> by (unfold exact; rewrite Za; unfold Rdiv; ring). rewrite Et, Za, tval_0, Rminus_0_r, Rabs_R0. lra. }
  assert (La : bpow radix2 (-400) <= Rabs a) by (destruct Hlow; [contradiction|auto]).
  destruct (factor c C ulp1) as (e1 & B1 & E1); [rewrite (Rabs_pos_eq C) by lra; exact Ec|lra|].
  (* numerator *)
  assert (Bc : 1 <= Rabs c <= bpow radix2 200) by (rewrite Rabs_pos_eq by lra; lra).
  assert (Nca : normal (c * a)).
  { right. rewrite Rabs_mult. split.
    - apply Rle_trans with (bpow radix2 (-400)); [apply bpow_le; lia|]. pose proof (bpow_ge_0 radix2 (-400)). nra.
    - apply Rle_trans with (bpow radix2 200); [|apply bpow_le; lia]. pose proof (Rabs_pos a). nra. }
  assert (Zca : c * a <> 0) by (intros Z; apply Rmult_integral in Z; destruct Z; auto; lra).
  destruct (normal_round _ Nca) as [Rn On]. destruct (factor _ _ _ Rn Zca) as (e2 & B2 & E2).
  (* denominator *)
  assert (Q : Rabs (b64_round (a * a) - a * a) <= ulp1 * (a * a) + bpow radix2 (-1000)) by (pose proof (round_err_tiny (a * a)) as T; rewrite (Rabs_pos_eq (a * a)) in T by nra; exact T).
  assert (tiny : bpow radix2 (-1000) <= ulp1 / 1024).
  { apply Rle_trans with (bpow radix2 (-63)); [apply bpow_le; lia|]. apply Req_le. unfold ulp1. change (bpow radix2 (-63)) with (/ 9223372036854775808). lra. }
  assert (aa : 0 <= a * a <= 1) by (apply Rabs_lt_inv in a1; split; nra).
  set (q := b64_round (a * a)) in *. assert (q0 : 0 <= q) by (apply rnd_ge; [apply generic_format_0|lra]).
  assert (q1 : q <= 1) by (apply rnd_le_f; [apply format_1|lra]).
  assert (S0 := b64_plus_rel 1 (- q) format_1 (generic_format_opp _ _ _ (format_rnd _))). fold (1 - q) in S0. change (1 + - q) with (1 - q) in S0.
  set (s := b64_round (1 - q)) in *. rewrite (Rabs_pos_eq (1 - q)) in S0 by lra.
  set (yy := ulp1 / w). assert (yw : yy * w = ulp1) by (unfold yy; field; lra). assert (wle : w <= 1) by (unfold w; lra).
  assert (y0 : ulp1 <= yy) by (assert (0 < yy) by (unfold yy; apply Rdiv_lt_0_compat; lra); nra).
  assert (y1 : yy <= / 32) by (unfold yy, Rdiv; apply (Rmult_le_reg_r w); auto; rewrite Rmult_assoc, Rinv_l by lra; unfold ulp1; lra).
  assert (Es : Rabs (s - w) <= 3 * yy * Rabs w).
  { rewrite (Rabs_pos_eq w) by lra. replace (3 * yy * w) with (3 * ulp1) by (rewrite <- yw; ring). apply Rabs_le_inv in Q, S0. apply Rabs_le. unfold w in *. nra. }
  destruct (factor _ _ _ Es ltac:(lra)) as (e3 & B3 & E3). apply Rabs_le_inv in B3.
  set (k := sqrt (1 + e3)). assert (k0 : 0 < k) by (apply sqrt_lt_R0; lra). assert (kk : k * k = 1 + e3) by (apply sqrt_sqrt; lra).
  assert (Bk : 1 - 3 * yy <= k <= 1 + 3 * yy) by (split; nra).
  assert (s0 : 0 < s) by (rewrite E3; nra). assert (s1 : s <= 1) by (apply rnd_le_f; [apply format_1|lra]).
  assert (Sq : sqrt s = rw * k) by (rewrite E3; unfold k, rw; apply sqrt_mult; lra).
  assert (Hden : den a = b64_round (sqrt s)).
  { unfold den. fold q. rewrite (clamp_id q) by (rewrite Rabs_pos_eq; lra). fold s. rewrite Rmax_right by lra. reflexivity. }
  assert (slow : / 2 ^ 49 <= s) by (rewrite E3; nra).
  assert (Nsq : normal (sqrt s)).
  { right. rewrite Rabs_pos_eq by apply sqrt_pos. split.
    - apply Rle_trans with (bpow radix2 (-25)); [apply bpow_le; lia|]. rewrite <- (sqrt_square (bpow radix2 (-25))) by apply bpow_ge_0. apply sqrt_le_1_alt.
      rewrite <- bpow_plus. eapply Rle_trans; [|exact slow]. change (bpow radix2 (-25 + -25)) with (/ 1125899906842624). lra.
    - apply Rle_trans with 1; [rewrite <- sqrt_1; apply sqrt_le_1_alt; auto|]. change 1 with (bpow radix2 0). apply bpow_le. lia. }
  assert (Zsq : sqrt s <> 0) by (apply Rgt_not_eq, sqrt_lt_R0; auto).
  destruct (normal_round _ Nsq) as [Rs _]. destruct (factor _ _ _ Rs Zsq) as (e4 & B4 & E4). rewrite <- Hden in E4.
  (* quotient *)
  assert (DR := den_inside a ltac:(apply generic_format_B2R) a1). assert (D1 := den_range a). assert (P27 := bpow_gt_0 radix2 (-27)).
  set (num := b64_round (c * a)) in *.
  assert (num_lo : bpow radix2 (-401) <= Rabs num).
  { rewrite E2, Rabs_mult, Rabs_mult. assert (/ 2 <= Rabs (1 + e2)) by (apply Rabs_le_inv in B2; rewrite Rabs_pos_eq; lra).
    change (-401)%Z with (-400 + -1)%Z. rewrite bpow_plus. change (bpow radix2 (-1)) with (/ 2). pose proof (bpow_ge_0 radix2 (-400)).
    apply Rmult_le_compat; try lra. nra. }
  assert (num_hi : Rabs num <= bpow radix2 200).
  { apply abs_round_le_generic; auto using valid_rnd_N with typeclass_instances; [apply format_bpow; lia|]. rewrite Rabs_mult. pose proof (Rabs_pos a). nra. }
  assert (Nquo : normal (num / den a)).
  { right. unfold Rdiv. rewrite Rabs_mult, Rabs_inv, (Rabs_pos_eq (den a)) by lra. pose proof (bpow_ge_0 radix2 (-401)). pose proof (bpow_ge_0 radix2 200). split.
    - apply Rle_trans with (bpow radix2 (-401)); [apply bpow_le; lia|]. rewrite <- (Rmult_1_r (bpow radix2 (-401))). apply Rmult_le_compat; try lra. rewrite <- Rinv_1. apply Rinv_le; lra.
    - apply Rle_trans with (bpow radix2 200 * bpow radix2 27); [|rewrite <- bpow_plus; apply bpow_le; lia]. apply Rmult_le_compat; try apply Rabs_pos; try lra.
      + left. apply Rinv_0_lt_compat. lra.
      + replace (bpow radix2 27) with (/ bpow radix2 (-27)) by (rewrite <- (bpow_opp radix2 (-27)); reflexivity). apply Rinv_le; auto. }
  assert (num_nz : num <> 0) by (intros Z; rewrite Z, Rabs_R0 in num_lo; pose proof (bpow_gt_0 radix2 (-401)); lra).
  assert (Zq : num / den a <> 0) by (unfold Rdiv; apply Rmult_integral_contrapositive_currified; [auto|apply Rinv_neq_0_compat; lra]).
  destruct (normal_round _ Nquo) as [Rt Ot]. destruct (factor _ _ _ Rt Zq) as (e5 & B5 & E5).
  assert (Tv : B2R t = num / den a * (1 + e5)).
  { rewrite Et. unfold tval. destruct (Req_EM_T (den a) 0); [lra|]. fold num.
    rewrite (clamp_id num) by (eapply Rle_trans; [exact num_hi|]; apply bpow_le; lia). rewrite clamp_id by (left; exact Ot). exact E5. }
  assert (f4 : 1 + e4 <> 0) by (apply Rabs_le_inv in B4; lra).
  replace (B2R t - exact) with (exact * ((1 + e1) * (1 + e2) * (1 + e5) / ((1 + e4) * k) - 1)).
  2:{ rewrite Tv, E2, E4, Sq, E1. unfold exact. field. repeat split; lra. }
  rewrite Rabs_mult, Rmult_comm. apply Rmult_le_compat_r; [apply Rabs_pos|].
  replace (/ 2 ^ 49 / w) with (16 * yy) by (unfold yy, ulp1; field; lra). apply (factors ulp1 yy); auto; lra.
Qed.

(** ** The hypotheses can be met *)
(** The distribution function of the constant 0. *)
Definition step_cdf (t df : b64) : b64 := if Bltb t fzero then fzero else b64_ofZ 1.
Definition env_T : Env b64 := mkEnv b64 (B64Num plain) fargsort (fun n => repeat B754_nan n) (fun _ => ([], [])) step_cdf true.

Lemma env_T_cdf : cdf_contract_float env_T.
Proof.
  destruct one_real as (F1 & R1 & _). intros df _. cbn [e_tcdf env_T]. unfold step_cdf. split; [|split].
  - intros t _. destruct (Bltb t fzero); [cbn; split; auto; lra|]. rewrite R1. split; [exact F1|lra].
  - intros t t' L. assert (N : is_nan t = false /\ is_nan t' = false) by (destruct t, t'; try discriminate L; auto). destruct N as [N N'].
    apply ext_order in L; auto. destruct (ltb_zero t N) as [_ Z]. destruct (ltb_zero t' N') as [_ Z'].
    destruct (Bltb t fzero), (Bltb t' fzero); rewrite ?R1; cbn [B2R fzero]; try lra.
  - change (Bltb (B754_infinity false) fzero) with false. exact R1.
Qed.

Example C73_meets : e_num env_T = B64Num plain /\ cdf_contract_float env_T /\ size_ok (shape0 xi) /\
  exists r, fbcdcor env_T xi yi = Ok r /\ is_finite r = true /\ bpow radix2 (-400) <= Rabs (B2R r) /\ / 2 ^ 48 <= 1 - B2R r * B2R r.
Proof.
  split; [reflexivity|]. split; [exact env_T_cdf|]. split; [split; cbn; lia|].
  assert (V : sf (fbcdcor env_T xi yi) = Ok (SpecFloat.S754_finite false 7354347395230808 (-53))) by (vm_compute; reflexivity).
  destruct (sf_ok _ _ V ltac:(discriminate)) as [V1 V2]. eexists. split; [exact V1|]. split; [rewrite <- is_finite_SF_B2SF, V2; reflexivity|].
  rewrite (B2SF_real _ _ _ _ V2). unfold F2R. cbn [Fnum Fexp cond_Zopp]. change (bpow radix2 (-53)) with (/ 9007199254740992).
  split; [|lra]. apply Rle_trans with (bpow radix2 (-1)); [apply bpow_le; lia|]. change (bpow radix2 (-1)) with (/ 2). rewrite Rabs_pos_eq; lra.
Qed.

(** Rounding can push the correlation beyond 1 (the statistic is then plus infinity, as for 1), and also leave the correlation of a
    sample with itself below 1: the statistic, plus infinity in exact arithmetic, is then finite. *)
Theorem C73_beyond_one :
  (exists r, fbcdcor env_T (ints [1; 2; 3; 5; 7]%Z) (ints [1; 2; 3; 5; 7]%Z) = Ok r /\ 1 < B2R r /\
    outcome (distance_correlation_t_statistic env_T (ints [1; 2; 3; 5; 7]%Z) (ints [1; 2; 3; 5; 7]%Z)) = Ok (B754_infinity false)) /\
  (exists r t, fbcdcor env_T (ints [1; 2; 4; 8; 16]%Z) (ints [1; 2; 4; 8; 16]%Z) = Ok r /\ B2R r < 1 /\
    outcome (distance_correlation_t_statistic env_T (ints [1; 2; 4; 8; 16]%Z) (ints [1; 2; 4; 8; 16]%Z)) = Ok t /\ is_finite t = true).
Proof.
  split.
  - set (x := ints [1; 2; 3; 5; 7]%Z).
    assert (V : sf (fbcdcor env_T x x) = Ok (SpecFloat.S754_finite false 4503599627370502 (-52))) by (vm_compute; reflexivity).
    destruct (sf_ok _ _ V ltac:(discriminate)) as [V1 V2]. eexists. split; [exact V1|]. split.
    + rewrite (B2SF_real _ _ _ _ V2). unfold F2R. cbn [Fnum Fexp cond_Zopp]. change (bpow radix2 (-52)) with (/ 4503599627370496). lra.
    + assert (W : sf (outcome (distance_correlation_t_statistic env_T x x)) = Ok (SpecFloat.S754_infinity false)) by (vm_compute; reflexivity).
      destruct (sf_ok _ _ W ltac:(discriminate)) as [W1 W2]. rewrite W1. apply (f_equal Ok), overflow_inf. exact W2.
  - set (x := ints [1; 2; 4; 8; 16]%Z).
    assert (V : sf (fbcdcor env_T x x) = Ok (SpecFloat.S754_finite false 9007199254740967 (-53))) by (vm_compute; reflexivity).
    destruct (sf_ok _ _ V ltac:(discriminate)) as [V1 V2].
    destruct (C73_never_nan plain env_T x x _ eq_refl ltac:(split; cbn; lia) V1) as (t & Ht & _).
    assert (Fr : is_finite (result_of (fbcdcor env_T x x)) = true) by (rewrite <- is_finite_SF_B2SF, V2; reflexivity).
    assert (Br : 0 < B2R (result_of (fbcdcor env_T x x)) < 1).
    { rewrite (B2SF_real _ _ _ _ V2). unfold F2R. cbn [Fnum Fexp cond_Zopp]. change (bpow radix2 (-53)) with (/ 9007199254740992). lra. }
    exists (result_of (fbcdcor env_T x x)), t. split; [exact V1|]. split; [lra|]. split; [exact Ht|].
    rewrite (C73_finite plain env_T x x _ t eq_refl ltac:(split; cbn; lia) V1 (finite_not_nan _ Fr) Ht). apply abs_one; [apply finite_not_nan; auto|].
    rewrite ext_finite by auto. rewrite Rabs_pos_eq; lra.
Qed.
