(** C58, C59: distance correlation in double precision with the NAIVE method.

    C58: how far the returned correlation is from the correlation of the data.  C59: the correlation of a sample with itself is
    exactly 1. *)
From Coq Require Import Reals Lra Lia List Arith Bool ZArith Psatz.
From Flocq Require Import Core IEEE754.BinarySingleNaN.
From Verif Require Import Num Numpy MUtils MDistances MInternals MMergesort MAvl MDcor MInteger MFloat Sums Spec Centering Tab
  Samples RefDist RefAvl RefDcor Api Witness RefApi SpecFacts Calls AvlGeneric Transfer Hom RefInteger RefFloat FloatAvl FloatApi
  FloatSum FloatEnv FloatError FloatAccuracy PInteger PFloat FloatNaive PNaiveFloat FloatCorr Invariance Psd PTTest FloatAvlErr FloatAvlForm PAvlFloat FloatAvlVar.
Import ListNotations.
Local Open Scope R_scope.

(** The two squared correlations, with the covariance each one divides. *)
Definition correlates (g f : api) : Prop := (g = DcorSqr /\ f = DcovSqr) \/ (g = UDcorSqr /\ f = UDcovSqr).

(** NAIVE: the correlation is computed from what the covariance functions return for (x, y), (x, x) and (y, y). *)
Lemma naive_split {T} (E : Env T) g f x y e cm : correlates g f -> shape0 x = shape0 y -> not_forced cm -> exists c vx vy,
  call f E x y e MNaive cm = Ok c /\ call f E x x e MNaive cm = Ok vx /\ call f E y y e MNaive cm = Ok vy /\
  call g E x y e MNaive cm = Ok (correlation_of E c vx vy).
Proof.
  intros Hg Hl Hcm.
  assert (Hw : wants_var f = false /\ wants_var g = true /\ corrected g = corrected f) by (destruct Hg as [[-> ->]|[-> ->]]; auto).
  destruct Hw as (Wf & Wg & Cg). rewrite !call_terms, Wf, Wg. cbn [method_terms].
  unfold dcov_terms_naive, compute_distances, check_valid_dcov_exponent, pairwise_distances.
  pose proof (rows_2d x) as Rx. pose proof (rows_2d y) as Ry.
  destruct (transform_to_2d (adata x)) as [cx rx]. destruct (transform_to_2d (adata y)) as [cy ry]. cbn [snd] in Rx, Ry.
  destruct (pdist_ok E (ans x) (adt x) cx rx e) as (a & -> & A1 & A2). destruct (pdist_ok E (ans y) (adt y) cy ry e) as (b & -> & B1 & B2).
  assert (D : np_dot (e_num E) (concat a) (concat b) = Ok (ndot (e_num E) (concat a) (concat b))).
  { unfold np_dot. rewrite (concat_square a (length rx) (length rx)), (concat_square b (length ry) (length ry)), Rx, Ry, Hl, Nat.eqb_refl by auto. reflexivity. }
  assert (Da : np_dot (e_num E) (concat a) (concat a) = Ok (ndot (e_num E) (concat a) (concat a))) by (unfold np_dot; rewrite Nat.eqb_refl; reflexivity).
  assert (Db : np_dot (e_num E) (concat b) (concat b) = Ok (ndot (e_num E) (concat b) (concat b))) by (unfold np_dot; rewrite Nat.eqb_refl; reflexivity).
  assert (La : length (row_sums (e_num E) a) = shape0 x) by (unfold row_sums; rewrite map_length; congruence).
  assert (Lb : length (row_sums (e_num E) b) = shape0 x) by (unfold row_sums; rewrite map_length; congruence).
  assert (FT : forall mp aa at_ ba bt n bc, length aa = shape0 x -> length ba = shape0 x -> exists v, dcov_from_terms E AllNumpy mp aa at_ ba bt n bc = Ok v).
  { intros. unfold dcov_from_terms, np_dot. rewrite map_length, H, H0, Nat.eqb_refl. cbn [rbind]. eauto. }
  unfold outcome, bind, lift, ret, emit, symmetric_matrix_sums.
  destruct (FT (ndot (e_num E) (concat a) (concat b)) (row_sums (e_num E) a) (np_sum (e_num E) (row_sums (e_num E) a)) (row_sums (e_num E) b) (np_sum (e_num E) (row_sums (e_num E) b)) (shape0 x) (corrected f) La Lb) as [c Hc].
  destruct (FT (ndot (e_num E) (concat a) (concat a)) (row_sums (e_num E) a) (np_sum (e_num E) (row_sums (e_num E) a)) (row_sums (e_num E) a) (np_sum (e_num E) (row_sums (e_num E) a)) (shape0 x) (corrected f) La La) as [vx Hvx].
  destruct (FT (ndot (e_num E) (concat b) (concat b)) (row_sums (e_num E) b) (np_sum (e_num E) (row_sums (e_num E) b)) (row_sums (e_num E) b) (np_sum (e_num E) (row_sums (e_num E) b)) (shape0 x) (corrected f) Lb Lb) as [vy Hvy].
  exists c, vx, vy.
  destruct Hcm as [-> | ->]; destruct (exponent_in_range E e); cbn [snd]; rewrite D, Da, Db; cbn [snd rbind]; unfold finish;
    cbn [t_kind t_vkind t_mean_prod t_a_axis t_b_axis t_a_total t_b_total t_mp_a t_mp_b]; rewrite Wf, Wg, Cg, <- Hl, Hc, Hvx, Hvy; cbn [rbind];
    destruct Hg as [[-> ->]|[-> ->]]; auto.
Qed.

Lemma double_pair_self n x y : double_pair n x y -> double_pair n x x /\ double_pair n y y.
Proof. intros ((Wx & Wy & Lx & Ly & Hn) & Fx & Fy & Ix & Iy). unfold double_pair, paired. tauto. Qed.

Lemma correlation_of_fcorr lib E c vx vy : e_num E = B64Num lib -> correlation_of E c vx vy = fcorr lib c vx vy.
Proof. intros EN. unfold correlation_of. rewrite EN. reflexivity. Qed.

(** From the errors of the three covariances, relative to sizes [Dx] and [Dy], to the error of the correlation. *)
Lemma correlation_error lib E g f n (xr yr : array R) c wx wy eps Dx Dy rho : e_num E = B64Num lib -> correlates g f -> (4 <= n)%nat ->
  let a := distances 1 xr in let b := distances 1 yr in let vx := value f n a a in let vy := value f n b b in
  is_finite c = true -> is_finite wx = true -> is_finite wy = true -> 0 <= eps -> 0 <= Dx -> 0 <= Dy ->
  Rabs (B2R c - value f n a b) <= eps * (Dx * Dy) -> Rabs (B2R wx - vx) <= eps * (Dx * Dx) -> Rabs (B2R wy - vy) <= eps * (Dy * Dy) ->
  / 2 ^ 450 <= vx <= 2 ^ 450 -> / 2 ^ 450 <= vy <= 2 ^ 450 -> rho <= / 4 -> eps * (Dx * Dx) <= rho * vx -> eps * (Dy * Dy) <= rho * vy ->
  is_finite (correlation_of E c wx wy) = true /\ Rabs (B2R (correlation_of E c wx wy) - value g n a b) <= 3 * rho + / 2 ^ 49.
Proof.
  intros EN Hg Hn a b vx vy Fc Fx Fy eps0 X0 Y0 Ec Ex Ey Bx By Hr Rx Ry.
  assert (Hf : squared f) by (unfold squared; destruct Hg as [[_ ->]|[_ ->]]; auto).
  set (cov := value f n a b) in *.
  assert (P450 : 0 < / 2 ^ 450) by (apply Rinv_0_lt_compat; apply pow_lt; lra).
  assert (r0 : 0 <= rho). { assert (0 <= eps * (Dx * Dx)) by (apply Rmult_le_pos; auto; apply Rmult_le_pos; auto). apply (Rmult_le_reg_r vx); lra. }
  assert (CS : cov * cov <= vx * vy).
  { unfold cov, vx, vy. destruct Hf as [-> | ->]; cbn [value]; [apply dcov2_cs|apply udcov2_cs]; auto. }
  assert (VV : 0 < vx * vy) by (apply Rmult_lt_0_compat; lra).
  assert (Cov : eps * (Dx * Dy) <= rho * sqrt (vx * vy)).
  { replace rho with (sqrt (rho * rho)) by (apply sqrt_square; auto). rewrite <- sqrt_mult by (try apply Rmult_le_pos; lra).
    rewrite <- (sqrt_square (eps * (Dx * Dy))) by (apply Rmult_le_pos; auto; apply Rmult_le_pos; auto).
    apply sqrt_le_1; [apply Rle_0_sqr|apply Rmult_le_pos; [apply Rmult_le_pos; auto|lra]|].
    replace (eps * (Dx * Dy) * (eps * (Dx * Dy))) with ((eps * (Dx * Dx)) * (eps * (Dy * Dy))) by ring.
    replace (rho * rho * (vx * vy)) with ((rho * vx) * (rho * vy)) by ring.
    apply Rmult_le_compat; auto; apply Rmult_le_pos; auto; apply Rmult_le_pos; auto. }
  assert (val : value g n a b = cov / sqrt (vx * vy)).
  { unfold cov, vx, vy in *. destruct Hg as [[-> ->]|[-> ->]]; cbn [value] in *; unfold dcor2, udcor2, corr; destruct (Req_EM_T _ 0); try lra; auto. }
  rewrite (correlation_of_fcorr lib E _ _ _ EN), val.
  apply fcorr_error; auto; try lra.
  - split.
    + change (-900)%Z with (-450 + -450)%Z. rewrite bpow_plus. assert (bpow radix2 (-450) = / 2 ^ 450) as -> by (change (-450)%Z with (- Z.of_nat 450)%Z; rewrite bpow_opp, <- IZR_Zpower by lia; f_equal; rewrite pow_IZR; reflexivity).
      apply Rmult_le_compat; lra.
    + change 900%Z with (450 + 450)%Z. rewrite bpow_plus. assert (bpow radix2 450 = 2 ^ 450) as -> by (rewrite <- IZR_Zpower by lia; rewrite pow_IZR; reflexivity).
      apply Rmult_le_compat; lra.
Qed.

(** The rounding error of the three covariances, as a multiple of the product of the largest distances. *)
Definition cov_error (f : api) (n cx cy : nat) : R := roundings n (Nat.max cx cy) (Nat.max cx cy) * naive_unit f.

Lemma cov_error_ge f n cx cy p q : (p <= Nat.max cx cy)%nat -> (q <= Nat.max cx cy)%nat -> squared f ->
  roundings n p q * naive_unit f <= cov_error f n cx cy.
Proof.
  intros Hp Hq Hf. unfold cov_error. apply Rmult_le_compat_r.
  - destruct Hf as [-> | ->]; cbn [naive_unit]; lra.
  - unfold roundings. assert (INR (p + q) <= INR (Nat.max cx cy + Nat.max cx cy)) by (apply le_INR; lia). lra.
Qed.

(** When the rounding error of the variances is at most a quarter of them, in a proportion [rho], the error of the correlation
    is at most three times that proportion. *)
Theorem C58_naive_correlation g f lib E n x y Dx Dy rho cm : valid_fenv lib E -> double_pair n x y -> spread n x -> spread n y ->
  (4 <= n)%nat -> (Z.of_nat n <= 2 ^ 18)%Z -> (Z.of_nat (ncols x) <= 2 ^ 30)%Z -> (Z.of_nat (ncols y) <= 2 ^ 30)%Z ->
  correlates g f -> not_forced cm ->
  (forall i j, (i < n)%nat -> (j < n)%nat -> distances 1 (freals x) i j <= Dx) ->
  (forall i j, (i < n)%nat -> (j < n)%nat -> distances 1 (freals y) i j <= Dy) ->
  let vx := value f n (distances 1 (freals x)) (distances 1 (freals x)) in
  let vy := value f n (distances 1 (freals y)) (distances 1 (freals y)) in
  / 2 ^ 450 <= vx <= 2 ^ 450 -> / 2 ^ 450 <= vy <= 2 ^ 450 -> rho <= / 4 ->
  cov_error f n (ncols x) (ncols y) * (Dx * Dx) <= rho * vx -> cov_error f n (ncols x) (ncols y) * (Dy * Dy) <= rho * vy ->
  exists r, call g E x y (b64_ofZ 1) MNaive cm = Ok r /\ is_finite r = true /\
    Rabs (B2R r - value g n (distances 1 (freals x)) (distances 1 (freals y))) <= 3 * rho + / 2 ^ 49.
Proof.
  intros HE Hp Sx Sy Hn Hn' Cx Cy Hg Hcm HDx HDy vx vy Bx By Hr Rx Ry.
  assert (Hf : squared f) by (unfold squared; destruct Hg as [[_ ->]|[_ ->]]; auto).
  destruct (double_pair_self _ _ _ Hp) as [Px Py].
  assert (Hl : shape0 x = shape0 y) by (destruct Hp as ((_ & _ & L1 & L2 & _) & _); rewrite freals_shape0 in L1, L2; congruence).
  destruct (naive_split E g f x y (b64_ofZ 1) cm Hg Hl Hcm) as (c & wx & wy & C1 & C2 & C3 & C4).
  destruct (C55_naive_accuracy f lib E n x y Dx Dy cm) as (c' & C1' & Fc & Ec); auto. rewrite C1 in C1'. injection C1' as <-.
  destruct (C55_naive_accuracy f lib E n x x Dx Dx cm) as (c' & C1' & Fx & Ex); auto. rewrite C2 in C1'. injection C1' as <-.
  destruct (C55_naive_accuracy f lib E n y y Dy Dy cm) as (c' & C1' & Fy & Ey); auto. rewrite C3 in C1'. injection C1' as <-.
  set (eps := cov_error f n (ncols x) (ncols y)) in *.
  assert (e1 : roundings n (ncols x) (ncols y) * naive_unit f <= eps) by (apply cov_error_ge; auto; lia).
  assert (e2 : roundings n (ncols x) (ncols x) * naive_unit f <= eps) by (apply cov_error_ge; auto; lia).
  assert (e3 : roundings n (ncols y) (ncols y) * naive_unit f <= eps) by (apply cov_error_ge; auto; lia).
  assert (DD : forall z D, (forall i j, (i < n)%nat -> (j < n)%nat -> distances 1 (freals z) i j <= D) -> 0 <= D).
  { intros z D H. eapply Rle_trans; [|apply (H 0%nat 0%nat); lia]. unfold distances, dmat. rewrite rpow_1 by apply dist_nonneg. apply dist_nonneg. }
  pose proof (DD x Dx HDx) as X0. pose proof (DD y Dy HDy) as Y0.
  assert (eps0 : 0 <= eps).
  { eapply Rle_trans; [|exact e1]. apply Rmult_le_pos; [|destruct Hf as [-> | ->]; cbn [naive_unit]; lra].
    unfold roundings. pose proof (pos_INR n). pose proof (pos_INR (ncols x + ncols y)). assert (0 <= INR n ^ 2) by (apply pow_le; auto). lra. }
  assert (XX : 0 <= Dx * Dx) by (apply Rmult_le_pos; auto). assert (YY : 0 <= Dy * Dy) by (apply Rmult_le_pos; auto). assert (XY : 0 <= Dx * Dy) by (apply Rmult_le_pos; auto).
  exists (correlation_of E c wx wy). split; [exact C4|].
  apply (correlation_error lib E g f n (freals x) (freals y) c wx wy eps Dx Dy rho (vf_num _ _ HE)); auto.
  - eapply Rle_trans; [exact Ec|]. apply Rmult_le_compat_r; auto.
  - eapply Rle_trans; [exact Ex|]. apply Rmult_le_compat_r; auto.
  - eapply Rle_trans; [exact Ey|]. apply Rmult_le_compat_r; auto.
Qed.

(** AVL (and AUTO on float64 numpy vectors): the same, with the largest magnitudes in place of the largest distances. *)
Theorem C58_avl_correlation g f lib E n x y X Y rho m cm : valid_fenv lib E -> sorts_values E -> double_pair n x y ->
  univariate x -> univariate y -> some_numpy x y -> (4 <= n)%nat -> (Z.of_nat n <= 2 ^ 37)%Z ->
  within X x -> within Y y -> / 2 ^ 300 <= X <= 2 ^ 300 -> / 2 ^ 300 <= Y <= 2 ^ 300 ->
  correlates g f -> avl_or_auto m -> not_forced cm \/ m = MAvl /\ cm = CCompileCpu ->
  let vx := value f n (distances 1 (freals x)) (distances 1 (freals x)) in
  let vy := value f n (distances 1 (freals y)) (distances 1 (freals y)) in
  / 2 ^ 450 <= vx <= 2 ^ 450 -> / 2 ^ 450 <= vy <= 2 ^ 450 -> rho <= / 4 ->
  avl_roundings n * avl_unit f * (X * X) <= rho * vx -> avl_roundings n * avl_unit f * (Y * Y) <= rho * vy ->
  exists r, call g E x y (b64_ofZ 1) m cm = Ok r /\ is_finite r = true /\
    Rabs (B2R r - value g n (distances 1 (freals x)) (distances 1 (freals y))) <= 3 * rho + / 2 ^ 49.
Proof.
  intros HE HV Hp Ux Uy Sx Hn Hn' HX HY BX BY Hg Hm Hcm vx vy Bx By Hr Rx Ry.
  assert (Hf : squared f) by (unfold squared; destruct Hg as [[_ ->]|[_ ->]]; auto).
  assert (Hw : wants_var g = true /\ corrected g = corrected f) by (destruct Hg as [[-> ->]|[-> ->]]; auto). destruct Hw as [Hw Hc].
  destruct (avl_three lib E HE HV n x y Hp Ux Uy Sx X Y HX HY BX BY Hn Hn' f g m cm Hf Hw Hc Hm Hcm) as (c & wx & wy & C & Fc & Fx & Fy & Ec & Ex & Ey).
  exists (correlation_of E c wx wy). split; [rewrite C; destruct Hg as [[-> ->]|[-> ->]]; reflexivity|].
  pose proof (pow_inv_pos 300).
  apply (correlation_error lib E g f n (freals x) (freals y) c wx wy (avl_roundings n * avl_unit f) X Y rho (vf_num _ _ HE)); auto; try lra.
  unfold avl_roundings. repeat apply Rmult_le_pos; try apply pos_INR. destruct Hf as [-> | ->]; cbn [avl_unit]; lra.
Qed.

(** [distance_correlation] is the square root of [distance_correlation_sqr]: its square has the same error. *)
Lemma dcor_of_sqr {T} (E : Env T) x y e m cm r : call DcorSqr E x y e m cm = Ok r -> call Dcor E x y e m cm = Ok (sqrt_clamp (e_num E) r).
Proof.
  rewrite !call_terms. cbn [wants_var]. destruct (outcome _) as [t|]; cbn [rbind]; [|discriminate]. unfold finish. cbn [wants_var corrected].
  repeat (match goal with |- context [dcov_from_terms E ?k ?a ?b ?c ?d ?g ?n ?bc] => destruct (dcov_from_terms E k a b c d g n bc); cbn [rbind]; try discriminate end).
  intros [= <-]. reflexivity.
Qed.

Theorem C58_distance_correlation lib E x y e m cm r R0 err : valid_fenv lib E ->
  call DcorSqr E x y e m cm = Ok r -> is_finite r = true -> Rabs (B2R r - R0) <= err -> 0 <= R0 <= 1 -> err <= 1 ->
  exists d, call Dcor E x y e m cm = Ok d /\ is_finite d = true /\ 0 <= B2R d /\ Rabs (B2R d * B2R d - R0) <= err + / 2 ^ 49.
Proof.
  intros HE Hr Fr Er HR He. exists (sqrt_clamp (e_num E) r). split; [apply dcor_of_sqr; auto|].
  rewrite (vf_num _ _ HE). apply sqrt_clamp_error; auto.
Qed.

(** ** C59: a sample and itself *)
Lemma ofZ_1 : is_finite (b64_ofZ 1) = true /\ B2R (b64_ofZ 1) = 1.
Proof. destruct (rep_ofZ 1 ltac:(cbn; lia)) as (H1 & H2 & _). auto. Qed.

Lemma self_ratio lib (v : b64) : is_finite v = true -> bpow radix2 (-500) <= B2R v <= bpow radix2 500 -> fcorr lib v v v = b64_ofZ 1.
Proof.
  intros Fv Hv. pose proof (bpow_gt_0 radix2 (-500)) as B0. assert (V0 : 0 < B2R v) by lra.
  assert (N : normal (B2R v * B2R v)).
  { right. rewrite Rabs_pos_eq by nra. split.
    - change (-1000)%Z with (-500 + -500)%Z. rewrite bpow_plus. apply Rmult_le_compat; lra.
    - change 1000%Z with (500 + 500)%Z. rewrite bpow_plus. apply Rmult_le_compat; lra. }
  destruct (mul_real v v Fv Fv N) as [Fm Rm]. destruct (normal_round _ N) as [Em _]. rewrite (Rabs_pos_eq (B2R v * B2R v)) in Em by nra. apply Rabs_le_inv in Em.
  pose proof ulp1_pos. pose proof ulp1_small.
  assert (P0 : 0 < B2R (b64_mul v v)) by (rewrite Rm; nra).
  assert (A : Babs (b64_mul v v) = b64_mul v v).
  { destruct (b64_mul v v) as [s|s| |s m e p]; try discriminate; cbn [B2R] in P0; [lra|]. destruct s; [|reflexivity].
    exfalso. assert (F2R (Float radix2 (cond_Zopp true (Z.pos m)) e) < 0) by (apply F2R_lt_0; reflexivity). lra. }
  assert (Sq : sqrt_clamp (B64Num lib) (nabs (B64Num lib) (b64_mul v v)) = v).
  { unfold sqrt_clamp. cbn [nabs nltb nzero nsqrt B64Num]. rewrite A.
    assert (Bltb (b64_mul v v) (B754_zero false) = false) as ->; [|apply sqrt_sqr; auto].
    rewrite Bltb_correct by auto. cbn [B2R]. apply Rlt_bool_false. lra. }
  unfold fcorr. rewrite Sq.
  assert (Beqb v (B754_zero false) = false) as -> by (rewrite Beqb_correct by auto; cbn [B2R]; apply Req_bool_false; lra).
  destruct ofZ_1 as [F1 R1].
  assert (Q : B2R v / B2R v = IZR 1) by (field; lra).
  destruct (div_real v v Fv) as [Fd Rd]; [lra|rewrite Q|].
  - pose proof (b64_small 1 ltac:(cbn; lia)) as S. revert S. case Rlt_bool_spec; auto. discriminate.
  - rewrite Q, b64_round_Z in Rd by (cbn; lia). apply B2R_inj.
    + apply is_finite_strict_B2R. lra.
    + apply is_finite_strict_B2R. lra.
    + lra.
Qed.

(** NAIVE, any array, any exponent, any order of summation: if the distance variance that the library computes is a positive
    number of ordinary size, the correlation of the sample with itself is exactly 1.0. *)
Theorem C59_self_correlation g f lib E x e cm v : valid_fenv lib E -> correlates g f -> not_forced cm ->
  call f E x x e MNaive cm = Ok v -> is_finite v = true -> bpow radix2 (-500) <= B2R v <= bpow radix2 500 ->
  call g E x x e MNaive cm = Ok (b64_ofZ 1).
Proof.
  intros HE Hg Hcm Hv Fv Bv. destruct (naive_split E g f x x e cm Hg eq_refl Hcm) as (c & vx & vy & C1 & C2 & C3 & C4).
  rewrite Hv in C1, C2, C3. injection C1 as <-. injection C2 as <-. injection C3 as <-.
  rewrite C4, (correlation_of_fcorr lib E _ _ _ (vf_num _ _ HE)), self_ratio; auto.
Qed.

Lemma pow_bpow k : bpow radix2 (Z.of_nat k) = 2 ^ k /\ bpow radix2 (- Z.of_nat k) = / 2 ^ k.
Proof. rewrite bpow_opp. assert (bpow radix2 (Z.of_nat k) = 2 ^ k) as -> by (rewrite <- IZR_Zpower by lia; rewrite pow_IZR; reflexivity). auto. Qed.

(** On the data: when the exact distance variance is more than twice the rounding error. *)
Theorem C59_self_correlation_data g f lib E n x D cm : valid_fenv lib E -> double_pair n x x -> spread n x ->
  (4 <= n)%nat -> (Z.of_nat n <= 2 ^ 18)%Z -> (Z.of_nat (ncols x) <= 2 ^ 30)%Z -> correlates g f -> not_forced cm ->
  (forall i j, (i < n)%nat -> (j < n)%nat -> distances 1 (freals x) i j <= D) ->
  let v := value f n (distances 1 (freals x)) (distances 1 (freals x)) in
  / 2 ^ 450 <= v <= 2 ^ 450 -> 2 * (cov_error f n (ncols x) (ncols x) * (D * D)) <= v ->
  call g E x x (b64_ofZ 1) MNaive cm = Ok (b64_ofZ 1).
Proof.
  intros HE Hp Sx Hn Hn' Cx Hg Hcm HD v Bv Hv.
  assert (Hf : squared f) by (unfold squared; destruct Hg as [[_ ->]|[_ ->]]; auto).
  destruct (C55_naive_accuracy f lib E n x x D D cm) as (c & C1 & Fc & Ec); auto. fold v in Ec. apply Rabs_le_inv in Ec.
  assert (D0 : 0 <= D * D).
  { assert (0 <= D); [|apply Rmult_le_pos; auto]. eapply Rle_trans; [|apply (HD 0%nat 0%nat); lia]. unfold distances, dmat. rewrite rpow_1 by apply dist_nonneg. apply dist_nonneg. }
  assert (e1 : roundings n (ncols x) (ncols x) * naive_unit f * (D * D) <= cov_error f n (ncols x) (ncols x) * (D * D)).
  { apply Rmult_le_compat_r; auto. apply cov_error_ge; auto; lia. }
  destruct (pow_bpow 500) as [p1 p2]. change (Z.of_nat 500) with 500%Z in p1, p2.
  assert (q1 : / 2 ^ 500 <= / 2 * / 2 ^ 450).
  { change 500%nat with (50 + 450)%nat. rewrite pow_add, Rinv_mult. apply Rmult_le_compat_r; [left; apply Rinv_0_lt_compat, pow_lt; lra|]. cbn. lra. }
  assert (q2 : 2 * 2 ^ 450 <= 2 ^ 500).
  { change 500%nat with (50 + 450)%nat. rewrite pow_add. apply Rmult_le_compat_r; [apply pow_le; lra|]. cbn. lra. }
  apply (C59_self_correlation g f lib E x (b64_ofZ 1) cm c); auto. change (-500)%Z with (- (500))%Z. rewrite p1, p2.
  assert (0 < / 2 ^ 450) by (apply Rinv_0_lt_compat, pow_lt; lra). lra.
Qed.

(** The correlation can exceed 1: with NAIVE on y = 5 x, and with AVL on a sample and itself. *)
Definition ints (l : list Z) : array b64 := mkArr Numpy F64 (Vec (map b64_ofZ l)).
Lemma ints_real l : Forall (fun z => (Z.abs z <= 2 ^ 53)%Z) l -> map B2R (map b64_ofZ l) = map IZR l.
Proof. intros H. rewrite map_map. apply map_ext_in. intros z Hz. rewrite Forall_forall in H. destruct (rep_ofZ z (H z Hz)) as (_ & R & _). exact R. Qed.
Lemma ints_freals l : Forall (fun z => (Z.abs z <= 2 ^ 53)%Z) l -> freals (ints l) = mkArr Numpy F64 (Vec (map IZR l)).
Proof. intros H. rewrite <- (ints_real l H). reflexivity. Qed.
Lemma ints_pair n l m : length l = n -> length m = n -> (1 <= n)%nat -> Forall (fun z => (Z.abs z <= 2 ^ 53)%Z) l -> Forall (fun z => (Z.abs z <= 2 ^ 53)%Z) m ->
  double_pair n (ints l) (ints m).
Proof.
  intros Hl Hm Hn Fl Fm.
  assert (F : forall l, Forall (fun z => (Z.abs z <= 2 ^ 53)%Z) l -> Forall (fun v : b64 => is_finite v = true) (map b64_ofZ l)).
  { intros l' H. induction H as [|z l' Hz H IH]; cbn [map]; constructor; auto. apply (rep_ofZ z Hz). }
  split; [|split; [reflexivity|split; [reflexivity|split; apply F; auto]]].
  rewrite !ints_freals by auto. repeat split; auto; unfold shape0; cbn [adata]; rewrite map_length; auto.
Qed.
Theorem C59_bounded_refuted :
  (exists E x y r, valid_fenv plain E /\ double_pair 5 x y /\ (forall i, (i < 5)%nat -> obs (freals y) i 0 = 5 * obs (freals x) i 0) /\
    call DcorSqr E x y (b64_ofZ 1) MNaive CAuto = Ok r /\ is_finite r = true /\ 1 < B2R r) /\
  (exists E x r, valid_fenv plain E /\ double_pair 5 x x /\
    call DcorSqr E x x (b64_ofZ 1) MAvl CAuto = Ok r /\ is_finite r = true /\ 1 < B2R r).
Proof.
  assert (P : 1 < F2R (Float radix2 (cond_Zopp false 4503599627370498) (-52))).
  { unfold F2R. cbn [Fnum Fexp cond_Zopp]. change (bpow radix2 (-52)) with (/ 4503599627370496). lra. }
  split.
  - set (x := ints [1; 2; 3; 5; 7]%Z). set (y := ints [5; 10; 15; 25; 35]%Z).
    assert (V : sf (call DcorSqr env_F x y (b64_ofZ 1) MNaive CAuto) = Ok (SpecFloat.S754_finite false 4503599627370498 (-52))) by (vm_compute; reflexivity).
    destruct (sf_ok _ _ V ltac:(discriminate)) as [V1 V2].
    exists env_F, x, y. eexists. split; [exact env_F_valid|]. split; [|split].
    + apply ints_pair; try reflexivity; [lia| |]; repeat (constructor; [lia|]); constructor.
    + assert (Z : forall z, (Z.abs z <= 2 ^ 53)%Z -> B2R (b64_ofZ z) = IZR z) by (intros z Hz; destruct (rep_ofZ z Hz) as (_ & H & _); exact H).
      intros i Hi. assert (O : forall l, obs (freals (ints l)) i 0 = nth i (map B2R (map b64_ofZ l)) 0) by reflexivity.
      unfold x, y. rewrite !O. rewrite !map_map. destruct i as [|[|[|[|[|i]]]]]; cbn [map nth]; try lia; rewrite !Z by (cbn; lia); lra.
    + split; [exact V1|]. split; [rewrite <- is_finite_SF_B2SF, V2; reflexivity|]. rewrite (B2SF_real _ _ _ _ V2). exact P.
  - assert (V : sf (call DcorSqr env_F xt xt (b64_ofZ 1) MAvl CAuto) = Ok (SpecFloat.S754_finite false 4503599627370498 (-52))) by (vm_compute; reflexivity).
    destruct (sf_ok _ _ V ltac:(discriminate)) as [V1 V2].
    exists env_F, xt. eexists. split; [exact env_F_valid|]. split; [|split].
    + repeat split; auto; try (cbn; lia); try (repeat constructor; fail).
    + exact V1.
    + split; [rewrite <- is_finite_SF_B2SF, V2; reflexivity|]. rewrite (B2SF_real _ _ _ _ V2). exact P.
Qed.

(** ** Cases that meet the hypotheses: (3, 1, 2, 1, 5) and (0, 2, 2, 7, 1), with correlation 0.816... *)
Definition xi : array b64 := ints [3; 1; 2; 1; 5]%Z.
Definition yi : array b64 := ints [0; 2; 2; 7; 1]%Z.
Lemma xi_xs : freals xi = xs.
Proof. apply (ints_freals [3; 1; 2; 1; 5]%Z). repeat constructor; cbn; lia. Qed.
Lemma yi_ys : freals yi = ys.
Proof. apply (ints_freals [0; 2; 2; 7; 1]%Z). repeat constructor; cbn; lia. Qed.
Lemma dx_4 i j : (i < 5)%nat -> (j < 5)%nat -> 0 <= dx i j <= 4.
Proof. intros Hi Hj. destruct i as [|[|[|[|[|i]]]]]; try lia; destruct j as [|[|[|[|[|j]]]]]; try lia; unfold dx; cbn; lra. Qed.
Lemma dy_7 i j : (i < 5)%nat -> (j < 5)%nat -> 0 <= dy i j <= 7.
Proof. intros Hi Hj. destruct i as [|[|[|[|[|i]]]]]; try lia; destruct j as [|[|[|[|[|j]]]]]; try lia; unfold dy; cbn; lra. Qed.

Lemma int_spread n x : (forall i k, (i < n)%nat -> (k < ncols x)%nat -> exists z, obs (freals x) i k = IZR z /\ (Z.abs z <= 2 ^ 50)%Z) -> spread n x.
Proof.
  intros H i j k Hi Hj Hk. destruct (H i k Hi Hk) as (u & -> & Hu). destruct (H j k Hj Hk) as (v & -> & Hv).
  destruct (Z.eq_dec u v) as [->|Ne]; [left; reflexivity|right]. rewrite <- minus_IZR, <- abs_IZR.
  assert (H1 : 1 <= IZR (Z.abs (u - v))) by (apply (IZR_le 1); lia).
  assert (H2 : IZR (Z.abs (u - v)) <= 2 ^ 51) by (rewrite pow_IZR; apply IZR_le; change (2 ^ Z.of_nat 51)%Z with (2 * 2 ^ 50)%Z; lia).
  split.
  - apply Rle_trans with 1; auto. rewrite <- Rinv_1. apply Rinv_le_contravar; [lra|]. apply pow_R1_Rle. lra.
  - eapply Rle_trans; [exact H2|]. apply Rle_pow; [lra|lia].
Qed.
Lemma xi_spread : spread 5 xi.
Proof. apply int_spread. intros i k Hi Hk. cbn in Hk. rewrite xi_xs. destruct i as [|[|[|[|[|i]]]]]; try lia; cbn; eexists; (split; [reflexivity|lia]). Qed.
Lemma yi_spread : spread 5 yi.
Proof. apply int_spread. intros i k Hi Hk. cbn in Hk. rewrite yi_ys. destruct i as [|[|[|[|[|i]]]]]; try lia; cbn; eexists; (split; [reflexivity|lia]). Qed.
Lemma xi_yi : double_pair 5 xi yi.
Proof. apply ints_pair; try reflexivity; [lia| |]; repeat (constructor; [lia|]); constructor. Qed.

Lemma pow450 v : / 4 <= v <= 4 -> / 2 ^ 450 <= v <= 2 ^ 450.
Proof.
  intros H. assert (4 <= 2 ^ 450) by (replace 4 with (2 ^ 2) by (cbn; ring); apply Rle_pow; [lra|lia]).
  assert (/ 2 ^ 450 <= / 4) by (apply Rinv_le_contravar; lra). lra.
Qed.

Example C58_meets : exists r, call UDcorSqr env_F xi yi (b64_ofZ 1) MNaive CAuto = Ok r /\ is_finite r = true /\
  Rabs (B2R r - 8 / 15 / sqrt (16 / 15 * (2 / 5))) <= 3 * / 2 ^ 33 + / 2 ^ 49.
Proof.
  destruct xs_ys_cov as (H1 & H2 & H3).
  assert (Vx : value UDcovSqr 5 (distances 1 (freals xi)) (distances 1 (freals xi)) = 16 / 15).
  { cbn [value]. rewrite xi_xs, (udcov2_ext 5 _ _ dx dx) by auto using xs_dist. exact H2. }
  assert (Vy : value UDcovSqr 5 (distances 1 (freals yi)) (distances 1 (freals yi)) = 2 / 5).
  { cbn [value]. rewrite yi_ys, (udcov2_ext 5 _ _ dy dy) by auto using ys_dist. exact H3. }
  assert (V : value UDcorSqr 5 (distances 1 (freals xi)) (distances 1 (freals yi)) = 8 / 15 / sqrt (16 / 15 * (2 / 5))).
  { cbn [value]. unfold udcor2. rewrite xi_xs, yi_ys, (udcov2_ext 5 _ _ dx dy), (udcov2_ext 5 (distances 1 xs) _ dx dx), (udcov2_ext 5 (distances 1 ys) _ dy dy)
      by auto using xs_dist, ys_dist. rewrite H1, H2, H3. unfold corr. destruct (Req_EM_T _ _); [lra|reflexivity]. }
  rewrite <- V. apply (C58_naive_correlation UDcorSqr UDcovSqr plain env_F 5 xi yi 4 7); unfold correlates, not_forced; auto using env_F_valid, xi_yi, xi_spread, yi_spread; try (cbn; lia).
  - intros i j Hi Hj. rewrite xi_xs, xs_dist by auto. apply dx_4; auto.
  - intros i j Hi Hj. rewrite yi_ys, ys_dist by auto. apply dy_7; auto.
  - rewrite Vx. apply pow450. lra.
  - rewrite Vy. apply pow450. lra.
  - lra.
  - rewrite Vx. unfold cov_error, roundings, naive_unit. cbn [ncols xi yi ints adata Nat.max Nat.add INR]. lra.
  - rewrite Vy. unfold cov_error, roundings, naive_unit. cbn [ncols xi yi ints adata Nat.max Nat.add INR]. lra.
Qed.

(** AVL on the same samples. *)
Example C58_meets_avl : exists r, call UDcorSqr env_F xi yi (b64_ofZ 1) MAvl CCompileCpu = Ok r /\ is_finite r = true /\
  Rabs (B2R r - 8 / 15 / sqrt (16 / 15 * (2 / 5))) <= 3 * / 2 ^ 27 + / 2 ^ 49.
Proof.
  destruct xs_ys_cov as (H1 & H2 & H3).
  assert (Vx : value UDcovSqr 5 (distances 1 (freals xi)) (distances 1 (freals xi)) = 16 / 15).
  { cbn [value]. rewrite xi_xs, (udcov2_ext 5 _ _ dx dx) by auto using xs_dist. exact H2. }
  assert (Vy : value UDcovSqr 5 (distances 1 (freals yi)) (distances 1 (freals yi)) = 2 / 5).
  { cbn [value]. rewrite yi_ys, (udcov2_ext 5 _ _ dy dy) by auto using ys_dist. exact H3. }
  assert (V : value UDcorSqr 5 (distances 1 (freals xi)) (distances 1 (freals yi)) = 8 / 15 / sqrt (16 / 15 * (2 / 5))).
  { cbn [value]. unfold udcor2. rewrite xi_xs, yi_ys, (udcov2_ext 5 _ _ dx dy), (udcov2_ext 5 (distances 1 xs) _ dx dx), (udcov2_ext 5 (distances 1 ys) _ dy dy)
      by auto using xs_dist, ys_dist. rewrite H1, H2, H3. unfold corr. destruct (Req_EM_T _ _); [lra|reflexivity]. }
  assert (W : forall l K, Forall (fun z => (Z.abs z <= K)%Z) l -> (K <= 2 ^ 53)%Z -> within (IZR K) (ints l)).
  { intros l K Hl HK. unfold within. change (entries (ints l)) with (map b64_ofZ l). apply Forall_forall. intros v Hv. apply in_map_iff in Hv. destruct Hv as (z & <- & Hz).
    rewrite Forall_forall in Hl. pose proof (Hl z Hz) as Hz'. destruct (rep_ofZ z ltac:(lia)) as (_ & R & _). rewrite R, <- abs_IZR. apply IZR_le. auto. }
  assert (B : forall K, 1 <= K <= 16 -> / 2 ^ 300 <= K <= 2 ^ 300).
  { intros K HK. assert (16 <= 2 ^ 300) by (replace 16 with (2 ^ 4) by (cbn; ring); apply Rle_pow; [lra|lia]).
    assert (/ 2 ^ 300 <= 1) by (rewrite <- Rinv_1; apply Rinv_le_contravar; lra). lra. }
  rewrite <- V. apply (C58_avl_correlation UDcorSqr UDcovSqr plain env_F 5 xi yi 5 7 (/ 2 ^ 27) MAvl CCompileCpu); unfold correlates, univariate, avl_or_auto; auto using env_F_valid, xi_yi, env_F_values; try (cbn; lia).
  - apply (W [3; 1; 2; 1; 5]%Z 5%Z); [repeat constructor; cbn; lia|lia].
  - apply (W [0; 2; 2; 7; 1]%Z 7%Z); [repeat constructor; cbn; lia|lia].
  - apply B; lra.
  - apply B; lra.
  - rewrite Vx. apply pow450. lra.
  - rewrite Vy. apply pow450. lra.
  - lra.
  - rewrite Vx. unfold avl_roundings, avl_unit. change (Nat.log2_up 5) with 3%nat. cbn [Nat.mul Nat.add INR]. lra.
  - rewrite Vy. unfold avl_roundings, avl_unit. change (Nat.log2_up 5) with 3%nat. cbn [Nat.mul Nat.add INR]. lra.
Qed.

Example C59_meets : call UDcorSqr env_F yi yi (b64_ofZ 1) MNaive CAuto = Ok (b64_ofZ 1).
Proof.
  destruct xs_ys_cov as (H1 & H2 & H3).
  assert (Vy : value UDcovSqr 5 (distances 1 (freals yi)) (distances 1 (freals yi)) = 2 / 5).
  { cbn [value]. rewrite yi_ys, (udcov2_ext 5 _ _ dy dy) by auto using ys_dist. exact H3. }
  apply (C59_self_correlation_data UDcorSqr UDcovSqr plain env_F 5 yi 7); unfold correlates, not_forced; auto using env_F_valid, yi_spread; try (cbn; lia).
  - apply (double_pair_self 5 xi yi xi_yi).
  - intros i j Hi Hj. rewrite yi_ys, ys_dist by auto. apply dy_7; auto.
  - rewrite Vy. apply pow450. lra.
  - rewrite Vy. unfold cov_error, roundings, naive_unit. cbn [ncols xi yi ints adata Nat.max Nat.add INR]. lra.
Qed.
