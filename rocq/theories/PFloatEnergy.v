(** C62: the energy distance in double precision. *)
From Coq Require Import Reals Lra Lia List Arith Bool ZArith Psatz Permutation.
From Flocq Require Import Core IEEE754.BinarySingleNaN.
From Verif Require Import Num Numpy MUtils MDistances MInternals MDcor MEnergy MFloat Sums Spec Centering Tab Samples Api RefDist RefCenter RefEnergy MInteger RefInteger
  RefFloat FloatAvl FloatApi FloatSum FloatError FloatAccuracy FloatNaive FloatAvlErr FloatAvlForm FloatCenter FloatEnergy FloatEnv FloatCorr EnergyMath PFloat PNaiveFloat
  Witness PEnergy PFloatCorr PFloatTests.
Import List ListNotations.
Local Open Scope R_scope.

(** Two float64 samples of [n] and [m] observations with [p] columns, without infinities or NaN. *)
Definition double_samples (n m p : nat) (x y : array b64) : Prop :=
  two_samples n m p (freals x) (freals y) /\ adt x = F64 /\ adt y = F64 /\
  Forall (fun v => is_finite v = true) (entries x) /\ Forall (fun v => is_finite v = true) (entries y).

(** As [spread], for the coordinates of an observation of x and one of y. *)
Definition spread_between (n m : nat) (x y : array b64) : Prop :=
  forall i j k, (i < n)%nat -> (j < m)%nat -> (k < ncols x)%nat ->
    obs (freals x) i k = obs (freals y) j k \/ / 2 ^ 100 <= Rabs (obs (freals x) i k - obs (freals y) j k) <= 2 ^ 100.

(** The exact value. *)
Definition exact_energy (st : estimation_stat) (p n m : nat) (X Y : nat -> nat -> R) : R :=
  match st with UStatistic => uenergy 1 p n m X Y | VStatistic => energy 1 p n m X Y end.

(** The error bound, where all distances are at most [D]. *)
Definition energy_error (n m p : nat) (D : R) : R := (INR n ^ 2 + INR m ^ 2 + INR p + 10) * D / 2 ^ 50.

Section Accuracy.
  Context (lib : flib) (E : Env b64) (HE : valid_fenv lib E).
  Let EN : e_num E = B64Num lib := vf_num _ _ HE.
  Let GL : good_lib lib := vf_lib _ _ HE.

  Lemma samples_facts n m p x y : double_samples n m p x y ->
    wf x /\ wf y /\ shape0 x = n /\ shape0 y = m /\ ncols x = p /\ ncols y = p.
  Proof.
    intros ((Wx & Wy & Lx & Ly & Cx & Cy) & _). apply freals_wf in Wx, Wy. rewrite freals_shape0 in Lx, Ly. rewrite freals_ncols in Cx, Cy. auto 10.
  Qed.

  Lemma low_of D : / 2 ^ 100 <= D -> lowM D.
  Proof.
    intros H. right. apply Rle_trans with (/ 2 ^ 100); [|lra]. apply Rle_trans with (bpow radix2 (-100)); [apply bpow_le; lia|].
    destruct (pow_bpow 100) as [_ <-]. apply Rle_refl.
  Qed.

  (** The distances within a sample. *)
  Lemma within_matrix n (w : array b64) D : wf w -> shape0 w = n -> adt w = F64 -> Forall (fun v => is_finite v = true) (entries w) -> spread n w ->
    (Z.of_nat (ncols w) <= 2 ^ 30)%Z -> / 2 ^ 100 <= D <= 2 ^ 200 -> (forall i j, (i < n)%nat -> (j < n)%nat -> distances 1 (freals w) i j <= D) ->
    pairwise_distances E w None (b64_ofZ 1) = Ok (tab2 n n (fdists E w)) /\
    forall i j, (i < n)%nat -> (j < n)%nat -> apx (4 + ncols w) D (fdists E w i j) (distances 1 (freals w) i j).
  Proof.
    intros Ww Lw Fw Iw Sw Cw BD HD. split; [apply (pairwise_fdists lib E EN w n Ww Lw Fw)|].
    assert (cw : INR (ncols w) <= 2 ^ (2 * 15)) by (apply small_INR; exact Cw).
    assert (SP : forall i j k, (i < n)%nat -> (j < n)%nat -> (k < ncols w)%nat ->
      let t := obs (freals w) i k - obs (freals w) j k in t = 0 \/ (/ 2 ^ 100 <= Rabs t <= 2 ^ 100)).
    { intros i j k Hi Hj Hk t. destruct (Sw i j k Hi Hj Hk) as [H|H]; [left; unfold t; lra|right; exact H]. }
    assert (f4 : few (4 + ncols w)) by (unfold few; apply small_INR; change (Z.of_nat 40) with 40%Z; lia).
    pose proof (fdists_near lib GL E EN w n Lw (entries_fin n w Ww Lw Iw) 100 15 cw ltac:(lia) f4 SP) as Nw.
    assert (DBB : D <= BB) by (apply Rle_trans with (2 ^ 200); [lra|apply pow2_le; lia]).
    intros i j Hi Hj. apply (near_apx _ (2 ^ (100 + 15))); auto. apply low_of. lra.
  Qed.

  (** The distances between two samples. *)
  Lemma between_matrix n m p x y D : double_samples n m p x y -> spread_between n m x y ->
    (Z.of_nat p <= 2 ^ 30)%Z -> / 2 ^ 100 <= D <= 2 ^ 200 -> (forall i j, (i < n)%nat -> (j < m)%nat -> cross 1 (freals x) (freals y) i j <= D) ->
    (exists d, pairwise_distances E x (Some y) (b64_ofZ 1) = Ok d /\ (d = tab2 n m (fcross E x y p) \/ d = tab2 m n (fun i j => fcross E x y p j i))) /\
    forall i j, (i < n)%nat -> (j < m)%nat -> apx (4 + p) D (fcross E x y p i j) (cross 1 (freals x) (freals y) i j).
  Proof.
    intros Hs Sp Cp BD HD. destruct (samples_facts n m p x y Hs) as (Wx & Wy & Lx & Ly & Cx & Cy). destruct Hs as (_ & Fx & Fy & Ix & Iy).
    split; [apply (pairwise_fcross lib E EN x y n m p Wx Wy Lx Ly Cx Cy Fx Fy)|].
    assert (cp : INR p <= 2 ^ (2 * 15)) by (apply small_INR; exact Cp).
    assert (SP : forall i j k, (i < n)%nat -> (j < m)%nat -> (k < p)%nat ->
      let t := obs (freals x) i k - obs (freals y) j k in t = 0 \/ (/ 2 ^ 100 <= Rabs t <= 2 ^ 100)).
    { intros i j k Hi Hj Hk t. rewrite <- Cx in Hk. destruct (Sp i j k Hi Hj Hk) as [H|H]; [left; unfold t; lra|right; exact H]. }
    assert (f4 : few (4 + p)) by (unfold few; apply small_INR; change (Z.of_nat 40) with 40%Z; lia).
    pose proof (fcross_near lib GL E EN x y n m p Lx Ly Cx Cy (entries_fin n x Wx Lx Ix) (entries_fin m y Wy Ly Iy) 100 15 cp ltac:(lia) f4 SP) as Nw.
    assert (DBB : D <= BB) by (apply Rle_trans with (2 ^ 200); [lra|apply pow2_le; lia]).
    intros i j Hi Hj. apply (near_apx _ (2 ^ (100 + 15))); auto. apply low_of. lra.
  Qed.

  Lemma energy_exponent_F e : outcome (check_valid_energy_exponent E e) = Ok tt.
  Proof. unfold check_valid_energy_exponent. destruct (exponent_in_range E e); reflexivity. Qed.

  Lemma energy_depth n m p : (Z.of_nat n <= 2 ^ 18)%Z -> (Z.of_nat m <= 2 ^ 18)%Z -> (Z.of_nat p <= 2 ^ 30)%Z -> few (4 + p + (n * n + m * m) + 6).
  Proof. intros. unfold few. apply small_INR. change (Z.of_nat 40) with 40%Z. nia. Qed.
  Lemma gam_energy n m p D : few (4 + p + (n * n + m * m) + 6) -> 0 <= D -> gam (4 + p + (n * n + m * m) + 6) * (4 * D) <= energy_error n m p D.
  Proof.
    intros fw D0. pose proof (gam_lin (4 + p + (n * n + m * m) + 6)) as H. unfold few in fw.
    set (K := INR (4 + p + (n * n + m * m) + 6)) in *.
    assert (HK : K = INR n ^ 2 + INR m ^ 2 + INR p + 10).
    { unfold K. repeat (rewrite ?plus_INR, ?mult_INR). cbn [INR]. ring. }
    assert (H1 : K * ulp1 <= / 2).
    { apply Rle_trans with (2 ^ 40 * ulp1); [apply Rmult_le_compat_r; auto; pose proof ulp1_pos; lra|unfold ulp1; lra]. }
    specialize (H H1). unfold energy_error. rewrite <- HK.
    apply Rle_trans with (2 * K * ulp1 * (4 * D)); [apply Rmult_le_compat_r; [lra|auto]|]. unfold ulp1. apply Req_le. field.
  Qed.
End Accuracy.

(** The computed energy distance is finite and close to the exact one, for both estimators. *)
Theorem C62_accuracy lib E n m p x y D es st : valid_fenv lib E -> double_samples n m p x y -> spread n x -> spread m y -> spread_between n m x y ->
  to_estimation es = Ok st -> (least st <= n)%nat -> (least st <= m)%nat ->
  (Z.of_nat n <= 2 ^ 18)%Z -> (Z.of_nat m <= 2 ^ 18)%Z -> (Z.of_nat p <= 2 ^ 30)%Z -> / 2 ^ 100 <= D <= 2 ^ 200 ->
  (forall i j, (i < n)%nat -> (j < n)%nat -> dist p (obs (freals x) i) (obs (freals x) j) <= D) ->
  (forall i j, (i < m)%nat -> (j < m)%nat -> dist p (obs (freals y) i) (obs (freals y) j) <= D) ->
  (forall i j, (i < n)%nat -> (j < m)%nat -> dist p (obs (freals x) i) (obs (freals y) j) <= D) ->
  exists v, outcome (energy_distance E x y (b64_ofZ 1) None es) = Ok v /\ is_finite v = true /\
    Rabs (B2R v - exact_energy st p n m (obs (freals x)) (obs (freals y))) <= energy_error n m p D.
Proof.
  intros HE Hs Sx Sy Sxy Hes Hn Hm N18 M18 P30 BD Dx Dy Dxy. pose proof (vf_num _ _ HE) as EN. pose proof (vf_lib _ _ HE) as GL.
  destruct (samples_facts n m p x y Hs) as (Wx & Wy & Lx & Ly & Cx & Cy). pose proof Hs as (_ & Fx & Fy & Ix & Iy).
  assert (P30x : (Z.of_nat (ncols x) <= 2 ^ 30)%Z) by (rewrite Cx; exact P30).
  assert (P30y : (Z.of_nat (ncols y) <= 2 ^ 30)%Z) by (rewrite Cy; exact P30).
  destruct (within_matrix lib E HE n x D Wx Lx Fx Ix Sx P30x BD) as [Px Ax].
  { intros i j Hi Hj. unfold distances, dmat. rewrite rpow_1 by apply dist_nonneg. rewrite freals_ncols, Cx. auto. }
  destruct (within_matrix lib E HE m y D Wy Ly Fy Iy Sy P30y BD) as [Py Ay].
  { intros i j Hi Hj. unfold distances, dmat. rewrite rpow_1 by apply dist_nonneg. rewrite freals_ncols, Cy. auto. }
  destruct (between_matrix lib E HE n m p x y D Hs Sxy P30 BD) as [(d & Pd & Hd) Ad].
  { intros i j Hi Hj. unfold cross. rewrite rpow_1 by apply dist_nonneg. rewrite freals_ncols, Cx. auto. }
  rewrite Cx in Ax. rewrite Cy in Ay.
  pose proof (energy_depth n m p N18 M18 P30) as fw. assert (D0 : 0 < / 2 ^ 100) by (apply Rinv_0_lt_compat, pow_lt; lra).
  assert (LD : lowM D) by (apply low_of; lra). assert (D300 : D <= 2 ^ 300) by (apply Rle_trans with (2 ^ 200); [lra|apply pow2_le; lia]).
  destruct (matrices_apx lib GL E EN es st (4 + p) D n m (fdists E x) (fdists E y) d (fcross E x y p)
              (distances 1 (freals x)) (distances 1 (freals y)) (cross 1 (freals x) (freals y)) Hes Ax Ay Ad Hd Hn Hm LD D300 N18 M18 fw) as (v & Hv & Av).
  exists v. split.
  - unfold energy_distance. rewrite outcome_bind, energy_exponent_F. rewrite outcome_bind. cbn [outcome lift snd]. rewrite Px.
    rewrite outcome_bind. cbn [outcome lift snd]. rewrite Py. rewrite outcome_bind. cbn [outcome lift snd]. rewrite Pd. cbn [rbind outcome lift snd]. exact Hv.
  - destruct Av as ((Fv & Ev & _) & _). split; [exact Fv|]. apply Rle_trans with (gam (4 + p + (n * n + m * m) + 6) * (4 * D)); [|apply gam_energy; [exact fw|lra]].
    replace (exact_energy st p n m (obs (freals x)) (obs (freals y)))
      with (2 * (rsum2 n m (cross 1 (freals x) (freals y)) / (INR n * INR m)) - within_mean st n (distances 1 (freals x)) - within_mean st m (distances 1 (freals y))); [exact Ev|].
    unfold exact_energy, energy, uenergy, within_mean, cross, distances, dmat. rewrite !freals_ncols, Cx, Cy. destruct st; reflexivity.
Qed.

(** ** A sample and itself *)

Lemma b64_round_twice (a : b64) : b64_round (2 * B2R a) = 2 * B2R a.
Proof.
  apply round_generic; [apply valid_rnd_N|].
  pose proof (generic_format_B2R 53 1024 a) as H. change (SpecFloat.fexp 53 1024) with (FLT_exp (3 - 1024 - 53) 53) in *.
  apply FLT_format_generic in H; [|reflexivity]. destruct H as [f Hf Hm He].
  apply generic_format_FLT. apply (FLT_spec _ _ _ _ (Float radix2 (Fnum f) (Fexp f + 1))); cbn [Fnum Fexp]; auto; [|lia].
  rewrite Hf. unfold F2R. cbn [Fnum Fexp]. rewrite bpow_plus. change (bpow radix2 1) with 2. ring.
Qed.

Lemma twice_minus (a : b64) : let v := b64_sub (b64_sub (b64_mul (b64_ofZ 2) a) a) a in is_finite v = true -> B2R v = 0.
Proof.
  intros v Fv. assert (Fa : is_finite a = true).
  { destruct a as [s|s| |s m e H]; auto; exfalso; revert Fv; unfold v; try destruct s; vm_compute; discriminate. }
  destruct (rep_ofZ 2 ltac:(lia)) as (F2 & R2 & _).
  pose proof (Bmult_correct 53 1024 b64_prec b64_emax mode_NE (b64_ofZ 2) a) as HC. rewrite R2, b64_round_twice in HC.
  fold (b64_mul (b64_ofZ 2) a) in HC. destruct (Rlt_bool (Rabs (2 * B2R a)) (bpow radix2 1024)) eqn:Ho.
  - destruct HC as (V & F & _). rewrite F2, Fa in F. set (t := b64_mul (b64_ofZ 2) a) in *.
    assert (SB : forall u : b64, is_finite u = true -> forall r, B2R u = r -> Rabs (r - B2R a) < bpow radix2 1024 -> b64_round (r - B2R a) = r - B2R a ->
      is_finite (b64_sub u a) = true /\ B2R (b64_sub u a) = r - B2R a).
    { intros u Fu r Hr Hlt Hrd. pose proof (Bminus_correct 53 1024 b64_prec b64_emax mode_NE u a Fu Fa) as HM. fold (b64_sub u a) in HM.
      rewrite Hr, Hrd, Rlt_bool_true in HM by auto. destruct HM as (H1 & H2 & _). auto. }
    pose proof (abs_B2R_lt_emax 53 1024 a) as La.
    assert (Ra : b64_round (B2R a) = B2R a) by (apply round_generic; [apply valid_rnd_N|apply generic_format_B2R]).
    destruct (SB t F (2 * B2R a) V) as [F1 V1]; [replace (2 * B2R a - B2R a) with (B2R a) by ring; auto|replace (2 * B2R a - B2R a) with (B2R a) by ring; auto|].
    destruct (SB (b64_sub t a) F1 (B2R a)) as [F3 V3]; [rewrite V1; ring|rewrite Rminus_eq_0, Rabs_R0; apply bpow_gt_0|rewrite Rminus_eq_0; apply round_0, valid_rnd_N|].
    unfold v. rewrite V3. ring.
  - exfalso. assert (It : is_finite (b64_mul (b64_ofZ 2) a) = false).
    { rewrite <- is_finite_SF_B2SF, HC. cbn. destruct (xorb _ _); reflexivity. }
    unfold v in Fv. destruct (b64_mul (b64_ofZ 2) a) as [s|s| |s m e H]; try discriminate; destruct a as [s'|s'| |s' m' e' H']; try discriminate; destruct s; discriminate.
Qed.

Lemma cdist_self {T} (E : Env T) x e : pairwise_distances E x (Some x) e = pairwise_distances E x None e.
Proof.
  unfold pairwise_distances. destruct (transform_to_2d (adata x)) as [c r]. unfold cdist, pdist. destruct (can_be_numpy_double E (ans x) (adt x)); cbn [andb]; auto.
  f_equal. destruct (adt x); cbn; auto. destruct pow_ok; reflexivity.
Qed.

(** The energy distance (V-statistic) of a sample and itself is exactly 0 whenever it is finite: for all data and exponents, every
    order of addition, and every average. *)
Theorem C62_same lib E x e av v : valid_fenv lib E -> outcome (energy_distance E x x e av V) = Ok v -> is_finite v = true -> B2R v = 0.
Proof.
  intros HE H F. pose proof (vf_num _ _ HE) as EN. unfold energy_distance in H. apply PTests.bind_ok in H as (? & _ & H).
  apply PTests.bind_ok in H as (dxx & H1 & H). apply PTests.bind_ok in H as (dyy & H2 & H). apply PTests.bind_ok in H as (dxy & H3 & H).
  cbn [outcome lift snd] in H1, H2, H3, H. rewrite cdist_self, H2 in H3. injection H3 as <-. rewrite H2 in H1. injection H1 as <-.
  unfold energy_distance_from_distance_matrices in H. cbn [V to_estimation rbind] in H. injection H as <-. rewrite EN in *. cbn [nsub nmul nofZ B64Num] in *.
  apply twice_minus. exact F.
Qed.

(** ** Samples of integers *)

(** Two float64 samples of one variable, of integers of magnitude at most [X], such that the sums of distances fit in 53 bits. *)
Definition float_samples (n m : nat) (X : Z) (x y : array Z) : Prop :=
  two_samples n m 1 (reals x) (reals y) /\ adt x = F64 /\ adt y = F64 /\
  Forall (fun z => Z.abs z <= X)%Z (entries x) /\ Forall (fun z => Z.abs z <= X)%Z (entries y) /\
  (1 <= X)%Z /\ (4 * X ^ 2 <= 2 ^ 53)%Z /\ (Z.of_nat n ^ 2 * (2 * X) <= 2 ^ 53)%Z /\ (Z.of_nat m ^ 2 * (2 * X) <= 2 ^ 53)%Z.

(** The energy distance in which each mean, each product and each difference is rounded once to the nearest double. *)
Definition rounded_energy (between within_x within_y : R) : R :=
  b64_round (b64_round (2 * b64_round between - b64_round within_x) - b64_round within_y).

(** The exact means, of the distances |x_i - y_j| between two samples and of the distances within one. *)
Definition mean_between (n m : nat) (x y : array Z) : R := rsum2 n m (fun i j => Rabs (obs (reals x) i 0 - obs (reals y) j 0)) / (INR n * INR m).
Definition mean_within (st : estimation_stat) (n : nat) (x : array Z) : R :=
  let d i j := Rabs (obs (reals x) i 0 - obs (reals x) j 0) in
  match st with UStatistic => upper_mean n d | VStatistic => rsum2 n n d / (INR n * INR n) end.

Definition zobs (x : array Z) (i : nat) : Z := match adata x with Vec v => nth i v 0%Z | Mat _ rows => nth 0 (nth i rows []) 0%Z end.
Lemma fobs_zobs x i : fobs (doubles x) i 0 = b64_ofZ (zobs x i).
Proof.
  destruct x as [s d [v|c rows]]; unfold zobs, fobs, doubles; cbn.
  - change (B754_zero false) with (b64_ofZ 0). apply map_nth.
  - change (B754_zero false) with (b64_ofZ 0). change (@nil b64) with (map b64_ofZ []). rewrite map_nth. apply map_nth.
Qed.
Lemma obs_zobs x i : obs (reals x) i 0 = IZR (zobs x i).
Proof.
  destruct x as [s d [v|c rows]]; unfold zobs, obs, reals; cbn.
  - apply map_nth.
  - change (@nil R) with (map IZR []). rewrite map_nth. apply map_nth.
Qed.
Lemma zobs_In x i : wf (reals x) -> ncols x = 1%nat -> (i < shape0 x)%nat -> In (zobs x i) (entries x).
Proof.
  destruct x as [s d [v|c rows]]; unfold zobs, entries, ncols, shape0; cbn; intros W C Hi; [apply nth_In; auto|]. subst c.
  apply in_concat. exists (nth i rows []). split; [apply nth_In; auto|]. apply nth_In.
  rewrite Forall_forall in W. assert (H : In (map IZR (nth i rows [])) (map (map IZR) rows)) by (apply in_map, nth_In; auto).
  apply W in H. rewrite map_length in H. lia.
Qed.

Section Integers.
  Context (lib : flib) (E : Env b64) (HE : valid_fenv lib E).
  Let EN : e_num E = B64Num lib := vf_num _ _ HE.
  Let GL : good_lib lib := vf_lib _ _ HE.

  Lemma doubles_facts (x : array Z) : wf (reals x) -> wf (doubles x) /\ shape0 (doubles x) = shape0 (reals x) /\ ncols (doubles x) = ncols (reals x) /\ adt (doubles x) = adt x.
  Proof.
    intros W. unfold doubles, reals in *. rewrite !amap_shape0, !amap_ncols. repeat split. apply (wf_amap IZR). exact W.
  Qed.

  Lemma between_ints n m X x y : float_samples n m X x y -> exists d f, pairwise_distances E (doubles x) (Some (doubles y)) (b64_ofZ 1) = Ok d /\
    (d = tab2 n m f \/ d = tab2 m n (fun i j => f j i)) /\
    forall i j, (i < n)%nat -> (j < m)%nat -> rep (2 * X) (f i j) (Z.abs (zobs x i - zobs y j)).
  Proof.
    intros ((Wx & Wy & Lx & Ly & Cx & Cy) & Fx & Fy & HX & HY & X1 & BX & _).
    destruct (doubles_facts x Wx) as (Dx & Sx & Nx & Ax). destruct (doubles_facts y Wy) as (Dy & Sy & Ny & Ay).
    rewrite Lx in Sx. rewrite Ly in Sy. rewrite Cx in Nx. rewrite Cy in Ny. rewrite Fx in Ax. rewrite Fy in Ay.
    destruct (pairwise_fcross lib E EN (doubles x) (doubles y) n m 1 Dx Dy Sx Sy Nx Ny Ax Ay) as (d & Pd & Hd).
    exists d, (fcross E (doubles x) (doubles y) 1). split; [exact Pd|]. split; [exact Hd|]. intros i j Hi Hj.
    rewrite Forall_forall in HX, HY. unfold reals in Cx, Cy, Lx, Ly. rewrite amap_ncols in Cx, Cy. rewrite amap_shape0 in Lx, Ly.
    assert (Bi : (Z.abs (zobs x i) <= X)%Z) by (apply HX, zobs_In; auto; lia). assert (Bj : (Z.abs (zobs y j) <= X)%Z) by (apply HY, zobs_In; auto; lia).
    unfold fcross, tab. cbn [seq map]. rewrite !fobs_zobs. destruct (sq_norm_1 lib E HE X (zobs x i) (zobs y j) Bi Bj BX) as [_ ->].
    destruct (rep_ofZ (Z.abs (zobs x i - zobs y j)) ltac:(nia)) as (F & V & _). split; [exact F|]. split; [exact V|]. lia.
  Qed.
  Lemma within_ints n X x : float_samples n n X x x -> exists f, pairwise_distances E (doubles x) None (b64_ofZ 1) = Ok (tab2 n n f) /\
    forall i j, (i < n)%nat -> (j < n)%nat -> rep (2 * X) (f i j) (Z.abs (zobs x i - zobs x j)).
  Proof.
    intros H. destruct (between_ints n n X x x H) as (d & f & Pd & [Hd|Hd] & Rf); rewrite cdist_self, Hd in Pd.
    - exists f. auto.
    - exists (fun i j => f j i). split; [exact Pd|]. intros i j Hi Hj. replace (zobs x i - zobs x j)%Z with (- (zobs x j - zobs x i))%Z by ring. rewrite Z.abs_opp. auto.
  Qed.

  (** A mean of integers, correctly rounded. *)
  Definition rounds (K : Z) (a : b64) (r : R) : Prop := is_finite a = true /\ B2R a = b64_round r /\ Rabs r <= IZR K.
  Lemma round_pow k r : (k <= 100)%nat -> Rabs r <= 2 ^ k -> Rabs (b64_round r) <= 2 ^ k.
  Proof.
    intros Hk H. assert (Q : b64_round (2 ^ k) = 2 ^ k).
    { apply round_generic; [apply valid_rnd_N|]. change (generic_format radix2 (FLT_exp (3 - 1024 - 53) 53) (2 ^ k)).
      destruct (pow_bpow k) as [<- _]. apply generic_format_bpow. unfold FLT_exp. lia. }
    apply Rabs_le_inv in H. apply Rabs_le. split.
    - rewrite <- Q. rewrite <- round_NE_opp. apply round_mono. lra.
    - rewrite <- Q. apply round_mono. lra.
  Qed.
  Lemma small_huge k r : (k <= 100)%nat -> Rabs r <= 2 ^ k -> Rabs r < bpow radix2 1024.
  Proof. intros Hk H. apply Rle_lt_trans with (1 := H). destruct (pow_bpow k) as [<- _]. apply bpow_lt. lia. Qed.

  Lemma K53 K : (K <= 2 ^ 53)%Z -> IZR K <= 2 ^ 53.
  Proof. intros H. replace (2 ^ 53) with (IZR (2 ^ 53)) by (rewrite pow_IZR; reflexivity). apply IZR_le, H. Qed.
  Lemma mean_rounds K l zs : reps K l zs -> (1 <= length l)%nat -> (1 <= K)%Z -> (len l * K <= 2 ^ 53)%Z -> rounds K (np_mean (B64Num lib) l) (np_mean RNum (map IZR zs)).
  Proof.
    intros H Hl K1 HB. assert (HL : length l = length zs) by (clear - H; induction H; cbn; auto).
    assert (Hn : (1 <= len l <= 2 ^ 53)%Z) by (unfold len in *; nia).
    unfold np_mean. rewrite nofnat_INR, map_length, <- HL, sum_IZR. unfold nofnat. cbn [ndiv nofZ B64Num RNum].
    destruct (reps_sum lib GL K l zs H HB) as (F & V & B). fold (len l). rewrite INR_IZR_INZ. fold (len l).
    destruct (rep_ofZ (len l) ltac:(lia)) as (F2 & V2 & _). assert (N1 : 1 <= IZR (len l)) by (apply IZR_le; lia).
    assert (BR : Rabs (IZR (np_sum ZNum zs) / IZR (len l)) <= IZR K).
    { unfold Rdiv. rewrite Rabs_mult, <- abs_IZR, (Rabs_pos_eq (/ _)) by (apply Rlt_le, Rinv_0_lt_compat; lra).
      apply Rmult_le_reg_r with (IZR (len l)); [lra|]. rewrite Rmult_assoc, Rinv_l, Rmult_1_r by lra. rewrite <- mult_IZR. apply IZR_le.
      rewrite Z.mul_comm. exact B. }
    destruct (div_real (np_sum (B64Num lib) l) (b64_ofZ (len l))) as [D1 D2]; auto; try (rewrite V2; lra).
    - rewrite V, V2. apply (small_huge 53); [lia|]. apply round_pow; [lia|]. apply Rle_trans with (1 := BR). apply K53. unfold len in *. nia.
    - rewrite V, V2 in D2. split; [exact D1|]. split; [exact D2|exact BR].
  Qed.

  Lemma energy_rounds K a b c r s t : rounds K a r -> rounds K b s -> rounds K c t -> (0 <= K <= 2 ^ 53)%Z ->
    let v := b64_sub (b64_sub (b64_mul (b64_ofZ 2) a) b) c in is_finite v = true /\ B2R v = rounded_energy r s t.
  Proof.
    intros (Fa & Va & Ba) (Fb & Vb & Bb) (Fc & Vc & Bc) HK. cbv zeta. unfold rounded_energy.
    pose proof (K53 K ltac:(lia)) as HK'.
    assert (Ra : Rabs (b64_round r) <= 2 ^ 53) by (apply round_pow; [lia|lra]).
    assert (Rb : Rabs (b64_round s) <= 2 ^ 53) by (apply round_pow; [lia|lra]).
    assert (Rc : Rabs (b64_round t) <= 2 ^ 53) by (apply round_pow; [lia|lra]).
    destruct (rep_ofZ 2 ltac:(lia)) as (F2 & R2 & _).
    assert (P54 : 2 ^ 54 = 2 * 2 ^ 53) by (change 54%nat with (S 53); apply tech_pow_Rmult).
    assert (P55 : 2 ^ 55 = 4 * 2 ^ 53) by (replace 4 with (2 ^ 2) by ring; rewrite <- pow_add; reflexivity).
    assert (P56 : 2 ^ 56 = 8 * 2 ^ 53) by (replace 8 with (2 ^ 3) by ring; rewrite <- pow_add; reflexivity).
    assert (P0 : 0 < 2 ^ 53) by (apply pow_lt; lra). set (P := 2 ^ 53) in *. clearbody P.
    set (ra := b64_round r) in *. set (rb := b64_round s) in *. set (rc := b64_round t) in *. clearbody rb rc.
    pose proof (Bmult_correct 53 1024 b64_prec b64_emax mode_NE (b64_ofZ 2) a) as HM. fold (b64_mul (b64_ofZ 2) a) in HM.
    rewrite R2, b64_round_twice, Va in HM. rewrite Rlt_bool_true in HM.
    2:{ apply (small_huge 54); [lia|]. rewrite Rabs_mult, (Rabs_pos_eq 2) by lra. lra. }
    destruct HM as (M1 & M2 & _). rewrite F2, Fa in M2. cbn [andb] in M2.
    set (u := b64_mul (b64_ofZ 2) a) in *. clearbody u.
    assert (H1 : Rabs (b64_round (2 * ra - rb)) <= 2 ^ 55).
    { apply round_pow; [lia|]. rewrite P55. apply Rabs_le_inv in Ra, Rb. apply Rabs_le. lra. }
    pose proof (Bminus_correct 53 1024 b64_prec b64_emax mode_NE u b M2 Fb) as HS. fold (b64_sub u b) in HS.
    rewrite M1, Vb in HS. rewrite Rlt_bool_true in HS by (apply (small_huge 55); [lia|exact H1]). destruct HS as (S1 & S2 & _).
    set (w := b64_sub u b) in *. clearbody w.
    pose proof (Bminus_correct 53 1024 b64_prec b64_emax mode_NE w c S2 Fc) as HT. fold (b64_sub w c) in HT.
    rewrite S1, Vc in HT. rewrite Rlt_bool_true in HT.
    2:{ apply (small_huge 56); [lia|]. apply round_pow; [lia|]. rewrite P55 in H1. rewrite P56. apply Rabs_le_inv in H1, Rc. apply Rabs_le.
        clear - H1 Rc P0. lra. }
    destruct HT as (T1 & T2 & _). split; [exact T2|exact T1].
  Qed.

  Lemma concat_reps K n m f z : (forall i j, (i < n)%nat -> (j < m)%nat -> rep K (f i j) (z i j)) -> reps K (concat (tab2 n m f)) (concat (tab2 n m z)).
  Proof. intros H. apply Forall2_concat. unfold tab2. apply Forall2_tab. intros i Hi. apply Forall2_tab. auto. Qed.
  Lemma flat_reps K n f z : (forall i j, (i < n)%nat -> (j < n)%nat -> rep K (f i j) (z i j)) ->
    reps K (get_flat_upper_matrix (tab2 n n f) 1) (get_flat_upper_matrix (tab2 n n z) 1).
  Proof. intros H. rewrite !flat_tab2. apply Forall2_concat. apply Forall2_tab. intros i Hi. apply Forall2_tab. intros j Hj. apply H; lia. Qed.
  Lemma flat_IZR n z : map IZR (get_flat_upper_matrix (tab2 n n z) 1) = get_flat_upper_matrix (tab2 n n (fun i j => IZR (z i j))) 1.
  Proof. rewrite !flat_tab2, concat_map, tab_map. f_equal. apply tab_ext. intros. apply tab_map. Qed.
  Lemma concat_IZR n m z : map IZR (concat (tab2 n m z)) = concat (tab2 n m (fun i j => IZR (z i j))).
  Proof. rewrite concat_map. unfold tab2. rewrite tab_map. f_equal. apply tab_ext. intros. apply tab_map. Qed.

  Lemma mean_reps K n m f z : (forall i j, (i < n)%nat -> (j < m)%nat -> rep K (f i j) (z i j)) -> (1 <= n)%nat -> (1 <= m)%nat -> (1 <= K)%Z ->
    (Z.of_nat n * Z.of_nat m * K <= 2 ^ 53)%Z -> rounds K (np_mean (B64Num lib) (concat (tab2 n m f))) (rsum2 n m (fun i j => IZR (z i j)) / (INR n * INR m)).
  Proof.
    intros H Hn Hm K1 HB. rewrite <- np_mean_tab2, <- concat_IZR. pose proof (concat_tab2_length n m f) as L.
    apply mean_rounds; auto; [apply concat_reps; auto|rewrite L; nia|unfold len; rewrite L; nia].
  Qed.
  Lemma mean_flat K n f z : (forall i j, (i < n)%nat -> (j < n)%nat -> rep K (f i j) (z i j)) -> (2 <= n)%nat -> (1 <= K)%Z ->
    (Z.of_nat n * Z.of_nat n * K <= 2 ^ 53)%Z -> rounds K (np_mean (B64Num lib) (get_flat_upper_matrix (tab2 n n f) 1)) (upper_mean n (fun i j => IZR (z i j))).
  Proof.
    intros H Hn K1 HB. rewrite <- np_mean_flat, <- flat_IZR. pose proof (flat_le n f). pose proof (flat_ge n f Hn).
    apply mean_rounds; auto; [apply flat_reps; auto|unfold len; nia].
  Qed.
End Integers.

Lemma self_samples n m X x y : float_samples n m X x y -> float_samples n n X x x /\ float_samples m m X y y.
Proof. unfold float_samples, two_samples. intuition. Qed.

Lemma upper_mean_ext n a b : (forall i j, a i j = b i j) -> upper_mean n a = upper_mean n b.
Proof. intros H. rewrite <- !np_mean_flat. f_equal. f_equal. unfold tab2. apply tab_ext. intros. apply tab_ext. auto. Qed.

(** On integers each of the three means is the exact one correctly rounded, whatever the order of addition. *)
Theorem C62_integers lib E n m X x y es st : valid_fenv lib E -> float_samples n m X x y -> to_estimation es = Ok st -> (least st <= n)%nat -> (least st <= m)%nat ->
  exists v, outcome (energy_distance E (doubles x) (doubles y) (b64_ofZ 1) None es) = Ok v /\ is_finite v = true /\
    B2R v = rounded_energy (mean_between n m x y) (mean_within st n x) (mean_within st m y).
Proof.
  intros HE Hs Hes Hn Hm. pose proof (vf_num _ _ HE) as EN. destruct (self_samples n m X x y Hs) as [Hx Hy].
  destruct (within_ints lib E HE n X x Hx) as (fx & Px & Rx). destruct (within_ints lib E HE m X y Hy) as (fy & Py & Ry).
  destruct (between_ints lib E HE n m X x y Hs) as (d & f & Pd & Hd & Rf). destruct Hs as (_ & _ & _ & _ & _ & X1 & BX & Bn & Bm).
  assert (N1 : (1 <= n)%nat) by (destruct st; cbn [least] in *; lia). assert (M1 : (1 <= m)%nat) by (destruct st; cbn [least] in *; lia).
  rewrite Z.pow_2_r in Bn, Bm. assert (Bnm : (Z.of_nat n * Z.of_nat m * (2 * X) <= 2 ^ 53)%Z) by nia.
  unfold energy_distance. rewrite outcome_bind, energy_exponent_F. rewrite outcome_bind. cbn [outcome lift snd]. rewrite Px.
  rewrite outcome_bind. cbn [outcome lift snd]. rewrite Py. rewrite outcome_bind. cbn [outcome lift snd]. rewrite Pd. cbn [rbind outcome lift snd].
  unfold energy_distance_from_distance_matrices. rewrite Hes. cbn [rbind]. rewrite EN. cbn [nsub nmul nofZ B64Num].
  eexists. split; [reflexivity|]. apply (energy_rounds (2 * X)); [| | |nia].
  - unfold apply_average, mean_between. rewrite EN.
    rewrite (rsum2_ext n m _ (fun i j => IZR (Z.abs (zobs x i - zobs y j)))) by (intros; rewrite !obs_zobs, <- minus_IZR, abs_IZR; reflexivity).
    destruct Hd as [Hd|Hd]; rewrite Hd.
    + eapply mean_reps; eauto. lia.
    + rewrite rsum2_swap, (Rmult_comm (INR n)). apply (mean_reps lib E HE (2 * X) m n (fun j i => f i j) (fun j i => Z.abs (zobs x i - zobs y j))); auto; lia.
  - unfold apply_average, mean_within. rewrite EN. destruct st; cbn [least] in *.
    + rewrite (upper_mean_ext n _ (fun i j => IZR (Z.abs (zobs x i - zobs x j)))) by (intros; rewrite !obs_zobs, <- minus_IZR, abs_IZR; reflexivity).
      eapply mean_flat; eauto; lia.
    + rewrite (rsum2_ext n n _ (fun i j => IZR (Z.abs (zobs x i - zobs x j)))) by (intros; rewrite !obs_zobs, <- minus_IZR, abs_IZR; reflexivity).
      eapply mean_reps; eauto; lia.
  - unfold apply_average, mean_within. rewrite EN. destruct st; cbn [least] in *.
    + rewrite (upper_mean_ext m _ (fun i j => IZR (Z.abs (zobs y i - zobs y j)))) by (intros; rewrite !obs_zobs, <- minus_IZR, abs_IZR; reflexivity).
      eapply mean_flat; eauto; lia.
    + rewrite (rsum2_ext m m _ (fun i j => IZR (Z.abs (zobs y i - zobs y j)))) by (intros; rewrite !obs_zobs, <- minus_IZR, abs_IZR; reflexivity).
      eapply mean_reps; eauto; lia.
Qed.

(** ** Samples with the same distribution *)

Lemma double_mean p n m n' m' X Y X' Y' (k : (nat -> R) -> (nat -> R) -> R) : (1 <= n)%nat -> (1 <= m)%nat -> (1 <= n')%nat -> (1 <= m')%nat ->
  same_distribution p n n' X X' -> same_distribution p m m' Y Y' -> (forall u v w, same_point p v w -> k u v = k u w /\ k v u = k w u) ->
  rsum2 n m (fun i j => k (X i) (Y j)) / (INR n * INR m) = rsum2 n' m' (fun i j => k (X' i) (Y' j)) / (INR n' * INR m').
Proof.
  intros Hn Hm Hn' Hm' HX HY Hk. pose proof (INR_pos n Hn). pose proof (INR_pos m Hm). pose proof (INR_pos n' Hn'). pose proof (INR_pos m' Hm').
  transitivity (rsum n (fun i => rsum m (fun j => k (X i) (Y j)) / INR m) / INR n); [rewrite rsum_div; unfold rsum2; field; lra|].
  transitivity (rsum n' (fun i => rsum m' (fun j => k (X' i) (Y' j)) / INR m') / INR n'); [|rewrite rsum_div; unfold rsum2; field; lra].
  rewrite (rsum_ext n _ (fun i => rsum m' (fun j => k (X i) (Y' j)) / INR m')).
  - apply (same_distribution_avg p n n' X X' (fun u => rsum m' (fun j => k u (Y' j)) / INR m')); auto.
    intros u v Huv. f_equal. apply rsum_ext. intros j _. apply Hk, Huv.
  - intros i _. apply (same_distribution_avg p m m' Y Y' (k (X i))); auto. intros u v Huv. apply Hk, Huv.
Qed.

Lemma mean_between_same n m n' m' x y x' y' : (1 <= n)%nat -> (1 <= m)%nat -> (1 <= n')%nat -> (1 <= m')%nat ->
  same_distribution 1 n n' (obs (reals x)) (obs (reals x')) -> same_distribution 1 m m' (obs (reals y)) (obs (reals y')) ->
  mean_between n m x y = mean_between n' m' x' y'.
Proof.
  intros. unfold mean_between. apply (double_mean 1 n m n' m' _ _ _ _ (fun u v => Rabs (u 0%nat - v 0%nat))); auto.
  intros u v w Hvw. rewrite (Hvw 0%nat) by lia. auto.
Qed.
Lemma mean_within_V n x : mean_within VStatistic n x = mean_between n n x x.
Proof. reflexivity. Qed.
Lemma mean_within_U n x : (2 <= n)%nat -> mean_within UStatistic n x = mean_between n n x x * (INR n / (INR n - 1)).
Proof.
  intros Hn. unfold mean_within, mean_between. rewrite upper_mean_total; auto.
  - assert (2 <= INR n) by (replace 2 with (INR 2) by reflexivity; apply le_INR; auto). field. lra.
  - intros i j _ _. apply Rabs_minus_sym.
  - intros i _. rewrite Rminus_eq_0. apply Rabs_R0.
Qed.

(** The result depends only on the empirical distributions of the two samples (and, for the U-statistic, on their sizes): on
    integers the order of the observations, and the order in which the library adds, never change it. *)
Theorem C62_distribution lib E lib' E' n m n' m' X x y x' y' es st : valid_fenv lib E -> valid_fenv lib' E' ->
  float_samples n m X x y -> float_samples n' m' X x' y' -> to_estimation es = Ok st -> (least st <= n)%nat -> (least st <= m)%nat ->
  (1 <= n')%nat -> (1 <= m')%nat -> (st = UStatistic -> n' = n /\ m' = m) ->
  same_distribution 1 n n' (obs (reals x)) (obs (reals x')) -> same_distribution 1 m m' (obs (reals y)) (obs (reals y')) ->
  exists v v', outcome (energy_distance E (doubles x) (doubles y) (b64_ofZ 1) None es) = Ok v /\
    outcome (energy_distance E' (doubles x') (doubles y') (b64_ofZ 1) None es) = Ok v' /\
    (v = v' \/ exists s t, v = B754_zero s /\ v' = B754_zero t).
Proof.
  intros HE HE' Hs Hs' Hes Hn Hm N1' M1' Hu Dx Dy.
  assert (N1 : (1 <= n)%nat) by (destruct st; cbn [least] in *; lia). assert (M1 : (1 <= m)%nat) by (destruct st; cbn [least] in *; lia).
  assert (Hn' : (least st <= n')%nat) by (destruct st; cbn [least] in *; [destruct Hu; auto; lia|lia]).
  assert (Hm' : (least st <= m')%nat) by (destruct st; cbn [least] in *; [destruct Hu; auto; lia|lia]).
  destruct (C62_integers lib E n m X x y es st HE Hs Hes Hn Hm) as (v & V1 & V2 & V3).
  destruct (C62_integers lib' E' n' m' X x' y' es st HE' Hs' Hes Hn' Hm') as (v' & W1 & W2 & W3).
  exists v, v'. split; [exact V1|]. split; [exact W1|]. apply eqz_of_real; auto. rewrite V3, W3. f_equal.
  - apply mean_between_same; auto.
  - destruct st.
    + destruct (Hu eq_refl) as [-> _]. rewrite !mean_within_U by auto. f_equal. apply mean_between_same; auto.
    + rewrite !mean_within_V. apply mean_between_same; auto.
  - destruct st.
    + destruct (Hu eq_refl) as [_ ->]. rewrite !mean_within_U by auto. f_equal. apply mean_between_same; auto.
    + rewrite !mean_within_V. apply mean_between_same; auto.
Qed.

Lemma round_round r : b64_round (b64_round r) = b64_round r.
Proof. apply round_generic; [apply valid_rnd_N|]. apply generic_format_round; [apply b64_fexp_valid|apply valid_rnd_N]. Qed.

(** Two integer samples with the same empirical distribution are at distance exactly 0. *)
Theorem C62_same_distribution lib E n m X x y : valid_fenv lib E -> float_samples n m X x y -> (1 <= n)%nat -> (1 <= m)%nat ->
  same_distribution 1 n m (obs (reals x)) (obs (reals y)) ->
  exists v, outcome (energy_distance E (doubles x) (doubles y) (b64_ofZ 1) None V) = Ok v /\ is_finite v = true /\ B2R v = 0.
Proof.
  intros HE Hs Hn Hm Hd. destruct (C62_integers lib E n m X x y V VStatistic HE Hs eq_refl Hn Hm) as (v & V1 & V2 & V3).
  exists v. split; [exact V1|]. split; [exact V2|]. rewrite V3, !mean_within_V.
  assert (D0 : forall k Z, same_distribution 1 k k Z Z) by (intros k Z z; reflexivity).
  rewrite <- (mean_between_same n n n m x x x y), <- (mean_between_same n n m m x x y y) by auto. unfold rounded_energy.
  replace (2 * b64_round (mean_between n n x x) - b64_round (mean_between n n x x)) with (b64_round (mean_between n n x x)) by ring.
  rewrite round_round, Rminus_eq_0. apply round_0, valid_rnd_N.
Qed.

(** ** What fails in double precision *)

(** Symmetry holds only up to rounding: d((0, 1), (0, 3, 3)) and d((0, 3, 3), (0, 1)) differ in the last place. *)
Definition x01 : array Z := mkArr Numpy F64 (Vec [0; 1]%Z).
Definition y033 : array Z := mkArr Numpy F64 (Vec [0; 3; 3]%Z).
Theorem C62_symmetric_refuted : float_samples 2 3 3 x01 y033 /\ exists v w,
  outcome (energy_distance env_F (doubles x01) (doubles y033) (b64_ofZ 1) None V) = Ok v /\
  outcome (energy_distance env_F (doubles y033) (doubles x01) (b64_ofZ 1) None V) = Ok w /\ B2R w < B2R v.
Proof.
  split; [repeat split; auto; cbn; try lia; repeat constructor; lia|].
  assert (S1 : sf (outcome (energy_distance env_F (doubles x01) (doubles y033) (b64_ofZ 1) None V)) = Ok (SpecFloat.S754_finite false 8256599316845909 (-52))) by (vm_compute; reflexivity).
  assert (S2 : sf (outcome (energy_distance env_F (doubles y033) (doubles x01) (b64_ofZ 1) None V)) = Ok (SpecFloat.S754_finite false 8256599316845908 (-52))) by (vm_compute; reflexivity).
  destruct (sf_ok _ _ S1 ltac:(discriminate)) as [H1 H1']. destruct (sf_ok _ _ S2 ltac:(discriminate)) as [H2 H2'].
  eexists. eexists. split; [exact H1|]. split; [exact H2|]. rewrite (B2SF_real _ _ _ _ H1'), (B2SF_real _ _ _ _ H2').
  apply F2R_lt. reflexivity.
Qed.

(** The result can be negative: (0.3, 0.1, 0.2) and its reordering (0.1, 0.3, 0.2) are at exact distance 0. *)
Definition t1 : b64 := fl 7205759403792794 (-56) eq_refl.
Definition t2 : b64 := fl 7205759403792794 (-55) eq_refl.
Definition t3 : b64 := fl 5404319552844595 (-54) eq_refl.
Definition x312 : array b64 := mkArr Numpy F64 (Vec [t3; t1; t2]).
Definition y132 : array b64 := mkArr Numpy F64 (Vec [t1; t3; t2]).
Theorem C62_nonneg_refuted : double_samples 3 3 1 x312 y132 /\ Permutation (entries x312) (entries y132) /\ exists v,
  outcome (energy_distance env_F x312 y132 (b64_ofZ 1) None V) = Ok v /\ B2R v < 0.
Proof.
  split; [repeat split; auto; repeat constructor|]. split; [apply perm_swap|].
  assert (S1 : sf (outcome (energy_distance env_F x312 y132 (b64_ofZ 1) None V)) = Ok (SpecFloat.S754_finite true 4503599627370496 (-108))) by (vm_compute; reflexivity).
  destruct (sf_ok _ _ S1 ltac:(discriminate)) as [H1 H1']. eexists. split; [exact H1|]. rewrite (B2SF_real _ _ _ _ H1'). apply F2R_lt_0. reflexivity.
Qed.

(** ** The hypotheses are met *)

(** (3, 1, 2, 1, 5) and (4, 0, 2): the exact energy distance is 16 / 45. *)
Definition ui : array b64 := ints [4; 0; 2]%Z.
Lemma ui_us : freals ui = us.
Proof. unfold ui. rewrite ints_freals; [reflexivity|]. repeat constructor; lia. Qed.
Lemma fin_ints l : Forall (fun z => (Z.abs z <= 2 ^ 53)%Z) l -> Forall (fun v : b64 => is_finite v = true) (entries (ints l)).
Proof. intros H. unfold entries, ints. cbn [adata]. apply Forall_map. apply Forall_impl with (2 := H). intros z Hz. destruct (rep_ofZ z Hz) as (F & _). exact F. Qed.
Lemma xi_ui : double_samples 5 3 1 xi ui.
Proof.
  split; [rewrite xi_xs, ui_us; apply xs_us|]. split; [reflexivity|]. split; [reflexivity|].
  split; apply fin_ints; repeat constructor; lia.
Qed.
Lemma ui_spread : spread 3 ui.
Proof. apply int_spread. intros i k Hi Hk. cbn in Hk. rewrite ui_us. destruct i as [|[|[|i]]]; try lia; cbn; eexists; (split; [reflexivity|lia]). Qed.
Lemma xs_ints i k : (i < 5)%nat -> (k < 1)%nat -> exists z, obs xs i k = IZR z /\ (0 <= z <= 5)%Z.
Proof. intros Hi Hk. destruct i as [|[|[|[|[|i]]]]]; try lia; cbn; eexists; (split; [reflexivity|lia]). Qed.
Lemma us_ints i k : (i < 3)%nat -> (k < 1)%nat -> exists z, obs us i k = IZR z /\ (0 <= z <= 5)%Z.
Proof. intros Hi Hk. destruct i as [|[|[|i]]]; try lia; cbn; eexists; (split; [reflexivity|lia]). Qed.
Lemma ints_apart u v : (exists z, u = IZR z /\ (0 <= z <= 5)%Z) -> (exists z, v = IZR z /\ (0 <= z <= 5)%Z) -> u = v \/ 1 <= Rabs (u - v) <= 5.
Proof.
  intros (z & -> & Hz) (w & -> & Hw). destruct (Z.eq_dec z w) as [->|Ne]; [auto|right]. rewrite <- minus_IZR, <- abs_IZR. split; apply IZR_le; lia.
Qed.
Lemma ints_within u v : (exists z, u = IZR z /\ (0 <= z <= 5)%Z) -> (exists z, v = IZR z /\ (0 <= z <= 5)%Z) -> Rabs (u - v) <= 5.
Proof. intros Hu Hv. destruct (ints_apart u v Hu Hv) as [->|[_ H]]; [rewrite Rminus_eq_0, Rabs_R0; lra|exact H]. Qed.

Example C62_meets : exists v, outcome (energy_distance env_F xi ui (b64_ofZ 1) None V) = Ok v /\ is_finite v = true /\
  Rabs (B2R v - 16 / 45) <= energy_error 5 3 1 5 /\ energy_error 5 3 1 5 <= / 10 ^ 12.
Proof.
  assert (P : 1 <= 2 ^ 100) by (apply pow_R1_Rle; lra).
  assert (P' : / 2 ^ 100 <= 1) by (rewrite <- Rinv_1; apply Rinv_le_contravar; [lra|exact P]).
  assert (P5 : 5 <= 2 ^ 100) by (apply Rle_trans with (2 ^ 3); [lra|apply Rle_pow; [lra|lia]]).
  assert (P6 : 5 <= 2 ^ 200) by (apply Rle_trans with (2 ^ 3); [lra|apply Rle_pow; [lra|lia]]).
  destruct (C62_accuracy plain env_F 5 3 1 xi ui 5 V VStatistic env_F_valid xi_ui xi_spread ui_spread) as (v & V1 & V2 & V3); auto; cbn [least]; try lia; try lra.
  - intros i j k Hi Hj Hk. change (ncols xi) with 1%nat in Hk. rewrite xi_xs, ui_us.
    destruct (ints_apart _ _ (xs_ints i k Hi Hk) (us_ints j k Hj Hk)) as [H|H]; [left; exact H|right; lra].
  - intros i j Hi Hj. rewrite xi_xs, dist_1. apply ints_within; apply xs_ints; auto.
  - intros i j Hi Hj. rewrite ui_us, dist_1. apply ints_within; apply us_ints; auto.
  - intros i j Hi Hj. rewrite xi_xs, ui_us, dist_1. apply ints_within; [apply xs_ints|apply us_ints]; auto.
  - exists v. split; [exact V1|]. split; [exact V2|]. rewrite xi_xs, ui_us in V3. split.
    + replace (16 / 45) with (exact_energy VStatistic 1 5 3 (obs xs) (obs us)); [exact V3|].
      unfold exact_energy, energy, rsum2. cbn -[Rabs]. rewrite !rpow_1 by apply dist_nonneg. rewrite !dist_1. cbn -[Rabs].
      repeat first [rewrite Rabs_pos_eq by lra | rewrite Rabs_left by lra]. lra.
    + unfold energy_error. cbn [INR]. lra.
Qed.

(** (1, 4) and (4, 1, 1, 4): the same distribution, with different sizes and orders. *)
Definition x14 : array Z := mkArr Numpy F64 (Vec [1; 4]%Z).
Definition y4114 : array Z := mkArr Numpy F64 (Vec [4; 1; 1; 4]%Z).
Lemma x14_y4114 : float_samples 2 4 4 x14 y4114 /\ same_distribution 1 2 4 (obs (reals x14)) (obs (reals y4114)).
Proof.
  split; [repeat split; auto; cbn; try lia; repeat constructor; lia|]. intros z. unfold count, same_pointb. cbn.
  repeat destruct (Req_EM_T _ _); lra.
Qed.
Example C62_meets_integers :
  (exists v, outcome (energy_distance env_M (doubles x14) (doubles y4114) (b64_ofZ 1) None V) = Ok v /\ is_finite v = true /\ B2R v = 0) /\
  (exists v v', outcome (energy_distance env_F (doubles x14) (doubles y4114) (b64_ofZ 1) None V) = Ok v /\
    outcome (energy_distance env_M (doubles y4114) (doubles x14) (b64_ofZ 1) None V) = Ok v' /\ (v = v' \/ exists s t, v = B754_zero s /\ v' = B754_zero t)).
Proof.
  destruct x14_y4114 as [H1 H2]. split; [apply (C62_same_distribution modern env_M 2 4 4 _ _ env_M_valid H1); auto; lia|].
  apply (C62_distribution plain env_F modern env_M 2 4 4 2 4 x14 y4114 y4114 x14 V VStatistic env_F_valid env_M_valid); auto; cbn [least]; try lia.
  - repeat split; auto; cbn; try lia; repeat constructor; lia.
  - discriminate.
  - intros z. symmetry. apply H2.
Qed.
