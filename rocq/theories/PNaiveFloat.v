(** C55: accuracy of the NAIVE method on arbitrary doubles.

    [freals x]: the real numbers held by the float64 array [x]; [distances 1 (freals x)] their exact Euclidean distances. *)
From Coq Require Import Reals Lra Lia List Arith Bool ZArith Psatz.
From Flocq Require Import Core IEEE754.BinarySingleNaN.
From Verif Require Import Num Numpy MUtils MDistances MInternals MMergesort MAvl MDcor MInteger MFloat Sums Spec Centering Tab
  Samples RefDist RefAvl RefDcor Api Witness RefApi SpecFacts Calls AvlGeneric Transfer Hom RefInteger RefFloat FloatAvl FloatApi
  FloatSum FloatEnv FloatError FloatAccuracy PInteger PFloat FloatNaive.
Import ListNotations.
Local Open Scope R_scope.

(** Two float64 samples of [n] observations without infinities or NaN, of any numbers of columns. *)
Definition double_pair (n : nat) (x y : array b64) : Prop :=
  paired n (freals x) (freals y) /\ adt x = F64 /\ adt y = F64 /\
  Forall (fun v => is_finite v = true) (entries x) /\ Forall (fun v => is_finite v = true) (entries y).

(** The values of a coordinate are equal or differ by between 2^-100 and 2^100. *)
Definition spread (n : nat) (x : array b64) : Prop :=
  forall i j k, (i < n)%nat -> (j < n)%nat -> (k < ncols x)%nat ->
    obs (freals x) i k = obs (freals x) j k \/ / 2 ^ 100 <= Rabs (obs (freals x) i k - obs (freals x) j k) <= 2 ^ 100.

(** Number of roundings: the three sums have n^2, n and n^2 terms. *)
Definition roundings (n cx cy : nat) : R := 2 * INR n ^ 2 + INR n + 2 * INR (cx + cy) + 28.
Definition naive_unit (f : api) : R := match f with UDcovSqr => / 2 ^ 47 | _ => / 2 ^ 50 end.

Lemma entries_fin n x : wf x -> shape0 x = n -> Forall (fun v => is_finite v = true) (entries x) ->
  forall i k, (i < n)%nat -> (k < ncols x)%nat -> is_finite (fobs x i k) = true.
Proof.
  destruct x as [s d [v|c rows]]; unfold wf, shape0, entries, ncols, fobs; cbn; intros W L F i k Hi Hk; rewrite Forall_forall in F; apply F.
  - apply nth_In. rewrite <- L in Hi. exact Hi.
  - assert (Hi2 : (i < length rows)%nat) by (rewrite <- L in Hi; exact Hi). assert (Ir : In (nth i rows []) rows) by (apply nth_In; exact Hi2).
    apply in_concat. exists (nth i rows []). rewrite Forall_forall in W. split; [exact Ir|]. apply nth_In. pose proof (W _ Ir) as Wi. rewrite <- Wi in Hk. exact Hk.
Qed.

Section Accuracy.
  Context (lib : flib) (E : Env b64) (HE : valid_fenv lib E).
  Let EN : e_num E = B64Num lib := vf_num _ _ HE.
  Let GL : good_lib lib := vf_lib _ _ HE.
  Context (n : nat) (x y : array b64) (Hp : double_pair n x y) (Sx : spread n x) (Sy : spread n y).
  Context (Hn : (4 <= n)%nat) (Hn' : (Z.of_nat n <= 2 ^ 18)%Z) (Cx : (Z.of_nat (ncols x) <= 2 ^ 30)%Z) (Cy : (Z.of_nat (ncols y) <= 2 ^ 30)%Z).
  Let k0 := (ncols x + ncols y + 9 + n * n)%nat.
  Let a := distances 1 (freals x).
  Let b := distances 1 (freals y).

  Lemma small_INR m k : (Z.of_nat m <= 2 ^ Z.of_nat k)%Z -> INR m <= 2 ^ k.
  Proof. intros H. rewrite INR_IZR_INZ, (pow_IZR 2). apply IZR_le. auto. Qed.
  Lemma few_k0 : few (n + 12 + 2 * k0).
  Proof. unfold few. apply small_INR. unfold k0. change (Z.of_nat 40) with 40%Z. nia. Qed.

  Lemma naive_near cm : not_forced cm -> exists t, outcome (dcov_terms_naive E x y (b64_ofZ 1) cm false) = Ok t /\
    near k0 (2 ^ 300) (t_mean_prod t) (rsum2 n n (fun i j => a i j * b i j)) /\
    Forall2 (near k0 (2 ^ 300)) (t_a_axis t) (tab n (fun i => rsum n (a i))) /\ near k0 (2 ^ 300) (t_a_total t) (rsum2 n n a) /\
    Forall2 (near k0 (2 ^ 300)) (t_b_axis t) (tab n (fun i => rsum n (b i))) /\ near k0 (2 ^ 300) (t_b_total t) (rsum2 n n b) /\
    length (t_a_axis t) = n /\ length (t_b_axis t) = n.
  Proof.
    intros Hcm. pose proof few_k0 as fw. destruct Hp as ((Wx & Wy & Lx & Ly & _) & Fx & Fy & Ix & Iy).
    apply freals_wf in Wx, Wy. rewrite freals_shape0 in Lx, Ly.
    assert (n18 : INR n <= 2 ^ 18) by (apply small_INR; exact Hn').
    assert (cx : INR (ncols x) <= 2 ^ (2 * 15)) by (apply small_INR; exact Cx). assert (cy : INR (ncols y) <= 2 ^ (2 * 15)) by (apply small_INR; exact Cy).
    assert (SP : forall z, spread n z -> forall i j k, (i < n)%nat -> (j < n)%nat -> (k < ncols z)%nat ->
      let t := obs (freals z) i k - obs (freals z) j k in t = 0 \/ (/ 2 ^ 100 <= Rabs t <= 2 ^ 100)).
    { intros z Hz i j k Hi Hj Hk t. destruct (Hz i j k Hi Hj Hk) as [H|H]; [left; unfold t; lra|right; exact H]. }
    assert (M : forall k q v r, near k (2 ^ q) v r -> (k <= k0)%nat -> (q <= 300)%nat -> near k0 (2 ^ 300) v r).
    { intros k q v r H Hk Hq. eapply near_weaken; [eapply near_more; [exact H|apply pow2_le; auto]|auto]. }
    assert (ML : forall k q l rs, Forall2 (near k (2 ^ q)) l rs -> (k <= k0)%nat -> (q <= 300)%nat -> Forall2 (near k0 (2 ^ 300)) l rs).
    { clear - M. intros k q l rs H Hk Hq. induction H; constructor; eauto. }
    assert (NN : (n + n <= n * n)%nat) by nia.
    assert (outcome (dcov_terms_naive E x y (b64_ofZ 1) cm false) = outcome (dcov_terms_naive E x y (b64_ofZ 1) CNoCompile false)) as ->
      by (destruct Hcm; subst; reflexivity).
    unfold dcov_terms_naive, compute_distances. rewrite !outcome_bind, check_exponent_F.
    rewrite (pairwise_fdists lib E EN x n Wx Lx Fx), (pairwise_fdists lib E EN y n Wy Ly Fy). rewrite EN. cbn [outcome lift snd bind ret].
    unfold np_dot. rewrite !concat_length_tab2, Nat.eqb_refl. cbn [outcome lift snd].
    eexists. split; [reflexivity|]. cbn [t_mean_prod t_a_axis t_a_total t_b_axis t_b_total]. rewrite EN.
    assert (fx : few (4 + ncols x + n + n)) by (apply (few_le _ _ fw); unfold k0; lia).
    assert (fy : few (4 + ncols y + n + n)) by (apply (few_le _ _ fw); unfold k0; lia).
    pose proof (fdists_near lib GL E EN x n Lx (entries_fin n x Wx Lx Ix) 100 15 cx ltac:(lia) ltac:(apply (few_le _ _ fx); lia) (SP x Sx)) as Nx.
    pose proof (fdists_near lib GL E EN y n Ly (entries_fin n y Wy Ly Iy) 100 15 cy ltac:(lia) ltac:(apply (few_le _ _ fy); lia) (SP y Sy)) as Ny.
    split; [|split; [|split; [|split; [|split]]]].
    - rewrite <- (np_sum_concat_tab2 n n), !concat_tab_tab, np_sum_tab.
      apply (M (4 + ncols x + (4 + ncols y) + n * n)%nat (115 + 115 + 36)%nat); [|unfold k0; lia|lia].
      apply near_tab_dot; auto.
      + intros i Hi. assert (Hd : (i / n < n)%nat) by (apply Nat.div_lt_upper_bound; lia). assert (Hm : (i mod n < n)%nat) by (apply Nat.mod_upper_bound; lia).
        apply Nx; auto.
      + intros i Hi. assert (Hd : (i / n < n)%nat) by (apply Nat.div_lt_upper_bound; lia). assert (Hm : (i mod n < n)%nat) by (apply Nat.mod_upper_bound; lia).
        apply Ny; auto.
      + apply (few_le _ _ fw). unfold k0. lia.
      + rewrite mult_INR. change 36%nat with (18 + 18)%nat. rewrite pow_add. apply Rmult_le_compat; auto using pos_INR.
      + lia.
    - eapply ML; [apply (fdists_rows lib GL E EN x n Lx (entries_fin n x Wx Lx Ix) 100 15 cx ltac:(lia) ltac:(apply (few_le _ _ fx); lia) (SP x Sx) 18 n18); auto; lia|unfold k0; lia|lia].
    - eapply M; [apply (fdists_total lib GL E EN x n Lx (entries_fin n x Wx Lx Ix) 100 15 cx ltac:(lia) ltac:(apply (few_le _ _ fx); lia) (SP x Sx) 18 n18); auto; lia|unfold k0; lia|lia].
    - eapply ML; [apply (fdists_rows lib GL E EN y n Ly (entries_fin n y Wy Ly Iy) 100 15 cy ltac:(lia) ltac:(apply (few_le _ _ fy); lia) (SP y Sy) 18 n18); auto; lia|unfold k0; lia|lia].
    - eapply M; [apply (fdists_total lib GL E EN y n Ly (entries_fin n y Wy Ly Iy) 100 15 cy ltac:(lia) ltac:(apply (few_le _ _ fy); lia) (SP y Sy) 18 n18); auto; lia|unfold k0; lia|lia].
    - unfold row_sums, tab2. rewrite !map_length, !tab_length. auto.
  Qed.

  Lemma naive_accuracy f Dx Dy cm : squared f -> not_forced cm ->
    (forall i j, (i < n)%nat -> (j < n)%nat -> a i j <= Dx) -> (forall i j, (i < n)%nat -> (j < n)%nat -> b i j <= Dy) ->
    exists v, call f E x y (b64_ofZ 1) MNaive cm = Ok v /\ is_finite v = true /\
      Rabs (B2R v - value f n a b) <= roundings n (ncols x) (ncols y) * naive_unit f * (Dx * Dy).
  Proof.
    intros Hf Hcm HDx HDy. pose proof few_k0 as fw.
    destruct (naive_near cm Hcm) as (t & T & N1 & N2 & N3 & N4 & N5 & La & Lb).
    assert (Lx : shape0 x = n) by (destruct Hp as ((_ & _ & L & _) & _); rewrite freals_shape0 in L; auto).
    assert (Hw : wants_var f = false) by (destruct Hf as [-> | ->]; reflexivity).
    rewrite call_terms, Hw. cbn [method_terms]. rewrite T. cbn [rbind]. rewrite Lx.
    assert (n18 : INR n <= 2 ^ 18) by (apply small_INR; exact Hn').
    assert (Hnb : INR n <= 2 ^ 39) by (eapply Rle_trans; [exact n18|apply pow2_le; lia]).
    destruct (from_terms_near lib GL E EN n Hn Hnb (corrected f) k0 300 (t_kind t) _ _ _ _ _ _ _ _ _ _ ltac:(lia) fw N1 N2 N3 N4 N5 La Lb) as (v & V1 & V2 & V3 & V4 & _).
    exists v. split; [unfold finish; rewrite Hw, V1; destruct Hf as [-> | ->]; reflexivity|]. split; [exact V2|].
    set (N := INR n) in *. assert (H4 : 4 <= N) by (unfold N; replace 4 with (INR 4) by (cbn; ring); apply le_INR; auto).
    set (P := rsum2 n n (fun i j => a i j * b i j)) in *.
    set (f1 := P / N / den1 n (corrected f)) in *.
    set (f2 := np_sum RNum (map2 Rmult (map (fun v0 => v0 / N) (tab n (fun i => rsum n (a i)))) (tab n (fun i => rsum n (b i)))) / den2 n (corrected f)) in *.
    set (f3 := rsum2 n n a / N * rsum2 n n b / den3 n (corrected f)) in *.
    assert (f2 = rsum n (fun i => rsum n (a i) / N * rsum n (b i)) / den2 n (corrected f)) as F2.
    { unfold f2. rewrite tab_map, tab_map2, np_sum_tab. reflexivity. }
    assert (Hval : value f n a b = f1 - 2 * f2 + f3).
    { rewrite F2. destruct Hf as [-> | ->]; cbn [value].
      - rewrite dcov2_from_terms by (lia || apply dmat_symmetric). reflexivity.
      - rewrite udcov2_from_terms by (lia || apply dmat_symmetric || apply dmat_hollow). reflexivity. }
    rewrite Hval. eapply Rle_trans; [exact V3|].
    assert (a0 : forall i j, 0 <= a i j) by (intros; unfold a, distances, dmat; rewrite rpow_1 by apply dist_nonneg; apply dist_nonneg).
    assert (b0 : forall i j, 0 <= b i j) by (intros; unfold b, distances, dmat; rewrite rpow_1 by apply dist_nonneg; apply dist_nonneg).
    assert (X0 : 0 <= Dx) by (eapply Rle_trans; [apply (a0 0%nat 0%nat)|apply HDx; lia]).
    assert (Y0 : 0 <= Dy) by (eapply Rle_trans; [apply (b0 0%nat 0%nat)|apply HDy; lia]).
    assert (Ra : forall i, (i < n)%nat -> 0 <= rsum n (a i) <= N * Dx).
    { intros i Hi. split; [apply rsum_nonneg; auto|]. unfold N. rewrite <- rsum_const. apply rsum_le. auto. }
    assert (Rb : forall i, (i < n)%nat -> 0 <= rsum n (b i) <= N * Dy).
    { intros i Hi. split; [apply rsum_nonneg; auto|]. unfold N. rewrite <- rsum_const. apply rsum_le. auto. }
    assert (Ta : 0 <= rsum2 n n a <= N * (N * Dx)).
    { unfold rsum2. split; [apply rsum_nonneg; intros; apply Ra; auto|]. unfold N at 1. rewrite <- rsum_const. apply rsum_le. intros; apply Ra; auto. }
    assert (Tb : 0 <= rsum2 n n b <= N * (N * Dy)).
    { unfold rsum2. split; [apply rsum_nonneg; intros; apply Rb; auto|]. unfold N at 1. rewrite <- rsum_const. apply rsum_le. intros; apply Rb; auto. }
    set (XY := Dx * Dy / 4). assert (XY0 : 0 <= XY) by (unfold XY; apply Rmult_le_pos; [apply Rmult_le_pos; auto|lra]).
    assert (HP : P <= N * (N * (4 * XY))).
    { unfold P, rsum2, N. rewrite <- rsum_const. apply rsum_le. intros. rewrite <- rsum_const. apply rsum_le. intros.
      replace (4 * XY) with (Dx * Dy) by (unfold XY; field). apply Rmult_le_compat; auto. }
    assert (iN : 0 < / N) by (apply Rinv_0_lt_compat; lra).
    destruct (dens_pos n Hn (corrected f)) as (D1 & D2 & D3).
    assert (i1 : 0 < / den1 n (corrected f)) by (apply Rinv_0_lt_compat; lra).
    assert (i2 : 0 < / den2 n (corrected f)) by (apply Rinv_0_lt_compat; lra).
    assert (i3 : 0 < / den3 n (corrected f)) by (apply Rinv_0_lt_compat; lra).
    assert (B1 : f1 <= 4 * N ^ 2 * XY / N / den1 n (corrected f)).
    { unfold f1, Rdiv. apply Rmult_le_compat_r; [lra|]. apply Rmult_le_compat_r; [lra|]. lra. }
    assert (B2 : f2 <= 4 * N ^ 2 * XY / den2 n (corrected f)).
    { rewrite F2. unfold Rdiv at 1 3. apply Rmult_le_compat_r; [lra|].
      apply Rle_trans with (N * (4 * N * XY)); [|apply Req_le; ring]. unfold N at 2. rewrite <- rsum_const. apply rsum_le. intros i Hi.
      destruct (Ra i Hi) as (A0 & A1). destruct (Rb i Hi) as (B0 & B1').
      replace (4 * N * XY) with (N * Dx / N * (N * Dy)) by (unfold XY; field; lra).
      apply Rmult_le_compat; auto; [apply Rmult_le_pos; lra|]. apply Rmult_le_compat_r; lra. }
    assert (B3 : f3 <= 4 * N ^ 3 * XY / den3 n (corrected f)).
    { unfold f3. unfold Rdiv at 1 3. apply Rmult_le_compat_r; [lra|].
      replace (4 * N ^ 3 * XY) with (N * (N * Dx) / N * (N * (N * Dy))) by (unfold XY; field; lra).
      destruct Ta as (A0 & A1). destruct Tb as (B0 & B1').
      apply Rmult_le_compat; auto; [apply Rmult_le_pos; lra|]. apply Rmult_le_compat_r; lra. }
    assert (HS : f1 + 2 * f2 + f3 <= (match f with UDcovSqr => 128 | _ => 16 end) * XY).
    { destruct Hf as [-> | ->]; [apply (size_V N)|apply (size_U N)]; auto. }
    assert (Hr : INR (n + 10 + 2 * k0) = roundings n (ncols x) (ncols y)).
    { unfold roundings, k0. repeat (rewrite ?plus_INR, ?mult_INR). cbn [INR]. fold N. ring. }
    assert (Hg : gam (n + 10 + 2 * k0) <= 2 * roundings n (ncols x) (ncols y) * ulp1).
    { rewrite <- Hr. apply gam_lin.
      assert (INR (n + 10 + 2 * k0) <= 2 ^ 40) by (eapply Rle_trans; [|exact fw]; apply le_INR; lia).
      unfold ulp1. apply Rle_trans with (2 ^ 40 * / 2 ^ 53); [apply Rmult_le_compat_r; lra|]. lra. }
    eapply Rle_trans; [apply Rmult_le_compat; [apply gam_nonneg| |exact Hg|exact HS]|].
    { eapply Rle_trans; [apply Rabs_pos|exact V4]. }
    unfold ulp1, naive_unit, XY. destruct Hf as [-> | ->]; cbv iota; apply Req_le; field.
  Qed.
End Accuracy.

(** The result of the squared functions is finite, and its distance to the exact value is at most the number of roundings
    times a unit in the last place of the product of the largest distances. *)
Theorem C55_naive_accuracy f lib E n x y Dx Dy cm : valid_fenv lib E -> double_pair n x y -> spread n x -> spread n y ->
  (4 <= n)%nat -> (Z.of_nat n <= 2 ^ 18)%Z -> (Z.of_nat (ncols x) <= 2 ^ 30)%Z -> (Z.of_nat (ncols y) <= 2 ^ 30)%Z ->
  squared f -> not_forced cm ->
  (forall i j, (i < n)%nat -> (j < n)%nat -> distances 1 (freals x) i j <= Dx) ->
  (forall i j, (i < n)%nat -> (j < n)%nat -> distances 1 (freals y) i j <= Dy) ->
  exists v, call f E x y (b64_ofZ 1) MNaive cm = Ok v /\ is_finite v = true /\
    Rabs (B2R v - value f n (distances 1 (freals x)) (distances 1 (freals y))) <= roundings n (ncols x) (ncols y) * naive_unit f * (Dx * Dy).
Proof. intros. eapply naive_accuracy; eauto. Qed.

(** 0.1, 0.2, 0.3, 0.7 and 0.9 as doubles *)
Definition fl (m : positive) (e : Z) (H : SpecFloat.bounded 53 1024 m e = true) : b64 := B754_finite false m e H.
Definition tenths : list b64 := [fl 7205759403792794 (-56) eq_refl; fl 5404319552844595 (-54) eq_refl; fl 7205759403792794 (-55) eq_refl;
  fl 6305039478318694 (-53) eq_refl; fl 8106479329266893 (-53) eq_refl].
Definition xt : array b64 := mkArr Numpy F64 (Vec tenths).
(** two columns *)
Definition yt : array b64 := mkArr Numpy F64 (Mat 2 (map (fun v => [v; b64_ofZ 1]) (rev tenths))).

Lemma tenths_real : map B2R tenths = [7205759403792794 / 2 ^ 56; 5404319552844595 / 2 ^ 54; 7205759403792794 / 2 ^ 55;
  6305039478318694 / 2 ^ 53; 8106479329266893 / 2 ^ 53].
Proof.
  unfold tenths, fl. cbn [map B2R]. unfold F2R. cbn [Fnum Fexp cond_Zopp].
  assert (H : forall k, bpow radix2 (- Z.of_nat k) = / 2 ^ k).
  { intros k. rewrite bpow_opp, <- IZR_Zpower by lia. rewrite (pow_IZR 2). reflexivity. }
  change (-56)%Z with (- Z.of_nat 56)%Z. change (-54)%Z with (- Z.of_nat 54)%Z. change (-55)%Z with (- Z.of_nat 55)%Z. change (-53)%Z with (- Z.of_nat 53)%Z.
  rewrite !H. reflexivity.
Qed.
Lemma tenths_spread u v : In u (map B2R tenths) -> In v (map B2R tenths) -> u = v \/ / 2 ^ 100 <= Rabs (u - v) <= 1.
Proof.
  rewrite tenths_real. cbn [In]. assert (P : / 2 ^ 100 <= / 2 ^ 56) by (apply Rinv_le; [apply pow_lt; lra|apply pow2_le; lia]).
  intros [<-|[<-|[<-|[<-|[<-|[]]]]]] [<-|[<-|[<-|[<-|[<-|[]]]]]]; try (left; reflexivity); right; unfold Rabs; destruct Rcase_abs; lra.
Qed.
Lemma xt_obs i : (i < 5)%nat -> In (obs (freals xt) i 0) (map B2R tenths).
Proof. intros H. apply nth_In. exact H. Qed.
Lemma yt_obs i : (i < 5)%nat -> In (obs (freals yt) i 0) (map B2R tenths) /\ obs (freals yt) i 1 = 1.
Proof.
  assert (B2R (b64_ofZ 1) = 1) as H1 by (destruct (rep_ofZ 1 ltac:(lia)) as (_ & R1 & _); exact R1).
  intros H. destruct i as [|[|[|[|[|i]]]]]; try lia; unfold obs, freals, yt; cbn [adata amap rev app map tenths nth]; rewrite H1; split; auto;
    unfold tenths; cbn [map]; auto with datatypes.
Qed.
Lemma dist_le_1 u v : Rabs (u - v) <= 1 -> sqrt ((u - v) ^ 2) <= 1.
Proof. intros H. rewrite <- Rsqr_pow2, sqrt_Rsqr_abs. exact H. Qed.

Example C55_meets :
  exists v, call UDcovSqr env_F xt yt (b64_ofZ 1) MNaive CAuto = Ok v /\ is_finite v = true /\
    Rabs (B2R v - value UDcovSqr 5 (distances 1 (freals xt)) (distances 1 (freals yt))) <= roundings 5 1 2 * / 2 ^ 47 * (1 * 1).
Proof.
  assert (P : 1 <= 2 ^ 100) by (apply pow_R1_Rle; lra).
  apply (C55_naive_accuracy UDcovSqr plain env_F 5 xt yt 1 1); unfold squared, not_forced; auto using env_F_valid; try (cbn; lia).
  - repeat split; auto; try (cbn; lia); try (repeat constructor; fail).
  - intros i j k Hi Hj Hk. cbn in Hk. assert (k = 0)%nat as -> by lia.
    destruct (tenths_spread _ _ (xt_obs i Hi) (xt_obs j Hj)) as [H|H]; [left; auto|right; lra].
  - intros i j k Hi Hj Hk. cbn in Hk. destruct k as [|[|k]]; try lia.
    + destruct (tenths_spread _ _ (proj1 (yt_obs i Hi)) (proj1 (yt_obs j Hj))) as [H|H]; [left; auto|right; lra].
    + left. rewrite (proj2 (yt_obs i Hi)), (proj2 (yt_obs j Hj)). reflexivity.
  - intros i j Hi Hj. unfold distances, dmat. rewrite rpow_1 by apply dist_nonneg. change (ncols (freals xt)) with 1%nat. rewrite dist_1.
    destruct (tenths_spread _ _ (xt_obs i Hi) (xt_obs j Hj)) as [H|H]; [|lra]. rewrite H, Rminus_eq_0, Rabs_R0. lra.
  - intros i j Hi Hj. unfold distances, dmat. rewrite rpow_1 by apply dist_nonneg. change (ncols (freals yt)) with 2%nat. unfold dist. cbn [rsum].
    rewrite (proj2 (yt_obs i Hi)), (proj2 (yt_obs j Hj)).
    set (u := obs (freals yt) i 0). set (w := obs (freals yt) j 0).
    replace (0 + (u - w) ^ 2 + (1 - 1) ^ 2) with ((u - w) ^ 2) by ring. apply dist_le_1.
    destruct (tenths_spread _ _ (proj1 (yt_obs i Hi)) (proj1 (yt_obs j Hj))) as [H|H]; fold u w in H; [|lra]. rewrite H, Rminus_eq_0, Rabs_R0. lra.
Qed.
