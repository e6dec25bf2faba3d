(** C87: changing the unit of measurement by a power of two, in double precision.

    [call f E x y e m cm]: the public function named by [f] (Api.v). [obs (freals x) i j]: the coordinate [j] of observation [i] as a real number. *)
From Coq Require Import Reals Lra Lia List Arith Bool ZArith Psatz.
From Flocq Require Import Core IEEE754.BinarySingleNaN.
From Verif Require Import Num Numpy MUtils MDistances MInternals MMergesort MAvl MDcor MInteger MFloat Sums Spec Centering Tab
  Samples RefDist RefAvl RefDcor Api Witness RefApi SpecFacts Calls AvlGeneric Transfer Hom RefInteger RefFloat FloatAvl FloatApi
  FloatSum FloatEnv FloatError FloatAccuracy PInteger PFloat FloatNaive PNaiveFloat FloatCorr PFloatCorr FloatScale.
Import ListNotations.
Local Open Scope R_scope.
Local Notation p2 := (bpow radix2).

(** [x'] has the shape and the library of [x], and each number in it is exactly 2^k times the one in [x]. *)
Definition rescaled (k : Z) (x x' : array b64) : Prop :=
  ans x' = ans x /\ adt x' = F64 /\ wf x' /\ shape0 x' = shape0 x /\ ncols x' = ncols x /\
  forall i j, (i < shape0 x)%nat -> (j < ncols x)%nat ->
    is_finite (fobs x' i j) = true /\ obs (freals x') i j = powerRZ 2 k * obs (freals x) i j.

(** A float64 sample of [n] observations without infinities or NaN, whose values of a coordinate are equal or differ by between
    2^-40 and 2^40 (about 10^-12 and 10^12). *)
Definition ordinary (n : nat) (x : array b64) : Prop :=
  wf x /\ shape0 x = n /\ (1 <= n)%nat /\ (Z.of_nat n <= 2 ^ 18)%Z /\ (Z.of_nat (ncols x) <= 2 ^ 30)%Z /\ adt x = F64 /\
  Forall (fun v => is_finite v = true) (entries x) /\
  forall i j k, (i < n)%nat -> (j < n)%nat -> (k < ncols x)%nat ->
    obs (freals x) i k = obs (freals x) j k \/ / 2 ^ 40 <= Rabs (obs (freals x) i k - obs (freals x) j k) <= 2 ^ 40.

Lemma p2_pow k : p2 (Z.of_nat k) = 2 ^ k.
Proof. rewrite bpow_powerRZ. symmetry. apply pow_powerRZ. Qed.
Lemma p2_inv k : p2 (- Z.of_nat k) = / 2 ^ k.
Proof. rewrite bpow_opp, p2_pow. reflexivity. Qed.

Lemma scaled_diff k (u v u' v' : b64) : (-40 <= k <= 40)%Z -> is_finite u = true -> is_finite v = true -> is_finite u' = true -> is_finite v' = true ->
  B2R u' = p2 k * B2R u -> B2R v' = p2 k * B2R v -> B2R u = B2R v \/ p2 (-40) <= Rabs (B2R u - B2R v) <= p2 40 ->
  scaled (2 * k) 132 (p2 80) (b64_mul (b64_sub u v) (b64_sub u v)) (b64_mul (b64_sub u' v') (b64_sub u' v')).
Proof.
  intros K Fu Fv Fu' Fv' Su Sv D.
  assert (L : B2R u - B2R v = 0 \/ p2 (- (40)) <= Rabs (B2R u - B2R v)) by (destruct D as [-> | D]; [left; ring|right; apply D]).
  destruct (scaled_low k 40 (p2 40) (B2R u - B2R v) (b64_sub u v) (b64_sub u' v')) as [S L2].
  - unfold calm. lia.
  - exact L.
  - destruct D as [-> | D]; [|apply D]. unfold Rminus. rewrite Rplus_opp_r, Rabs_R0. apply bpow_ge_0.
  - apply format_p2. lia.
  - apply p2_le. lia.
  - intros. apply sub_real; auto.
  - replace (p2 k * (B2R u - B2R v)) with (B2R u' - B2R v') by (rewrite Su, Sv; ring). intros. apply sub_real; auto.
  - destruct S as (F & F' & S & _ & U). set (d := b64_sub u v) in *. set (d' := b64_sub u' v') in *.
    destruct (scaled_low (2 * k) 80 (p2 80) (B2R d * B2R d) (b64_mul d d) (b64_mul d' d')) as [S2 _]; [| | | | | | |exact S2].
    + unfold calm. lia.
    + destruct L2 as [-> | L2]; [left; ring|right]. rewrite Rabs_mult. change (- (80))%Z with (- (40) + - (40))%Z. rewrite bpow_plus.
      apply Rmult_le_compat; auto using bpow_ge_0.
    + rewrite Rabs_mult. change 80%Z with (40 + 40)%Z. rewrite bpow_plus. apply Rmult_le_compat; auto using Rabs_pos.
    + apply format_p2. lia.
    + apply p2_le. lia.
    + intros. apply mult_real; auto.
    + replace (p2 (2 * k) * (B2R d * B2R d)) with (B2R d' * B2R d'); [intros; apply mult_real; auto|].
      rewrite S. replace (2 * k)%Z with (k + k)%Z by lia. rewrite bpow_plus. ring.
Qed.

Section Scale.
  Context (lib : flib) (E : Env b64) (HE : valid_fenv lib E).
  Notation NF := (B64Num lib).

  Section One.
    Context (n : nat) (k : Z) (x x' : array b64) (K : (-40 <= k <= 40)%Z) (Ox : ordinary n x) (Rx : rescaled k x x').

    Lemma fobs_scaled i j : (i < n)%nat -> (j < ncols x)%nat -> is_finite (fobs x i j) = true /\ is_finite (fobs x' i j) = true /\
      B2R (fobs x' i j) = p2 k * B2R (fobs x i j).
    Proof.
      intros Hi Hj. destruct Ox as (W & L & _ & _ & _ & _ & F & _). destruct Rx as (_ & _ & _ & _ & _ & R). rewrite L in R.
      destruct (R i j Hi Hj) as (F' & S). rewrite !obs_freals in S. split; [apply (entries_fin n x); auto|]. split; auto.
      rewrite bpow_powerRZ. exact S.
    Qed.

    Lemma fdist_scaled i j : (i < n)%nat -> (j < n)%nat -> scaled k 118 (p2 55) (fdist E x i j) (fdist E x' i j).
    Proof.
      intros Hi Hj. pose proof fobs_scaled as FS. destruct Ox as (W & L & N1 & N2 & C & _ & F & Sp).
      destruct Rx as (_ & _ & _ & _ & Cx & _). unfold fdist. rewrite Cx.
      assert (EN := vf_num _ _ HE). unfold sq_norm. rewrite EN, !tab_map2. cbn [nsub nmul B64Num].
      assert (S : scaled (2 * k) (2 * 66) (p2 (2 * 55))
        (np_sum NF (tab (ncols x) (fun t => b64_mul (b64_sub (fobs x i t) (fobs x j t)) (b64_sub (fobs x i t) (fobs x j t)))))
        (np_sum NF (tab (ncols x) (fun t => b64_mul (b64_sub (fobs x' i t) (fobs x' j t)) (b64_sub (fobs x' i t) (fobs x' j t)))))).
      { change (2 * 66)%Z with 132%Z. change (2 * 55)%Z with (80 + 30)%Z. apply scaled_sum; try lia; [apply (vf_lib _ _ HE)|unfold calm; lia|rewrite tab_length; lia|].
        apply Forall2_tab. intros t Ht. destruct (FS i t Hi Ht) as (A1 & A2 & A3). destruct (FS j t Hj Ht) as (B1 & B2 & B3).
        apply scaled_diff; auto. specialize (Sp i j t Hi Hj Ht). rewrite !obs_freals in Sp. destruct Sp as [Sp|Sp]; [left; auto|right].
        change (-40)%Z with (- Z.of_nat 40)%Z. change 40%Z with (Z.of_nat 40). rewrite p2_inv, p2_pow. exact Sp. }
      apply (scaled_sqrt k 66 55); [unfold calm; lia|exact S| |lia].
      pose proof (near_tab_sum lib 3 (2 * 40) (2 * 15) (ncols x) (fun t => b64_mul (b64_sub (fobs x i t) (fobs x j t)) (b64_sub (fobs x i t) (fobs x j t)))
        (fun t => (B2R (fobs x i t) - B2R (fobs x j t)) ^ 2) (vf_lib _ _ HE)) as Nr.
      assert (cx : INR (ncols x) <= 2 ^ (2 * 15)) by (rewrite INR_IZR_INZ, <- p2_pow; change (p2 (Z.of_nat (2 * 15))) with (IZR (2 ^ 30)); apply IZR_le; exact C).
      assert (fw : few (3 + ncols x)).
      { unfold few. rewrite plus_INR. assert (2 ^ (2 * 15) = 1073741824) by (cbn; lra). assert (2 ^ 40 = 1099511627776) by (cbn; lra). cbn [INR]. lra. }
      destruct (near_bounds (3 + ncols x) (2 ^ (2 * 40 + 2 * 15)) (np_sum NF (tab (ncols x) (fun t => b64_mul (b64_sub (fobs x i t) (fobs x j t)) (b64_sub (fobs x i t) (fobs x j t)))))
        (rsum (ncols x) (fun t => (B2R (fobs x i t) - B2R (fobs x j t)) ^ 2)) fw) as [Lo _].
      { apply Nr; auto; [|lia]. intros t Ht. destruct (FS i t Hi Ht) as (A1 & _). destruct (FS j t Hj Ht) as (B1 & _).
        specialize (Sp i j t Hi Hj Ht). rewrite !obs_freals in Sp. assert (0 < 2 ^ 40) by (apply pow_lt; lra).
        apply near_sq; auto; [| |lia]; destruct Sp as [Sp|[Sp Sp']]; auto; [left; rewrite Sp; ring|]. rewrite Sp. unfold Rminus. rewrite Rplus_opp_r, Rabs_R0. lra. }
      assert (0 <= rsum (ncols x) (fun t => (B2R (fobs x i t) - B2R (fobs x j t)) ^ 2)) by (apply rsum_nonneg; intros; apply pow2_ge_0). lra.
    Qed.

    Lemma fdists_scaled i j : (i < n)%nat -> (j < n)%nat -> scaled k 118 (p2 55) (fdists E x i j) (fdists E x' i j).
    Proof.
      intros Hi Hj. unfold fdists. destruct Rx as (-> & -> & _). destruct Ox as (_ & _ & _ & _ & _ & -> & _).
      destruct (can_be_numpy_double E (ans x) F64); apply fdist_scaled; auto.
    Qed.
    Lemma pairwise_scaled : pairwise_distances E x None (b64_ofZ 1) = Ok (tab2 n n (fdists E x)) /\
      pairwise_distances E x' None (b64_ofZ 1) = Ok (tab2 n n (fdists E x')).
    Proof.
      destruct Ox as (W & L & _ & _ & _ & D & _). destruct Rx as (_ & D' & W' & L' & _). rewrite L in L'.
      split; eapply pairwise_fdists; eauto using vf_num.
    Qed.
    Lemma rows_scaled : scaleds k 118 (p2 73) (row_sums NF (tab2 n n (fdists E x))) (row_sums NF (tab2 n n (fdists E x'))).
    Proof.
      assert (H := fdists_scaled). destruct Ox as (_ & _ & _ & N2 & _).
      unfold row_sums, tab2. rewrite !tab_map. apply Forall2_tab. intros i Hi. change 73%Z with (55 + 18)%Z.
      apply scaled_sum; try lia; [apply (vf_lib _ _ HE)|unfold calm; lia|rewrite tab_length; exact N2|]. apply Forall2_tab. auto.
    Qed.
    Lemma total_scaled : scaled k 118 (p2 91) (np_sum NF (row_sums NF (tab2 n n (fdists E x)))) (np_sum NF (row_sums NF (tab2 n n (fdists E x')))).
    Proof.
      pose proof rows_scaled as H. destruct Ox as (_ & _ & _ & N2 & _). change 91%Z with (73 + 18)%Z.
      apply scaled_sum; try lia; auto; [apply (vf_lib _ _ HE)|unfold calm; lia|]. unfold row_sums, tab2. rewrite map_length, tab_length. exact N2.
    Qed.
    Lemma flat_scaled : scaleds k 118 (p2 55) (concat (tab2 n n (fdists E x))) (concat (tab2 n n (fdists E x'))).
    Proof.
      assert (H := fdists_scaled). destruct Ox as (_ & _ & N1 & _). rewrite !concat_tab_tab. apply Forall2_tab. intros i Hi.
      apply H; [apply Nat.div_lt_upper_bound; lia|apply Nat.mod_upper_bound; lia].
    Qed.
  End One.

  Lemma scaled_const z c : (1 <= z)%Z -> (z <= 2 ^ c)%Z -> (0 <= c <= 50)%Z -> scaled 0 0 (p2 c) (b64_ofZ z) (b64_ofZ z).
  Proof.
    intros H1 H2 Hc. destruct (ofZ_between z c H1 H2 ltac:(lia)) as (F & L & U). repeat split; auto; [cbn; ring| |rewrite Rabs_pos_eq; lra].
    exists z. cbn. rewrite Rmult_1_r. destruct (rep_ofZ z) as (_ & R & _); auto. assert (2 ^ c <= 2 ^ 50)%Z by (apply Z.pow_le_mono_r; lia). lia.
  Qed.
  Lemma p2_double e : p2 e + p2 e = p2 (e + 1).
  Proof. rewrite bpow_plus. change (p2 1) with 2. ring. Qed.

  Section Two.
    Context (n : nat) (kx ky : Z) (mp mp' at_ at' bt bt' : b64) (aa aa' ba ba' : list b64) (bc : bool).
    Context (Kx : (-40 <= kx <= 40)%Z) (Ky : (-40 <= ky <= 40)%Z) (N1 : ((if bc then 4 else 1) <= n)%nat) (N2 : (Z.of_nat n <= 2 ^ 18)%Z).
    Context (Hm : scaled (kx + ky) 236 (p2 146) mp mp') (Ha : scaleds kx 118 (p2 73) aa aa') (Hb : scaleds ky 118 (p2 73) ba ba').
    Context (Hat : scaled kx 118 (p2 91) at_ at') (Hbt : scaled ky 118 (p2 91) bt bt') (La : length aa = n) (Lb : length ba = n).

    Lemma from_terms_scaled : exists v v', dcov_from_terms E AllNumpy mp aa at_ ba bt n bc = Ok v /\
      dcov_from_terms E AllNumpy mp' aa' at' ba' bt' n bc = Ok v' /\ scaled (kx + ky) 412 (p2 192) v v'.
    Proof.
      pose proof (Forall2_len _ _ _ Ha) as La'. pose proof (Forall2_len _ _ _ Hb) as Lb'. assert (EN := vf_num _ _ HE).
      unfold dcov_from_terms, np_dot. rewrite !map_length, <- La', <- Lb', La, Lb, Nat.eqb_refl. cbn [rbind]. rewrite EN. cbn [ndiv nmul nsub nadd nofZ B64Num].
      set (d1 := (if bc then Z.of_nat n - 3 else Z.of_nat n)%Z). set (d2 := (if bc then (Z.of_nat n - 2) * (Z.of_nat n - 3) else Z.of_nat n ^ 2)%Z).
      set (d3 := (if bc then (Z.of_nat n - 1) * (Z.of_nat n - 2) * (Z.of_nat n - 3) else Z.of_nat n ^ 3)%Z).
      assert (Hn0 : (1 <= Z.of_nat n <= 2 ^ 18)%Z) by (destruct bc; lia).
      assert (Hd1 : (1 <= d1 <= 2 ^ 18)%Z) by (unfold d1; destruct bc; lia).
      assert (Hd2 : (1 <= d2 <= 2 ^ 36)%Z) by (unfold d2; destruct bc; [change (2 ^ 36)%Z with (2 ^ 18 * 2 ^ 18)%Z; nia|split; nia]).
      assert (Hd3 : (1 <= d3 <= 2 ^ 54)%Z).
      { unfold d3. replace (Z.of_nat n ^ 3)%Z with (Z.of_nat n * Z.of_nat n * Z.of_nat n)%Z by ring. change (2 ^ 54)%Z with (2 ^ 18 * 2 ^ 18 * 2 ^ 18)%Z.
        destruct bc; split; try nia; apply Z.mul_le_mono_nonneg; try nia; apply Z.mul_le_mono_nonneg; lia. }
      destruct (ofZ_between (Z.of_nat n) 18 ltac:(lia) ltac:(lia) ltac:(lia)) as (Fn & Bn).
      destruct (ofZ_between d1 18 ltac:(lia) ltac:(lia) ltac:(lia)) as (F1 & B1).
      destruct (ofZ_between d2 36 ltac:(lia) ltac:(lia) ltac:(lia)) as (F2 & B2).
      destruct (ofZ_between d3 54 ltac:(lia) ltac:(lia) ltac:(lia)) as (F3 & B3).
      assert (FM : forall e, (-1000 <= e <= 700)%Z -> generic_format radix2 (SpecFloat.fexp 53 1024) (p2 e) /\ p2 e <= p2 800)
        by (intros e He; split; [apply format_p2; lia|apply p2_le; lia]).
      eexists _, _. split; [reflexivity|]. split; [reflexivity|].
      (* the three terms *)
      destruct (scaled_div (kx + ky) 236 18 (p2 146) mp mp' (b64_ofZ (Z.of_nat n))) as [T1 _]; auto; try apply FM; try lia; [unfold calm; lia|].
      destruct (scaled_div (kx + ky) (236 + 18 + 52) 18 (p2 146) _ _ (b64_ofZ d1) ltac:(unfold calm; lia) T1) as [T2 _]; auto; try apply FM; try lia.
      assert (DA : scaleds kx (118 + 18 + 52) (p2 73) (map (fun v => b64_div v (b64_ofZ (Z.of_nat n))) aa) (map (fun v => b64_div v (b64_ofZ (Z.of_nat n))) aa')).
      { clear - Ha Kx Fn Bn FM. induction Ha as [|? ? ? ? H1 H2 IH]; cbn [map]; constructor; [|exact (IH H2)].
        apply (scaled_div kx 118 18 (p2 73)); auto; try apply FM; try lia. unfold calm. lia. }
      pose proof (scaled_dot lib kx ky (118 + 18 + 52) 118 73 73 18 _ _ ba ba' (vf_lib _ _ HE) ltac:(unfold calm; lia) ltac:(lia) ltac:(lia)
        ltac:(rewrite map_length, La; lia) ltac:(rewrite map_length; congruence) DA Hb) as T3. cbn [ndot B64Num] in T3. cbn [ndot B64Num].
      destruct (scaled_div (kx + ky) (118 + 18 + 52 + 118) 36 (p2 (73 + 73 + 18)) _ _ (b64_ofZ d2) ltac:(unfold calm; lia) T3) as [T4 _]; auto; try apply FM; try lia.
      pose proof (scaled_mul 0 (kx + ky) 0 (118 + 18 + 52 + 118 + 36 + 52) (p2 1) (p2 (73 + 73 + 18)) _ _ _ _ ltac:(unfold calm; lia)
        (scaled_const 2 1 ltac:(lia) ltac:(lia) ltac:(lia)) T4) as T5. rewrite <- bpow_plus in T5. specialize (T5 ltac:(apply FM; lia) ltac:(apply FM; lia)).
      destruct (scaled_div kx 118 18 (p2 91) at_ at' (b64_ofZ (Z.of_nat n))) as [T6 _]; auto; try apply FM; try lia; [unfold calm; lia|].
      pose proof (scaled_mul kx ky (118 + 18 + 52) 118 (p2 91) (p2 91) _ _ bt bt' ltac:(unfold calm; lia) T6 Hbt) as T7.
      rewrite <- bpow_plus in T7. specialize (T7 ltac:(apply FM; lia) ltac:(apply FM; lia)).
      destruct (scaled_div (kx + ky) (118 + 18 + 52 + 118) 54 (p2 (91 + 91)) _ _ (b64_ofZ d3) ltac:(unfold calm; lia) T7) as [T8 _]; auto; try apply FM; try lia.
      (* their combination *)
      replace (p2 192) with (p2 191 + p2 191) by apply p2_double.
      apply scaled_add; [unfold calm; lia| | |rewrite p2_double; apply FM; lia|rewrite p2_double; apply FM; lia].
      - replace (p2 191) with (p2 190 + p2 190) by apply p2_double.
        apply scaled_sub; [unfold calm; lia| | |rewrite p2_double; apply FM; lia|rewrite p2_double; apply FM; lia].
        + eapply scaled_weaken; [exact T2|lia|apply p2_le; lia].
        + eapply scaled_weaken; [exact T5|lia|apply p2_le; lia].
      - eapply scaled_weaken; [exact T8|lia|apply p2_le; lia].
    Qed.
  End Two.

  Lemma cov_scaled f n kx ky x x' y y' cm : squared f -> (min_size f <= n)%nat -> not_forced cm -> (-40 <= kx <= 40)%Z -> (-40 <= ky <= 40)%Z ->
    ordinary n x -> ordinary n y -> rescaled kx x x' -> rescaled ky y y' ->
    exists v v', call f E x y (b64_ofZ 1) MNaive cm = Ok v /\ call f E x' y' (b64_ofZ 1) MNaive cm = Ok v' /\ scaled (kx + ky) 412 (p2 192) v v'.
  Proof.
    intros Hf Hn Hcm Kx Ky Ox Oy Rx Ry.
    destruct (pairwise_scaled n kx x x' Ox Rx) as (Px & Px'). destruct (pairwise_scaled n ky y y' Oy Ry) as (Py & Py').
    pose proof (flat_scaled n kx x x' Kx Ox Rx) as Fx. pose proof (flat_scaled n ky y y' Ky Oy Ry) as Fy.
    assert (Lx : shape0 x = n) by apply Ox. assert (Lx' : shape0 x' = n) by (rewrite <- Lx; apply Rx).
    assert (n18 : (Z.of_nat n <= 2 ^ 18)%Z) by apply Ox.
    assert (Lr : forall g, length (row_sums NF (tab2 n n g)) = n) by (intros; unfold row_sums, tab2; rewrite map_length, tab_length; auto).
    assert (L36 : forall g : nat -> nat -> b64, (Z.of_nat (length (concat (tab2 n n g))) <= 2 ^ 36)%Z).
    { intros g. rewrite concat_length_tab2, Nat2Z.inj_mul. change (2 ^ 36)%Z with (2 ^ 18 * 2 ^ 18)%Z. apply Z.mul_le_mono_nonneg; lia. }
    pose proof (scaled_dot lib kx ky 118 118 55 55 36 _ _ _ _ (vf_lib _ _ HE) ltac:(unfold calm; lia) ltac:(lia) ltac:(lia)
      (L36 _) ltac:(rewrite !concat_length_tab2; auto) Fx Fy) as Hm.
    destruct (from_terms_scaled n kx ky _ _ _ _ _ _ _ _ _ _ (corrected f) Kx Ky ltac:(destruct Hf as [-> | ->]; exact Hn) n18 Hm
      (rows_scaled n kx x x' Kx Ox Rx) (rows_scaled n ky y y' Ky Oy Ry) (total_scaled n kx x x' Kx Ox Rx) (total_scaled n ky y y' Ky Oy Ry) (Lr _) (Lr _))
      as (v & v' & V & V' & S).
    exists v, v'.
    assert (T : forall u w U W, pairwise_distances E u None (b64_ofZ 1) = Ok (tab2 n n U) -> pairwise_distances E w None (b64_ofZ 1) = Ok (tab2 n n W) -> shape0 u = n ->
      call f E u w (b64_ofZ 1) MNaive cm = dcov_from_terms E AllNumpy (ndot NF (concat (tab2 n n U)) (concat (tab2 n n W)))
        (row_sums NF (tab2 n n U)) (np_sum NF (row_sums NF (tab2 n n U))) (row_sums NF (tab2 n n W)) (np_sum NF (row_sums NF (tab2 n n W))) n (corrected f)).
    { intros u w U W PU PW Lu. assert (EN := vf_num _ _ HE).
      assert (Hw : wants_var f = false) by (destruct Hf as [-> | ->]; reflexivity). rewrite call_terms, Hw, Lu. cbn [method_terms].
      assert (outcome (dcov_terms_naive E u w (b64_ofZ 1) cm false) = outcome (dcov_terms_naive E u w (b64_ofZ 1) CNoCompile false)) as ->
        by (destruct Hcm; subst; reflexivity).
      unfold dcov_terms_naive, compute_distances. rewrite !outcome_bind. rewrite (check_exponent_F E). rewrite PU, PW. cbn [outcome lift snd bind ret].
      unfold np_dot. rewrite !concat_length_tab2, Nat.eqb_refl. cbn [outcome lift snd]. unfold symmetric_matrix_sums. rewrite EN. unfold ret, outcome. cbn [snd app rbind].
      unfold finish. rewrite Hw. cbn [t_kind t_mean_prod t_a_axis t_b_axis t_a_total t_b_total rbind].
      match goal with |- rbind ?X _ = _ => change (rbind X (fun c => Ok (match f with Dcov | Dcor => sqrt_clamp (e_num E) c | _ => c end)) = X); destruct X; cbn [rbind]; auto end.
      destruct Hf as [-> | ->]; reflexivity. }
    split; [rewrite (T x y _ _ Px Py Lx); exact V|]. split; [rewrite (T x' y' _ _ Px' Py' Lx'); exact V'|exact S].
  Qed.
End Scale.

(** ** The theorems *)

(** Every entry of the distance matrix is multiplied by 2^k. *)
Theorem C87_distances lib E n k x x' : valid_fenv lib E -> (-40 <= k <= 40)%Z -> ordinary n x -> rescaled k x x' ->
  exists d d' : nat -> nat -> b64, pairwise_distances E x None (b64_ofZ 1) = Ok (tab2 n n d) /\
    pairwise_distances E x' None (b64_ofZ 1) = Ok (tab2 n n d') /\
    forall i j, (i < n)%nat -> (j < n)%nat -> is_finite (d' i j) = true /\ B2R (d' i j) = powerRZ 2 k * B2R (d i j).
Proof.
  intros HE K Ox Rx. destruct (pairwise_scaled lib E HE n k x x' Ox Rx) as (P & P').
  exists (fdists E x), (fdists E x'). split; [exact P|]. split; [exact P'|]. intros i j Hi Hj.
  destruct (fdists_scaled lib E HE n k x x' K Ox Rx i j Hi Hj) as (_ & F & S & _). split; auto. rewrite S, bpow_powerRZ. reflexivity.
Qed.

(** The squared distance covariance, biased or not, is multiplied by 2^(k + l) when the two samples are multiplied by 2^k and 2^l. *)
Theorem C87_covariance f lib E n k l x x' y y' cm : valid_fenv lib E -> squared f -> (min_size f <= n)%nat -> not_forced cm ->
  (-40 <= k <= 40)%Z -> (-40 <= l <= 40)%Z -> ordinary n x -> ordinary n y -> rescaled k x x' -> rescaled l y y' ->
  exists v v', call f E x y (b64_ofZ 1) MNaive cm = Ok v /\ call f E x' y' (b64_ofZ 1) MNaive cm = Ok v' /\
    is_finite v = true /\ is_finite v' = true /\ B2R v' = powerRZ 2 (k + l) * B2R v.
Proof.
  intros HE Hf Hn Hcm K L Ox Oy Rx Ry. destruct (cov_scaled lib E HE f n k l x x' y y' cm) as (v & v' & V & V' & F & F' & S & _); auto.
  exists v, v'. repeat split; auto. rewrite S, bpow_powerRZ. reflexivity.
Qed.

Lemma fcorr_scaled lib k l c c' vx vx' vy vy' : (-40 <= k <= 40)%Z -> (-40 <= l <= 40)%Z -> scaled (k + l) 412 (p2 192) c c' ->
  scaled (k + k) 412 (p2 192) vx vx' -> scaled (l + l) 412 (p2 192) vy vy' ->
  is_finite (fcorr lib c vx vy) = true /\ is_finite (fcorr lib c' vx' vy') = true /\ B2R (fcorr lib c' vx' vy') = B2R (fcorr lib c vx vy).
Proof.
  intros K L Hc Hx Hy.
  assert (Hp : scaled (2 * (k + l)) (2 * 412) (p2 (2 * 192)) (Babs (b64_mul vx vy)) (Babs (b64_mul vx' vy'))).
  { pose proof (scaled_mul (k + k) (l + l) 412 412 (p2 192) (p2 192) _ _ _ _ ltac:(unfold calm; lia) Hx Hy) as H.
    rewrite <- bpow_plus in H. specialize (H ltac:(apply format_p2; lia) ltac:(apply p2_le; lia)).
    destruct H as (F & F' & S & X & U). replace (2 * (k + l))%Z with (k + k + (l + l))%Z by lia. unfold scaled. rewrite !is_finite_Babs, !B2R_Babs.
    split; [auto|]. split; [auto|]. split; [rewrite S, Rabs_mult, (Rabs_pos_eq (p2 _)) by apply bpow_ge_0; reflexivity|].
    split; [|rewrite Rabs_Rabsolu; exact U]. destruct X as (z & ->). exists (Z.abs z). rewrite abs_IZR, Rabs_mult, (Rabs_pos_eq (p2 _)) by apply bpow_ge_0. reflexivity. }
  assert (CL : forall v : b64, is_finite v = true -> 0 <= B2R v -> sqrt_clamp (B64Num lib) v = b64_sqrt v).
  { intros v F P. unfold sqrt_clamp. cbn [nltb nzero nsqrt B64Num]. rewrite Bltb_correct by auto. rewrite Rlt_bool_false by (cbn; exact P). reflexivity. }
  assert (P1 : 0 <= B2R (Babs (b64_mul vx vy))) by (rewrite B2R_Babs; apply Rabs_pos).
  assert (P2 : 0 <= B2R (Babs (b64_mul vx' vy'))) by (rewrite B2R_Babs; apply Rabs_pos).
  pose proof (scaled_sqrt (k + l) 412 192 _ _ ltac:(unfold calm; lia) Hp P1 ltac:(lia)) as Hd.
  destruct Hp as (F1 & F1' & _). unfold fcorr. cbn [nabs B64Num]. rewrite !CL by auto.
  set (d := b64_sqrt (Babs (b64_mul vx vy))) in *. set (d' := b64_sqrt (Babs (b64_mul vx' vy'))) in *.
  destruct Hd as (Fd & Fd' & Sd & Xd & Ud). destruct Hc as (Fc & Fc' & Sc & Xc & Uc).
  rewrite !Beqb_correct by auto. cbn [B2R]. pose proof (bpow_gt_0 radix2 (k + l)) as PP.
  destruct (Req_dec (B2R d) 0) as [Z0|Z0].
  { rewrite Sd, Z0, Rmult_0_r, Req_bool_true by auto. auto. }
  assert (Z0' : B2R d' <> 0) by (rewrite Sd; apply Rmult_integral_contrapositive_currified; lra). rewrite !Req_bool_false by auto.
  assert (Q : B2R c' / B2R d' = B2R c / B2R d) by (rewrite Sc, Sd; field; split; lra).
  assert (OV : Rabs (b64_round (B2R c / B2R d)) < p2 1024).
  { apply Rle_lt_trans with (p2 700); [|apply bpow_lt; lia]. apply rnd_abs_le; [apply format_p2; lia|].
    destruct (fixed_low _ _ Xd) as [?|Ld]; [contradiction|]. unfold Rdiv. rewrite Rabs_mult, Rabs_inv. change 700%Z with (236 + 464)%Z. rewrite bpow_plus.
    apply Rmult_le_compat; [apply Rabs_pos|left; apply Rinv_0_lt_compat; apply Rabs_pos_lt; auto|eapply Rle_trans; [exact Uc|apply p2_le; lia]|].
    change 464%Z with (- - (464))%Z. rewrite (bpow_opp radix2 (- (464))). apply Rinv_le_contravar; [apply bpow_gt_0|exact Ld]. }
  destruct (div_real c d Fc Z0 OV) as (G1 & G2). rewrite <- Q in OV. destruct (div_real c' d' Fc' Z0' OV) as (G3 & G4).
  split; [exact G1|]. split; [exact G3|]. rewrite G2, G4, Q. reflexivity.
Qed.

(** The correlations do not depend on the units: the same number comes out, to the last digit. *)
Theorem C87_correlation g f lib E n k l x x' y y' cm : valid_fenv lib E -> correlates g f -> (min_size f <= n)%nat -> not_forced cm ->
  (-40 <= k <= 40)%Z -> (-40 <= l <= 40)%Z -> ordinary n x -> ordinary n y -> rescaled k x x' -> rescaled l y y' ->
  exists v v', call g E x y (b64_ofZ 1) MNaive cm = Ok v /\ call g E x' y' (b64_ofZ 1) MNaive cm = Ok v' /\
    is_finite v = true /\ is_finite v' = true /\ B2R v' = B2R v.
Proof.
  intros HE Hg Hn Hcm K L Ox Oy Rx Ry.
  assert (Hf : squared f) by (destruct Hg as [[_ ->]|[_ ->]]; [left|right]; reflexivity).
  assert (S1 : shape0 x = shape0 y) by (destruct Ox as (_ & -> & _), Oy as (_ & -> & _); reflexivity).
  assert (S2 : shape0 x' = shape0 y') by (destruct Rx as (_ & _ & _ & -> & _), Ry as (_ & _ & _ & -> & _); exact S1).
  destruct (naive_split E g f x y (b64_ofZ 1) cm Hg S1 Hcm) as (c & vx & vy & C & VX & VY & G).
  destruct (naive_split E g f x' y' (b64_ofZ 1) cm Hg S2 Hcm) as (c' & vx' & vy' & C' & VX' & VY' & G').
  destruct (cov_scaled lib E HE f n k l x x' y y' cm) as (? & ? & D & D' & Sc); auto. rewrite C in D. rewrite C' in D'. injection D as <-. injection D' as <-.
  destruct (cov_scaled lib E HE f n k k x x' x x' cm) as (? & ? & D & D' & Sx); auto. rewrite VX in D. rewrite VX' in D'. injection D as <-. injection D' as <-.
  destruct (cov_scaled lib E HE f n l l y y' y y' cm) as (? & ? & D & D' & Sy); auto. rewrite VY in D. rewrite VY' in D'. injection D as <-. injection D' as <-.
  rewrite (correlation_of_fcorr lib E _ _ _ (vf_num _ _ HE)) in G. rewrite (correlation_of_fcorr lib E _ _ _ (vf_num _ _ HE)) in G'.
  eexists _, _. split; [exact G|]. split; [exact G'|]. apply (fcorr_scaled lib k l); auto.
Qed.

(** [distance_correlation], the square root, likewise. *)
Theorem C87_distance_correlation lib E n k l x x' y y' cm : valid_fenv lib E -> not_forced cm ->
  (-40 <= k <= 40)%Z -> (-40 <= l <= 40)%Z -> ordinary n x -> ordinary n y -> rescaled k x x' -> rescaled l y y' ->
  exists v v', call Dcor E x y (b64_ofZ 1) MNaive cm = Ok v /\ call Dcor E x' y' (b64_ofZ 1) MNaive cm = Ok v' /\
    is_finite v = true /\ is_finite v' = true /\ B2R v' = B2R v.
Proof.
  intros HE Hcm K L Ox Oy Rx Ry.
  destruct (C87_correlation DcorSqr DcovSqr lib E n k l x x' y y' cm) as (r & r' & H & H' & F & F' & S); auto; [left; auto|apply Ox|].
  apply dcor_of_sqr in H, H'. rewrite (vf_num _ _ HE) in H, H'. eexists _, _. split; [exact H|]. split; [exact H'|].
  unfold sqrt_clamp. cbn [nltb nzero nsqrt B64Num]. rewrite !Bltb_correct by auto. cbn [B2R]. rewrite S.
  destruct (Rlt_bool_spec (B2R r) 0) as [?|P]; [auto|].
  destruct (sqrt_real r F P) as (G1 & G2). rewrite <- S in P. destruct (sqrt_real r' F' P) as (G3 & G4). split; [exact G1|]. split; [exact G3|]. rewrite G2, G4, S. reflexivity.
Qed.

(** What numpy's [x * c] gives for a double [c] = 2^k, as long as no product leaves the range of doubles. *)
Definition times (c : b64) (x : array b64) : array b64 := amap (fun v => b64_mul v c) x.

Lemma fobs_times c x i j : wf x -> (i < shape0 x)%nat -> (j < ncols x)%nat -> fobs (times c x) i j = b64_mul (fobs x i j) c.
Proof.
  destruct x as [s d [v|m rows]]; unfold wf, shape0, ncols, fobs, times, amap; cbn; intros W Hi Hj.
  - rewrite (nth_indep _ _ (b64_mul (B754_zero false) c)) by (rewrite map_length; exact Hi). apply (map_nth (fun v => b64_mul v c)).
  - rewrite (nth_indep _ _ (map (fun v => b64_mul v c) [])) by (rewrite map_length; exact Hi).
    rewrite (map_nth (map (fun v => b64_mul v c))). rewrite Forall_forall in W. pose proof (W (nth i rows []) (nth_In _ _ Hi)) as Wi.
    rewrite (nth_indep _ _ (b64_mul (B754_zero false) c)) by (rewrite map_length, Wi; exact Hj). apply (map_nth (fun v => b64_mul v c)).
Qed.

Theorem C87_times n k c x : (-40 <= k <= 40)%Z -> is_finite c = true -> B2R c = powerRZ 2 k -> ordinary n x ->
  (forall i j, (i < n)%nat -> (j < ncols x)%nat -> obs (freals x) i j = 0 \/ / 2 ^ 900 <= Rabs (obs (freals x) i j) <= 2 ^ 900) ->
  rescaled k x (times c x).
Proof.
  intros K Fc Sc Ox Rg. pose proof Ox as (W & L & _ & _ & _ & D & F & _). rewrite <- (bpow_powerRZ radix2) in Sc.
  assert (W' : wf (times c x)).
  { destruct x as [s d [v|m rows]]; unfold wf, times, amap in *; cbn in *; auto. rewrite Forall_forall in *. intros r Hr. apply in_map_iff in Hr.
    destruct Hr as (r0 & <- & Hr). rewrite map_length. auto. }
  assert (S0 : shape0 (times c x) = shape0 x) by (destruct x as [s d [v|m rows]]; unfold shape0, times, amap; cbn; apply map_length).
  assert (C0 : ncols (times c x) = ncols x) by (destruct x as [s d [v|m rows]]; reflexivity).
  split; [reflexivity|]. split; [exact D|]. split; [exact W'|]. split; [exact S0|]. split; [exact C0|].
  intros i j Hi Hj. rewrite !obs_freals, fobs_times by auto. rewrite L in Hi. pose proof (entries_fin n x W L F i j Hi Hj) as Fv.
  specialize (Rg i j Hi Hj). rewrite obs_freals in Rg. set (v := fobs x i j) in *.
  assert (RR : B2R v = 0 \/ (p2 (-900) <= Rabs (B2R v) <= p2 900)).
  { destruct Rg as [?|[R1 R2]]; [left; auto|right]. change (-900)%Z with (- Z.of_nat 900)%Z. change 900%Z with (Z.of_nat 900). rewrite p2_inv, p2_pow. split; auto. }
  assert (RS : b64_round (B2R v * B2R c) = p2 k * B2R v).
  { rewrite Sc, Rmult_comm. rewrite rnd_scale.
    - rewrite round_generic; auto; [apply valid_rnd_N|apply generic_format_B2R].
    - destruct RR as [R|[R _]]; [left; auto|right]. rewrite Rabs_mult, (Rabs_pos_eq (p2 k)) by apply bpow_ge_0. split.
      + eapply Rle_trans; [|exact R]. apply p2_le. lia.
      + apply Rle_trans with (p2 k * p2 (-900)); [rewrite <- bpow_plus; apply p2_le; lia|apply Rmult_le_compat_l; auto using bpow_ge_0]. }
  destruct (mult_real v c Fv Fc) as (G1 & G2).
  - rewrite RS, Rabs_mult, (Rabs_pos_eq (p2 k)) by apply bpow_ge_0. apply Rle_lt_trans with (p2 40 * p2 900); [|rewrite <- bpow_plus; apply bpow_lt; lia].
    apply Rmult_le_compat; auto using Rabs_pos, bpow_ge_0; [apply p2_le; lia|]. destruct RR as [-> | [_ R]]; auto. rewrite Rabs_R0. apply bpow_ge_0.
  - split; auto. rewrite G2, RS, bpow_powerRZ. reflexivity.
Qed.

(** (3, 1, 2, 1, 5) in metres and (0, 2, 2, 7, 1) in seconds, and the same in units of 1/8 m and 4 s: multiplied by 8 and by 1/4. *)
Definition eight : b64 := b64_ofZ 8.
Definition quarter : b64 := b64_div (b64_ofZ 1) (b64_ofZ 4).
Lemma small_ordinary (l : list Z) : l <> [] -> (length l <= 100)%nat -> Forall (fun z => (Z.abs z <= 100)%Z) l ->
  ordinary (length l) (ints l).
Proof.
  intros N Hl F. assert (FR : freals (ints l) = mkArr Numpy F64 (Vec (map IZR l))) by (apply ints_freals; eapply Forall_impl; [|exact F]; cbn; lia).
  split; [exact I|]. split; [apply map_length|]. split; [destruct l; [congruence|cbn; lia]|]. split; [lia|]. split; [cbn; lia|]. split; [reflexivity|].
  split.
  - unfold entries, ints. cbn. apply Forall_forall. intros v Hv. apply in_map_iff in Hv. destruct Hv as (z & <- & Hz). rewrite Forall_forall in F.
    apply F in Hz. destruct (rep_ofZ z) as (Fz & _); [lia|auto].
  - intros i j k Hi Hj Hk. rewrite FR. cbn in Hk. assert (k = 0%nat) as -> by lia. unfold obs. cbn [adata].
    assert (G : forall i, (i < length l)%nat -> exists z, nth i (map IZR l) 0 = IZR z /\ (Z.abs z <= 100)%Z).
    { intros i0 H0. exists (nth i0 l 0%Z). change 0 with (IZR 0) at 1. rewrite map_nth. split; auto. rewrite Forall_forall in F. apply F. apply nth_In. auto. }
    destruct (G i Hi) as (z & Hz & Bz). destruct (G j Hj) as (w & Hw & Bw). cbn. rewrite Hz, Hw.
    destruct (Z.eq_dec z w) as [-> | H]; [left; reflexivity|right]. rewrite <- minus_IZR, <- abs_IZR.
    assert (2 ^ 40 = 1099511627776) by (cbn; lra). assert (/ 2 ^ 40 <= 1) by (rewrite <- Rinv_1; apply Rinv_le_contravar; lra).
    assert (1 <= IZR (Z.abs (z - w))) by (apply IZR_le; lia). assert (IZR (Z.abs (z - w)) <= 200) by (apply IZR_le; lia). split; lra.
Qed.
Lemma eight_real : is_finite eight = true /\ B2R eight = powerRZ 2 3.
Proof. destruct (rep_ofZ 8) as (F & R & _); [lia|]. split; [exact F|]. unfold eight. rewrite R. unfold powerRZ. change (Pos.to_nat 3) with 3%nat. lra. Qed.
Lemma quarter_real : is_finite quarter = true /\ B2R quarter = powerRZ 2 (-2).
Proof.
  destruct (rep_ofZ 4) as (F4 & R4 & _); [lia|]. destruct (rep_ofZ 1) as (F1 & R1 & _); [lia|].
  assert (Q : B2R (b64_ofZ 1) / B2R (b64_ofZ 4) = p2 (-2)) by (rewrite R1, R4; cbn; lra).
  assert (RQ : b64_round (p2 (-2)) = p2 (-2)) by (apply round_generic; [apply valid_rnd_N|apply format_p2; lia]).
  destruct (div_real (b64_ofZ 1) (b64_ofZ 4) F1) as (F & R); [rewrite R4; lra| |].
  - rewrite Q, RQ, Rabs_pos_eq by apply bpow_ge_0. apply bpow_lt. lia.
  - split; [exact F|]. unfold quarter. rewrite R, Q, RQ. apply bpow_powerRZ.
Qed.
Lemma small_range l i j : Forall (fun z => (Z.abs z <= 100)%Z) l -> (i < length l)%nat -> (j < 1)%nat ->
  obs (freals (ints l)) i j = 0 \/ / 2 ^ 900 <= Rabs (obs (freals (ints l)) i j) <= 2 ^ 900.
Proof.
  intros F Hi Hj. rewrite ints_freals by (eapply Forall_impl; [|exact F]; cbn; lia). assert (j = 0%nat) as -> by lia. unfold obs. cbn [adata].
  assert (nth i (map IZR l) 0 = IZR (nth i l 0%Z)) as Hz by (change 0 with (IZR 0) at 1; apply map_nth). cbn. rewrite Hz.
  rewrite Forall_forall in F. pose proof (F _ (nth_In l 0%Z Hi)) as B. set (z := nth i l 0%Z) in *.
  destruct (Z.eq_dec z 0) as [-> | H]; [left; reflexivity|right]. rewrite <- abs_IZR.
  assert (P : 2 ^ 40 <= 2 ^ 900) by (apply Rle_pow; [lra|lia]). assert (2 ^ 40 = 1099511627776) by (cbn; lra).
  assert (/ 2 ^ 900 <= 1) by (rewrite <- Rinv_1; apply Rinv_le_contravar; lra).
  assert (1 <= IZR (Z.abs z)) by (apply IZR_le; lia). assert (IZR (Z.abs z) <= 100) by (apply IZR_le; lia). split; lra.
Qed.

Example C87_meets : ordinary 5 xi /\ ordinary 5 yi /\ rescaled 3 xi (times eight xi) /\ rescaled (-2) yi (times quarter yi) /\
  (exists v v', call UDcovSqr env_F xi yi (b64_ofZ 1) MNaive CAuto = Ok v /\
    call UDcovSqr env_F (times eight xi) (times quarter yi) (b64_ofZ 1) MNaive CAuto = Ok v' /\ B2R v' = 2 * B2R v) /\
  (exists v v', call Dcor env_F xi yi (b64_ofZ 1) MNaive CAuto = Ok v /\
    call Dcor env_F (times eight xi) (times quarter yi) (b64_ofZ 1) MNaive CAuto = Ok v' /\ B2R v' = B2R v).
Proof.
  assert (Bx : Forall (fun z => (Z.abs z <= 100)%Z) [3; 1; 2; 1; 5]%Z) by (repeat constructor; cbn; lia).
  assert (By : Forall (fun z => (Z.abs z <= 100)%Z) [0; 2; 2; 7; 1]%Z) by (repeat constructor; cbn; lia).
  assert (Ox : ordinary 5 xi) by (apply (small_ordinary [3; 1; 2; 1; 5]%Z); [discriminate|cbn; auto with arith; lia|exact Bx]).
  assert (Oy : ordinary 5 yi) by (apply (small_ordinary [0; 2; 2; 7; 1]%Z); [discriminate|cbn; auto with arith; lia|exact By]).
  destruct eight_real as (F8 & R8). destruct quarter_real as (F4 & R4).
  assert (Rx : rescaled 3 xi (times eight xi)) by (apply (C87_times 5); auto; try lia; intros; apply (small_range [3; 1; 2; 1; 5]%Z); auto).
  assert (Ry : rescaled (-2) yi (times quarter yi)) by (apply (C87_times 5); auto; try lia; intros; apply (small_range [0; 2; 2; 7; 1]%Z); auto).
  split; [exact Ox|]. split; [exact Oy|]. split; [exact Rx|]. split; [exact Ry|]. split.
  - destruct (C87_covariance UDcovSqr plain env_F 5 3 (-2) xi (times eight xi) yi (times quarter yi) CAuto) as (v & v' & V & V' & _ & _ & S); auto using env_F_valid.
    + right. reflexivity.
    + left. reflexivity.
    + lia.
    + lia.
    + exists v, v'. split; [exact V|]. split; [exact V'|]. rewrite S. change (3 + -2)%Z with 1%Z. rewrite powerRZ_1. reflexivity.
  - destruct (C87_distance_correlation plain env_F 5 3 (-2) xi (times eight xi) yi (times quarter yi) CAuto) as (v & v' & V & V' & _ & _ & S); auto using env_F_valid.
    + left. reflexivity.
    + lia.
    + lia.
    + exists v, v'. split; [exact V|]. split; [exact V'|]. exact S.
Qed.
