(** C87, the permutation test: changing the unit of measurement by a power of two, in double precision.

    [rescaled], [ordinary]: PFloatScale.v. [permuting]: RefTests.v. *)
From Coq Require Import Reals Lra Lia List Arith Bool ZArith Psatz.
From Flocq Require Import Core IEEE754.BinarySingleNaN.
From Verif Require Import Num Numpy MUtils MDistances MInternals MMergesort MAvl MDcor MHypothesis MIndependence MInteger MFloat Sums Spec Centering Tab
  Samples RefDist RefAvl RefDcor Api Witness RefApi RefTests SpecFacts Calls AvlGeneric Transfer Hom RefInteger RefFloat FloatAvl FloatApi
  FloatSum FloatEnv FloatError FloatAccuracy PInteger PFloat FloatNaive PNaiveFloat FloatCorr PFloatCorr FloatCenter FloatAvlErr Invariance RefCenter PTests PTTest PFloatTests FloatScale PFloatScale.
Import ListNotations.
Local Open Scope R_scope.
Local Notation p2 := (bpow radix2).

Section ScaleTest.
  Context (lib : flib) (E : Env b64) (HE : valid_fenv lib E).
  Notation NF := (B64Num lib).

  Lemma fm e : (-1000 <= e <= 700)%Z -> generic_format radix2 (SpecFloat.fexp 53 1024) (p2 e) /\ p2 e <= p2 800.
  Proof. intros He. split; [apply format_p2; lia|apply p2_le; lia]. Qed.

  Section Centred.
    Context (n : nat) (k : Z) (f f' : nat -> nat -> b64) (K : (-40 <= k <= 40)%Z) (N1 : (1 <= n)%nat) (N2 : (Z.of_nat n <= 2 ^ 18)%Z).
    Context (Hf : forall i j, (i < n)%nat -> (j < n)%nat -> scaled k 118 (p2 55) (f i j) (f' i j)).

    Lemma fsum_scaled i : (i < n)%nat -> scaled k 118 (p2 73) (fsum lib n (f i)) (fsum lib n (f' i)).
    Proof.
      intros Hi. unfold fsum. change 73%Z with (55 + 18)%Z.
      apply scaled_sum; try lia; [apply (vf_lib _ _ HE)|unfold calm; lia|rewrite tab_length; exact N2|]. apply Forall2_tab. auto.
    Qed.
    Lemma fdc_scaled i j : (i < n)%nat -> (j < n)%nat -> scaled k 206 (p2 92) (fdc lib n f i j) (fdc lib n f' i j).
    Proof.
      intros Hi Hj. unfold fdc. cbv zeta.
      assert (D2 : (1 <= Z.of_nat n ^ 2 <= 2 ^ 36)%Z) by (change (2 ^ 36)%Z with (2 ^ 18 * 2 ^ 18)%Z; nia).
      destruct (ofZ_between (Z.of_nat n) 18 ltac:(lia) ltac:(lia) ltac:(lia)) as (Fn & Bn).
      destruct (ofZ_between (Z.of_nat n ^ 2) 36 ltac:(lia) ltac:(lia) ltac:(lia)) as (F2 & B2).
      assert (M : forall i, (i < n)%nat -> scaled k 206 (p2 74) (b64_div (fsum lib n (f i)) (b64_ofZ (Z.of_nat n))) (b64_div (fsum lib n (f' i)) (b64_ofZ (Z.of_nat n)))).
      { intros u Hu. destruct (scaled_div k 118 18 (p2 73) _ _ (b64_ofZ (Z.of_nat n)) ltac:(unfold calm; lia) (fsum_scaled u Hu)) as [T _]; auto; try apply fm; try lia.
        eapply scaled_weaken; [exact T|lia|apply p2_le; lia]. }
      assert (T : scaled k 206 (p2 91) (b64_div (fsum lib n (fun i => fsum lib n (f i))) (b64_ofZ (Z.of_nat n ^ 2)))
        (b64_div (fsum lib n (fun i => fsum lib n (f' i))) (b64_ofZ (Z.of_nat n ^ 2)))).
      { assert (S : scaled k 118 (p2 91) (fsum lib n (fun i => fsum lib n (f i))) (fsum lib n (fun i => fsum lib n (f' i)))).
        { unfold fsum at 1 3. change 91%Z with (73 + 18)%Z.
          apply scaled_sum; try lia; [apply (vf_lib _ _ HE)|unfold calm; lia|rewrite tab_length; exact N2|]. apply Forall2_tab. intros. apply fsum_scaled. auto. }
        destruct (scaled_div k 118 36 (p2 91) _ _ (b64_ofZ (Z.of_nat n ^ 2)) ltac:(unfold calm; lia) S) as [T _]; auto; try apply fm; try lia. }
      replace (p2 92) with (p2 91 + p2 91) by apply p2_double.
      apply scaled_add; [unfold calm; lia| |exact T|rewrite p2_double; apply fm; lia|rewrite p2_double; apply fm; lia].
      apply scaled_weaken with 206%Z (p2 76); [|lia|apply p2_le; lia].
      replace (p2 76) with (p2 75 + p2 75) by apply p2_double.
      apply scaled_sub; [unfold calm; lia| |eapply scaled_weaken; [apply M; auto|lia|apply p2_le; lia]|rewrite p2_double; apply fm; lia|rewrite p2_double; apply fm; lia].
      replace (p2 75) with (p2 74 + p2 74) by apply p2_double.
      apply scaled_sub; [unfold calm; lia| |apply M; auto|rewrite p2_double; apply fm; lia|rewrite p2_double; apply fm; lia].
      eapply scaled_weaken; [apply Hf; auto|lia|apply p2_le; lia].
    Qed.
  End Centred.

  (** The statistic of a permutation. *)
  Definition fstat (n : nat) (u w : nat -> nat -> b64) (q : list nat) : b64 :=
    b64_mul (b64_ofZ (Z.of_nat n)) (np_mean NF (concat (tab2 n n (fun i j => b64_mul (u (nth i q 0%nat) (nth j q 0%nat)) (w i j))))).

  Lemma fstat_eval n u w q : rbind (mean_product E (tab2 n n (fun i j => u (nth i q 0%nat) (nth j q 0%nat))) (tab2 n n w))
    (fun v => Ok (b64_mul (b64_ofZ (Z.of_nat n)) v)) = Ok (fstat n u w q).
  Proof.
    pose proof (vf_num _ _ HE) as EN. unfold mean_product, elt_product, elt_op. rewrite same_shape_tab2. cbn [rbind]. rewrite tab2_map2, EN. reflexivity.
  Qed.

  Lemma fstat_scaled n k l u u' w w' q : (-40 <= k <= 40)%Z -> (-40 <= l <= 40)%Z -> (1 <= n)%nat -> (Z.of_nat n <= 2 ^ 18)%Z -> is_perm n q ->
    (forall i j, (i < n)%nat -> (j < n)%nat -> scaled k 206 (p2 92) (u i j) (u' i j)) ->
    (forall i j, (i < n)%nat -> (j < n)%nat -> scaled l 206 (p2 92) (w i j) (w' i j)) ->
    scaled (k + l) 500 (p2 238) (fstat n u w q) (fstat n u' w' q).
  Proof.
    intros K L N1 N2 Hq Hu Hw. unfold fstat, np_mean. rewrite !concat_length_tab2. unfold nofnat. cbn [ndiv nofZ B64Num].
    assert (D2 : (1 <= Z.of_nat (n * n) <= 2 ^ 36)%Z) by (rewrite Nat2Z.inj_mul; change (2 ^ 36)%Z with (2 ^ 18 * 2 ^ 18)%Z; nia).
    destruct (ofZ_between (Z.of_nat (n * n)) 36 ltac:(lia) ltac:(lia) ltac:(lia)) as (F2 & B2).
    assert (Hnth : forall i, (i < n)%nat -> (nth i q 0 < n)%nat).
    { intros i Hi. apply (is_perm_In n q); auto. apply nth_In. rewrite (is_perm_length n q Hq). auto. }
    assert (S : scaled (k + l) 412 (p2 (184 + 36))
      (np_sum NF (concat (tab2 n n (fun i j => b64_mul (u (nth i q 0%nat) (nth j q 0%nat)) (w i j)))))
      (np_sum NF (concat (tab2 n n (fun i j => b64_mul (u' (nth i q 0%nat) (nth j q 0%nat)) (w' i j)))))).
    { apply scaled_sum; try lia; [apply (vf_lib _ _ HE)|unfold calm; lia|rewrite concat_length_tab2; lia|].
      rewrite !concat_tab_tab. apply Forall2_tab. intros i Hi.
      assert (i / n < n)%nat by (apply Nat.div_lt_upper_bound; lia). assert (i mod n < n)%nat by (apply Nat.mod_upper_bound; lia).
      change 184%Z with (92 + 92)%Z. rewrite bpow_plus. change 412%Z with (206 + 206)%Z.
      apply scaled_mul; auto; [unfold calm; lia|rewrite <- bpow_plus; apply fm; lia|rewrite <- bpow_plus; apply fm; lia]. }
    destruct (scaled_div (k + l) 412 36 (p2 (184 + 36)) _ _ (b64_ofZ (Z.of_nat (n * n))) ltac:(unfold calm; lia) S) as [T _]; auto; try apply fm; try lia.
    pose proof (scaled_mul 0 (k + l) 0 (412 + 36 + 52) (p2 18) (p2 (184 + 36)) _ _ _ _ ltac:(unfold calm; lia)
      (scaled_const (Z.of_nat n) 18 ltac:(lia) ltac:(lia) ltac:(lia)) T) as U.
    rewrite <- bpow_plus in U. apply U; apply fm; lia.
  Qed.

  (** The whole test, run. *)
  Lemma test_run {S} (G : Rng S) n x y U W b rs : permuting G -> shape0 x = n -> shape0 y = n ->
    pairwise_distances E x None (b64_ofZ 1) = Ok (tab2 n n U) -> pairwise_distances E y None (b64_ofZ 1) = Ok (tab2 n n W) ->
    let d := draw_permutations G b n (random_state_init G rs) in
    let st := fstat n (fdc lib n U) (fdc lib n W) in
    outcome (distance_covariance_test E G x y (Z.of_nat b) (b64_ofZ 1) rs) =
      Ok (mkTest (b64_div (b64_add (b64_ofZ (Z.of_nat (length (filter (fun q => Bltb (st (seq 0 n)) (st q)) (fst d))))) (b64_ofZ 1)) (b64_ofZ (Z.of_nat b + 1)))
        (st (seq 0 n)), snd d).
  Proof.
    intros HG Lx Ly PU PW d st. pose proof (vf_num _ _ HE) as EN.
    assert (Hd : forall q, In q (fst d) -> is_perm n q) by (intros; eapply draw_perm; eauto).
    unfold distance_covariance_test. rewrite outcome_bind. cbn [outcome lift snd]. unfold check_same_n_elements. rewrite Lx, Ly, Nat.eqb_refl.
    rewrite outcome_bind, (fdmg_double lib E EN n x U PU), outcome_bind, (fdmg_double lib E EN n y W PW). cbn [outcome lift snd]. rewrite tab2_length, EN.
    unfold permutation_test_with_sym_matrix. rewrite Nat2Z.id, tab2_length. cbn [nmul nofZ B64Num].
    assert (rbind (mean_product E (tab2 n n (fdc lib n U)) (tab2 n n (fdc lib n W))) (fun w => Ok (b64_mul (b64_ofZ (Z.of_nat n)) w)) = Ok (st (seq 0 n))) as ->.
    { unfold st. rewrite <- fstat_eval. f_equal. f_equal. apply tab2_ext. intros i j Hi Hj. rewrite !seq_nth by auto. reflexivity. }
    cbn [rbind]. change (random_state_init G (RState (random_state_init G rs))) with (random_state_init G rs). fold d.
    rewrite (surjective_pairing d) at 1.
    rewrite (mapM_ok _ st) by (intros q Hq; rewrite permuted_tab by auto; apply fstat_eval). cbn [rbind].
    unfold permutation_pvalue. destruct (Z.eqb_spec (Z.of_nat b + 1) 0); [lia|]. cbn [rbind nltb ndiv nadd nofZ nunit B64Num].
    rewrite filter_map_length. reflexivity.
  Qed.
End ScaleTest.

(** With the same random generator, the statistic of [distance_covariance_test] is multiplied by exactly 2^(k + l), and the p-value
    is the very same number, whatever ties there are between the resampled statistics. *)
Theorem C87_test lib E {S} (G : Rng S) n k l x x' y y' b rs : valid_fenv lib E -> permuting G ->
  (-40 <= k <= 40)%Z -> (-40 <= l <= 40)%Z -> ordinary n x -> ordinary n y -> rescaled k x x' -> rescaled l y y' ->
  exists t t' s, outcome (distance_covariance_test E G x y (Z.of_nat b) (b64_ofZ 1) rs) = Ok (t, s) /\
    outcome (distance_covariance_test E G x' y' (Z.of_nat b) (b64_ofZ 1) rs) = Ok (t', s) /\
    pvalue t' = pvalue t /\ is_finite (statistic t) = true /\ is_finite (statistic t') = true /\
    B2R (statistic t') = powerRZ 2 (k + l) * B2R (statistic t).
Proof.
  intros HE HG K L Ox Oy Rx Ry.
  destruct (pairwise_scaled lib E HE n k x x' Ox Rx) as (Px & Px'). destruct (pairwise_scaled lib E HE n l y y' Oy Ry) as (Py & Py').
  assert (Lx : shape0 x = n) by apply Ox. assert (Lx' : shape0 x' = n) by (rewrite <- Lx; apply Rx).
  assert (Ly : shape0 y = n) by apply Oy. assert (Ly' : shape0 y' = n) by (rewrite <- Ly; apply Ry).
  assert (N1 : (1 <= n)%nat) by apply Ox. assert (N2 : (Z.of_nat n <= 2 ^ 18)%Z) by apply Ox.
  pose proof (test_run lib E HE G n x y _ _ b rs HG Lx Ly Px Py) as T. pose proof (test_run lib E HE G n x' y' _ _ b rs HG Lx' Ly' Px' Py') as T'.
  cbv zeta in T, T'. set (d := draw_permutations G b n (random_state_init G rs)) in *.
  set (st := fstat lib n (fdc lib n (fdists E x)) (fdc lib n (fdists E y))) in *.
  set (st' := fstat lib n (fdc lib n (fdists E x')) (fdc lib n (fdists E y'))) in *.
  assert (Sc : forall q, is_perm n q -> scaled (k + l) 500 (p2 238) (st q) (st' q)).
  { intros q Hq. apply (fstat_scaled lib E HE); auto; intros i j Hi Hj; apply (fdc_scaled lib E HE); auto; intros; apply (fdists_scaled lib E HE n); auto. }
  assert (Hid : is_perm n (seq 0 n)) by (unfold is_perm; auto).
  assert (Hd : forall q, In q (fst d) -> is_perm n q) by (intros; eapply draw_perm; eauto).
  assert (C : length (filter (fun q => Bltb (st' (seq 0 n)) (st' q)) (fst d)) = length (filter (fun q => Bltb (st (seq 0 n)) (st q)) (fst d))).
  { apply count_same. intros q Hq. destruct (Sc q (Hd q Hq)) as (F1 & F1' & S1 & _). destruct (Sc _ Hid) as (F0 & F0' & S0 & _).
    rewrite !Bltb_correct by auto. rewrite S0, S1. pose proof (bpow_gt_0 radix2 (k + l)) as P.
    destruct (Rlt_bool_spec (B2R (st (seq 0 n))) (B2R (st q))) as [H|H].
    - apply Rlt_bool_true. apply Rmult_lt_compat_l; auto.
    - apply Rlt_bool_false. apply Rmult_le_compat_l; lra. }
  rewrite C in T'. eexists _, _, _. split; [exact T|]. split; [exact T'|]. cbn [pvalue statistic]. split; [reflexivity|].
  destruct (Sc _ Hid) as (F0 & F0' & S0 & _). split; auto. split; auto. rewrite S0, bpow_powerRZ. reflexivity.
Qed.

(** The p-value of (3, 1, 2, 1, 5) and (0, 2, 2, 7, 1) (C61_meets) is the same in the other units. *)
Example C87_test_meets : exists t t', outcome (distance_covariance_test env_F reversing xi yi 1 (b64_ofZ 1) (RSeed 0)) = Ok (t, tt) /\
  outcome (distance_covariance_test env_F reversing (times eight xi) (times quarter yi) 1 (b64_ofZ 1) (RSeed 0)) = Ok (t', tt) /\
  B2R (pvalue t') = 1 /\ B2R (statistic t') = 2 * B2R (statistic t).
Proof.
  destruct C87_meets as (Ox & Oy & Rx & Ry & _). destruct C61_meets as (t0 & T0 & _ & _ & _ & P).
  destruct (C87_test plain env_F reversing 5 3 (-2) xi (times eight xi) yi (times quarter yi) 1 (RSeed 0) env_F_valid reversing_permuting
    ltac:(lia) ltac:(lia) Ox Oy Rx Ry) as (t & t' & [] & T & T' & Hp & _ & _ & Hs).
  cbn [Z.of_nat] in T, T'. change (Z.pos (Pos.of_succ_nat 0)) with 1%Z in T, T'. rewrite T0 in T. injection T as <-. exists t0, t'. split; [exact T0|]. split; [exact T'|].
  split; [rewrite Hp; exact P|]. rewrite Hs. change (3 + -2)%Z with 1%Z. rewrite powerRZ_1. reflexivity.
Qed.
