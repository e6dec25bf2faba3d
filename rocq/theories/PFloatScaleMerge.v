(** C87, continued: the MERGESORT algorithm.

    [rescaled k x x'] (PFloatScale.v), [measured n x] and [compares E] (PFloatScaleAvl.v), [moderate n x] (PFloatScaleAvlCor.v). *)
From Coq Require Import Reals Lra Lia List Arith Bool ZArith Psatz.
From Flocq Require Import Core IEEE754.BinarySingleNaN.
From Verif Require Import Num Numpy MUtils MDistances MInternals MMergesort MAvl MDcor MInteger MFloat Sums Spec Tab Samples RefDist RefDcor Api Witness
  Calls AvlGeneric RefInteger RefFloat FloatApi FloatSum FloatEnv FloatError FloatCorr FloatAvlVar PInteger PFloat FloatNaive PFloatCorr PMergeFloat
  FloatScale FloatScaleAvl FloatScaleMerge PFloatScale PFloatScaleAvl PFloatScaleAvlCor.
Import ListNotations.
Local Open Scope R_scope.
Local Notation p2 := (bpow radix2).
Local Notation fz := (B754_zero false : b64).

Section Formula.
  Context (lib : flib) (E : Env b64) (HE : valid_fenv lib E).
  Context (n : nat) (k l : Z) (mp mp' at_ at' bt bt' : b64) (aa aa' ba ba' : list b64) (bc : bool).
  Context (K : (-40 <= k <= 40)%Z) (L : (-40 <= l <= 40)%Z) (N1 : ((if bc then 4 else 1) <= n)%nat) (N2 : (Z.of_nat n <= 2 ^ 18)%Z).
  Context (Hm : sc (k + l) 184 159 mp mp') (Ha : scs k 92 61 aa aa') (Hat : sc k 92 79 at_ at') (Hb : scs l 92 61 ba ba') (Hbt : sc l 92 79 bt bt').
  Context (La : length aa = n) (Lb : length ba = n).

  Lemma formula_scaled : exists v v', dcov_from_terms E AllNumpy mp aa at_ ba bt n bc = Ok v /\
    dcov_from_terms E AllNumpy mp' aa' at' ba' bt' n bc = Ok v' /\ scaled (k + l) 412 (p2 192) v v'.
  Proof.
    pose proof (Forall2_len _ _ _ Ha) as La'. pose proof (Forall2_len _ _ _ Hb) as Lb'. assert (EN := vf_num _ _ HE).
    unfold dcov_from_terms, np_dot. rewrite !map_length, <- La', <- Lb', La, Lb, Nat.eqb_refl. cbn [rbind]. rewrite EN. cbn [ndiv nmul nsub nadd nofZ B64Num].
    set (d1 := (if bc then Z.of_nat n - 3 else Z.of_nat n)%Z). set (d2 := (if bc then (Z.of_nat n - 2) * (Z.of_nat n - 3) else Z.of_nat n ^ 2)%Z).
    set (d3 := (if bc then (Z.of_nat n - 1) * (Z.of_nat n - 2) * (Z.of_nat n - 3) else Z.of_nat n ^ 3)%Z).
    assert (Hn0 : (1 <= Z.of_nat n <= 2 ^ 18)%Z) by (destruct bc; lia).
    assert (Hd1 : (1 <= d1 <= 2 ^ 18)%Z) by (unfold d1; destruct bc; lia).
    assert (Hd2 : (1 <= d2 <= 2 ^ 36)%Z) by (unfold d2; destruct bc; [change (2 ^ 36)%Z with (2 ^ 18 * 2 ^ 18)%Z; nia|split; nia]).
    assert (Hd3 : (1 <= d3 <= 2 ^ 54)%Z).
    { unfold d3. replace (Z.of_nat n ^ 3)%Z with (Z.of_nat n * Z.of_nat n * Z.of_nat n)%Z by ring. change (2 ^ 54)%Z with (2 ^ 18 * 2 ^ 18 * 2 ^ 18)%Z.
      destruct bc; split; try nia; apply Z.mul_le_mono_nonneg; try nia; apply Z.mul_le_mono_nonneg; lia. }
    destruct (ofZ_between (Z.of_nat n) 18 ltac:(lia) ltac:(lia) ltac:(lia)) as (Fn & Bn).
    destruct (ofZ_between d1 18 ltac:(lia) ltac:(lia) ltac:(lia)) as (F1 & B1).
    destruct (ofZ_between d2 36 ltac:(lia) ltac:(lia) ltac:(lia)) as (F2 & B2).
    destruct (ofZ_between d3 54 ltac:(lia) ltac:(lia) ltac:(lia)) as (F3 & B3).
    eexists _, _. split; [reflexivity|]. split; [reflexivity|].
    assert (T2 := scaled_div2 (k + l) 184 18 18 (p2 159) mp mp' (b64_ofZ (Z.of_nat n)) (b64_ofZ d1) ltac:(unfold calm; lia) ltac:(lia) Hm Fn Bn F1 B1
      ltac:(apply fmt; lia) ltac:(apply fmt; lia)).
    assert (DA : scaleds k (92 + 18 + 52) (p2 61) (map (fun v => b64_div v (b64_ofZ (Z.of_nat n))) aa) (map (fun v => b64_div v (b64_ofZ (Z.of_nat n))) aa')).
    { clear - Ha K Fn Bn. induction Ha as [|? ? ? ? H1 H2 IH]; cbn [map]; constructor; [|exact (IH H2)].
      apply (scaled_div k 92 18 (p2 61)); auto; try apply fmt; try lia. unfold calm. lia. }
    pose proof (scaled_dot lib k l (92 + 18 + 52) 92 61 61 18 _ _ ba ba' (vf_lib _ _ HE) ltac:(unfold calm; lia) ltac:(lia) ltac:(lia)
      ltac:(rewrite map_length, La; lia) ltac:(rewrite map_length; congruence) DA Hb) as T3. cbn [ndot B64Num] in T3. cbn [ndot B64Num].
    destruct (scaled_div (k + l) (92 + 18 + 52 + 92) 36 (p2 (61 + 61 + 18)) _ _ (b64_ofZ d2) ltac:(unfold calm; lia) T3) as [T4 _]; auto; try apply fmt; try lia.
    pose proof (sc_cmul 2 1 (k + l) (92 + 18 + 52 + 92 + 36 + 52) (61 + 61 + 18) _ _ ltac:(lia) ltac:(lia) ltac:(unfold calm; lia) ltac:(lia) T4) as T5.
    destruct (scaled_div k 92 18 (p2 79) at_ at' (b64_ofZ (Z.of_nat n))) as [T6 _]; auto; try apply fmt; try lia; [unfold calm; lia|].
    pose proof (sc_mul k l (92 + 18 + 52) 92 79 79 _ _ bt bt' ltac:(unfold calm; lia) ltac:(lia) T6 Hbt) as T7.
    destruct (scaled_div (k + l) (92 + 18 + 52 + 92) 54 (p2 (79 + 79)) _ _ (b64_ofZ d3) ltac:(unfold calm; lia) T7) as [T8 _]; auto; try apply fmt; try lia.
    apply (sc_add (k + l) 412 191); [unfold calm; lia|lia| |eapply scaled_weaken; [exact T8|lia|apply p2_le; lia]].
    apply (sc_sub (k + l) 412 190); [unfold calm; lia|lia| |eapply scaled_weaken; [exact T5|lia|apply p2_le; lia]].
    eapply scaled_weaken; [exact T2|lia|apply p2_le; lia].
  Qed.
End Formula.

Section Merge.
  Context (lib : flib) (E : Env b64) (HE : valid_fenv lib E) (HC : compares E).

  Section Two.
    Context (n : nat) (k l : Z) (x x' y y' : array b64) (K : (-40 <= k <= 40)%Z) (L : (-40 <= l <= 40)%Z).
    Context (Mx : measured n x) (My : measured n y) (Rx : rescaled k x x') (Ry : rescaled l y y').

    Lemma impl_merge lib' E' v v' w w' oob kk kv : valid_fenv lib' E' -> e_argsort E' = e_argsort E ->
      scs k 92 40 v v' -> scs l 92 40 w w' -> length v = n -> length w = n -> (4 <= n)%nat -> (Z.of_nat n <= 2 ^ 18)%Z ->
      exists t t', terms_mergesort_impl E' oob true kk kv v w false = Ok t /\ terms_mergesort_impl E' oob true kk kv v' w' false = Ok t' /\ mterms_sc k l n t t'.
    Proof.
      intros HE' HA Hv Hw Lv Lw H4 N2.
      pose proof (merge_scaled lib' (vf_lib _ _ HE') E' (vf_num _ _ HE') (vf_empty _ _ HE') (vf_perm _ _ HE') k l K L
        ltac:(intros; rewrite HA; eapply same_order; eauto) oob n ltac:(lia) N2 v v' w w' kk kv Hv Hw Lv Lw) as R.
      destruct (terms_mergesort_agree E' v w false (fshape lib' E' HE') ltac:(lia) ltac:(lia)) as (t & H). destruct (H oob true kk kv) as [T|[T _]]; [|discriminate].
      rewrite T in R |- *. destruct (terms_mergesort_impl E' oob true kk kv v' w' false) as [t'|]; [|contradiction]. eexists _, t'. split; [reflexivity|]. split; [reflexivity|exact R].
    Qed.

    Lemma outcome_merge cm : not_forced cm \/ cm = CCompileCpu ->
      exists t t', outcome (terms_mergesort E x y (b64_ofZ 1) cm false) = Ok t /\ outcome (terms_mergesort E x' y' (b64_ofZ 1) cm false) = Ok t' /\ mterms_sc k l n t t'.
    Proof.
      intros Hcm. destruct (column_scaled n k x x' K Mx Rx) as (v & v' & V & V' & Sv & Lv). destruct (column_scaled n l y y' L My Ry) as (w & w' & W & W' & Sw & Lw).
      pose proof Mx as (_ & Ax & Dx & _ & _ & H4 & N2 & _). pose proof My as (_ & Ay & Dy & _). pose proof Rx as (Ax' & Dx' & _). pose proof Ry as (Ay' & Dy' & _).
      assert (He : neqb (e_num E) (b64_ofZ 1) (nunit (e_num E)) = true) by (rewrite (vf_num _ _ HE); apply one_one).
      unfold terms_mergesort. rewrite He, V, W, V', W', (together_l x y Ax), (together_l x' y' ltac:(congruence)). cbn [negb]. rewrite !bind_ok, Dx, Dy, Dx', Dy'.
      destruct (impl_merge (seq_lib lib) (seq_env E) v v' w w' UndefinedBehaviour AllPy AllPy (valid_seq _ _ HE) eq_refl Sv Sw Lv Lw H4 N2) as (t & t' & T & T' & S).
      destruct (impl_merge lib E v v' w w' IndexError MeanProdPy AllNumpy HE eq_refl Sv Sw Lv Lw H4 N2) as (u & u' & U & U' & Z).
      destruct Hcm as [[-> | ->]| ->]; cbn [impls is_auto try_impls]; unfold mergesort_impl; cbn [is_f64 is_obj andb orb weights_cast_ok];
        rewrite ?T, ?T', ?U, ?U'; [exists t, t'|exists u, u'|exists t, t']; auto.
    Qed.
  End Two.

  Section Cor.
    Context (n : nat) (k l : Z) (x x' y y' : array b64) (K : (-18 <= k <= 18)%Z) (L : (-18 <= l <= 18)%Z).
    Context (Mx : moderate n x) (My : moderate n y) (Rx : rescaled k x x') (Ry : rescaled l y y').

    Lemma impl_merge_var lib' E' v v' w w' oob kk kv : valid_fenv lib' E' -> e_argsort E' = e_argsort E ->
      scs k 92 40 v v' -> scs k 82 30 v v' -> scs l 92 40 w w' -> scs l 82 30 w w' -> length v = n -> length w = n -> (4 <= n)%nat -> (Z.of_nat n <= 2 ^ 18)%Z ->
      exists t t' va va' vb vb', terms_mergesort_impl E' oob true kk kv v w true = Ok (with_var va vb t) /\
        terms_mergesort_impl E' oob true kk kv v' w' true = Ok (with_var va' vb' t') /\ mterms_sc k l n t t' /\ sc (k + k) 374 153 va va' /\ sc (l + l) 374 153 vb vb'.
    Proof.
      intros HE' HA Hv Hv3 Hw Hw3 Lv Lw H4 N2.
      destruct (impl_merge n k l ltac:(lia) ltac:(lia) lib' E' v v' w w' oob kk kv HE' HA Hv Hw Lv Lw H4 N2) as (t & t' & T & T' & S).
      pose proof (Forall2_len _ _ _ Hv) as Lv'. pose proof (Forall2_len _ _ _ Hw) as Lw'.
      assert (PI : forall u, forall i, In i (e_argsort E' u) -> (i < length u)%nat) by (intros u i Hi; eapply is_perm_In; [apply (vf_perm _ _ HE')|exact Hi]).
      exists t, t', (take_var E' v v fz), (take_var E' v' v' fz), (take_var E' v w fz), (take_var E' v' w' fz).
      split; [apply merge_impl_var; auto; congruence|]. split; [apply merge_impl_var; auto; congruence|]. split; [exact S|].
      assert (SO : e_argsort E' v' = e_argsort E' v) by (symmetry; rewrite HA; eapply same_order; eauto).
      pose proof (is_perm_length _ _ (vf_perm _ _ HE' v)) as Lp. rewrite Lv in Lp.
      assert (G : forall j u u', (-40 <= j <= 40)%Z -> scs j 82 30 u u' -> sc (j + j) 374 153 (take_var E' v u fz) (take_var E' v' u' fz)).
      { intros j u u' J H. unfold take_var. rewrite SO, <- Lv', Lv, (vf_num _ _ HE').
        pose proof (sc_var lib' (vf_lib _ _ HE') j n (take fz u (e_argsort E' v)) (take fz u' (e_argsort E' v)) J ltac:(lia) N2 ltac:(unfold take; rewrite map_length; exact Lp)
          (scs_take _ _ _ _ _ _ H)) as Q.
        unfold var_of in Q. unfold take in Q at 1 3. rewrite !map_length, Lp in Q. exact Q. }
      split; apply G; auto; lia.
    Qed.

    Lemma outcome_merge_var cm : not_forced cm \/ cm = CCompileCpu ->
      exists t t' va va' vb vb', outcome (terms_mergesort E x y (b64_ofZ 1) cm true) = Ok (with_var va vb t) /\
        outcome (terms_mergesort E x' y' (b64_ofZ 1) cm true) = Ok (with_var va' vb' t') /\ mterms_sc k l n t t' /\
        sc (k + k) 374 153 va va' /\ sc (l + l) 374 153 vb vb'.
    Proof.
      intros Hcm. destruct (column_30 n k x x' Mx Rx) as (v & v' & V & V' & Sv & Tv & Lv). destruct (column_30 n l y y' My Ry) as (w & w' & W & W' & Sw & Tw & Lw).
      pose proof Mx as ((_ & Ax & Dx & _ & _ & H4 & N2 & _) & _). pose proof My as ((_ & Ay & Dy & _) & _). pose proof Rx as (Ax' & Dx' & _). pose proof Ry as (Ay' & Dy' & _).
      assert (He : neqb (e_num E) (b64_ofZ 1) (nunit (e_num E)) = true) by (rewrite (vf_num _ _ HE); apply one_one).
      unfold terms_mergesort. rewrite He, V, W, V', W', (together_l x y Ax), (together_l x' y' ltac:(congruence)). cbn [negb]. rewrite !bind_ok, Dx, Dy, Dx', Dy'.
      destruct (impl_merge_var (seq_lib lib) (seq_env E) v v' w w' UndefinedBehaviour AllPy AllPy (valid_seq _ _ HE) eq_refl Sv Tv Sw Tw Lv Lw H4 N2) as (t & t' & va & va' & vb & vb' & T & T' & S).
      destruct (impl_merge_var lib E v v' w w' IndexError MeanProdPy AllNumpy HE eq_refl Sv Tv Sw Tw Lv Lw H4 N2) as (u & u' & ua & ua' & ub & ub' & U & U' & Z).
      destruct Hcm as [[-> | ->]| ->]; cbn [impls is_auto try_impls]; unfold mergesort_impl; cbn [is_f64 is_obj andb orb weights_cast_ok];
        rewrite ?T, ?T', ?U, ?U'; [exists t, t', va, va', vb, vb'|exists u, u', ua, ua', ub, ub'|exists t, t', va, va', vb, vb']; auto.
    Qed.
  End Cor.
End Merge.

(** The squared distance covariance, biased or not, by MERGESORT, compiled or not. *)
Theorem C87_mergesort f lib E n k l x x' y y' cm : valid_fenv lib E -> compares E -> squared f -> not_forced cm \/ cm = CCompileCpu ->
  (-40 <= k <= 40)%Z -> (-40 <= l <= 40)%Z -> measured n x -> measured n y -> rescaled k x x' -> rescaled l y y' ->
  exists v v', call f E x y (b64_ofZ 1) MMergesort cm = Ok v /\ call f E x' y' (b64_ofZ 1) MMergesort cm = Ok v' /\
    is_finite v = true /\ is_finite v' = true /\ B2R v' = powerRZ 2 (k + l) * B2R v.
Proof.
  intros HE HC Hf Hcm K L Mx My Rx Ry.
  destruct (outcome_merge lib E HE HC n k l x x' y y' K L Mx My Rx Ry cm Hcm) as (t & t' & T & T' & (S1 & S2 & S3 & S4 & S5 & La & Lb)).
  assert (Hw : wants_var f = false) by (destruct Hf as [-> | ->]; reflexivity).
  pose proof Mx as (_ & _ & _ & _ & Lx & N1 & N2 & _). assert (Lx' : shape0 x' = n) by (rewrite <- Lx; apply Rx).
  assert (M0 : (if corrected f then 4 <= n else 1 <= n)%nat) by (destruct (corrected f); lia).
  destruct (formula_scaled lib E HE n k l (t_mean_prod t) (t_mean_prod t') (t_a_total t) (t_a_total t') (t_b_total t) (t_b_total t')
    (t_a_axis t) (t_a_axis t') (t_b_axis t) (t_b_axis t') (corrected f) K L ltac:(destruct (corrected f); lia) N2 S1 S2 S3 S4 S5 La Lb) as (v & v' & V & V' & F & F' & S & _).
  exists v, v'. rewrite !call_terms, Hw, Lx, Lx'. cbn [method_terms]. rewrite T, T'. cbn [rbind]. unfold finish. rewrite Hw.
  rewrite (from_terms_kind E (t_kind t) AllNumpy), (from_terms_kind E (t_kind t') AllNumpy), V, V' by exact M0. cbn [rbind].
  split; [destruct Hf as [-> | ->]; reflexivity|]. split; [destruct Hf as [-> | ->]; reflexivity|]. split; [exact F|]. split; [exact F'|].
  rewrite S, bpow_powerRZ. reflexivity.
Qed.

(** The squared distance correlation, biased or not, by MERGESORT. *)
Theorem C87_mergesort_correlation g f lib E n k l x x' y y' cm : valid_fenv lib E -> compares E -> correlates g f -> not_forced cm \/ cm = CCompileCpu ->
  (-18 <= k <= 18)%Z -> (-18 <= l <= 18)%Z -> moderate n x -> moderate n y -> rescaled k x x' -> rescaled l y y' ->
  exists v v', call g E x y (b64_ofZ 1) MMergesort cm = Ok v /\ call g E x' y' (b64_ofZ 1) MMergesort cm = Ok v' /\
    is_finite v = true /\ is_finite v' = true /\ B2R v' = B2R v.
Proof.
  intros HE HC Hg Hcm K L Mx My Rx Ry.
  destruct (outcome_merge_var lib E HE HC n k l x x' y y' K L Mx My Rx Ry cm Hcm) as (t & t' & va & va' & vb & vb' & T & T' & (S1 & S2 & S3 & S4 & S5 & La & Lb) & Sa & Sb).
  assert (Hw : wants_var g = true /\ corrected g = corrected f) by (destruct Hg as [[-> ->]|[-> ->]]; auto). destruct Hw as [Hw Hc].
  pose proof Mx as ((_ & _ & _ & _ & Lx & N1 & N2 & _) & _). assert (Lx' : shape0 x' = n) by (rewrite <- Lx; apply Rx).
  assert (Hn : ((if corrected f then 4 else 1) <= n)%nat) by (destruct (corrected f); lia).
  assert (M0 : (if corrected f then 4 <= n else 1 <= n)%nat) by (destruct (corrected f); lia).
  destruct (formula_scaled lib E HE n k l (t_mean_prod t) (t_mean_prod t') (t_a_total t) (t_a_total t') (t_b_total t) (t_b_total t')
    (t_a_axis t) (t_a_axis t') (t_b_axis t) (t_b_axis t') (corrected f) ltac:(lia) ltac:(lia) Hn N2 S1 S2 S3 S4 S5 La Lb) as (c & c' & C & C' & Sc).
  destruct (variance_scaled lib E HE n k va va' (t_a_total t) (t_a_total t') (t_a_axis t) (t_a_axis t') (corrected f) ltac:(lia) Hn N2 Sa S2 S3 La) as (vx & vx' & X & X' & Sx).
  destruct (variance_scaled lib E HE n l vb vb' (t_b_total t) (t_b_total t') (t_b_axis t) (t_b_axis t') (corrected f) ltac:(lia) Hn N2 Sb S4 S5 Lb) as (vy & vy' & Y & Y' & Sy).
  exists (correlation_of E c vx vy), (correlation_of E c' vx' vy').
  rewrite !call_terms, Hw, Lx, Lx'. cbn [method_terms]. rewrite T, T'. cbn [rbind]. unfold finish. rewrite Hw, Hc.
  cbn [with_var t_kind t_vkind t_mean_prod t_a_axis t_b_axis t_a_total t_b_total t_mp_a t_mp_b].
  rewrite !(from_terms_kind E (t_kind t) AllNumpy), !(from_terms_kind E (t_kind t') AllNumpy), C, C' by exact M0.
  rewrite !(from_terms_kind E (t_vkind t) AllNumpy), !(from_terms_kind E (t_vkind t') AllNumpy), X, X', Y, Y' by exact M0. cbn [rbind].
  split; [destruct Hg as [[-> _]|[-> _]]; reflexivity|]. split; [destruct Hg as [[-> _]|[-> _]]; reflexivity|].
  rewrite !(correlation_of_fcorr lib E _ _ _ (vf_num _ _ HE)). apply (fcorr_scaled_18 lib k l); auto.
Qed.

Example C87_mergesort_meets : valid_fenv plain env_F /\ compares env_F /\ moderate 5 xi /\ moderate 5 yi /\
  (exists v v', call DcovSqr env_F xi yi (b64_ofZ 1) MMergesort CNoCompile = Ok v /\
    call DcovSqr env_F (times eight xi) (times quarter yi) (b64_ofZ 1) MMergesort CNoCompile = Ok v' /\ B2R v' = 2 * B2R v) /\
  exists v v', call UDcorSqr env_F xi yi (b64_ofZ 1) MMergesort CAuto = Ok v /\
    call UDcorSqr env_F (times eight xi) (times quarter yi) (b64_ofZ 1) MMergesort CAuto = Ok v' /\ B2R v' = B2R v.
Proof.
  destruct C87_avl_correlation_meets as (_ & _ & _ & Mx & My & _). destruct C87_meets as (_ & _ & Rx & Ry & _).
  split; [exact env_F_valid|]. split; [exact env_F_compares|]. split; [exact Mx|]. split; [exact My|]. split.
  - destruct (C87_mergesort DcovSqr plain env_F 5 3 (-2) xi (times eight xi) yi (times quarter yi) CNoCompile) as (v & v' & V & V' & _ & _ & S);
      auto using env_F_valid, env_F_compares; try lia; [left; reflexivity|left; right; reflexivity|apply Mx|apply My|].
    exists v, v'. split; [exact V|]. split; [exact V'|]. rewrite S. change (3 + -2)%Z with 1%Z. rewrite powerRZ_1. reflexivity.
  - destruct (C87_mergesort_correlation UDcorSqr UDcovSqr plain env_F 5 3 (-2) xi (times eight xi) yi (times quarter yi) CAuto) as (v & v' & V & V' & _ & _ & S);
      auto using env_F_valid, env_F_compares; try lia; [right; auto|left; left; reflexivity|]. exists v, v'. auto.
Qed.

Theorem C87_mergesort_distance_correlation lib E n k l x x' y y' cm : valid_fenv lib E -> compares E -> not_forced cm \/ cm = CCompileCpu ->
  (-18 <= k <= 18)%Z -> (-18 <= l <= 18)%Z -> moderate n x -> moderate n y -> rescaled k x x' -> rescaled l y y' ->
  exists v v', call Dcor E x y (b64_ofZ 1) MMergesort cm = Ok v /\ call Dcor E x' y' (b64_ofZ 1) MMergesort cm = Ok v' /\
    is_finite v = true /\ is_finite v' = true /\ B2R v' = B2R v.
Proof.
  intros HE HC Hcm K L Mx My Rx Ry.
  destruct (C87_mergesort_correlation DcorSqr DcovSqr lib E n k l x x' y y' cm) as (r & r' & H & H' & F & F' & S); auto; [left; auto|].
  apply dcor_of_sqr in H, H'. rewrite (vf_num _ _ HE) in H, H'. eexists _, _. split; [exact H|]. split; [exact H'|].
  unfold sqrt_clamp. cbn [nltb nzero nsqrt B64Num]. rewrite !Bltb_correct by auto. cbn [B2R]. rewrite S.
  destruct (Rlt_bool_spec (B2R r) 0) as [?|P]; [auto|].
  destruct (sqrt_real r F P) as (G1 & G2). rewrite <- S in P. destruct (sqrt_real r' F' P) as (G3 & G4). split; [exact G1|]. split; [exact G3|]. rewrite G2, G4, S. reflexivity.
Qed.
