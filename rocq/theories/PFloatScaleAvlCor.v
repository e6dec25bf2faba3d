(** C87, continued: the correlations computed by the AVL algorithm, the default method on numpy samples of one column, and the t-test there.

    [rescaled k x x'] (PFloatScale.v), [measured n x] and [compares E] (PFloatScaleAvl.v). *)
From Coq Require Import Reals Lra Lia List Arith Bool ZArith Psatz.
From Flocq Require Import Core IEEE754.BinarySingleNaN.
From Verif Require Import Num Numpy MUtils MDistances MInternals MMergesort MAvl MDcor MHypothesis MIndependence MInteger MFloat Sums Spec Tab Samples RefDist RefDcor Api Witness
  Calls AvlGeneric RefInteger RefFloat FloatApi FloatSum FloatEnv FloatError FloatCorr FloatTStat FloatAvlVar PInteger PFloat FloatNaive PFloatCorr PTFloat
  FloatScale FloatScaleAvl PFloatScale PFloatScaleT PFloatScaleAvl.
Import ListNotations.
Local Open Scope R_scope.
Local Notation p2 := (bpow radix2).
Local Notation fz := (B754_zero false : b64).

(** As [measured], with each number 0 or between 2^-30 and 2^30 (about 10^-9 and 10^9) in absolute value. *)
Definition moderate (n : nat) (x : array b64) : Prop := measured n x /\
  forall i, (i < n)%nat -> obs (freals x) i 0 = 0 \/ / 2 ^ 30 <= Rabs (obs (freals x) i 0) <= 2 ^ 30.

(** The mean square computed by [numpy.var], times 2n^2. *)
Section Var.
  Context (lib : flib) (GL : good_lib lib).
  Notation NF := (B64Num lib).

  Lemma sc_mean k q e n l l' : calm k (q + 18) -> (-1000 <= e <= 500)%Z -> (1 <= n)%nat -> (Z.of_nat n <= 2 ^ 18)%Z -> length l = n -> scs k q e l l' ->
    sc k (q + 18 + 52) (e + 18) (np_mean NF l) (np_mean NF l').
  Proof.
    intros K He N1 N2 Hl H. pose proof (Forall2_len _ _ _ H) as Hl'. unfold np_mean. rewrite <- Hl', Hl. cbn [ndiv nofZ B64Num].
    destruct (ofZ_between (Z.of_nat n) 18 ltac:(lia) ltac:(lia) ltac:(lia)) as (Fn & Bn).
    destruct (scaled_div k q 18 (p2 (e + 18)) (np_sum NF l) (np_sum NF l') (b64_ofZ (Z.of_nat n))) as [T _]; auto; try apply fmt; try lia.
    apply scaled_sum; auto; try lia. unfold calm in *. lia.
  Qed.

  Lemma sc_var k n l l' : (-40 <= k <= 40)%Z -> (1 <= n)%nat -> (Z.of_nat n <= 2 ^ 18)%Z -> length l = n -> scs k 82 30 l l' ->
    sc (k + k) 374 153 (var_of NF l) (var_of NF l').
  Proof.
    intros K N1 N2 Hl H. pose proof (Forall2_len _ _ _ H) as Hl'. unfold var_of, np_var. rewrite <- Hl', Hl. cbn [nmul nofZ nsub B64Num].
    pose proof (sc_mean k 82 30 n l l' ltac:(unfold calm; lia) ltac:(lia) N1 N2 Hl H) as M. cbn [Z.add Pos.add] in M.
    assert (N37 : (Z.abs (2 * Z.of_nat n ^ 2) <= 2 ^ 37)%Z) by (change (2 ^ 37)%Z with (2 * (2 ^ 18 * 2 ^ 18))%Z; nia).
    apply (sc_cmul _ 37 (k + k) 374 116); auto; try lia; [unfold calm; lia|].
    change 374%Z with (304 + 18 + 52)%Z. change 116%Z with (98 + 18)%Z. apply (sc_mean _ _ _ n); auto; [unfold calm; lia|lia|rewrite map_length; auto|].
    eapply scs_map'; [|exact H]. intros a b Ha. change 304%Z with (152 + 152)%Z. change 98%Z with (49 + 49)%Z.
    assert (D : sc k 152 49 (b64_sub a (np_mean NF l)) (b64_sub b (np_mean NF l'))).
    { apply (sc_sub _ _ 48); [unfold calm; lia|lia| |exact M]. eapply scaled_weaken; [exact Ha|lia|apply p2_le; lia]. }
    apply sc_mul; auto; [unfold calm; lia|lia].
  Qed.
End Var.

(** One division after another: the lower bound of the first quotient serves for the second. *)
Lemma scaled_div2 k q c c' B a b d d' : calm k (q + c + c') -> (0 <= c')%Z -> scaled k q B a b -> is_finite d = true -> 1 <= B2R d <= p2 c ->
  is_finite d' = true -> 1 <= B2R d' <= p2 c' -> generic_format radix2 (SpecFloat.fexp 53 1024) B -> B <= p2 800 ->
  scaled k (q + c + c' + 52) B (b64_div (b64_div a d) d') (b64_div (b64_div b d) d').
Proof.
  intros K C0 S Fd Bd Fd' [D1 D2] Fm HB. destruct (scaled_div k q c B a b d) as [(F1 & G1 & S1 & _ & L1) Lo]; auto; [unfold calm in *; lia|].
  apply (scaled_low k (q + c + c') B (B2R (b64_div a d) / B2R d')); auto.
  - destruct Lo as [-> | X]; [left; unfold Rdiv; ring|right].
    unfold Rdiv. rewrite Rabs_mult, (Rabs_pos_eq (/ B2R d')) by (left; apply Rinv_0_lt_compat; lra).
    replace (- (q + c + c'))%Z with (- (q + c) + - c')%Z by lia. rewrite bpow_plus. apply Rmult_le_compat; auto using bpow_ge_0.
    rewrite bpow_opp. apply Rinv_le_contravar; lra.
  - unfold Rdiv. rewrite Rabs_mult, (Rabs_pos_eq (/ B2R d')) by (left; apply Rinv_0_lt_compat; lra).
    assert (/ B2R d' <= 1) by (rewrite <- Rinv_1; apply Rinv_le_contravar; lra). pose proof (Rabs_pos (B2R (b64_div a d))). nra.
  - intros. apply div_real; auto. lra.
  - replace (p2 k * (B2R (b64_div a d) / B2R d')) with (B2R (b64_div b d) / B2R d') by (rewrite S1; unfold Rdiv; ring). intros. apply div_real; auto. lra.
Qed.

Section Variance.
  Context (lib : flib) (E : Env b64) (HE : valid_fenv lib E).
  Context (n : nat) (k : Z) (mp mp' at_ at' : b64) (aa aa' : list b64) (bc : bool).
  Context (K : (-40 <= k <= 40)%Z) (N1 : ((if bc then 4 else 1) <= n)%nat) (N2 : (Z.of_nat n <= 2 ^ 18)%Z).
  Context (Hm : sc (k + k) 374 153 mp mp') (Ha : scs k 92 61 aa aa') (Hat : sc k 92 79 at_ at') (La : length aa = n).

  Lemma variance_scaled : exists v v', dcov_from_terms E AllNumpy mp aa at_ aa at_ n bc = Ok v /\
    dcov_from_terms E AllNumpy mp' aa' at' aa' at' n bc = Ok v' /\ scaled (k + k) 462 (p2 192) v v'.
  Proof.
    pose proof (Forall2_len _ _ _ Ha) as La'. assert (EN := vf_num _ _ HE).
    unfold dcov_from_terms, np_dot. rewrite !map_length, <- La', La, Nat.eqb_refl. cbn [rbind]. rewrite EN. cbn [ndiv nmul nsub nadd nofZ B64Num].
    set (d1 := (if bc then Z.of_nat n - 3 else Z.of_nat n)%Z). set (d2 := (if bc then (Z.of_nat n - 2) * (Z.of_nat n - 3) else Z.of_nat n ^ 2)%Z).
    set (d3 := (if bc then (Z.of_nat n - 1) * (Z.of_nat n - 2) * (Z.of_nat n - 3) else Z.of_nat n ^ 3)%Z).
    assert (Hn0 : (1 <= Z.of_nat n <= 2 ^ 18)%Z) by (destruct bc; lia).
    assert (Hd1 : (1 <= d1 <= 2 ^ 18)%Z) by (unfold d1; destruct bc; lia).
    assert (Hd2 : (1 <= d2 <= 2 ^ 36)%Z) by (unfold d2; destruct bc; [change (2 ^ 36)%Z with (2 ^ 18 * 2 ^ 18)%Z; nia|split; nia]).
    assert (Hd3 : (1 <= d3 <= 2 ^ 54)%Z).
    { unfold d3. replace (Z.of_nat n ^ 3)%Z with (Z.of_nat n * Z.of_nat n * Z.of_nat n)%Z by ring. change (2 ^ 54)%Z with (2 ^ 18 * 2 ^ 18 * 2 ^ 18)%Z.
      destruct bc; split; try nia; apply Z.mul_le_mono_nonneg; try nia; apply Z.mul_le_mono_nonneg; lia. }
    destruct (ofZ_between (Z.of_nat n) 18 ltac:(lia) ltac:(lia) ltac:(lia)) as (Fn & Bn).
    destruct (ofZ_between d1 18 ltac:(lia) ltac:(lia) ltac:(lia)) as (F1 & B1).
    destruct (ofZ_between d2 36 ltac:(lia) ltac:(lia) ltac:(lia)) as (F2 & B2).
    destruct (ofZ_between d3 54 ltac:(lia) ltac:(lia) ltac:(lia)) as (F3 & B3).
    eexists _, _. split; [reflexivity|]. split; [reflexivity|].
    assert (T2 := scaled_div2 (k + k) 374 18 18 (p2 153) mp mp' (b64_ofZ (Z.of_nat n)) (b64_ofZ d1) ltac:(unfold calm; lia) ltac:(lia) Hm Fn Bn F1 B1
      ltac:(apply fmt; lia) ltac:(apply fmt; lia)).
    assert (DA : scaleds k (92 + 18 + 52) (p2 61) (map (fun v => b64_div v (b64_ofZ (Z.of_nat n))) aa) (map (fun v => b64_div v (b64_ofZ (Z.of_nat n))) aa')).
    { clear - Ha K Fn Bn. induction Ha as [|? ? ? ? H1 H2 IH]; cbn [map]; constructor; [|exact (IH H2)].
      apply (scaled_div k 92 18 (p2 61)); auto; try apply fmt; try lia. unfold calm. lia. }
    pose proof (scaled_dot lib k k (92 + 18 + 52) 92 61 61 18 _ _ aa aa' (vf_lib _ _ HE) ltac:(unfold calm; lia) ltac:(lia) ltac:(lia)
      ltac:(rewrite map_length, La; lia) ltac:(rewrite map_length; congruence) DA Ha) as T3. cbn [ndot B64Num] in T3. cbn [ndot B64Num].
    destruct (scaled_div (k + k) (92 + 18 + 52 + 92) 36 (p2 (61 + 61 + 18)) _ _ (b64_ofZ d2) ltac:(unfold calm; lia) T3) as [T4 _]; auto; try apply fmt; try lia.
    pose proof (sc_cmul 2 1 (k + k) (92 + 18 + 52 + 92 + 36 + 52) (61 + 61 + 18) _ _ ltac:(lia) ltac:(lia) ltac:(unfold calm; lia) ltac:(lia) T4) as T5.
    destruct (scaled_div k 92 18 (p2 79) at_ at' (b64_ofZ (Z.of_nat n))) as [T6 _]; auto; try apply fmt; try lia; [unfold calm; lia|].
    pose proof (sc_mul k k (92 + 18 + 52) 92 79 79 _ _ at_ at' ltac:(unfold calm; lia) ltac:(lia) T6 Hat) as T7.
    destruct (scaled_div (k + k) (92 + 18 + 52 + 92) 54 (p2 (79 + 79)) _ _ (b64_ofZ d3) ltac:(unfold calm; lia) T7) as [T8 _]; auto; try apply fmt; try lia.
    apply (sc_add (k + k) 462 191); [unfold calm; lia|lia| |eapply scaled_weaken; [exact T8|lia|apply p2_le; lia]].
    apply (sc_sub (k + k) 462 190); [unfold calm; lia|lia| |eapply scaled_weaken; [exact T5|lia|apply p2_le; lia]].
    eapply scaled_weaken; [exact T2|lia|apply p2_le; lia].
  Qed.
End Variance.

Lemma fcorr_scaled_18 lib k l c c' vx vx' vy vy' : (-18 <= k <= 18)%Z -> (-18 <= l <= 18)%Z -> scaled (k + l) 412 (p2 192) c c' ->
  scaled (k + k) 462 (p2 192) vx vx' -> scaled (l + l) 462 (p2 192) vy vy' ->
  is_finite (fcorr lib c vx vy) = true /\ is_finite (fcorr lib c' vx' vy') = true /\ B2R (fcorr lib c' vx' vy') = B2R (fcorr lib c vx vy).
Proof.
  intros K L Hc Hx Hy.
  assert (Hp : scaled (2 * (k + l)) (2 * 462) (p2 (2 * 192)) (Babs (b64_mul vx vy)) (Babs (b64_mul vx' vy'))).
  { pose proof (sc_mul (k + k) (l + l) 462 462 192 192 _ _ _ _ ltac:(unfold calm; lia) ltac:(lia) Hx Hy) as H.
    destruct H as (F & F' & S & X & U). replace (2 * (k + l))%Z with (k + k + (l + l))%Z by lia. unfold scaled. rewrite !is_finite_Babs, !B2R_Babs.
    split; [auto|]. split; [auto|]. split; [rewrite S, Rabs_mult, (Rabs_pos_eq (p2 _)) by apply bpow_ge_0; reflexivity|].
    split; [|rewrite Rabs_Rabsolu; exact U]. destruct X as (z & ->). exists (Z.abs z). rewrite abs_IZR, Rabs_mult, (Rabs_pos_eq (p2 _)) by apply bpow_ge_0. reflexivity. }
  assert (CL : forall v : b64, is_finite v = true -> 0 <= B2R v -> sqrt_clamp (B64Num lib) v = b64_sqrt v).
  { intros v F P. unfold sqrt_clamp. cbn [nltb nzero nsqrt B64Num]. rewrite Bltb_correct by auto. rewrite Rlt_bool_false by (cbn; exact P). reflexivity. }
  assert (P1 : 0 <= B2R (Babs (b64_mul vx vy))) by (rewrite B2R_Babs; apply Rabs_pos).
  assert (P2 : 0 <= B2R (Babs (b64_mul vx' vy'))) by (rewrite B2R_Babs; apply Rabs_pos).
  pose proof (scaled_sqrt (k + l) 462 192 _ _ ltac:(unfold calm; lia) Hp P1 ltac:(lia)) as Hd.
  destruct Hp as (F1 & F1' & _). unfold fcorr. cbn [nabs B64Num]. rewrite !CL by auto.
  set (d := b64_sqrt (Babs (b64_mul vx vy))) in *. set (d' := b64_sqrt (Babs (b64_mul vx' vy'))) in *.
  destruct Hd as (Fd & Fd' & Sd & Xd & Ud). destruct Hc as (Fc & Fc' & Sc & Xc & Uc).
  rewrite !Beqb_correct by auto. cbn [B2R]. pose proof (bpow_gt_0 radix2 (k + l)) as PP.
  destruct (Req_dec (B2R d) 0) as [Z0|Z0].
  { rewrite Sd, Z0, Rmult_0_r, Req_bool_true by auto. auto. }
  assert (Z0' : B2R d' <> 0) by (rewrite Sd; apply Rmult_integral_contrapositive_currified; lra). rewrite !Req_bool_false by auto.
  assert (Q : B2R c' / B2R d' = B2R c / B2R d) by (rewrite Sc, Sd; field; split; lra).
  assert (OV : Rabs (b64_round (B2R c / B2R d)) < p2 1024).
  { apply Rle_lt_trans with (p2 750); [|apply bpow_lt; lia]. apply rnd_abs_le; [apply format_p2; lia|].
    destruct (fixed_low _ _ Xd) as [?|Ld]; [contradiction|]. unfold Rdiv. rewrite Rabs_mult, Rabs_inv. change 750%Z with (236 + 514)%Z. rewrite bpow_plus.
    apply Rmult_le_compat; [apply Rabs_pos|left; apply Rinv_0_lt_compat; apply Rabs_pos_lt; auto|eapply Rle_trans; [exact Uc|apply p2_le; lia]|].
    change 514%Z with (- - (514))%Z. rewrite (bpow_opp radix2 (- (514))). apply Rinv_le_contravar; [apply bpow_gt_0|exact Ld]. }
  destruct (div_real c d Fc Z0 OV) as (G1 & G2). rewrite <- Q in OV. destruct (div_real c' d' Fc' Z0' OV) as (G3 & G4).
  split; [exact G1|]. split; [exact G3|]. rewrite G2, G4, Q. reflexivity.
Qed.

Section Cor.
  Context (lib : flib) (E : Env b64) (HE : valid_fenv lib E) (HC : compares E).
  Context (n : nat) (k l : Z) (x x' y y' : array b64) (K : (-18 <= k <= 18)%Z) (L : (-18 <= l <= 18)%Z).
  Context (Mx : moderate n x) (My : moderate n y) (Rx : rescaled k x x') (Ry : rescaled l y y').

  Lemma column_30 j (u u' : array b64) : moderate n u -> rescaled j u u' ->
    exists v v', transform_to_1d (adata u) = Ok v /\ transform_to_1d (adata u') = Ok v' /\ scs j 92 40 v v' /\ scs j 82 30 v v' /\ length v = n.
  Proof.
    intros ((W & _ & _ & U & S & _ & _ & M) & M') (_ & _ & W' & S' & C' & R). unfold univariate in U.
    exists (tab n (fun i => fobs u i 0)), (tab n (fun i => fobs u' i 0)).
    split; [rewrite <- S; apply column; auto|]. split; [rewrite <- S, <- S'; apply column; auto; congruence|].
    assert (G : scs j 82 30 (tab n (fun i => fobs u i 0)) (tab n (fun i => fobs u' i 0))).
    { apply Forall2_tab. intros i Hi. destruct (M i Hi) as (F & _). pose proof (M' i Hi) as B. destruct (R i 0%nat) as (F' & Q); [lia|lia|]. rewrite !obs_freals in *.
      split; [exact F|]. split; [exact F'|]. split; [rewrite Q, bpow_powerRZ; reflexivity|]. split.
      - apply (low_fixed 30); [apply generic_format_B2R|]. destruct B as [B|[B _]]; [left; auto|right]. eapply Rle_trans; [|exact B]. apply Req_le. exact (p2_inv 30).
      - destruct B as [-> | [_ B]]; [rewrite Rabs_R0; apply bpow_ge_0|]. eapply Rle_trans; [exact B|]. apply Req_le. symmetry. exact (p2_pow 30). }
    split; [|split; [exact G|apply tab_length]]. clear - G. induction G as [|? ? ? ? H]; constructor; auto. eapply scaled_weaken; [exact H|lia|apply p2_le; lia].
  Qed.

  Lemma outcome_var cm : not_forced cm \/ cm = CCompileCpu ->
    exists t t' va va' vb vb', outcome (terms_avl E x y (b64_ofZ 1) cm true) = Ok (with_var va vb t) /\
      outcome (terms_avl E x' y' (b64_ofZ 1) cm true) = Ok (with_var va' vb' t') /\ terms_sc k l n t t' /\
      sc (k + k) 374 153 va va' /\ sc (l + l) 374 153 vb vb'.
  Proof.
    intros Hcm. destruct (column_30 k x x' Mx Rx) as (v & v' & V & V' & Sv & Tv & Lv). destruct (column_30 l y y' My Ry) as (w & w' & W & W' & Sw & Tw & Lw).
    pose proof Mx as ((_ & Ax & Dx & _ & _ & N1 & N2 & _) & _). pose proof My as ((_ & Ay & Dy & _) & _). pose proof Rx as (Ax' & Dx' & _). pose proof Ry as (Ay' & Dy' & _).
    assert (He : neqb (e_num E) (b64_ofZ 1) (nunit (e_num E)) = true) by (rewrite (vf_num _ _ HE); apply one_one).
    assert (R : forall u z : array b64, adt u = F64 -> adt z = F64 -> runs cm u z) by (intros u z Hu Hz; destruct Hcm as [Hcm | ->]; [left; auto|right; unfold forced_f64, is_float64; auto]).
    rewrite (avl_outcome E (fshape lib E HE) x y (b64_ofZ 1) true v w cm He V W) by (auto using together_l).
    rewrite (avl_outcome E (fshape lib E HE) x' y' (b64_ofZ 1) true v' w' cm He V' W') by (auto; apply together_l; congruence).
    assert (Lv' : length v' = n) by (rewrite <- (Forall2_len _ _ _ Sv); exact Lv). assert (Lw' : length w' = n) by (rewrite <- (Forall2_len _ _ _ Sw); exact Lw).
    assert (Cm : compiles cm x' y' = compiles cm x y) by (unfold compiles; rewrite Dx, Dy, Dx', Dy'; reflexivity). rewrite Cm.
    assert (G : forall lib' E' oob kk kv, valid_fenv lib' E' -> e_argsort E' = e_argsort E ->
      exists t t' va va' vb vb', terms_avl_impl E' false oob kk kv v w true = Ok (with_var va vb t) /\ terms_avl_impl E' false oob kk kv v' w' true = Ok (with_var va' vb' t') /\
        terms_sc k l n t t' /\ sc (k + k) 374 153 va va' /\ sc (l + l) 374 153 vb vb').
    { intros lib' E' oob kk kv HE' HA.
      destruct (impl_scaled E HC n k l ltac:(lia) ltac:(lia) lib' E' v v' w w' oob kk kv HE' HA Sv Sw Lv Lw N1 N2) as (t & t' & T & T' & S).
      exists t, t', (var_of (e_num E') v), (var_of (e_num E') v'), (var_of (e_num E') w), (var_of (e_num E') w').
      split; [apply avl_impl_var; [congruence|exact T]|]. split; [apply avl_impl_var; [congruence|exact T']|]. split; [exact S|].
      rewrite (vf_num _ _ HE'). split; apply (sc_var lib' (vf_lib _ _ HE') _ n); auto; lia. }
    destruct (compiles cm x y).
    - rewrite !(avl_compiled E (fshape lib E HE)) by apply (f00 lib E HE). apply (G (seq_lib lib) (seq_env E)); auto using valid_seq.
    - apply (G lib E); auto.
  Qed.

  Lemma correlation_avl g f m cm : correlates g f -> avl_or_auto m -> not_forced cm \/ cm = CCompileCpu ->
    exists v v', call g E x y (b64_ofZ 1) m cm = Ok v /\ call g E x' y' (b64_ofZ 1) m cm = Ok v' /\
      is_finite v = true /\ is_finite v' = true /\ B2R v' = B2R v.
  Proof.
    intros Hg Hm Hcm. destruct (outcome_var cm Hcm) as (t & t' & va & va' & vb & vb' & T & T' & (S1 & S2 & S3 & S4 & S5 & La & Lb) & Sa & Sb).
    assert (Hw : wants_var g = true /\ corrected g = corrected f) by (destruct Hg as [[-> ->]|[-> ->]]; auto). destruct Hw as [Hw Hc].
    pose proof Mx as (Mx0 & _). pose proof My as (My0 & _).
    pose proof Mx0 as (_ & _ & _ & _ & Lx & N1 & N2 & _). assert (Lx' : shape0 x' = n) by (rewrite <- Lx; apply Rx).
    assert (Hn : ((if corrected f then 4 else 1) <= n)%nat) by (destruct (corrected f); lia).
    assert (M0 : (if corrected f then 4 <= n else 1 <= n)%nat) by (destruct (corrected f); lia).
    assert (W : forall j u u' , scs j 92 61 u u' -> scaleds j 118 (p2 73) u u').
    { intros j u u' H. induction H as [|? ? ? ? H]; constructor; auto. eapply scaled_weaken; [exact H|lia|apply p2_le; lia]. }
    destruct (from_terms_scaled lib E HE n k l (t_mean_prod t) (t_mean_prod t') (t_a_total t) (t_a_total t') (t_b_total t) (t_b_total t')
      (t_a_axis t) (t_a_axis t') (t_b_axis t) (t_b_axis t') (corrected f) ltac:(lia) ltac:(lia) Hn N2) as (c & c' & C & C' & Sc); auto;
      try (eapply scaled_weaken; [eassumption|lia|apply p2_le; lia]).
    destruct (variance_scaled lib E HE n k va va' (t_a_total t) (t_a_total t') (t_a_axis t) (t_a_axis t') (corrected f) ltac:(lia) Hn N2 Sa S2 S3 La) as (vx & vx' & X & X' & Sx).
    destruct (variance_scaled lib E HE n l vb vb' (t_b_total t) (t_b_total t') (t_b_axis t) (t_b_axis t') (corrected f) ltac:(lia) Hn N2 Sb S4 S5 Lb) as (vy & vy' & Y & Y' & Sy).
    exists (correlation_of E c vx vy), (correlation_of E c' vx' vy').
    rewrite !call_terms, Hw, Lx, Lx'.
    rewrite (auto_avl lib E HE n x y m cm true) by (auto; left; auto). rewrite T.
    rewrite (auto_avl lib E HE n x' y' m cm true) by (auto; right; eauto). rewrite T'. cbn [rbind]. unfold finish. rewrite Hw, Hc.
    cbn [with_var t_kind t_vkind t_mean_prod t_a_axis t_b_axis t_a_total t_b_total t_mp_a t_mp_b].
    rewrite !(from_terms_kind E (t_kind t) AllNumpy), !(from_terms_kind E (t_kind t') AllNumpy), C, C' by exact M0.
    rewrite !(from_terms_kind E (t_vkind t) AllNumpy), !(from_terms_kind E (t_vkind t') AllNumpy), X, X', Y, Y' by exact M0. cbn [rbind].
    split; [destruct Hg as [[-> _]|[-> _]]; reflexivity|]. split; [destruct Hg as [[-> _]|[-> _]]; reflexivity|].
    rewrite !(correlation_of_fcorr lib E _ _ _ (vf_num _ _ HE)). apply (fcorr_scaled_18 lib k l); auto.
  Qed.
End Cor.

(** The squared distance correlation, biased or not, by the AVL algorithm, compiled or not, and by the default method: not a bit changes
    in its value when the units of the two samples change by powers of two up to 2^18. *)
Theorem C87_avl_correlation g f lib E n k l x x' y y' m cm : valid_fenv lib E -> compares E -> correlates g f -> avl_or_auto m -> not_forced cm \/ cm = CCompileCpu ->
  (-18 <= k <= 18)%Z -> (-18 <= l <= 18)%Z -> moderate n x -> moderate n y -> rescaled k x x' -> rescaled l y y' ->
  exists v v', call g E x y (b64_ofZ 1) m cm = Ok v /\ call g E x' y' (b64_ofZ 1) m cm = Ok v' /\
    is_finite v = true /\ is_finite v' = true /\ B2R v' = B2R v.
Proof. intros HE HC Hg Hm Hcm K L Mx My Rx Ry. exact (correlation_avl lib E HE HC n k l x x' y y' K L Mx My Rx Ry g f m cm Hg Hm Hcm). Qed.

(** The t-test on numpy samples of one column: the same statistic (as Python's [==] sees it) and the same p-value. *)
Theorem C87_t_test_avl lib E n k l x x' y y' : valid_fenv lib E -> compares E -> cdf_contract_float E ->
  (-18 <= k <= 18)%Z -> (-18 <= l <= 18)%Z -> moderate n x -> moderate n y -> rescaled k x x' -> rescaled l y y' ->
  exists r r', outcome (distance_correlation_t_test E x y) = Ok r /\ outcome (distance_correlation_t_test E x' y') = Ok r' /\
    Beqb (statistic r) (statistic r') = true /\ is_finite (pvalue r) = true /\ is_finite (pvalue r') = true /\ B2R (pvalue r') = B2R (pvalue r).
Proof.
  intros HE HC Hc K L Mx My Rx Ry. pose proof (vf_num _ _ HE) as EN.
  destruct (C87_avl_correlation UDcorSqr UDcovSqr lib E n k l x x' y y' MAuto CAuto) as (v & v' & V & V' & F & F' & S); auto; [right; auto|right; auto|left; left; auto|].
  change (fbcdcor E x y = Ok v) in V. change (fbcdcor E x' y' = Ok v') in V'.
  pose proof Mx as ((_ & _ & _ & _ & Sx & Hn & Hb & _) & _). assert (Sx' : shape0 x' = shape0 x) by apply Rx.
  assert (Z : size_ok (shape0 x)). { rewrite Sx. split; [exact Hn|]. eapply Z.le_trans; [exact Hb|]. apply Z.pow_le_mono_r; lia. }
  assert (Z' : size_ok (shape0 x')) by (rewrite Sx'; exact Z).
  assert (N : is_nan v = false) by (destruct v; auto; discriminate). assert (N' : is_nan v' = false) by (destruct v'; auto; discriminate).
  destruct (equal_leb v v' F F' S) as [L1 L2].
  destruct (C73_p_value lib E x y v EN Hc Z V N) as (p & t & T & St & Fp & _).
  destruct (C73_p_value lib E x' y' v' EN Hc Z' V' N') as (p' & t' & T' & St' & Fp' & _).
  exists (mkTest p t), (mkTest p' t'). split; [exact T|]. split; [exact T'|]. cbn [statistic pvalue]. split; [|split; [exact Fp|split; [exact Fp'|]]].
  - apply leb_eqb; [eapply (C73_increasing lib E x y x' y'); eauto|eapply (C73_increasing lib E x' y' x y); eauto].
  - apply Rle_antisym.
    + apply (C73_p_decreasing lib E x y x' y' v v' (mkTest p t) (mkTest p' t')); auto.
    + apply (C73_p_decreasing lib E x' y' x y v' v (mkTest p' t') (mkTest p t)); auto.
Qed.

Lemma small_moderate (l : list Z) : (4 <= length l <= 100)%nat -> Forall (fun z => (Z.abs z <= 100)%Z) l -> moderate (length l) (ints l).
Proof.
  intros Hl F. split; [apply small_measured; auto|].
  intros i Hi. rewrite obs_freals. assert (Hf : fobs (ints l) i 0 = b64_ofZ (nth i l 0%Z)) by (unfold fobs, ints; cbn [adata]; change fz with (b64_ofZ 0); apply map_nth).
  rewrite Hf. rewrite Forall_forall in F. pose proof (F _ (nth_In l 0%Z Hi)) as B. destruct (rep_ofZ (nth i l 0%Z)) as (Fz & -> & _); [lia|].
  set (z := nth i l 0%Z) in *. destruct (Z.eq_dec z 0) as [-> | H]; [left; reflexivity|right]. rewrite <- abs_IZR.
  assert (2 ^ 30 = 1073741824) by (cbn; lra). assert (/ 2 ^ 30 <= 1) by (rewrite <- Rinv_1; apply Rinv_le_contravar; lra).
  assert (1 <= IZR (Z.abs z)) by (apply IZR_le; lia). assert (IZR (Z.abs z) <= 100) by (apply IZR_le; lia). split; lra.
Qed.

Lemma env_T_compares : compares env_T.
Proof. exact env_F_compares. Qed.

Example C87_avl_correlation_meets : valid_fenv plain env_T /\ compares env_T /\ cdf_contract_float env_T /\ moderate 5 xi /\ moderate 5 yi /\
  (exists v v', call DcorSqr env_T xi yi (b64_ofZ 1) MAvl CCompileCpu = Ok v /\
    call DcorSqr env_T (times eight xi) (times quarter yi) (b64_ofZ 1) MAvl CCompileCpu = Ok v' /\ B2R v' = B2R v) /\
  exists r r', outcome (distance_correlation_t_test env_T xi yi) = Ok r /\
    outcome (distance_correlation_t_test env_T (times eight xi) (times quarter yi)) = Ok r' /\ B2R (pvalue r') = B2R (pvalue r).
Proof.
  assert (Bx : Forall (fun z => (Z.abs z <= 100)%Z) [3; 1; 2; 1; 5]%Z) by (repeat constructor; cbn; lia).
  assert (By : Forall (fun z => (Z.abs z <= 100)%Z) [0; 2; 2; 7; 1]%Z) by (repeat constructor; cbn; lia).
  assert (Mx : moderate 5 xi) by (apply (small_moderate [3; 1; 2; 1; 5]%Z); [cbn; lia|exact Bx]).
  assert (My : moderate 5 yi) by (apply (small_moderate [0; 2; 2; 7; 1]%Z); [cbn; lia|exact By]).
  split; [exact env_T_valid|]. split; [exact env_T_compares|]. split; [exact env_T_cdf|]. split; [exact Mx|]. split; [exact My|].
  destruct C87_meets as (_ & _ & Rx & Ry & _). split.
  - destruct (C87_avl_correlation DcorSqr DcovSqr plain env_T 5 3 (-2) xi (times eight xi) yi (times quarter yi) MAvl CCompileCpu) as (v & v' & V & V' & _ & _ & S);
      auto using env_T_valid, env_T_compares; try lia; [left; auto|left; auto|]. exists v, v'. auto.
  - destruct (C87_t_test_avl plain env_T 5 3 (-2) xi (times eight xi) yi (times quarter yi)) as (r & r' & T & T' & _ & _ & _ & P);
      auto using env_T_valid, env_T_compares, env_T_cdf; try lia. exists r, r'. auto.
Qed.

(** [distance_correlation], the square root, likewise. *)
Theorem C87_avl_distance_correlation lib E n k l x x' y y' m cm : valid_fenv lib E -> compares E -> avl_or_auto m -> not_forced cm \/ cm = CCompileCpu ->
  (-18 <= k <= 18)%Z -> (-18 <= l <= 18)%Z -> moderate n x -> moderate n y -> rescaled k x x' -> rescaled l y y' ->
  exists v v', call Dcor E x y (b64_ofZ 1) m cm = Ok v /\ call Dcor E x' y' (b64_ofZ 1) m cm = Ok v' /\
    is_finite v = true /\ is_finite v' = true /\ B2R v' = B2R v.
Proof.
  intros HE HC Hm Hcm K L Mx My Rx Ry.
  destruct (C87_avl_correlation DcorSqr DcovSqr lib E n k l x x' y y' m cm) as (r & r' & H & H' & F & F' & S); auto; [left; auto|].
  apply dcor_of_sqr in H, H'. rewrite (vf_num _ _ HE) in H, H'. eexists _, _. split; [exact H|]. split; [exact H'|].
  unfold sqrt_clamp. cbn [nltb nzero nsqrt B64Num]. rewrite !Bltb_correct by auto. cbn [B2R]. rewrite S.
  destruct (Rlt_bool_spec (B2R r) 0) as [?|P]; [auto|].
  destruct (sqrt_real r F P) as (G1 & G2). rewrite <- S in P. destruct (sqrt_real r' F' P) as (G3 & G4). split; [exact G1|]. split; [exact G3|]. rewrite G2, G4, S. reflexivity.
Qed.
