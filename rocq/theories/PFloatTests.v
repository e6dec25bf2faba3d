(** C60, C61: the permutation tests in double precision.

    C60: the p-value is the correctly rounded quotient (k + 1) / (B + 1), and comparing it with a significance level given as a
    decimal fraction decides as exact arithmetic would.  C61: the statistic of the distance covariance test is accurate, and the
    p-value is the one of exact arithmetic when no resampled statistic is within the rounding error of the observed one. *)
From Coq Require Import Reals Lra Lia List Arith Bool ZArith Psatz.
From Flocq Require Import Core IEEE754.BinarySingleNaN.
From Verif Require Import Num Numpy MUtils MDistances MInternals MMergesort MAvl MDcor MHypothesis MIndependence MHomogeneity MFloat Sums
  Spec Centering Tab Samples RefDist RefDcor Api Calls RefInteger RefFloat FloatApi FloatSum FloatEnv FloatError FloatAccuracy PFloat
  FloatNaive PNaiveFloat FloatCorr PFloatCorr RefTests PTests FloatAvlErr FloatCenter Invariance RefCenter RefApi Witness PTTest.
Import ListNotations.
Local Open Scope R_scope.

(** ** The quotient *)

Lemma round_mono a b : a <= b -> b64_round a <= b64_round b.
Proof. apply round_le; [apply b64_fexp_valid|apply valid_rnd_N]. Qed.

Lemma unit_normal a : / 2 ^ 53 <= a -> a <= 1 -> normal a.
Proof.
  intros H0 H1. assert (0 < / 2 ^ 53) by (apply Rinv_0_lt_compat; lra). right. rewrite Rabs_pos_eq by lra. split.
  - apply Rle_trans with (/ 2 ^ 53); auto.
    apply Rle_trans with (bpow radix2 (-53)); [apply bpow_le; lia|]. change (bpow radix2 (-53)) with (/ 9007199254740992). lra.
  - apply Rle_trans with 1; auto. change 1 with (bpow radix2 0). apply bpow_le. lia.
Qed.

Definition ratio (i d : Z) : R := IZR i / IZR d.
Lemma ratio_range i d : (1 <= i <= d)%Z -> (d <= 2 ^ 53)%Z -> / 2 ^ 53 <= ratio i d <= 1.
Proof.
  intros Hi Hd. unfold ratio. assert (1 <= IZR i) by (apply IZR_le; lia). assert (IZR i <= IZR d) by (apply IZR_le; lia).
  assert (IZR d <= 2 ^ 53) by (rewrite (pow_IZR 2); apply IZR_le; exact Hd). split.
  - apply Rle_trans with (/ IZR d); [apply Rinv_le; lra|]. unfold Rdiv. rewrite <- (Rmult_1_l (/ IZR d)) at 1.
    apply Rmult_le_compat_r; [left; apply Rinv_0_lt_compat|]; lra.
  - apply (Rmult_le_reg_r (IZR d)); [lra|]. unfold Rdiv. rewrite Rmult_assoc, Rinv_l; lra.
Qed.

Lemma ratio_round i d : (1 <= i <= d)%Z -> (d <= 2 ^ 53)%Z ->
  Rabs (b64_round (ratio i d) - ratio i d) <= ulp1 * ratio i d /\ 0 < b64_round (ratio i d) <= 1.
Proof.
  intros Hi Hd. destruct (ratio_range i d Hi Hd) as [H0 H1]. pose proof (unit_normal _ H0 H1) as N.
  destruct (normal_round _ N) as [E _]. assert (0 < / 2 ^ 53) by (apply Rinv_0_lt_compat; lra).
  rewrite (Rabs_pos_eq (ratio i d)) in E by lra. split; [exact E|]. split.
  - apply Rabs_le_inv in E. pose proof ulp1_small. nra.
  - replace 1 with (b64_round (IZR 1)) at 1 by (apply b64_round_Z; lia). apply round_mono. exact H1.
Qed.

(** Dividing two integers. *)
Lemma quotient (a b : b64) i d : rep (2 ^ 53) a i -> rep (2 ^ 53) b d -> (1 <= i <= d)%Z ->
  is_finite (b64_div a b) = true /\ B2R (b64_div a b) = b64_round (ratio i d).
Proof.
  intros (Fa & Ra & Ka) (Fb & Rb & Kb) Hi.
  destruct (ratio_round i d Hi) as [_ [P0 P1]]; [lia|].
  pose proof (div_real a b Fa) as D. unfold ratio in *. rewrite Ra, Rb in *. apply D.
  - assert (1 <= IZR d) by (apply IZR_le; lia). lra.
  - rewrite Rabs_pos_eq by lra. eapply Rle_lt_trans; [exact P1|]. change 1 with (bpow radix2 0). apply bpow_lt. lia.
Qed.

(** Rounding keeps the order of different fractions with small denominators. *)
Lemma ratio_lt_round i d j c : (1 <= i <= d)%Z -> (1 <= j <= c)%Z -> (d * c <= 2 ^ 52)%Z -> (i * c < j * d)%Z ->
  b64_round (ratio i d) < b64_round (ratio j c).
Proof.
  intros Hi Hj Hdc Hlt. assert (d <= 2 ^ 53)%Z by nia. assert (c <= 2 ^ 53)%Z by nia.
  destruct (ratio_round i d Hi) as [Ei _]; auto. destruct (ratio_round j c Hj) as [Ej _]; auto.
  destruct (ratio_range i d Hi) as [_ Ui]; auto. destruct (ratio_range j c Hj) as [Lj Uj]; auto.
  assert (Dd : 1 <= IZR d) by (apply IZR_le; lia). assert (Dc : 1 <= IZR c) by (apply IZR_le; lia).
  assert (G : ratio j c - ratio i d >= / (IZR d * IZR c)).
  { unfold ratio. replace (IZR j / IZR c - IZR i / IZR d) with ((IZR j * IZR d - IZR i * IZR c) * / (IZR d * IZR c)) by (field; lra).
    rewrite <- !mult_IZR, <- minus_IZR. assert (1 <= IZR (j * d - i * c)) by (apply IZR_le; lia).
    assert (0 < / IZR (d * c)) by (apply Rinv_0_lt_compat; rewrite mult_IZR; nra). nra. }
  assert (Q : / 2 ^ 52 <= / (IZR d * IZR c)).
  { apply Rinv_le; [nra|]. rewrite <- mult_IZR, (pow_IZR 2). apply IZR_le. exact Hdc. }
  apply Rabs_le_inv in Ei, Ej. unfold ulp1 in *. lra.
Qed.

(** ** C60: p-values *)

Lemma filter_map_length {A B} (h : A -> B) (f : B -> bool) l : length (filter f (map h l)) = length (filter (fun u => f (h u)) l).
Proof. induction l as [|u l IH]; cbn; auto. destruct (f (h u)); cbn; auto. Qed.
Lemma filter_length_le {A} (f : A -> bool) l : (length (filter f l) <= length l)%nat.
Proof. induction l as [|u l IH]; cbn; auto. destruct (f u); cbn; lia. Qed.

(** The number of drawn permutations whose statistic exceeds the observed one. *)
Definition exceeding {S} (G : Rng S) (c : test_call (T:=b64)) (f : list nat -> b64) (b : nat) (rs : random_like S) (observed : b64) : nat :=
  length (filter (fun q => Bltb observed (f q)) (fst (draw_permutations G b (permuted_rows c) (random_state_init G rs)))).

(** What a successful call computed: the quotient. *)
Lemma test_quotient lib (E : Env b64) c : e_num E = B64Num lib -> exists f : list nat -> b64,
  forall S (G : Rng S) b rs t s, (Z.of_nat b + 1 <= 2 ^ 53)%Z -> run_test E G c (Z.of_nat b) rs = Ok (t, s) ->
  let k := exceeding G c f b rs (statistic t) in
  statistic t = f (seq 0 (permuted_rows c)) /\ (k <= b)%nat /\
    is_finite (pvalue t) = true /\ B2R (pvalue t) = b64_round (ratio (Z.of_nat k + 1) (Z.of_nat b + 1)).
Proof.
  intros EN. destruct (run_test_statistics E c) as (f & Hf). exists f. intros S G b rs t s Hb H k.
  destruct (Hf S G _ rs t s H) as (Hs & _ & Hp). split; [exact Hs|]. rewrite Nat2Z.id, EN in Hp.
  unfold permutation_pvalue in Hp. destruct (Z.eqb_spec (Z.of_nat b + 1) 0); [lia|].
  rewrite filter_map_length in Hp. cbn [nltb ndiv nadd nofZ nunit B64Num] in Hp. change (length (filter _ _)) with k in Hp.
  assert (Hk : (k <= b)%nat) by (rewrite <- (draw_length G b (permuted_rows c) (random_state_init G rs)); unfold k, exceeding; apply filter_length_le).
  split; [exact Hk|]. injection Hp as <-. apply quotient; [| |lia].
  - eapply rep_weaken; [apply (rep_add (Z.abs (Z.of_nat k)) (Z.abs 1)); [apply rep_ofZ; lia|apply rep_ofZ; lia|lia]|lia].
  - eapply rep_weaken; [apply rep_ofZ; lia|lia].
Qed.

(** The p-value is the double nearest to (k + 1) / (B + 1), where k of the B resampled statistics exceed the observed one; it is
    positive, at most 1, and 1 only when every resampled statistic exceeds the observed one.  The statistic of a resample depends
    only on the permutation, and the observed one is that of the identity. *)
Theorem C60_pvalue lib (E : Env b64) c : valid_fenv lib E -> exists f : list nat -> b64,
  forall S (G : Rng S) b rs t s, (Z.of_nat b + 1 <= 2 ^ 53)%Z -> run_test E G c (Z.of_nat b) rs = Ok (t, s) ->
  let k := exceeding G c f b rs (statistic t) in
  statistic t = f (seq 0 (permuted_rows c)) /\ (k <= b)%nat /\
    is_finite (pvalue t) = true /\ B2R (pvalue t) = b64_round (IZR (Z.of_nat k + 1) / IZR (Z.of_nat b + 1)) /\
    0 < B2R (pvalue t) <= 1 /\ (B2R (pvalue t) = 1 <-> k = b).
Proof.
  intros HE. destruct (test_quotient lib E c (vf_num _ _ HE)) as (f & Hf). exists f. intros S G b rs t s Hb H k.
  destruct (Hf S G b rs t s Hb H) as (Hs & Hkb & F & V). fold k in Hkb, V. clearbody k.
  split; [auto|]. split; [auto|]. split; [auto|]. split; [exact V|].
  assert (R1 : (1 <= Z.of_nat k + 1 <= Z.of_nat b + 1)%Z) by lia. destruct (ratio_round _ _ R1 Hb) as [Er Pr]. rewrite V. split; [exact Pr|].
  split.
  - intros H1. destruct (Nat.eq_dec k b) as [->|Hn]; [reflexivity|]. exfalso. rewrite H1 in Er. apply Rabs_le_inv in Er.
    assert (D1 : 1 <= IZR (Z.of_nat b + 1)) by (apply IZR_le; lia).
    assert (D2 : IZR (Z.of_nat b + 1) <= 2 ^ 53) by (rewrite (pow_IZR 2); apply IZR_le; exact Hb).
    assert (Q : ratio (Z.of_nat k + 1) (Z.of_nat b + 1) <= 1 - / 2 ^ 53).
    { unfold ratio. apply Rle_trans with ((IZR (Z.of_nat b + 1) - 1) / IZR (Z.of_nat b + 1)).
      - unfold Rdiv. apply Rmult_le_compat_r; [left; apply Rinv_0_lt_compat; lra|]. rewrite <- minus_IZR. apply IZR_le. lia.
      - replace ((IZR (Z.of_nat b + 1) - 1) / IZR (Z.of_nat b + 1)) with (1 - / IZR (Z.of_nat b + 1)) by (field; lra).
        assert (/ 2 ^ 53 <= / IZR (Z.of_nat b + 1)) by (apply Rinv_le; lra). lra. }
    unfold ulp1 in Er. assert (0 < / 2 ^ 53) by (apply Rinv_0_lt_compat; lra).
    set (u := / 2 ^ 53) in *. set (z := ratio _ _) in *. assert (u * z < u) by nra. lra.
  - intros ->. unfold ratio. replace (IZR (Z.of_nat b + 1) / IZR (Z.of_nat b + 1)) with (IZR 1); [apply b64_round_Z; lia|].
    assert (1 <= IZR (Z.of_nat b + 1)) by (apply IZR_le; lia). field. lra.
Qed.

(** Comparing the p-value with a significance level written as a fraction i / d (0.05 is 1 / 20), both in double precision, decides
    whether (k + 1) / (B + 1) <= i / d holds exactly. *)
Theorem C60_decision lib (E : Env b64) c : valid_fenv lib E -> exists f : list nat -> b64,
  forall S (G : Rng S) b rs t s i d, (1 <= i <= d)%Z -> ((Z.of_nat b + 1) * d <= 2 ^ 52)%Z -> run_test E G c (Z.of_nat b) rs = Ok (t, s) ->
    let k := Z.of_nat (exceeding G c f b rs (statistic t)) in
    let level := b64_div (b64_ofZ i) (b64_ofZ d) in
    statistic t = f (seq 0 (permuted_rows c)) /\
    (Bleb (pvalue t) level = true <-> (k + 1) * d <= i * (Z.of_nat b + 1))%Z /\
    (Bltb (pvalue t) level = true <-> (k + 1) * d < i * (Z.of_nat b + 1))%Z.
Proof.
  intros HE. destruct (test_quotient lib E c (vf_num _ _ HE)) as (f & Hf). exists f. intros S G b rs t s i d Hi Hd H.
  assert (Hb : (Z.of_nat b + 1 <= 2 ^ 53)%Z) by nia. assert (Hd' : (d <= 2 ^ 53)%Z) by nia.
  destruct (Hf S G b rs t s Hb H) as (Hs & Hkb & F & V). cbv zeta. split; [exact Hs|].
  set (k := exceeding G c f b rs (statistic t)) in *. clearbody k.
  destruct (quotient (b64_ofZ i) (b64_ofZ d) i d) as [Fq Vq]; auto; try (eapply rep_weaken; [apply rep_ofZ; lia|lia]).
  rewrite Bleb_correct, Bltb_correct, V, Vq by auto.
  assert (R1 : (1 <= Z.of_nat k + 1 <= Z.of_nat b + 1)%Z) by lia.
  destruct (Z.compare_spec ((Z.of_nat k + 1) * d) (i * (Z.of_nat b + 1))) as [Heq|Hlt|Hgt].
  - assert (ratio (Z.of_nat k + 1) (Z.of_nat b + 1) = ratio i d) as ->.
    { unfold ratio. assert (1 <= IZR (Z.of_nat b + 1)) by (apply IZR_le; lia). assert (1 <= IZR d) by (apply IZR_le; lia).
      apply (Rmult_eq_reg_r (IZR (Z.of_nat b + 1) * IZR d)); [|nra].
      replace (IZR (Z.of_nat k + 1) / IZR (Z.of_nat b + 1) * (IZR (Z.of_nat b + 1) * IZR d)) with (IZR (Z.of_nat k + 1) * IZR d) by (field; lra).
      replace (IZR i / IZR d * (IZR (Z.of_nat b + 1) * IZR d)) with (IZR i * IZR (Z.of_nat b + 1)) by (field; lra).
      rewrite <- !mult_IZR. f_equal. exact Heq. }
    rewrite Rle_bool_true, Rlt_bool_false by lra. split; split; intros; try lia; try discriminate; auto.
  - pose proof (ratio_lt_round (Z.of_nat k + 1) (Z.of_nat b + 1) i d R1 Hi Hd Hlt). rewrite Rle_bool_true, Rlt_bool_true by lra.
    split; split; intros; try lia; auto.
  - assert (Hd2 : (d * (Z.of_nat b + 1) <= 2 ^ 52)%Z) by lia.
    pose proof (ratio_lt_round i d (Z.of_nat k + 1) (Z.of_nat b + 1) Hi R1 Hd2 Hgt). rewrite Rle_bool_false, Rlt_bool_false by lra.
    split; split; intros; try lia; discriminate.
Qed.

(** ** C61: the distance covariance test *)

Lemma near_apx k M D a r : near k M a r -> r <= D -> D <= BB -> lowM D -> apx k D a r.
Proof.
  intros (F & H & _ & H2 & _) HD HB HL. split; auto. repeat split; auto; [|rewrite Rabs_pos_eq; lra].
  eapply Rle_trans; [exact H|]. apply Rmult_le_compat_l; [apply gam_nonneg|lra].
Qed.

Lemma permuted_tab {T} n (a : nat -> nat -> T) stat q : is_perm n q ->
  permuted_statistic (tab2 n n a) stat q = stat (tab2 n n (fun i j => a (nth i q 0%nat) (nth j q 0%nat))).
Proof.
  intros Hq. unfold permuted_statistic, tab2. rewrite take_chk_tab by auto. cbn [rbind].
  rewrite (mapM_tab n _ _ (fun i => tab n (fun j => a (nth i q 0%nat) (nth j q 0%nat)))); [reflexivity|].
  intros. apply take_chk_tab; auto.
Qed.

(** The bound on the error of the statistic, from bounds on the distances. *)
Definition test_error (n cx cy : nat) (Dx Dy : R) : R := (INR n ^ 2 + 4 * INR n + INR (cx + cy) + 25) * INR n * (Dx * Dy) / 2 ^ 48.

Section DcovTest.
  Context (lib : flib) (E : Env b64) (HE : valid_fenv lib E).
  Let EN : e_num E = B64Num lib := vf_num _ _ HE.
  Let GL : good_lib lib := vf_lib _ _ HE.
  Context (n : nat) (x y : array b64) (Hp : double_pair n x y) (Sx : spread n x) (Sy : spread n y).
  Context (Hn' : (Z.of_nat n <= 2 ^ 18)%Z) (Cx : (Z.of_nat (ncols x) <= 2 ^ 30)%Z) (Cy : (Z.of_nat (ncols y) <= 2 ^ 30)%Z).
  Context (Dx Dy : R) (BDx : / 2 ^ 100 <= Dx <= 2 ^ 200) (BDy : / 2 ^ 100 <= Dy <= 2 ^ 200).
  Let a := distances 1 (freals x).
  Let b := distances 1 (freals y).
  Context (HDx : forall i j, (i < n)%nat -> (j < n)%nat -> a i j <= Dx) (HDy : forall i j, (i < n)%nat -> (j < n)%nat -> b i j <= Dy).

  Lemma n_pos : (1 <= n)%nat. Proof. destruct Hp as ((_ & _ & _ & _ & H) & _). exact H. Qed.

  Lemma sample_matrix w D : wf w -> shape0 w = n -> adt w = F64 -> Forall (fun v => is_finite v = true) (entries w) -> spread n w ->
    (Z.of_nat (ncols w) <= 2 ^ 30)%Z -> / 2 ^ 100 <= D <= 2 ^ 200 -> (forall i j, (i < n)%nat -> (j < n)%nat -> distances 1 (freals w) i j <= D) ->
    exists f, outcome (distance_matrix_generic E (double_centered E) w (b64_ofZ 1)) = Ok (tab2 n n f) /\
      forall i j, (i < n)%nat -> (j < n)%nat -> apx (ncols w + 2 * n + 10) (4 * D) (f i j) (dcenter n (distances 1 (freals w)) i j).
  Proof.
    intros Ww Lw Fw Iw Sw Cw BD HD.
    assert (n18 : INR n <= 2 ^ 18) by (apply small_INR; exact Hn').
    assert (cw : INR (ncols w) <= 2 ^ (2 * 15)) by (apply small_INR; exact Cw).
    assert (fw : few (ncols w + 2 * n + 10)) by (unfold few; apply small_INR; change (Z.of_nat 40) with 40%Z; nia).
    assert (SP : forall i j k, (i < n)%nat -> (j < n)%nat -> (k < ncols w)%nat ->
      let t := obs (freals w) i k - obs (freals w) j k in t = 0 \/ (/ 2 ^ 100 <= Rabs t <= 2 ^ 100)).
    { intros i j k Hi Hj Hk t. destruct (Sw i j k Hi Hj Hk) as [H|H]; [left; unfold t; lra|right; exact H]. }
    assert (f4 : few (4 + ncols w)) by (apply (few_le _ _ fw); lia).
    pose proof (fdists_near lib GL E EN w n Lw (entries_fin n w Ww Lw Iw) 100 15 cw ltac:(lia) f4 SP) as Nw.
    exists (fdc lib n (fdists E w)). split; [apply (fdmg_double lib E EN); apply (pairwise_fdists lib E EN w n Ww Lw Fw)|].
    assert (b100 : bpow radix2 (-900) <= D).
    { apply Rle_trans with (/ 2 ^ 100); [|lra]. apply Rle_trans with (bpow radix2 (-100)); [apply bpow_le; lia|].
      destruct (pow_bpow 100) as [_ <-]. apply Rle_refl. }
    assert (H200 : 2 ^ 200 <= 2 ^ 300) by (apply pow2_le; lia).
    assert (DBB : D <= BB) by (apply Rle_trans with (2 ^ 200); [lra|apply pow2_le; lia]).
    intros i j Hi Hj. replace (ncols w + 2 * n + 10)%nat with (4 + ncols w + 2 * n + 6)%nat by lia.
    apply dc_apx; auto; try lra; [apply n_pos|apply (few_le _ _ fw); lia| |apply dmat_symmetric].
    intros i' j' Hi' Hj'. apply (near_apx _ (2 ^ (100 + 15))); auto. right. auto.
  Qed.

  Lemma x_facts : wf x /\ wf y /\ shape0 x = n /\ shape0 y = n /\ wf (freals x) /\ wf (freals y) /\ shape0 (freals x) = n /\ shape0 (freals y) = n.
  Proof.
    destruct Hp as ((Wx & Wy & Lx & Ly & _) & _). pose proof Wx as Wx'. pose proof Wy as Wy'. pose proof Lx as Lx'. pose proof Ly as Ly'.
    apply freals_wf in Wx', Wy'. rewrite freals_shape0 in Lx', Ly'. auto 10.
  Qed.

  (** The statistic of exact arithmetic for the observations of x in the order q. *)
  Definition exact_stat (q : list nat) : R := INR n * dcov2 n (relabel (fun i => nth i q 0%nat) a) b.

  Lemma test_depth : few (n * n + 4 * n + (ncols x + ncols y) + 25).
  Proof. unfold few. apply small_INR. change (Z.of_nat 40) with 40%Z. nia. Qed.
  Lemma gam_test : gam (n * n + 4 * n + (ncols x + ncols y) + 25) * (INR n * (4 * Dx * (4 * Dy))) <= test_error n (ncols x) (ncols y) Dx Dy.
  Proof.
    pose proof test_depth as fw. pose proof (gam_lin (n * n + 4 * n + (ncols x + ncols y) + 25)) as H. unfold few in fw.
    set (K := INR (n * n + 4 * n + (ncols x + ncols y) + 25)) in *.
    assert (HK : K = INR n ^ 2 + 4 * INR n + INR (ncols x + ncols y) + 25).
    { unfold K. repeat (rewrite ?plus_INR, ?mult_INR). cbn [INR]. ring. }
    assert (H1 : K * ulp1 <= / 2).
    { apply Rle_trans with (2 ^ 40 * ulp1); [apply Rmult_le_compat_r; auto; pose proof ulp1_pos; lra|unfold ulp1; lra]. }
    specialize (H H1). unfold test_error. rewrite <- HK.
    assert (0 < / 2 ^ 100) by (apply Rinv_0_lt_compat, pow_lt; lra).
    assert (0 <= INR n * (4 * Dx * (4 * Dy))) by (apply Rmult_le_pos; [apply pos_INR|]; apply Rmult_le_pos; lra).
    apply Rle_trans with (2 * K * ulp1 * (INR n * (4 * Dx * (4 * Dy)))); [apply Rmult_le_compat_r; auto|].
    unfold ulp1. apply Req_le. field.
  Qed.

  (** The statistics computed by the test. *)
  Lemma test_statistics : exists u_x u_y (v : list nat -> b64),
    outcome (distance_matrix_generic E (double_centered E) x (b64_ofZ 1)) = Ok (tab2 n n u_x) /\
    outcome (distance_matrix_generic E (double_centered E) y (b64_ofZ 1)) = Ok (tab2 n n u_y) /\
    (forall q, is_perm n q -> rbind (mean_product E (tab2 n n (fun i j => u_x (nth i q 0%nat) (nth j q 0%nat))) (tab2 n n u_y))
        (fun w => Ok (b64_mul (b64_ofZ (Z.of_nat n)) w)) = Ok (v q)) /\
    (forall q, is_perm n q -> is_finite (v q) = true /\ Rabs (B2R (v q) - exact_stat q) <= test_error n (ncols x) (ncols y) Dx Dy).
  Proof.
    pose proof n_pos as N1. destruct x_facts as (Wx & Wy & Lx & Ly & _). destruct Hp as (_ & Fx & Fy & Ix & Iy).
    destruct (sample_matrix x Dx Wx Lx Fx Ix Sx Cx BDx HDx) as (u_x & Ux & Ax). fold a in Ax.
    destruct (sample_matrix y Dy Wy Ly Fy Iy Sy Cy BDy HDy) as (u_y & Uy & Ay). fold b in Ay.
    assert (n18 : INR n <= 2 ^ 18) by (apply small_INR; exact Hn').
    assert (N1' : 1 <= INR n) by (replace 1 with (INR 1) by reflexivity; apply le_INR; auto).
    pose proof test_depth as fw.
    assert (P100 : bpow radix2 (-100) = / 2 ^ 100) by (destruct (pow_bpow 100) as [_ H]; exact H).
    assert (L400 : bpow radix2 (-400) <= / 2 ^ 100) by (rewrite <- P100; apply bpow_le; lia).
    assert (H300 : 4 * 2 ^ 200 <= 2 ^ 300) by (replace 4 with (2 ^ 2) by ring; rewrite <- pow_add; apply pow2_le; lia).
    assert (P0 : 0 < / 2 ^ 100) by (rewrite <- P100; apply bpow_gt_0).
    assert (Q : forall q, is_perm n q -> exists w, mean_product E (tab2 n n (fun i j => u_x (nth i q 0%nat) (nth j q 0%nat))) (tab2 n n u_y) = Ok w /\
      apx (n * n + 4 * n + (ncols x + ncols y) + 25) (INR n * (4 * Dx * (4 * Dy))) (b64_mul (b64_ofZ (Z.of_nat n)) w) (exact_stat q)).
    { intros q Hq.
      assert (Hnth : forall i, (i < n)%nat -> (nth i q 0 < n)%nat).
      { intros i Hi. apply (is_perm_In n q); auto. apply nth_In. rewrite (is_perm_length n q Hq). auto. }
      destruct (fmean_product lib GL E EN (ncols x + 2 * n + 10) (ncols y + 2 * n + 10) n (4 * Dx) (4 * Dy)
        (fun i j => u_x (nth i q 0%nat) (nth j q 0%nat)) u_y (fun i j => dcenter n a (nth i q 0%nat) (nth j q 0%nat)) (dcenter n b)) as (w & W1 & W2); auto; try lra.
      - apply (few_le _ _ fw). lia.
      - exists w. split; [exact W1|].
        assert (HS : exact_stat q = INR n * (/ INR n ^ 2 * rsum2 n n (fun i j => dcenter n a (nth i q 0%nat) (nth j q 0%nat) * dcenter n b i j))).
        { unfold exact_stat, dcov2. f_equal. f_equal. apply rsum2_ext. intros i j Hi Hj. rewrite dcenter_relabel by (apply is_perm_on; auto). reflexivity. }
        rewrite HS. clear HS. rewrite (INR_IZR_INZ n) at 2.
        apply (apx_k (S (0 + (ncols x + 2 * n + 10 + (ncols y + 2 * n + 10) + n * n + 4)))); [|lia]. rewrite <- INR_IZR_INZ.
        assert (PP : bpow radix2 (-900) <= 4 * Dx * (4 * Dy)).
        { apply Rle_trans with (bpow radix2 (-100) * bpow radix2 (-100)); [rewrite <- bpow_plus; apply bpow_le; lia|]. rewrite P100. apply Rmult_le_compat; lra. }
        apply apx_mul; auto.
        + rewrite (INR_IZR_INZ n) at 2. apply apx_ofZ; [lia| |lra|].
          * rewrite Z.abs_eq, <- INR_IZR_INZ by lia. apply Rle_refl.
          * eapply Rle_trans; [exact n18|apply pow2_le; lia].
        + apply (few_le _ _ fw). lia.
        + apply Rle_trans with (2 ^ 18 * (2 ^ 300 * 2 ^ 300)); [|rewrite <- !pow_add; apply pow2_le; lia].
          apply Rmult_le_compat; try lra; [|apply Rmult_le_compat; lra]. pose proof (bpow_gt_0 radix2 (-900)). lra.
        + apply lowM_mul; auto. right. exact PP. }
    exists u_x, u_y, (fun q => result_of (rbind (mean_product E (tab2 n n (fun i j => u_x (nth i q 0%nat) (nth j q 0%nat))) (tab2 n n u_y))
        (fun w => Ok (b64_mul (b64_ofZ (Z.of_nat n)) w)))).
    split; [exact Ux|]. split; [exact Uy|]. split; intros q Hq; destruct (Q q Hq) as (w & -> & W); cbn [rbind result_of]; [reflexivity|].
    destruct W as [(F & Er & _) _]. split; [exact F|]. eapply Rle_trans; [exact Er|]. apply gam_test.
  Qed.

  Lemma identity_stat : exact_stat (seq 0 n) = INR n * dcov2 n a b.
  Proof.
    unfold exact_stat. f_equal. apply dcov2_ext; [|intros; reflexivity]. intros i j Hi Hj. unfold relabel. rewrite !seq_nth by auto. reflexivity.
  Qed.
End DcovTest.

(** The statistic of exact arithmetic (C30): n times the squared distance covariance of the samples. *)
Definition dcov_statistic (n : nat) (x y : array R) : R := INR n * dcov2 n (distances 1 x) (distances 1 y).

Lemma permuted_exact n x y q : wf x -> shape0 x = n -> is_perm n q ->
  dcov_statistic n (permute_sample q x) y = INR n * dcov2 n (relabel (fun i => nth i q 0%nat) (distances 1 x)) (distances 1 y).
Proof.
  intros Wx Lx Hq. unfold dcov_statistic. f_equal. apply dcov2_ext; [|intros; reflexivity]. intros i j Hi Hj.
  apply (reordered_distances (fun i => nth i q 0%nat)); rewrite ?Lx; auto. apply permute_reordered; auto. rewrite Lx. auto.
Qed.

Lemma count_same {A} (f g : A -> bool) l : (forall u, In u l -> f u = g u) -> length (filter f l) = length (filter g l).
Proof.
  intros H. f_equal. induction l as [|u l IH]; cbn; auto. rewrite (H u) by (left; auto). rewrite IH; auto. intros. apply H. right. auto.
Qed.

(** The test succeeds, its statistic is finite and close to the one of exact arithmetic; when the statistic of every drawn
    permutation differs from the observed one by more than twice the error (or the permutation is the identity), the p-value is the
    correctly rounded p-value of exact arithmetic. *)
Theorem C61_dcov_test {S} lib E (G : Rng S) n x y Dx Dy b rs : valid_fenv lib E -> permuting G -> double_pair n x y -> spread n x -> spread n y ->
  (Z.of_nat n <= 2 ^ 18)%Z -> (Z.of_nat (ncols x) <= 2 ^ 30)%Z -> (Z.of_nat (ncols y) <= 2 ^ 30)%Z ->
  / 2 ^ 100 <= Dx <= 2 ^ 200 -> / 2 ^ 100 <= Dy <= 2 ^ 200 ->
  (forall i j, (i < n)%nat -> (j < n)%nat -> distances 1 (freals x) i j <= Dx) ->
  (forall i j, (i < n)%nat -> (j < n)%nat -> distances 1 (freals y) i j <= Dy) ->
  (Z.of_nat b + 1 <= 2 ^ 53)%Z ->
  let d := draw_permutations G b n (random_state_init G rs) in
  let observed := dcov_statistic n (freals x) (freals y) in
  let resampled q := dcov_statistic n (permute_sample q (freals x)) (freals y) in
  let err := test_error n (ncols x) (ncols y) Dx Dy in
  exists t, outcome (distance_covariance_test E G x y (Z.of_nat b) (b64_ofZ 1) rs) = Ok (t, snd d) /\
    is_finite (statistic t) = true /\ Rabs (B2R (statistic t) - observed) <= err /\
    ((forall q, In q (fst d) -> q = seq 0 n \/ 2 * err < Rabs (resampled q - observed)) ->
      is_finite (pvalue t) = true /\ B2R (pvalue t) = b64_round (p_value observed (map resampled (fst d)))).
Proof.
  intros HE HG Hp Sx Sy Hn' Cx Cy BDx BDy HDx HDy Hb d observed resampled err. pose proof (vf_num _ _ HE) as EN.
  destruct (x_facts n x y Hp) as (Wx & Wy & Lx & Ly & Wfx & _ & Lfx & _).
  destruct (test_statistics lib E HE n x y Hp Sx Sy Hn' Cx Cy Dx Dy BDx BDy HDx HDy) as (u_x & u_y & v & Ux & Uy & V & A). fold err in A.
  assert (Hid : is_perm n (seq 0 n)) by (unfold is_perm; auto).
  assert (Hd : forall q, In q (fst d) -> is_perm n q) by (intros; eapply draw_perm; eauto).
  assert (Hl : length (fst d) = b) by apply draw_length.
  set (st := v (seq 0 n)).
  set (k := length (filter (fun q => Bltb st (v q)) (fst d))).
  assert (Hk : (k <= b)%nat).
  { rewrite <- Hl. unfold k. generalize (fst d). clear. intros l. induction l as [|u l IH]; cbn [filter length]; [lia|destruct (Bltb st (v u)); cbn [length]; lia]. }
  set (p := b64_div (b64_add (b64_ofZ (Z.of_nat k)) (b64_ofZ 1)) (b64_ofZ (Z.of_nat b + 1))).
  exists (mkTest p st). split; [|cbn [statistic pvalue]; split; [apply A; auto|split]].
  - unfold distance_covariance_test. rewrite outcome_bind. cbn [outcome lift snd]. unfold check_same_n_elements. rewrite Lx, Ly, Nat.eqb_refl.
    rewrite outcome_bind, Ux, outcome_bind, Uy. cbn [outcome lift snd]. rewrite tab2_length, EN.
    unfold permutation_test_with_sym_matrix. rewrite Nat2Z.id, tab2_length. cbn [nmul nofZ B64Num].
    assert (rbind (mean_product E (tab2 n n u_x) (tab2 n n u_y)) (fun w => Ok (b64_mul (b64_ofZ (Z.of_nat n)) w)) = Ok st) as ->.
    { unfold st. rewrite <- V by auto. f_equal. f_equal. apply tab2_ext. intros i j Hi Hj. rewrite !seq_nth by auto. reflexivity. }
    cbn [rbind]. change (random_state_init G (RState (random_state_init G rs))) with (random_state_init G rs). fold d.
    rewrite (surjective_pairing d) at 1. 
    rewrite (mapM_ok _ v) by (intros q Hq; rewrite permuted_tab by auto; apply V; auto). cbn [rbind].
    unfold permutation_pvalue. destruct (Z.eqb_spec (Z.of_nat b + 1) 0); [lia|]. cbn [rbind nltb ndiv nadd nofZ nunit B64Num].
    rewrite filter_map_length. reflexivity.
  - unfold observed, dcov_statistic. rewrite <- (identity_stat n x y). apply A. auto.
  - intros Hgap.
    assert (Hq0 : observed = exact_stat n x y (seq 0 n)) by (unfold observed, dcov_statistic; rewrite (identity_stat n x y); reflexivity).
    assert (Hc : k = length (filter (fun u => if Rlt_dec observed u then true else false) (map resampled (fst d)))).
    { rewrite filter_map_length. unfold k. apply count_same. intros q Hq. destruct (A q (Hd q Hq)) as [Fq Aq]. destruct (A _ Hid) as [F0 A0]. fold st in F0, A0.
      rewrite Bltb_correct by auto. assert (Hr : resampled q = exact_stat n x y q) by (unfold resampled; rewrite permuted_exact by auto; reflexivity).
      rewrite <- Hq0 in A0. rewrite <- Hr in Aq. apply Rabs_le_inv in Aq, A0.
      destruct (Hgap q Hq) as [->|Hg].
      - assert (resampled (seq 0 n) = observed) as -> by congruence. fold st. destruct (Rlt_dec observed observed); [lra|]. apply Rlt_bool_false. lra.
      - destruct (Rlt_dec observed (resampled q)) as [Hlt|Hge].
        + rewrite Rabs_pos_eq in Hg by lra. apply Rlt_bool_true. lra.
        + rewrite Rabs_left1 in Hg by lra. apply Rlt_bool_false. lra. }
    destruct (quotient (b64_add (b64_ofZ (Z.of_nat k)) (b64_ofZ 1)) (b64_ofZ (Z.of_nat b + 1)) (Z.of_nat k + 1) (Z.of_nat b + 1)) as [F Q].
    + eapply rep_weaken; [apply (rep_add (Z.abs (Z.of_nat k)) (Z.abs 1)); [apply rep_ofZ; lia|apply rep_ofZ; lia|lia]|lia].
    + eapply rep_weaken; [apply rep_ofZ; lia|lia].
    + lia.
    + split; [exact F|]. unfold p. rewrite Q. f_equal. unfold p_value, ratio. rewrite <- Hc, map_length, Hl.
      rewrite !plus_IZR, <- !INR_IZR_INZ. f_equal; ring.
Qed.

(** With ties the p-value of double precision can be another one: y is equally spaced, so reversing x gives the same statistic; the
    exact p-value is 1/2 and the computed one is 1. *)
Definition xp : array b64 := ints [2; 3; 5; 7; 11]%Z.
Definition yp : array b64 := ints [1; 2; 3; 4; 5]%Z.
Definition sf_pvalue {S} (r : res (HypothesisTest b64 * S)) : res SpecFloat.spec_float := rbind r (fun t => Ok (B2SF (pvalue (fst t)))).

Lemma xp_yp : double_pair 5 xp yp.
Proof. apply ints_pair; try reflexivity; [lia| |]; repeat (constructor; [lia|]); constructor. Qed.

Theorem C61_ties_refuted : exists E (G : Rng unit) x y t, valid_fenv plain E /\ permuting G /\ double_pair 5 x y /\ spread 5 x /\ spread 5 y /\
  outcome (distance_covariance_test E G x y 1 (b64_ofZ 1) (RSeed 0)) = Ok (t, tt) /\ is_finite (pvalue t) = true /\ B2R (pvalue t) = 1 /\
  p_value (dcov_statistic 5 (freals x) (freals y))
    (map (fun q => dcov_statistic 5 (permute_sample q (freals x)) (freals y)) (fst (draw_permutations G 1 5 (random_state_init G (RSeed 0))))) = 1 / 2.
Proof.
  assert (V : sf_pvalue (outcome (distance_covariance_test env_F reversing xp yp 1 (b64_ofZ 1) (RSeed 0))) = Ok (SpecFloat.S754_finite false 4503599627370496 (-52))) by (vm_compute; reflexivity).
  destruct (outcome (distance_covariance_test env_F reversing xp yp 1 (b64_ofZ 1) (RSeed 0))) as [[t []]|] eqn:H; [|discriminate]. cbn in V. injection V as V.
  exists env_F, reversing, xp, yp, t. split; [exact env_F_valid|]. split; [exact reversing_permuting|]. split; [exact xp_yp|].
  assert (Fx : freals xp = mkArr Numpy F64 (Vec (map IZR [2; 3; 5; 7; 11]%Z))) by (apply ints_freals; repeat constructor; cbn; lia).
  assert (Fy : freals yp = mkArr Numpy F64 (Vec (map IZR [1; 2; 3; 4; 5]%Z))) by (apply ints_freals; repeat constructor; cbn; lia).
  split; [|split; [|split; [exact H|split; [|split]]]].
  - apply int_spread. intros i k Hi Hk. cbn in Hk. rewrite Fx. destruct i as [|[|[|[|[|i]]]]]; try lia; cbn; eexists; (split; [reflexivity|lia]).
  - apply int_spread. intros i k Hi Hk. cbn in Hk. rewrite Fy. destruct i as [|[|[|[|[|i]]]]]; try lia; cbn; eexists; (split; [reflexivity|lia]).
  - rewrite <- is_finite_SF_B2SF, V. reflexivity.
  - rewrite (B2SF_real _ _ _ _ V). unfold F2R. cbn [Fnum Fexp cond_Zopp]. change (bpow radix2 (-52)) with (/ 4503599627370496). lra.
  - cbn [draw_permutations reversing rng_permutation fst map random_state_init rng_seed].
    set (q := rev (seq 0 5)). assert (Hq : is_perm 5 q) by (apply reversing_permuting with (s := tt)).
    assert (Wx : wf (freals xp)) by (rewrite Fx; exact I). assert (Lx : shape0 (freals xp) = 5%nat) by (rewrite Fx; reflexivity).
    rewrite (permuted_exact 5 (freals xp) (freals yp) q Wx Lx Hq).
    assert (Hs : dcov2 5 (relabel (fun i => nth i q 0%nat) (distances 1 (freals xp))) (distances 1 (freals yp)) = dcov2 5 (distances 1 (freals xp)) (distances 1 (freals yp))).
    { rewrite <- (dcov2_relabel 5 (fun i => nth i q 0%nat) (is_perm_on 5 q Hq) (distances 1 (freals xp)) (distances 1 (freals yp))).
      apply dcov2_ext; [reflexivity|]. intros i j Hi Hj. unfold relabel. rewrite !Fy, !distances_1 by reflexivity. unfold obs, q.
      destruct i as [|[|[|[|[|i]]]]]; try lia; destruct j as [|[|[|[|[|j]]]]]; try lia; cbn; (rewrite ?Rminus_eq_0; reflexivity) || (f_equal; lra) || (unfold Rabs; repeat destruct Rcase_abs; lra). }
    rewrite Hs. unfold p_value. fold (dcov_statistic 5 (freals xp) (freals yp)). cbn [filter length]. destruct (Rlt_dec _ _); [lra|]. cbn. lra.
Qed.

(** ** Cases that meet the hypotheses: (3, 1, 2, 1, 5) and (0, 2, 2, 7, 1); reversing the first gives a larger statistic. *)
Lemma xi_yi_statistics : dcov2 5 dx dy = 128 / 125 /\ dcov2 5 (relabel (fun i => nth i (rev (seq 0 5)) 0%nat) dx) dy = 152 / 125.
Proof.
  assert (forall a, rsum2 5 5 a = a 0%nat 0%nat + a 0%nat 1%nat + a 0%nat 2%nat + a 0%nat 3%nat + a 0%nat 4%nat + a 1%nat 0%nat + a 1%nat 1%nat + a 1%nat 2%nat + a 1%nat 3%nat + a 1%nat 4%nat + a 2%nat 0%nat + a 2%nat 1%nat + a 2%nat 2%nat + a 2%nat 3%nat + a 2%nat 4%nat + a 3%nat 0%nat + a 3%nat 1%nat + a 3%nat 2%nat + a 3%nat 3%nat + a 3%nat 4%nat + a 4%nat 0%nat + a 4%nat 1%nat + a 4%nat 2%nat + a 4%nat 3%nat + a 4%nat 4%nat) as H2
    by (intros; unfold rsum2; cbn [rsum]; ring).
  assert (forall f : nat -> R, rsum 5 f = f 0%nat + f 1%nat + f 2%nat + f 3%nat + f 4%nat) as H1 by (intros; cbn; ring).
  unfold dcov2. rewrite !H2. unfold dcenter, mean, relabel. rewrite !H1. unfold dx, dy. cbn. split; lra.
Qed.

Example C61_meets : exists t, outcome (distance_covariance_test env_F reversing xi yi 1 (b64_ofZ 1) (RSeed 0)) = Ok (t, tt) /\
  is_finite (statistic t) = true /\ Rabs (B2R (statistic t) - 128 / 25) <= test_error 5 1 1 4 7 /\ test_error 5 1 1 4 7 <= / 10 ^ 10 /\
  B2R (pvalue t) = 1.
Proof.
  destruct xi_yi_statistics as [S1 S2].
  assert (X : forall i j, (i < 5)%nat -> (j < 5)%nat -> distances 1 (freals xi) i j = dx i j) by (intros; rewrite xi_xs; auto using xs_dist).
  assert (Y : forall i j, (i < 5)%nat -> (j < 5)%nat -> distances 1 (freals yi) i j = dy i j) by (intros; rewrite yi_ys; auto using ys_dist).
  assert (P : / 2 ^ 100 <= 1) by (rewrite <- Rinv_1; apply Rinv_le_contravar; [lra|apply pow_R1_Rle; lra]).
  assert (P2 : 8 <= 2 ^ 200) by (replace 8 with (2 ^ 3) by ring; apply Rle_pow; [lra|lia]).
  assert (TE : test_error 5 1 1 4 7 <= / 10 ^ 10) by (unfold test_error; cbn [INR Nat.add]; lra).
  assert (O : dcov_statistic 5 (freals xi) (freals yi) = 128 / 25).
  { unfold dcov_statistic. rewrite (dcov2_ext 5 _ _ dx dy) by auto. rewrite S1. cbn [INR]. lra. }
  set (q := rev (seq 0 5)). assert (Hq : is_perm 5 q) by (apply reversing_permuting with (s := tt)).
  assert (Q : dcov_statistic 5 (permute_sample q (freals xi)) (freals yi) = 152 / 25).
  { rewrite permuted_exact by (auto; rewrite xi_xs; exact I).
    rewrite (dcov2_ext 5 _ _ (relabel (fun i => nth i q 0%nat) dx) dy); auto; [unfold q; rewrite S2; cbn [INR]; lra|].
    intros i j Hi Hj. unfold relabel. apply X; (apply (is_perm_In 5 q); auto; apply nth_In; auto). }
  assert (Bx : forall i j, (i < 5)%nat -> (j < 5)%nat -> distances 1 (freals xi) i j <= 4) by (intros; rewrite X by auto; apply dx_4; auto).
  assert (By : forall i j, (i < 5)%nat -> (j < 5)%nat -> distances 1 (freals yi) i j <= 7) by (intros; rewrite Y by auto; apply dy_7; auto).
  destruct (C61_dcov_test plain env_F reversing 5 xi yi 4 7 1 (RSeed 0) env_F_valid reversing_permuting xi_yi xi_spread yi_spread
    ltac:(lia) ltac:(change (ncols xi) with 1%nat; lia) ltac:(change (ncols yi) with 1%nat; lia) ltac:(lra) ltac:(lra) Bx By ltac:(lia)) as (t & T1 & T2 & T3 & T4).
  - exists t. split; [exact T1|]. split; [exact T2|]. rewrite O in T3. split; [exact T3|]. split; [exact TE|].
    change (fst (draw_permutations reversing 1 5 (random_state_init reversing (RSeed 0)))) with [q] in T4. change (ncols xi) with 1%nat in T4. change (ncols yi) with 1%nat in T4.
    destruct T4 as [_ ->].
    + intros q' [<-|[]]. right. rewrite O, Q, Rabs_pos_eq; lra.
    + cbn [map]. rewrite O, Q. unfold p_value. cbn [filter length]. destruct (Rlt_dec _ _); [|lra]. cbn [length INR].
      replace ((1 + 1) / (1 + 1)) with (IZR 1) by lra. apply b64_round_Z. lia.
Qed.

(** At the level 0.05 = 1 / 20 this test does not reject. *)
Example C60_meets : exists t, run_test env_F reversing (TDcov xi yi (b64_ofZ 1)) (Z.of_nat 1) (RSeed 0) = Ok (t, tt) /\
  Bleb (pvalue t) (b64_div (b64_ofZ 1) (b64_ofZ 20)) = false.
Proof.
  destruct C61_meets as (t & T & _). exists t. split; [exact T|].
  destruct (C60_decision plain env_F (TDcov xi yi (b64_ofZ 1)) env_F_valid) as (f & Hf).
  destruct (Hf unit reversing 1%nat (RSeed 0) t tt 1%Z 20%Z ltac:(lia) ltac:(cbn; lia) T) as (_ & [H _] & _).
  destruct (Bleb _ _); [|reflexivity]. exfalso. specialize (H eq_refl). lia.
Qed.
