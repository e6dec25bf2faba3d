(** Properties of the distance covariance and correlation functions: C01, C02, C04-C16, C41.

    Reading guide: [call f E x y e m cm] is the outcome of the public function [f] on samples
    [x], [y] with exponent [e], method [m] and compile mode [cm] (Api.v); [accepts] is the
    documented table of supported calls (Samples.v); [distances e x] is the distance matrix and
    [dcov2], [dcor2], [udcov2], [udcor2] the textbook statistics (Spec.v). *)
From Coq Require Import Reals Lra Lia List Arith Bool ZArith.
From Verif Require Import Num Numpy MUtils MDistances MInternals MDcor Sums Spec Centering Tab Samples Api RefDist RefDcor
  Psd PowerKernel Nonneg Empirical EnergyMath Invariance SpecFacts RefApi Witness.
Import ListNotations.
Local Open Scope R_scope.

(** ** C01, C02: textbook values, for every method *)

Theorem C01_dcov_sqr_value E x y n e m cm : valid_env E -> paired n x y -> 0 < e -> accepts m cm x y e ->
  outcome (distance_covariance_sqr E x y e (MethodEnum m) cm)
  = Ok (/ INR n ^ 2 * rsum2 n n (fun i j => dcenter n (distances e x) i j * dcenter n (distances e y) i j)).
Proof. intros HE Hp He Ha. exact (call_ok DcovSqr E x y n e m cm HE Hp (proj2 (proj2 (proj2 (proj2 Hp)))) He Ha). Qed.

Theorem C01_methods_agree f E x y n e m cm m' cm' : valid_env E -> paired n x y -> (min_size f <= n)%nat -> 0 < e ->
  accepts m cm x y e -> accepts m' cm' x y e ->
  call f E x y e m cm = call f E x y e m' cm'.
Proof. intros. rewrite !(call_ok f E x y n) by auto. reflexivity. Qed.

Example C01_meets : call DcovSqr (env_R true) xs ys 1 MAvl CCompileCpu = call DcovSqr (env_R true) xs ys 1 MNaive CNoCompile
  /\ call DcovSqr (env_R true) xs ys 1 MMergesort CCompileCpu = call DcovSqr (env_R true) xs ys 1 MAuto CAuto.
Proof.
  split; apply (C01_methods_agree DcovSqr _ xs ys 5); auto using env_R_valid, xs_ys, xs_ys_avl_cpu, naive_accepts,
    xs_ys_mergesort, auto_accepts; cbn; lra || lia.
Qed.

Theorem C02_u_dcov_sqr_value E x y n e m cm : valid_env E -> paired n x y -> (4 <= n)%nat -> 0 < e ->
  accepts m cm x y e ->
  outcome (u_distance_covariance_sqr E x y e (MethodEnum m) cm)
  = Ok (/ (INR n * (INR n - 3))
        * rsum2 n n (fun i j => ucenter n (distances e x) i j * ucenter n (distances e y) i j)).
Proof. intros HE Hp Hn He Ha. exact (call_ok UDcovSqr E x y n e m cm HE Hp Hn He Ha). Qed.

Example C02_meets : exists v, outcome (u_distance_covariance_sqr (env_R false) xs ys 1 (MethodEnum MAvl) CAuto) = Ok v.
Proof.
  eexists. apply (C02_u_dcov_sqr_value _ xs ys 5); auto using env_R_valid, xs_ys, xs_ys_avl; lra || lia.
Qed.

(** ** C04: AUTO never fails where NAIVE works *)

Theorem C04_auto_total f E x y n e cm cm' : valid_env E -> paired n x y -> (min_size f <= n)%nat -> 0 < e ->
  cm = CAuto \/ cm = CNoCompile -> cm' = CAuto \/ cm' = CNoCompile ->
  call f E x y e MAuto cm = Ok (value f n (distances e x) (distances e y))
  /\ call f E x y e MAuto cm = call f E x y e MNaive cm'.
Proof.
  intros HE Hp Hn He H1 H2. rewrite !(call_ok f E x y n) by (cbn; unfold accepts_naive, not_forced; auto). auto.
Qed.

Example C04_meets : exists v, call DcovSqr (env_R true) xs zs (1 / 2) MAuto CAuto = Ok v.
Proof.
  eexists. apply (C04_auto_total DcovSqr _ xs zs 5 (1 / 2) CAuto CAuto); auto using env_R_valid, xs_zs; cbn; lra || lia.
Qed.

(** ** C05: the statistics bundle *)

Theorem C05_stats_sqr E x y n e m cm : valid_env E -> paired n x y -> 0 < e -> accepts m cm x y e ->
  accepts m cm x x e -> accepts m cm y y e ->
  exists s, outcome (distance_stats_sqr E x y e (MethodEnum m) cm) = Ok s
  /\ outcome (distance_covariance_sqr E x y e (MethodEnum m) cm) = Ok (covariance_xy s)
  /\ outcome (distance_correlation_sqr E x y e (MethodEnum m) cm) = Ok (correlation_xy s)
  /\ outcome (distance_covariance_sqr E x x e (MethodEnum m) cm) = Ok (variance_x s)
  /\ outcome (distance_covariance_sqr E y y e (MethodEnum m) cm) = Ok (variance_y s).
Proof.
  intros HE (Hx & Hy & Hnx & Hny & Hn) He Ha Haxx Hayy. eexists.
  split; [apply (stats_sqr_ok E HE x y n); auto|]. cbn.
  repeat split; [apply dcov_sqr_ok|apply dcor_sqr_ok|apply dcov_sqr_ok|apply dcov_sqr_ok]; auto.
Qed.

Theorem C05_u_stats_sqr E x y n e m cm : valid_env E -> paired n x y -> (4 <= n)%nat -> 0 < e -> accepts m cm x y e ->
  accepts m cm x x e -> accepts m cm y y e ->
  exists s, outcome (u_distance_stats_sqr E x y e (MethodEnum m) cm) = Ok s
  /\ outcome (u_distance_covariance_sqr E x y e (MethodEnum m) cm) = Ok (covariance_xy s)
  /\ outcome (u_distance_correlation_sqr E x y e (MethodEnum m) cm) = Ok (correlation_xy s)
  /\ outcome (u_distance_covariance_sqr E x x e (MethodEnum m) cm) = Ok (variance_x s)
  /\ outcome (u_distance_covariance_sqr E y y e (MethodEnum m) cm) = Ok (variance_y s).
Proof.
  intros HE (Hx & Hy & Hnx & Hny & Hn) Hn4 He Ha Haxx Hayy. eexists.
  split; [apply (u_stats_sqr_ok E HE x y n); auto|]. cbn.
  repeat split; [apply u_dcov_sqr_ok|apply u_dcor_sqr_ok|apply u_dcov_sqr_ok|apply u_dcov_sqr_ok]; auto.
Qed.

Theorem C05_stats E x y n e m cm : valid_env E -> paired n x y -> 0 < e -> accepts m cm x y e ->
  accepts m cm x x e -> accepts m cm y y e ->
  exists s, outcome (distance_stats E x y e (MethodEnum m) cm) = Ok s
  /\ outcome (distance_covariance E x y e (MethodEnum m) cm) = Ok (covariance_xy s)
  /\ outcome (distance_correlation E x y e (MethodEnum m) cm) = Ok (correlation_xy s)
  /\ outcome (distance_covariance E x x e (MethodEnum m) cm) = Ok (variance_x s)
  /\ outcome (distance_covariance E y y e (MethodEnum m) cm) = Ok (variance_y s).
Proof.
  intros HE (Hx & Hy & Hnx & Hny & Hn) He Ha Haxx Hayy. eexists.
  split; [apply (stats_ok E HE x y n); auto|]. cbn.
  repeat split; [apply dcov_ok|apply dcor_ok|apply dcov_ok|apply dcov_ok]; auto.
Qed.

Example C05_meets : exists s, outcome (distance_stats_sqr (env_R true) xs ys 1 (MethodEnum MAvl) CCompileCpu) = Ok s
  /\ outcome (distance_covariance_sqr (env_R true) xs xs 1 (MethodEnum MAvl) CCompileCpu) = Ok (variance_x s).
Proof.
  destruct (C05_stats_sqr (env_R true) xs ys 5 1 MAvl CCompileCpu) as (s & H1 & _ & _ & H2 & _); eauto;
    auto using env_R_valid, xs_ys, xs_ys_avl_cpu; try lra;
    unfold accepts, accepts_avl, univariate, not_forced, forced_f64, is_float64, shape0; cbn; repeat split; auto.
Qed.

(** ** C06: never negative *)

Theorem C06_dcov_nonneg E x y n e m cm : valid_env E -> paired n x y -> 0 < e <= 2 -> accepts m cm x y e ->
  exists v s, outcome (distance_covariance_sqr E x y e (MethodEnum m) cm) = Ok v /\ 0 <= v
  /\ outcome (distance_covariance E x y e (MethodEnum m) cm) = Ok s /\ 0 <= s /\ s * s = v.
Proof.
  intros HE Hp He Ha. pose proof Hp as (Hx & Hy & Hnx & Hny & Hn).
  assert (H : 0 <= dcov2 n (distances e x) (distances e y)) by (apply dcov2_nonneg; auto).
  eexists _, _. split; [apply (dcov_sqr_ok E HE x y n); auto; lra|]. split; [exact H|].
  split; [apply (dcov_ok E HE x y n); auto; lra|]. split; [apply sqrt_pos|]. apply sqrt_sqrt; auto.
Qed.

Example C06_meets : exists v, outcome (distance_covariance_sqr (env_R true) xs zs (3 / 2) (MethodEnum MNaive) CNoCompile) = Ok v /\ 0 <= v.
Proof.
  destruct (C06_dcov_nonneg (env_R true) xs zs 5 (3 / 2) MNaive CNoCompile) as (v & _ & H & H' & _); eauto;
    auto using env_R_valid, xs_zs, naive_accepts; lra.
Qed.

(** ** C07: distance correlation in [0,1] *)

Theorem C07_dcor_range E x y n e m cm : valid_env E -> paired n x y -> 0 < e <= 2 -> accepts m cm x y e ->
  exists v s, outcome (distance_correlation_sqr E x y e (MethodEnum m) cm) = Ok v /\ 0 <= v <= 1
  /\ outcome (distance_correlation E x y e (MethodEnum m) cm) = Ok s /\ 0 <= s <= 1 /\ s * s = v.
Proof.
  intros HE Hp He Ha. pose proof Hp as (Hx & Hy & Hnx & Hny & Hn).
  assert (H : 0 <= dcor2 n (distances e x) (distances e y) <= 1) by (apply dcor2_range; auto).
  eexists _, _. split; [apply (dcor_sqr_ok E HE x y n); auto; lra|]. split; [exact H|].
  split; [apply (dcor_ok E HE x y n); auto; lra|]. split; [|apply sqrt_sqrt; lra].
  split; [apply sqrt_pos|]. rewrite <- sqrt_1. apply sqrt_le_1_alt. lra.
Qed.

Example C07_meets : exists v, outcome (distance_correlation_sqr (env_R false) xs ys 1 (MethodEnum MAvl) CAuto) = Ok v /\ 0 <= v <= 1.
Proof.
  destruct (C07_dcor_range (env_R false) xs ys 5 1 MAvl CAuto) as (v & _ & H & H' & _); eauto;
    auto using env_R_valid, xs_ys, xs_ys_avl; lra.
Qed.

(** ** C08: bias-corrected distance correlation in [-1,1] *)

Theorem C08_u_dcor_range E x y n e m cm : valid_env E -> paired n x y -> (4 <= n)%nat -> 0 < e -> accepts m cm x y e ->
  exists v, outcome (u_distance_correlation_sqr E x y e (MethodEnum m) cm) = Ok v /\ -1 <= v <= 1.
Proof.
  intros HE (Hx & Hy & Hnx & Hny & Hn) Hn4 He Ha.
  eexists. split; [apply (u_dcor_sqr_ok E HE x y n); auto; lra|]. apply udcor2_range.
Qed.

Theorem C08_u_dvar_nonneg E x n e m cm : valid_env E -> paired n x x -> (4 <= n)%nat -> 0 < e -> accepts m cm x x e ->
  exists v, outcome (u_distance_covariance_sqr E x x e (MethodEnum m) cm) = Ok v /\ 0 <= v.
Proof.
  intros HE (Hx & Hy & Hnx & Hny & Hn) Hn4 He Ha.
  eexists. split; [apply (u_dcov_sqr_ok E HE x x n); auto; lra|]. apply udvar_nonneg; auto.
Qed.

Example C08_meets : exists v, outcome (u_distance_correlation_sqr (env_R false) xs ys 1 (MethodEnum MAvl) CAuto) = Ok v /\ -1 <= v <= 1.
Proof.
  apply (C08_u_dcor_range _ xs ys 5); auto using env_R_valid, xs_ys, xs_ys_avl; lra || lia.
Qed.

(** ** C09: symmetry *)

Theorem C09_symmetric f E x y n e m cm : valid_env E -> paired n x y -> (min_size f <= n)%nat -> 0 < e ->
  accepts m cm x y e -> accepts m cm y x e ->
  call f E x y e m cm = call f E y x e m cm.
Proof.
  intros. rewrite !(call_ok f E _ _ n) by auto using paired_sym. rewrite value_sym. reflexivity.
Qed.

Example C09_meets : call UDcorSqr (env_R true) xs ys 1 MAvl CAuto = call UDcorSqr (env_R true) ys xs 1 MAvl CAuto.
Proof.
  apply (C09_symmetric _ _ _ _ 5); auto using env_R_valid, xs_ys, xs_ys_avl; try (cbn; lia); lra.
Qed.

(** ** C10: order of the observations *)

Theorem C10_reordered f E q x y x' y' n e m cm : valid_env E -> paired n x y -> (min_size f <= n)%nat -> 0 < e ->
  accepts m cm x y e -> perm_on n q -> reordered q x x' -> reordered q y y' ->
  call f E x' y' e m cm = call f E x y e m cm.
Proof.
  intros HE Hp Hn He Ha Hq Hx Hy.
  rewrite (call_ok f E x y n) by auto.
  rewrite (call_ok f E x' y' n); auto.
  - f_equal. pose proof Hp as (_ & _ & Nx & Ny & _).
    rewrite <- (value_relabel f n q (distances e x) (distances e y)) by auto.
    apply value_ext; intros; apply reordered_distances; auto; lia.
  - apply (paired_form n x y); auto; [apply Hx|apply Hy].
  - apply (accepts_form m cm x y); auto; [apply Hx|apply Hy].
Qed.

Definition rev5 (i : nat) : nat := (4 - i)%nat.
Example C10_meets : perm_on 5 rev5
  /\ reordered rev5 xs (mkArr Numpy F64 (Vec [5; 1; 2; 1; 3]))
  /\ reordered rev5 ys (mkArr Numpy F64 (Vec [1; 7; 2; 2; 0])).
Proof.
  split; [unfold perm_on, rev5; split; intros; lia|].
  unfold reordered, same_form; cbn. split; repeat split; auto; intros i k Hi Hk;
    do 5 (destruct i; [reflexivity|]); lia.
Qed.

(** ** C11: translations and isometries *)

Theorem C11_isometric f E x y x' y' n e m cm m' cm' : valid_env E -> paired n x y -> paired n x' y' ->
  (min_size f <= n)%nat -> 0 < e -> accepts m cm x y e -> accepts m' cm' x' y' e ->
  isometric x x' -> isometric y y' ->
  call f E x' y' e m' cm' = call f E x y e m cm.
Proof.
  intros HE Hp Hp' Hn He Ha Ha' Hx Hy.
  rewrite (call_ok f E x y n), (call_ok f E x' y' n) by auto. f_equal.
  pose proof Hp as (_ & _ & Nx & Ny & _).
  apply value_ext; intros; apply isometric_distances; auto; lia.
Qed.

Theorem C11_translated f E c d x y x' y' n e m cm : valid_env E -> paired n x y -> (min_size f <= n)%nat -> 0 < e ->
  accepts m cm x y e -> translated c x x' -> translated d y y' ->
  call f E x' y' e m cm = call f E x y e m cm.
Proof.
  intros HE Hp Hn He Ha Hx Hy. apply (C11_isometric f E x y x' y' n); eauto using translated_isometric.
  - apply (paired_form n x y); auto; [apply Hx|apply Hy].
  - apply (accepts_form m cm x y); auto; [apply Hx|apply Hy].
Qed.

Theorem C11_rotated f E Q R' x y x' y' n e m cm : valid_env E -> paired n x y -> (min_size f <= n)%nat -> 0 < e ->
  accepts m cm x y e -> rotated Q x x' -> rotated R' y y' ->
  call f E x' y' e m cm = call f E x y e m cm.
Proof.
  intros HE Hp Hn He Ha Hx Hy. apply (C11_isometric f E x y x' y' n); eauto using rotated_isometric.
  - apply (paired_form n x y); auto; [apply Hx|apply Hy].
  - apply (accepts_form m cm x y); auto; [apply Hx|apply Hy].
Qed.

Definition swap2 (k l : nat) : R := if Nat.eqb (k + l) 1 then 1 else 0.
Example C11_meets :
  rotated swap2 zs (mkArr Numpy F64 (Mat 2 [[0; 1]; [2; 0]; [4; 4]; [1; 1]; [0; 1]]))
  /\ translated (fun _ => 10) xs (mkArr Numpy F64 (Vec [13; 11; 12; 11; 15])).
Proof.
  unfold rotated, orthogonal, translated, same_form, swap2, obs; cbn. split.
  - split.
    + intros k l Hk Hl. destruct k as [|[|k]]; try lia; destruct l as [|[|l]]; try lia; cbn; lra.
    + split; [repeat split; auto; repeat constructor|]. intros i k Hi Hk.
      do 5 (destruct i; [destruct k as [|[|k]]; try lia; cbn; lra|]). lia.
  - repeat split; auto. intros i k Hi Hk. do 5 (destruct i; [cbn; lra|]). lia.
Qed.

(** ** C12: scaling *)

Theorem C12_scaled_dcov E a b x y x' y' n e m cm : valid_env E -> paired n x y -> 0 < e ->
  accepts m cm x y e -> scaled a x x' -> scaled b y y' ->
  exists v, outcome (distance_covariance_sqr E x y e (MethodEnum m) cm) = Ok v
  /\ outcome (distance_covariance_sqr E x' y' e (MethodEnum m) cm) = Ok (rpow (Rabs a) e * rpow (Rabs b) e * v).
Proof.
  intros HE Hp He Ha Hx Hy. pose proof Hp as (_ & _ & Nx & Ny & Hn). eexists.
  split; [apply (call_ok DcovSqr E x y n); auto|].
  etransitivity.
  - apply (call_ok DcovSqr E x' y' n); auto.
    + apply (paired_form n x y); auto; [apply Hx|apply Hy].
    + apply (accepts_form m cm x y); auto; [apply Hx|apply Hy].
  - f_equal. cbn [value]. rewrite <- dcov2_scal.
    apply dcov2_ext; intros; apply scaled_distances; auto; lia.
Qed.

Theorem C12_scaled_u_dcov E a b x y x' y' n e m cm : valid_env E -> paired n x y -> (4 <= n)%nat -> 0 < e ->
  accepts m cm x y e -> scaled a x x' -> scaled b y y' ->
  exists v, outcome (u_distance_covariance_sqr E x y e (MethodEnum m) cm) = Ok v
  /\ outcome (u_distance_covariance_sqr E x' y' e (MethodEnum m) cm) = Ok (rpow (Rabs a) e * rpow (Rabs b) e * v).
Proof.
  intros HE Hp Hn4 He Ha Hx Hy. pose proof Hp as (_ & _ & Nx & Ny & Hn). eexists.
  split; [apply (call_ok UDcovSqr E x y n); auto|].
  etransitivity.
  - apply (call_ok UDcovSqr E x' y' n); auto.
    + apply (paired_form n x y); auto; [apply Hx|apply Hy].
    + apply (accepts_form m cm x y); auto; [apply Hx|apply Hy].
  - f_equal. cbn [value]. rewrite <- udcov2_scal.
    apply udcov2_ext; intros; apply scaled_distances; auto; lia.
Qed.

Theorem C12_scaled_dcor f E a b x y x' y' n e m cm : valid_env E -> paired n x y -> (min_size f <= n)%nat -> 0 < e ->
  accepts m cm x y e -> a <> 0 -> b <> 0 -> scaled a x x' -> scaled b y y' ->
  f = DcorSqr \/ f = Dcor \/ f = UDcorSqr ->
  call f E x' y' e m cm = call f E x y e m cm.
Proof.
  intros HE Hp Hmin He Ha Ha0 Hb0 Hx Hy Hf. pose proof Hp as (_ & _ & Nx & Ny & Hn).
  rewrite (call_ok f E x y n) by auto. rewrite (call_ok f E x' y' n); auto.
  - f_equal.
    rewrite (value_ext f n _ _ (fun i j => rpow (Rabs a) e * distances e x i j)
                               (fun i j => rpow (Rabs b) e * distances e y i j))
      by (intros; apply scaled_distances; auto; lia).
    assert (0 < rpow (Rabs a) e) by (apply rpow_pos, Rabs_pos_lt; auto).
    assert (0 < rpow (Rabs b) e) by (apply rpow_pos, Rabs_pos_lt; auto).
    destruct Hf as [->|[->| ->]]; cbn [value].
    + apply dcor2_scal; auto.
    + rewrite dcor2_scal; auto.
    + apply udcor2_scal; auto.
  - apply (paired_form n x y); auto; [apply Hx|apply Hy].
  - apply (accepts_form m cm x y); auto; [apply Hx|apply Hy].
Qed.

Example C12_meets : scaled (-2) xs (mkArr Numpy F64 (Vec [-6; -2; -4; -2; -10])).
Proof.
  unfold scaled, same_form, obs; cbn. repeat split; auto. intros i k Hi Hk.
  do 5 (destruct i; [cbn; lra|]). lia.
Qed.

(** ** C13: correlation one *)

Theorem C13_dcor_one_iff E x y n e m cm : valid_env E -> paired n x y -> 0 < e -> accepts m cm x y e ->
  (outcome (distance_correlation_sqr E x y e (MethodEnum m) cm) = Ok 1
   <-> ~ constant x /\ ~ constant y /\ proportional_distances e x y).
Proof.
  intros HE Hp He Ha. pose proof Hp as (Hx & Hy & Nx & Ny & Hn).
  change (outcome _) with (call DcorSqr E x y e m cm).
  rewrite (call_ok DcorSqr E x y n) by auto. cbn [value].
  assert (Hiff : dcor2 n (distances e x) (distances e y) = 1 <->
                 ~ constant x /\ ~ constant y /\ proportional_distances e x y).
  { rewrite dcor2_one_iff by (auto; unfold distances; auto using dmat_symmetric, dmat_hollow).
    unfold proportional, proportional_distances. rewrite Nx.
    assert (HX : dcov2 n (distances e x) (distances e x) = 0 <-> constant x)
      by (unfold distances, constant; rewrite Nx; apply dvar_zero_constant; auto).
    assert (HY : dcov2 n (distances e y) (distances e y) = 0 <-> constant y)
      by (unfold distances, constant; rewrite Ny; apply dvar_zero_constant; auto).
    tauto. }
  rewrite <- Hiff. split; [intros H; congruence|intros ->; reflexivity].
Qed.

Theorem C13_self_one E x n e m cm : valid_env E -> paired n x x -> 0 < e -> accepts m cm x x e -> ~ constant x ->
  outcome (distance_correlation E x x e (MethodEnum m) cm) = Ok 1.
Proof.
  intros HE Hp He Ha Hc. pose proof Hp as (Hx & Hy & Nx & Ny & Hn).
  change (outcome _) with (call Dcor E x x e m cm). rewrite (call_ok Dcor E x x n) by auto. cbn [value].
  assert (H : outcome (distance_correlation_sqr E x x e (MethodEnum m) cm) = Ok 1).
  { apply (C13_dcor_one_iff E x x n); auto. repeat split; auto. exists 1. split; [lra|]. intros. ring. }
  change (outcome _) with (call DcorSqr E x x e m cm) in H. rewrite (call_ok DcorSqr E x x n) in H by auto.
  cbn [value] in H. injection H as ->. rewrite sqrt_1. reflexivity.
Qed.

Example C13_meets : ~ constant xs /\ outcome (distance_correlation (env_R true) xs xs 1 (MethodEnum MAuto) CAuto) = Ok 1.
Proof.
  assert (~ constant xs).
  { intros H. specialize (H 0%nat 1%nat ltac:(cbn; lia) ltac:(cbn; lia) 0%nat ltac:(cbn; lia)). cbn in H. lra. }
  split; auto. apply (C13_self_one _ xs 5); auto using env_R_valid, auto_accepts; [|lra].
  repeat split; cbn; auto with arith.
Qed.

(** ** C14: zero distance variance *)

Theorem C14_dvar_zero_iff E x n e m cm : valid_env E -> paired n x x -> 0 < e -> accepts m cm x x e ->
  (outcome (distance_covariance_sqr E x x e (MethodEnum m) cm) = Ok 0 <-> constant x).
Proof.
  intros HE Hp He Ha. pose proof Hp as (Hx & Hy & Nx & Ny & Hn).
  change (outcome _) with (call DcovSqr E x x e m cm). rewrite (call_ok DcovSqr E x x n) by auto. cbn [value].
  assert (HX : dcov2 n (distances e x) (distances e x) = 0 <-> constant x)
    by (unfold distances, constant; rewrite Nx; apply dvar_zero_constant; auto).
  rewrite <- HX. split; [intros H; congruence|intros ->; reflexivity].
Qed.

Theorem C14_constant_zero f E x y n e m cm : valid_env E -> paired n x y -> 0 < e -> accepts m cm x y e ->
  constant x \/ constant y -> f = DcovSqr \/ f = Dcov \/ f = DcorSqr \/ f = Dcor ->
  call f E x y e m cm = Ok 0.
Proof.
  intros HE Hp He Ha Hc Hf. pose proof Hp as (Hx & Hy & Nx & Ny & Hn).
  assert (Hmin : (min_size f <= n)%nat) by (destruct Hf as [->|[->|[->| ->]]]; auto).
  rewrite (call_ok f E x y n) by auto. f_equal.
  assert (Hz : dcov2 n (distances e x) (distances e y) = 0 /\ dcor2 n (distances e x) (distances e y) = 0).
  { destruct Hc as [Hc|Hc].
    - apply constant_dcov_zero; auto. unfold constant_sample. rewrite <- Nx. exact Hc.
    - rewrite dcov2_sym, dcor2_sym. apply constant_dcov_zero; auto. unfold constant_sample. rewrite <- Ny. exact Hc. }
  destruct Hz as [Hz1 Hz2].
  destruct Hf as [->|[->|[->| ->]]]; cbn [value]; rewrite ?Hz1, ?Hz2, ?sqrt_0; reflexivity.
Qed.

Definition ks : array R := mkArr Numpy F64 (Vec [3; 3; 3; 3; 3]).
Example C14_meets : constant ks /\ call Dcor (env_R true) ks xs 1 MAvl CAuto = Ok 0.
Proof.
  assert (constant ks).
  { intros i j Hi Hj k Hk. cbn in *. do 5 (destruct i; [do 5 (destruct j; [reflexivity|]); lia|]). lia. }
  split; auto. apply (C14_constant_zero _ _ _ _ 5); auto using env_R_valid; try lra.
  - repeat split; cbn; auto with arith.
  - unfold accepts, accepts_avl, univariate, not_forced, shape0; cbn; repeat split; auto.
Qed.

(** ** C15: zero distance covariance and independence *)

Theorem C15_dcov_zero_iff_independent E x y n e m cm : valid_env E -> paired n x y -> 0 < e < 2 -> accepts m cm x y e ->
  (outcome (distance_covariance_sqr E x y e (MethodEnum m) cm) = Ok 0
   <-> empirically_independent n (ncols x) (ncols y) (obs x) (obs y)).
Proof.
  intros HE Hp He Ha. pose proof Hp as (Hx & Hy & Nx & Ny & Hn).
  change (outcome _) with (call DcovSqr E x y e m cm). rewrite (call_ok DcovSqr E x y n) by (auto; lra). cbn [value].
  split; intros H.
  - injection H as H. apply (dcov2_zero_indep n _ _ _ _ e e); auto.
  - f_equal. apply indep_dcov2_zero; auto.
Qed.

(** An independent, non-constant sample: all four combinations once. *)
Definition ix4 : array R := mkArr Numpy F64 (Vec [0; 0; 1; 1]).
Definition iy4 : array R := mkArr Numpy F64 (Vec [0; 1; 0; 1]).
Example C15_meets : outcome (distance_covariance_sqr (env_R true) ix4 iy4 1 (MethodEnum MAvl) CAuto) = Ok 0.
Proof.
  apply (C15_dcov_zero_iff_independent _ _ _ 4); auto using env_R_valid; try lra.
  - repeat split; cbn; auto with arith.
  - unfold accepts, accepts_avl, univariate, not_forced, shape0; cbn; repeat split; auto.
  - intros i j Hi Hj. unfold count, same_pointb, obs, ix4, iy4, ncols; cbn.
    do 4 (destruct i as [|i]; [do 4 (destruct j as [|j]; [cbn;
      repeat match goal with |- context [Req_EM_T ?a ?b] => destruct (Req_EM_T a b); try lra end; cbn; lra|]); lia|]). lia.
Qed.

(** ** C16: exponent 2 *)

(** Sample covariance of the coordinates [0], divided by n. *)
Definition sample_cov (n : nat) (x y : array R) : R :=
  mean n (fun i => (obs x i 0 - mean n (fun j => obs x j 0)) * (obs y i 0 - mean n (fun j => obs y j 0))).

Theorem C16_exponent_2 E x y n m cm : valid_env E -> paired n x y -> accepts m cm x y 2 ->
  univariate x -> univariate y ->
  outcome (distance_covariance_sqr E x y 2 (MethodEnum m) cm) = Ok (4 * sample_cov n x y ^ 2).
Proof.
  intros HE Hp Ha Ux Uy. pose proof Hp as (Hx & Hy & Nx & Ny & Hn).
  change (outcome _) with (call DcovSqr E x y 2 m cm). rewrite (call_ok DcovSqr E x y n) by (auto; lra). cbn [value].
  f_equal. unfold distances. rewrite Ux, Uy. apply dcov2_exponent_2; auto.
Qed.

(** Exponent 2 does not characterise independence: uncorrelated but dependent. *)
Definition ux4 : array R := mkArr Numpy F64 (Vec [-1; 0; 1]).
Definition uy4 : array R := mkArr Numpy F64 (Vec [1; 0; 1]).
Theorem C16_exponent_2_blind :
  outcome (distance_covariance_sqr (env_R true) ux4 uy4 2 (MethodEnum MNaive) CNoCompile) = Ok 0
  /\ ~ empirically_independent 3 1 1 (obs ux4) (obs uy4).
Proof.
  split.
  - rewrite (C16_exponent_2 _ _ _ 3); auto using env_R_valid, naive_accepts; try reflexivity.
    + f_equal. unfold sample_cov, mean, obs, ux4, uy4; cbn. lra.
    + repeat split; cbn; auto with arith.
  - intros H. specialize (H 1%nat 0%nat ltac:(lia) ltac:(lia)).
    unfold count, same_pointb, obs, ux4, uy4 in H; cbn in H.
    repeat match type of H with context [Req_EM_T ?a ?b] => destruct (Req_EM_T a b); try lra end; cbn in H; lra.
Qed.

Lemma warnings_bind {A B} (m : M A) (f : A -> M B) :
  warnings (bind m f) = warnings m ++ match outcome m with Ok a => warnings (f a) | Err _ => [] end.
Proof. destruct m as [w [a|]]; cbn; [destruct (f a); reflexivity|rewrite app_nil_r; reflexivity]. Qed.
Lemma bind_nil {A} (m : M A) : (let (w', r) := m in ([] ++ w', r)) = m.
Proof. destruct m; reflexivity. Qed.

(** The warning of the naive path, for every number type: emitted exactly when the exponent is
    outside (0,2). *)
Theorem C16_warning E x y n e cm : valid_env E -> paired n x y -> (cm = CAuto \/ cm = CNoCompile) ->
  (0 < e < 2 -> warnings (distance_covariance_sqr E x y e (MethodEnum MNaive) cm) = [])
  /\ (~ 0 < e < 2 -> warnings (distance_covariance_sqr E x y e (MethodEnum MNaive) cm) = [WDcovExponent]).
Proof.
  intros HE Hp Hcm. pose proof (ve_num E HE) as HN.
  assert (Hw : warnings (distance_covariance_sqr E x y e (MethodEnum MNaive) cm)
    = if exponent_in_range E e then [] else [WDcovExponent]).
  { assert (Hc : distance_covariance_sqr E x y e (MethodEnum MNaive) cm
      = algo_dcov_sqr E MNaive x y e CNoCompile false)
      by (unfold distance_covariance_sqr; cbn [lift to_algorithm bind]; rewrite bind_nil; destruct Hcm as [-> | ->]; reflexivity).
    rewrite Hc. unfold algo_dcov_sqr, method_terms, dcov_terms_naive, compute_distances, check_valid_dcov_exponent.
    rewrite !warnings_bind. destruct (exponent_in_range E e); cbn [warnings emit ret fst app outcome snd lift];
      repeat match goal with |- context [match ?r with Ok _ => _ | Err _ => _ end] => destruct r as [[]|] end;
      rewrite ?warnings_bind; cbn [warnings emit ret fst app outcome snd lift];
      repeat match goal with |- context [match ?r with Ok _ => _ | Err _ => _ end] => destruct r end; reflexivity. }
  rewrite Hw. unfold exponent_in_range. rewrite HN. cbn.
  destruct (Rltb_spec 0 e), (Rltb_spec e 2); cbn; split; intros; auto; lra.
Qed.

Example C16_meets : warnings (distance_covariance_sqr (env_R true) xs ys 2 (MethodEnum MNaive) CAuto) = [WDcovExponent]
  /\ warnings (distance_covariance_sqr (env_R true) xs ys 1 (MethodEnum MNaive) CAuto) = [].
Proof.
  split; apply (C16_warning _ xs ys 5); auto using env_R_valid, xs_ys; lra.
Qed.

(** ** C41: ties and uninitialised memory *)

(** Two environments may differ in how argsort orders equal values, in the contents of
    np.empty and in the array API wrapper in use. *)
Theorem C41_ties_and_garbage f E E' x y n e m cm : valid_env E -> valid_env E' -> paired n x y ->
  (min_size f <= n)%nat -> 0 < e -> accepts m cm x y e ->
  call f E x y e m cm = call f E' x y e m cm.
Proof. intros. rewrite !(call_ok f _ x y n) by auto. reflexivity. Qed.

(** The two sorts really differ on ties. *)
Definition argsort_R' (l : list R) : list nat := isort l (rev (seq 0 (length l))).
Definition env_R' : Env R := mkEnv R RNum argsort_R' (fun n => repeat 0 n) (fun m => ([], [])) (fun _ _ => 1 / 2) false.
Lemma env_R'_valid : valid_env env_R'.
Proof.
  split; cbn.
  - reflexivity.
  - intros l. split.
    + unfold is_perm, argsort_R'. rewrite isort_perm. symmetry. apply Permutation.Permutation_rev.
    + intros i j Hij Hj. apply sorted_by_nth; auto; [apply isort_sorted|].
      unfold argsort_R'. rewrite (Permutation.Permutation_length (isort_perm _ _)), rev_length, seq_length. auto.
  - intros n. apply repeat_length.
Qed.
Example C41_meets : argsort_R [1; 1] = [0; 1]%nat /\ argsort_R' [1; 1] = [1; 0]%nat
  /\ call DcovSqr (env_R true) xs ys 1 MAvl CAuto = call DcovSqr env_R' xs ys 1 MAvl CAuto.
Proof.
  split; [|split].
  - unfold argsort_R; cbn. destruct (Rle_dec 1 1); [reflexivity|lra].
  - unfold argsort_R'; cbn. destruct (Rle_dec 1 1); [reflexivity|lra].
  - apply (C41_ties_and_garbage _ _ _ xs ys 5); auto using env_R_valid, env_R'_valid, xs_ys, xs_ys_avl; cbn; lra || lia.
Qed.
