(** Small changes of the data: C72. *)
From Coq Require Import Reals Lra Lia List Arith Bool ZArith Permutation.
From Verif Require Import Num Numpy MUtils MDistances MMergesort MInternals MDcor MPartial MEnergy MHypothesis MHomogeneity MIndependence
  Sums Spec Centering Tab Samples Api RefDist RefDcor RefCenter RefApi Psd PowerKernel SpecFacts Nonneg EnergyMath Invariance RefEnergy RefTests Witness PDist PEnergy PTests PPermMean.
Import List ListNotations.
Local Open Scope R_scope.

(** Every observation of [x'] is within distance [d] of the corresponding one of [x]. *)
Definition moved (d : R) (x x' : array R) : Prop :=
  same_form x x' /\ forall i, (i < shape0 x)%nat -> dist (ncols x) (obs x i) (obs x' i) <= d.

Lemma rpow_triangle e p u v w : 0 < e <= 1 -> rpow (dist p u w) e <= rpow (dist p u v) e + rpow (dist p v w) e.
Proof.
  intros He. eapply Rle_trans; [apply rpow_le; [apply dist_nonneg|apply (dist_triangle p u v w)|lra]|].
  apply rpow_subadditive; auto; apply dist_nonneg.
Qed.

(** The powers of the distances change by at most twice the power of the displacement. *)
Lemma kernel_moved e p u u' v v' du dv : 0 < e <= 1 -> dist p u u' <= du -> dist p v v' <= dv ->
  Rabs (rpow (dist p u v) e - rpow (dist p u' v') e) <= rpow du e + rpow dv e.
Proof.
  intros He Hu Hv.
  assert (U : rpow (dist p u u') e <= rpow du e) by (apply rpow_le; [apply dist_nonneg|auto|lra]).
  assert (W : rpow (dist p v v') e <= rpow dv e) by (apply rpow_le; [apply dist_nonneg|auto|lra]).
  pose proof (rpow_triangle e p u u' v He). pose proof (rpow_triangle e p u' v' v He).
  pose proof (rpow_triangle e p u' u v' He). pose proof (rpow_triangle e p u v v' He).
  rewrite (dist_sym p u' u) in *. rewrite (dist_sym p v' v) in *. apply Rabs_le. lra.
Qed.

Lemma rsum2_Rabs n m f : Rabs (rsum2 n m f) <= rsum2 n m (fun i j => Rabs (f i j)).
Proof. unfold rsum2. eapply Rle_trans; [apply rsum_Rabs|]. apply rsum_le. intros. apply rsum_Rabs. Qed.
Lemma rsum2_le n m f g : (forall i j, (i < n)%nat -> (j < m)%nat -> f i j <= g i j) -> rsum2 n m f <= rsum2 n m g.
Proof. intros H. apply rsum_le. intros. apply rsum_le. auto. Qed.

(** The inner product with a matrix that changes by at most [D]. *)
Lemma product_moved n D a a' (B : nat -> nat -> R) : 0 <= D -> (forall i j, (i < n)%nat -> (j < n)%nat -> Rabs (a i j - a' i j) <= D) ->
  Rabs (rsum2 n n (fun i j => a i j * B i j) - rsum2 n n (fun i j => a' i j * B i j)) <= D * rsum2 n n (fun i j => Rabs (B i j)).
Proof.
  intros HD H. rewrite <- rsum2_minus, <- rsum2_scal_l. eapply Rle_trans; [apply rsum2_Rabs|]. apply rsum2_le. intros i j Hi Hj.
  replace (a i j * B i j - a' i j * B i j) with ((a i j - a' i j) * B i j) by ring. rewrite Rabs_mult.
  apply Rmult_le_compat_r; [apply Rabs_pos|auto].
Qed.

Lemma abs4 a b c d : 0 <= a -> 0 <= b -> 0 <= c -> 0 <= d -> Rabs (a - b - c + d) <= a + b + c + d.
Proof. intros. apply Rabs_le. lra. Qed.

Lemma dcenter_abs n b : (1 <= n)%nat -> (forall i j, 0 <= b i j) -> rsum2 n n (fun i j => Rabs (dcenter n b i j)) <= 4 * rsum2 n n b.
Proof.
  intros Hn Hb. pose proof (INR_pos n Hn) as H0.
  assert (M : forall f, (forall i, 0 <= f i) -> 0 <= mean n f).
  { intros f Hf. unfold mean. apply Rmult_le_pos; [apply rsum_nonneg; auto|]. left. apply Rinv_0_lt_compat. auto. }
  eapply Rle_trans.
  - apply rsum2_le. intros i j Hi Hj. unfold dcenter. apply abs4; auto.
  - rewrite !rsum2_plus, rsum2_const. unfold mean. rewrite !rsum_div.
    assert (rsum2 n n (fun i _ => rsum n (fun l => b i l) / INR n) = rsum2 n n b) as ->.
    { unfold rsum2. rewrite (rsum_ext n _ (fun i => rsum n (fun j => b i j))); [reflexivity|]. intros. rewrite rsum_const. field. lra. }
    assert (rsum2 n n (fun _ j => rsum n (fun k => b k j) / INR n) = rsum2 n n b) as ->.
    { rewrite rsum2_swap. unfold rsum2. rewrite (rsum_ext n _ (fun j => rsum n (fun k => b k j))); [apply rsum_swap|]. intros. rewrite rsum_const. field. lra. }
    unfold rsum2. apply Req_le. field. lra.
Qed.

Lemma rsum2_offdiag n F : rsum2 n n (fun i j => if Nat.eqb i j then 0 else F i j) = rsum2 n n F - rsum n (fun i => F i i).
Proof.
  unfold rsum2. rewrite <- rsum_minus. apply rsum_ext. intros i Hi. rewrite <- (rsum_delta n i (fun j => F i j) Hi), <- rsum_minus.
  apply rsum_ext. intros j Hj. rewrite (Nat.eqb_sym j i). destruct (Nat.eqb i j); ring.
Qed.

Lemma ucenter_abs n b : (4 <= n)%nat -> (forall i j, 0 <= b i j) -> hollow n b ->
  rsum2 n n (fun i j => Rabs (ucenter n b i j)) <= 4 * (INR n - 1) / (INR n - 2) * rsum2 n n b.
Proof.
  intros Hn Hb Hh. pose proof (INR_ge4 n Hn) as H4. set (T := rsum2 n n b).
  assert (I2 : 0 <= / (INR n - 2)) by (left; apply Rinv_0_lt_compat; lra).
  assert (I12 : 0 <= / ((INR n - 1) * (INR n - 2))) by (left; apply Rinv_0_lt_compat; nra).
  assert (T0 : 0 <= T) by (apply rsum2_nonneg; auto).
  eapply Rle_trans.
  - apply rsum2_le with (g := fun i j => if Nat.eqb i j then 0 else
      b i j + / (INR n - 2) * rsum n (fun l => b i l) + / (INR n - 2) * rsum n (fun k => b k j) + / ((INR n - 1) * (INR n - 2)) * T).
    intros i j Hi Hj. unfold ucenter. destruct (Nat.eqb i j); [rewrite Rabs_R0; lra|]. apply abs4; auto; apply Rmult_le_pos; auto; apply rsum_nonneg; auto.
  - rewrite (rsum2_offdiag n (fun i j => b i j + / (INR n - 2) * rsum n (fun l => b i l) + / (INR n - 2) * rsum n (fun k => b k j) + / ((INR n - 1) * (INR n - 2)) * T)).
    rewrite !rsum2_plus, !rsum_plus, rsum2_const, rsum_const, (rsum_zero n (fun i => b i i)), !rsum_scal_l by auto.
    assert (rsum2 n n (fun i _ => / (INR n - 2) * rsum n (fun l => b i l)) = INR n / (INR n - 2) * T) as ->.
    { unfold T, rsum2. rewrite <- rsum_scal_l. apply rsum_ext. intros. rewrite rsum_const. unfold Rdiv. ring. }
    assert (rsum2 n n (fun _ j => / (INR n - 2) * rsum n (fun k => b k j)) = INR n / (INR n - 2) * T) as ->.
    { unfold T. rewrite (rsum2_swap n n b), rsum2_swap. unfold rsum2. rewrite <- rsum_scal_l. apply rsum_ext. intros. rewrite rsum_const. unfold Rdiv. ring. }
    rewrite (rsum_swap n n (fun i k => b k i)). change (rsum n (fun i => rsum n (fun l => b i l))) with T. fold T.
    apply Req_le. field. lra.
Qed.

Lemma dcov2_moved n D a a' b : (1 <= n)%nat -> 0 <= D -> (forall i j, (i < n)%nat -> (j < n)%nat -> Rabs (a i j - a' i j) <= 2 * D) -> (forall i j, 0 <= b i j) ->
  Rabs (dcov2 n a b - dcov2 n a' b) <= 8 * D * mean_distance n b.
Proof.
  intros Hn HD H Hb. pose proof (INR_pos n Hn) as H0. rewrite !dcov2_half by auto.
  assert (I0 : 0 < / INR n ^ 2) by (apply Rinv_0_lt_compat; nra).
  rewrite <- Rmult_minus_distr_l, Rabs_mult, (Rabs_right (/ INR n ^ 2)) by lra. unfold mean_distance.
  pose proof (product_moved n (2 * D) a a' (dcenter n b) ltac:(lra) H). pose proof (dcenter_abs n b Hn Hb).
  replace (8 * D * (rsum2 n n b / INR n ^ 2)) with (/ INR n ^ 2 * (2 * D * (4 * rsum2 n n b))) by (unfold Rdiv; ring).
  apply Rmult_le_compat_l; [lra|]. eapply Rle_trans; [eassumption|]. apply Rmult_le_compat_l; lra.
Qed.

(** The mean distance between two different observations. *)
Definition pair_mean (n : nat) (d : nat -> nat -> R) : R := rsum2 n n d / (INR n * (INR n - 1)).

Lemma udcov2_moved n D a a' b : (4 <= n)%nat -> 0 <= D -> (forall i j, (i < n)%nat -> (j < n)%nat -> Rabs (a i j - a' i j) <= 2 * D) -> (forall i j, 0 <= b i j) ->
  symmetric n b -> hollow n b ->
  Rabs (udcov2 n a b - udcov2 n a' b) <= 8 * (INR n - 1) ^ 2 / ((INR n - 2) * (INR n - 3)) * D * pair_mean n b.
Proof.
  intros Hn HD H Hb Hs Hh. pose proof (INR_ge4 n Hn) as H4. unfold udcov2, uprod.
  rewrite !ucenter_product_l; try lia; try (intros; first [apply ucenter_row_sum|apply ucenter_col_sum|apply ucenter_diag]; auto; lia).
  assert (I0 : 0 < / (INR n * (INR n - 3))) by (apply Rinv_0_lt_compat; nra).
  rewrite <- Rmult_minus_distr_l, Rabs_mult, (Rabs_right (/ (INR n * (INR n - 3)))) by lra. unfold pair_mean.
  pose proof (product_moved n (2 * D) a a' (ucenter n b) ltac:(lra) H) as P. pose proof (ucenter_abs n b Hn Hb Hh) as Q.
  replace (8 * (INR n - 1) ^ 2 / ((INR n - 2) * (INR n - 3)) * D * (rsum2 n n b / (INR n * (INR n - 1))))
    with (/ (INR n * (INR n - 3)) * (2 * D * (4 * (INR n - 1) / (INR n - 2) * rsum2 n n b))) by (field; lra).
  apply Rmult_le_compat_l; [lra|]. eapply Rle_trans; [exact P|]. apply Rmult_le_compat_l; lra.
Qed.

Lemma moved_distances e d x x' i j : 0 < e <= 1 -> moved d x x' -> (i < shape0 x)%nat -> (j < shape0 x)%nat ->
  Rabs (distances e x i j - distances e x' i j) <= 2 * rpow d e.
Proof.
  intros He ((_ & _ & Cx & _ & _) & H) Hi Hj. unfold distances, dmat. rewrite Cx.
  replace (2 * rpow d e) with (rpow d e + rpow d e) by ring. apply kernel_moved; auto.
Qed.

Lemma distances_pos e x i j : 0 <= distances e x i j.
Proof. apply rpow_nonneg. Qed.

(** ** Distance covariance *)

(** How much the squared distance covariance of [n] observations changes at most, per unit of displacement and of mean distance. *)
Definition sensitivity (f : api) (n : nat) : R :=
  match f with UDcovSqr => 8 * (INR n - 1) ^ 2 / ((INR n - 2) * (INR n - 3)) | _ => 8 end.
Definition scale_of (f : api) (n : nat) (d : nat -> nat -> R) : R :=
  match f with UDcovSqr => pair_mean n d | _ => mean_distance n d end.

Theorem C72_covariance f E x y x' y' n dx dy e m cm : valid_env E -> f = DcovSqr \/ f = UDcovSqr -> paired n x y -> (min_size f <= n)%nat -> 0 < e <= 1 ->
  accepts m cm x y e -> moved dx x x' -> moved dy y y' ->
  exists v v', call f E x y e m cm = Ok v /\ call f E x' y' e m cm = Ok v' /\
  Rabs (v - v') <= sensitivity f n * (rpow dx e * scale_of f n (distances e y) + rpow dy e * scale_of f n (distances e x')).
Proof.
  intros HE Hf Hp Hm He Ha Mx My. pose proof Hp as (Wx & Wy & Sx & Sy & Hn). pose proof Mx as (Fx & _). pose proof My as (Fy & _).
  pose proof Fx as (_ & _ & _ & Sx' & Wx'). pose proof Fy as (_ & _ & _ & Sy' & Wy').
  assert (Hp' : paired n x' y') by (repeat split; auto; congruence).
  exists (value f n (distances e x) (distances e y)), (value f n (distances e x') (distances e y')).
  split; [apply call_ok; auto; lra|]. split; [apply call_ok; auto; [lra|]; apply (accepts_form _ _ x y); auto|].
  assert (Mx2 : forall i j, (i < n)%nat -> (j < n)%nat -> Rabs (distances e x i j - distances e x' i j) <= 2 * rpow dx e) by (intros; apply moved_distances; auto; lia).
  assert (My2 : forall i j, (i < n)%nat -> (j < n)%nat -> Rabs (distances e y i j - distances e y' i j) <= 2 * rpow dy e) by (intros; apply moved_distances; auto; lia).
  pose proof (distances_pos e y) as Py. pose proof (distances_pos e x') as Px. pose proof (rpow_nonneg dx e) as Dx. pose proof (rpow_nonneg dy e) as Dy.
  destruct Hf as [-> | ->]; cbn [value sensitivity scale_of min_size] in *.
  - pose proof (dcov2_moved n _ _ _ _ Hn Dx Mx2 Py) as H1. pose proof (dcov2_moved n _ _ _ _ Hn Dy My2 Px) as H2.
    rewrite !(dcov2_sym n _ (distances e x')) in H2.
    replace (dcov2 n (distances e x) (distances e y) - dcov2 n (distances e x') (distances e y'))
      with ((dcov2 n (distances e x) (distances e y) - dcov2 n (distances e x') (distances e y)) + (dcov2 n (distances e x') (distances e y) - dcov2 n (distances e x') (distances e y'))) by ring.
    eapply Rle_trans; [apply Rabs_triang|]. rewrite (dcov2_sym n (distances e x') (distances e y)), (dcov2_sym n (distances e x') (distances e y')) in *. lra.
  - assert (HY : symmetric n (distances e y) /\ hollow n (distances e y)) by (split; [apply distances_sym|apply distances_hollow; lra]).
    assert (HX : symmetric n (distances e x') /\ hollow n (distances e x')) by (split; [apply distances_sym|apply distances_hollow; lra]).
    destruct HY as [SY HY], HX as [SX HX].
    pose proof (udcov2_moved n _ _ _ _ Hm Dx Mx2 Py SY HY) as H1. pose proof (udcov2_moved n _ _ _ _ Hm Dy My2 Px SX HX) as H2.
    replace (udcov2 n (distances e x) (distances e y) - udcov2 n (distances e x') (distances e y'))
      with ((udcov2 n (distances e x) (distances e y) - udcov2 n (distances e x') (distances e y)) + (udcov2 n (distances e x') (distances e y) - udcov2 n (distances e x') (distances e y'))) by ring.
    eapply Rle_trans; [apply Rabs_triang|]. rewrite (udcov2_sym n (distances e x') (distances e y)), (udcov2_sym n (distances e x') (distances e y')) in *. lra.
Qed.

Lemma sqrt_moved u v : 0 <= u -> 0 <= v -> Rabs (sqrt u - sqrt v) <= sqrt (Rabs (u - v)).
Proof.
  assert (W : forall a b, 0 <= a -> 0 <= b -> b <= a -> sqrt a - sqrt b <= sqrt (a - b)).
  { intros a b Ha Hb L. pose proof (sqrt_pos b). pose proof (sqrt_pos (a - b)).
    assert (sqrt a <= sqrt b + sqrt (a - b)); [|lra]. rewrite <- (sqrt_square (sqrt b + sqrt (a - b))) by lra. apply sqrt_le_1_alt.
    pose proof (sqrt_sqrt b Hb). pose proof (sqrt_sqrt (a - b) ltac:(lra)). nra. }
  intros Hu Hv. destruct (Rle_dec v u) as [L|L].
  - rewrite !Rabs_right; auto; try lra. apply Rge_minus, Rle_ge, sqrt_le_1_alt. auto.
  - rewrite (Rabs_left1 (sqrt u - sqrt v)), (Rabs_left1 (u - v)) by (try apply Rle_minus; try apply sqrt_le_1_alt; lra).
    rewrite !Ropp_minus_distr. apply W; lra.
Qed.

Theorem C72_root E x y x' y' n dx dy e m cm : valid_env E -> paired n x y -> 0 < e <= 1 -> accepts m cm x y e -> moved dx x x' -> moved dy y y' ->
  exists v v', call Dcov E x y e m cm = Ok v /\ call Dcov E x' y' e m cm = Ok v' /\
  Rabs (v - v') <= sqrt (8 * (rpow dx e * mean_distance n (distances e y) + rpow dy e * mean_distance n (distances e x'))).
Proof.
  intros HE Hp He Ha Mx My. pose proof Hp as (Wx & Wy & Sx & Sy & Hn). pose proof Mx as (Fx & _). pose proof My as (Fy & _).
  pose proof Fx as (_ & _ & _ & Sx' & Wx'). pose proof Fy as (_ & _ & _ & Sy' & Wy').
  assert (Hp' : paired n x' y') by (repeat split; auto; congruence). pose proof (accepts_form _ _ _ _ _ _ _ Fx Fy Ha) as Ha'.
  destruct (C72_covariance DcovSqr E x y x' y' n dx dy e m cm) as (v & v' & H & H' & B); auto.
  rewrite (call_ok _ _ _ _ n) in H by (auto; lra). rewrite (call_ok _ _ _ _ n) in H' by (auto; lra). injection H as <-. injection H' as <-. cbn [value sensitivity scale_of] in B.
  eexists. eexists. split; [apply (call_ok _ _ _ _ n); auto; lra|]. split; [apply (call_ok _ _ _ _ n); auto; lra|]. cbn [value].
  eapply Rle_trans; [|apply sqrt_le_1_alt, B].
  apply sqrt_moved; apply dcov2_nonneg; auto; lra.
Qed.

Theorem C72_test_statistic {S} (E : Env R) (G : Rng S) x y x' y' n dx dy e b rs b' rs' t s t' s' : valid_env E -> permuting G -> paired n x y -> 0 < e <= 1 ->
  moved dx x x' -> moved dy y y' ->
  outcome (distance_covariance_test E G x y (Z.of_nat b) e rs) = Ok (t, s) ->
  outcome (distance_covariance_test E G x' y' (Z.of_nat b') e rs') = Ok (t', s') ->
  Rabs (statistic t - statistic t') <= 8 * INR n * (rpow dx e * mean_distance n (distances e y) + rpow dy e * mean_distance n (distances e x')).
Proof.
  intros HE HG Hp He Mx My Ht Ht'. pose proof Hp as (Wx & Wy & Sx & Sy & Hn). pose proof Mx as (Fx & _). pose proof My as (Fy & _).
  pose proof Fx as (_ & _ & _ & Sx' & Wx'). pose proof Fy as (_ & _ & _ & Sy' & Wy'). pose proof (INR_pos n Hn).
  assert (Hp' : paired n x' y') by (repeat split; auto; congruence).
  rewrite (dcov_test_eval E G x y n) in Ht by (auto; lra). rewrite (dcov_test_eval E G x' y' n) in Ht' by (auto; lra).
  injection Ht as <- _. injection Ht' as <- _. cbn [statistic].
  destruct (C72_covariance DcovSqr E x y x' y' n dx dy e MNaive CNoCompile) as (v & v' & H1 & H2 & B); auto; [apply naive_accepts|].
  rewrite (call_ok _ _ _ _ n) in H1 by (auto; try lra; apply naive_accepts). rewrite (call_ok _ _ _ _ n) in H2 by (auto; try lra; apply naive_accepts). injection H1 as <-. injection H2 as <-. cbn [value sensitivity scale_of] in B.
  rewrite <- Rmult_minus_distr_l, Rabs_mult, (Rabs_right (INR n)) by lra.
  match type of B with _ <= 8 * ?z => replace (8 * INR n * z) with (INR n * (8 * z)) by ring end. apply Rmult_le_compat_l; lra.
Qed.

(** ** Energy distance *)

(** The mean of the powers of the displacements. *)
Definition displacement (e : R) (x x' : array R) : R := rsum (shape0 x) (fun i => rpow (dist (ncols x) (obs x i) (obs x' i)) e) / INR (shape0 x).

Lemma mean_cross_moved e p n m X Y X' Y' : (1 <= n)%nat -> (1 <= m)%nat -> 0 < e <= 1 ->
  Rabs (rsum2 n m (fun i j => rpow (dist p (X i) (Y j)) e) / (INR n * INR m) - rsum2 n m (fun i j => rpow (dist p (X' i) (Y' j)) e) / (INR n * INR m))
  <= rsum n (fun i => rpow (dist p (X i) (X' i)) e) / INR n + rsum m (fun i => rpow (dist p (Y i) (Y' i)) e) / INR m.
Proof.
  intros Hn Hm He. pose proof (INR_pos n Hn). pose proof (INR_pos m Hm).
  set (dx := fun i => rpow (dist p (X i) (X' i)) e). set (dy := fun i => rpow (dist p (Y i) (Y' i)) e).
  assert (I : 0 < / (INR n * INR m)) by (apply Rinv_0_lt_compat; nra).
  unfold Rdiv at 1 2. rewrite <- Rmult_minus_distr_r, Rabs_mult, (Rabs_right (/ _)) by lra. rewrite <- rsum2_minus.
  replace (rsum n dx / INR n + rsum m dy / INR m) with (rsum2 n m (fun i j => dx i + dy j) * / (INR n * INR m)).
  - apply Rmult_le_compat_r; [lra|]. eapply Rle_trans; [apply rsum2_Rabs|]. apply rsum2_le. intros i j Hi Hj. apply kernel_moved; auto; lra.
  - rewrite rsum2_plus. rewrite (rsum2_swap n m (fun i j => dy j)) at 1. rewrite (rsum2_swap n m (fun i j => dx i)) at 1. rewrite rsum2_swap.
    unfold rsum2. rewrite (rsum_ext n _ (fun i => INR m * dx i)) by (intros; apply rsum_const).
    rewrite (rsum_ext m _ (fun i => INR n * dy i)) by (intros; apply rsum_const). rewrite !rsum_scal_l. field. lra.
Qed.

Lemma mean_within_moved e p n X X' : (2 <= n)%nat -> 0 < e <= 1 ->
  Rabs (upper_mean n (fun i j => rpow (dist p (X i) (X j)) e) - upper_mean n (fun i j => rpow (dist p (X' i) (X' j)) e))
  <= 2 * (rsum n (fun i => rpow (dist p (X i) (X' i)) e) / INR n).
Proof.
  intros Hn He. assert (Hn1 : (1 <= n)%nat) by lia. pose proof (INR_pos n Hn1). assert (2 <= INR n) by (apply (le_INR 2); auto).
  rewrite !upper_mean_total by (auto; try (apply (dmat_symmetric e p _ n)); apply (dmat_hollow e p _ n); lra).
  set (dx := fun i => rpow (dist p (X i) (X' i)) e).
  assert (I : 0 < / (INR n * (INR n - 1))) by (apply Rinv_0_lt_compat; nra).
  unfold Rdiv at 1 2. rewrite <- Rmult_minus_distr_r, Rabs_mult, (Rabs_right (/ _)) by lra. rewrite <- rsum2_minus.
  replace (2 * (rsum n dx / INR n)) with (rsum2 n n (fun i j => if Nat.eqb i j then 0 else dx i + dx j) * / (INR n * (INR n - 1))).
  - apply Rmult_le_compat_r; [lra|]. eapply Rle_trans; [apply rsum2_Rabs|]. apply rsum2_le. intros i j Hi Hj. destruct (Nat.eqb_spec i j) as [->|Hne].
    + rewrite !dist_refl, Rminus_diag_eq, Rabs_R0 by reflexivity. lra.
    + apply kernel_moved; auto; lra.
  - rewrite (rsum2_offdiag n (fun i j => dx i + dx j)), rsum2_plus. rewrite (rsum2_swap n n (fun i j => dx i)).
    unfold rsum2. rewrite !rsum_const, rsum_plus. change (fun j => dx j) with dx. field. lra.
Qed.

Theorem C72_energy E x y x' y' n m p e st : valid_env E -> two_samples n m p x y -> two_samples n m p x' y' ->
  ((match st with UStatistic => 2 | VStatistic => 1 end <= n) /\ (match st with UStatistic => 2 | VStatistic => 1 end <= m))%nat -> 0 < e <= 1 ->
  exists v v', outcome (energy_distance E x y e None (EstEnum st)) = Ok v /\ outcome (energy_distance E x' y' e None (EstEnum st)) = Ok v' /\
  Rabs (v - v') <= 4 * (displacement e x x' + displacement e y y').
Proof.
  intros HE H H' [Hn Hm] He. pose proof H as (Wx & Wy & Sx & Sy & Cx & Cy).
  unfold displacement. rewrite Sx, Sy, Cx, Cy.
  assert (A4 : forall a a' b b' c c' u v : R, Rabs (a - a') <= u + v -> Rabs (b - b') <= 2 * u -> Rabs (c - c') <= 2 * v -> Rabs ((2 * a - b - c) - (2 * a' - b' - c')) <= 4 * (u + v)).
  { intros a a' b b' c c' u v H1 H2 H3. pose proof (Rle_abs (a - a')). pose proof (Rle_abs (- (a - a'))). pose proof (Rle_abs (b - b')). pose proof (Rle_abs (- (b - b'))).
    pose proof (Rle_abs (c - c')). pose proof (Rle_abs (- (c - c'))). rewrite Rabs_Ropp in *. apply Rabs_le. lra. }
  destruct st.
  - eexists. eexists. split; [apply (energy_U E HE x y n m p e H); lra|]. split; [apply (energy_U E HE x' y' n m p e H'); lra|]. unfold uenergy.
    apply A4; [apply mean_cross_moved; auto; lia|apply mean_within_moved; auto|apply mean_within_moved; auto].
  - eexists. eexists. split; [apply (energy_V E HE x y n m p e H); lra|]. split; [apply (energy_V E HE x' y' n m p e H'); lra|]. unfold energy.
    apply A4; [apply mean_cross_moved; auto|..]; (eapply Rle_trans; [apply mean_cross_moved; auto|]; lra).
Qed.

(** ** Two observations *)
Definition two_points (z : R) : array R := mkArr Numpy F64 (Vec [0; z]).

Lemma two_points_moved z w d : Rabs (z - w) <= d -> moved d (two_points z) (two_points w).
Proof.
  intros H. pose proof (Rabs_pos (z - w)). split; [now repeat split|]. intros i Hi. change (ncols (two_points z)) with 1%nat. rewrite dist_1.
  change (shape0 (two_points z)) with 2%nat in Hi. unfold obs, two_points; cbn [adata].
  destruct i as [|[|i]]; [| |lia]; cbn; [rewrite Rabs_right; lra|auto].
Qed.

Lemma two_points_dist z i j : 0 <= z -> (i < 2)%nat -> (j < 2)%nat -> distances 1 (two_points z) i j = if Nat.eqb i j then 0 else z.
Proof.
  intros Hz Hi Hj. rewrite distances_1 by reflexivity. unfold obs, two_points; cbn [adata nth].
  destruct i as [|[|i]]; try lia; destruct j as [|[|j]]; try lia; cbn; try (rewrite Rabs_right by lra; lra). rewrite Rabs_left1; lra.
Qed.

Lemma two_points_dcov2 z w : 0 <= z -> 0 <= w -> dcov2 2 (distances 1 (two_points z)) (distances 1 (two_points w)) = z * w / 4.
Proof.
  intros Hz Hw. rewrite (dcov2_ext 2 _ _ (fun i j => if Nat.eqb i j then 0 else z) (fun i j => if Nat.eqb i j then 0 else w)) by (intros; apply two_points_dist; auto).
  unfold dcov2, dcenter, mean, rsum2. cbn. lra.
Qed.

Lemma two_points_paired z w : paired 2 (two_points z) (two_points w).
Proof. now repeat split; auto. Qed.

(** The correlation is not continuous at constant samples. *)
Theorem C72_correlation_refuted E d : valid_env E -> 0 < d ->
  exists x x' y, paired 2 x y /\ moved d x x' /\ call Dcor E x y 1 MNaive CNoCompile = Ok 0 /\ call Dcor E x' y 1 MNaive CNoCompile = Ok 1.
Proof.
  intros HE Hd. exists (two_points 0), (two_points d), (two_points 1). split; [apply two_points_paired|]. split; [apply two_points_moved; rewrite Rabs_left1; lra|].
  rewrite !(call_ok Dcor E _ _ 2) by (auto using two_points_paired; try lra; apply naive_accepts). cbn [value]. unfold dcor2, corr.
  rewrite !two_points_dcov2 by lra. destruct (Req_EM_T _ 0) as [_|N]; [|exfalso; apply N; lra]. rewrite sqrt_0. split; [reflexivity|].
  destruct (Req_EM_T _ 0) as [Z|_]; [exfalso; nra|].
  replace (d * d / 4 * (1 * 1 / 4)) with ((d / 4) * (d / 4)) by field. rewrite sqrt_square by lra.
  replace (d * 1 / 4 / (d / 4)) with 1 by (field; lra). rewrite sqrt_1. reflexivity.
Qed.

(** The hypotheses are met, and the value does change: from 1/4 to 5/16 when an observation moves by 1/4. *)
Example C72_meets :
  (exists v v', call DcovSqr (env_R true) (two_points 1) (two_points 1) 1 MAuto CAuto = Ok v /\
    call DcovSqr (env_R true) (two_points (5 / 4)) (two_points 1) 1 MAuto CAuto = Ok v' /\ v = 1 / 4 /\ v' = 5 / 16 /\ Rabs (v - v') <= 1)
  /\ two_samples 2 2 1 (two_points 0) (two_points 1) /\ two_samples 2 2 1 (two_points 0) (two_points 2).
Proof.
  split; [|now repeat split].
  destruct (C72_covariance DcovSqr (env_R true) (two_points 1) (two_points 1) (two_points (5 / 4)) (two_points 1) 2 (1 / 4) 0 1 MAuto CAuto) as (v & v' & H & H' & B);
    auto using env_R_valid, two_points_paired; try lra; try apply auto_accepts; try (apply two_points_moved; rewrite ?Rminus_diag_eq, ?Rabs_R0 by reflexivity; try (rewrite Rabs_left1); lra).
  exists v, v'. repeat split; auto.
  - rewrite (call_ok _ _ _ _ 2) in H by (auto using env_R_valid, two_points_paired; try lra; apply auto_accepts). injection H as <-. cbn [value]. rewrite two_points_dcov2; lra.
  - rewrite (call_ok _ _ _ _ 2) in H' by (auto using env_R_valid, two_points_paired; try lra; apply auto_accepts). injection H' as <-. cbn [value]. rewrite two_points_dcov2; lra.
  - eapply Rle_trans; [exact B|]. cbn [sensitivity scale_of]. unfold mean_distance.
    rewrite !(rsum2_ext 2 2 _ (fun i j => if Nat.eqb i j then 0 else 1)) by (intros; apply two_points_dist; auto; lra).
    rewrite !rpow_1 by lra. unfold rsum2. cbn. lra.
Qed.
