(** The partial distance covariance and correlation estimate those of the distribution: C74, continued. *)
From Coq Require Import Reals Lra Lia List Arith Bool ZArith.
From Verif Require Import Num Numpy MUtils MDcor MPartial Sums Spec Centering Tab Samples Api RefDist RefDcor SpecFacts
  Expect Consist PopMath PopIndep Witness PPartial PEmpirical PUnbiased PConsist.
Local Open Scope R_scope.

(** The partial distance covariance of a distribution, from the squared distance covariances of its components. *)
Definition population_pcov (K : nat) (w : nat -> R) (a b c : nat -> nat -> R) : R :=
  if Req_EM_T (population_dcov2 K w c c) 0 then population_dcov2 K w a b
  else population_dcov2 K w a b - population_dcov2 K w a c * population_dcov2 K w b c / population_dcov2 K w c c.

Definition sample_pcov (n : nat) (a b c : nat -> nat -> R) : R := udcov2 n a b - udcov2 n a c * udcov2 n b c * / udcov2 n c c.

Lemma pcov_sample n x y z : pcov n x y z = sample_pcov n (distances 1 x) (distances 1 y) (distances 1 z).
Proof. unfold pcov, sample_pcov, ip. destruct (Req_EM_T _ 0) as [->|]; [rewrite Rinv_0; ring|reflexivity]. Qed.
Lemma population_pcov_inv K w a b c :
  population_pcov K w a b c = population_dcov2 K w a b - population_dcov2 K w a c * population_dcov2 K w b c * / population_dcov2 K w c c.
Proof. unfold population_pcov. destruct (Req_EM_T _ 0) as [->|]; [rewrite Rinv_0; ring|reflexivity]. Qed.

Lemma population_difference K w a b t : population_dcov2 K w (fun k l => a k l - t * b k l) (fun k l => a k l - t * b k l)
  = population_dcov2 K w a a - 2 * t * population_dcov2 K w a b + t * t * population_dcov2 K w b b.
Proof.
  rewrite !population_rows.
  assert (L : forall k, rsum K (fun l => w l * (a k l - t * b k l)) = rsum K (fun l => w l * a k l) - t * rsum K (fun l => w l * b k l)).
  { intros k. rewrite <- rsum_scal_l, <- rsum_minus. apply rsum_ext. intros. ring. }
  assert (T : rsum2 K K (fun k l => w k * w l * (a k l - t * b k l)) = rsum2 K K (fun k l => w k * w l * a k l) - t * rsum2 K K (fun k l => w k * w l * b k l)).
  { rewrite !rsum2_form. rewrite <- rsum_scal_l, <- rsum_minus. apply rsum_ext. intros k Hk. rewrite L. ring. }
  rewrite T.
  assert (Q : rsum2 K K (fun k l => w k * w l * ((a k l - t * b k l) * (a k l - t * b k l))) =
    rsum2 K K (fun k l => w k * w l * (a k l * a k l)) - 2 * t * rsum2 K K (fun k l => w k * w l * (a k l * b k l)) + t * t * rsum2 K K (fun k l => w k * w l * (b k l * b k l))).
  { rewrite !rsum2_form, <- !rsum_scal_l, <- rsum_minus, <- rsum_plus. apply rsum_ext. intros k Hk.
    rewrite <- (Rmult_assoc (2 * t)), (Rmult_comm (2 * t)), <- (Rmult_assoc (t * t)), (Rmult_comm (t * t)), !Rmult_assoc, <- Rmult_minus_distr_l, <- Rmult_plus_distr_l. f_equal.
    rewrite <- !rsum_scal_l, <- rsum_minus, <- rsum_plus. apply rsum_ext. intros. ring. }
  rewrite Q.
  assert (P : rsum K (fun k => w k * (rsum K (fun l => w l * (a k l - t * b k l)) * rsum K (fun l => w l * (a k l - t * b k l)))) =
    rsum K (fun k => w k * (rsum K (fun l => w l * a k l) * rsum K (fun l => w l * a k l)))
    - 2 * t * rsum K (fun k => w k * (rsum K (fun l => w l * a k l) * rsum K (fun l => w l * b k l)))
    + t * t * rsum K (fun k => w k * (rsum K (fun l => w l * b k l) * rsum K (fun l => w l * b k l)))).
  { rewrite <- !rsum_scal_l, <- rsum_minus, <- rsum_plus. apply rsum_ext. intros k Hk. rewrite L. ring. }
  rewrite P. ring.
Qed.

Lemma consistent_possible K w u v t : distribution K w ->
  (forall n s, (4 <= n)%nat -> (forall i, (i < n)%nat -> (s i < K)%nat /\ 0 < w (s i)) -> v n s = u n s) -> consistent K w u t -> consistent K w v t.
Proof.
  intros HD H Hu eps delta He Hd. destruct (Hu eps delta He Hd) as [N HN]. exists (4 + N)%nat. intros n Hn.
  eapply Rle_trans; [|apply (HN n); lia]. apply expect_le_possible; auto. intros s Hs. rewrite (H n s) by (auto; lia). lra.
Qed.
Lemma consistent_const K w t : distribution K w -> consistent K w (fun _ _ => t) t.
Proof.
  intros HD eps delta He Hd. exists O. intros n _. unfold probability.
  assert (F : far eps t t = false) by (apply far_false; rewrite Rminus_diag_eq, Rabs_R0 by auto; lra). rewrite F, (expect_const K w (proj2 HD)). lra.
Qed.
Lemma consistent_minus K w u v t t' : distribution K w -> consistent K w u t -> consistent K w v t' -> consistent K w (fun n s => u n s - v n s) (t - t').
Proof.
  intros HD. apply (consistent_map2 K w HD Rminus). intros eps He. exists (eps / 2). split; [lra|]. intros x y Hx Hy.
  replace (x - y - (t - t')) with ((x - t) + - (y - t')) by ring. eapply Rle_lt_trans; [apply Rabs_triang|]. rewrite Rabs_Ropp. lra.
Qed.

Lemma udcov2_scal_l n t a b : udcov2 n (fun i j => t * a i j) b = t * udcov2 n a b.
Proof.
  rewrite (udcov2_ext n _ b (fun i j => t * a i j) (fun i j => 1 * b i j)) by (intros; ring). rewrite udcov2_scal. ring.
Qed.
Lemma udcov2_scal_r n t a b : udcov2 n a (fun i j => t * b i j) = t * udcov2 n a b.
Proof. rewrite udcov2_sym, udcov2_scal_l, udcov2_sym. reflexivity. Qed.

Section Kernels.
  Context (K : nat) (w : nat -> R).
  Hypothesis HD : distribution K w.

  (** Symmetric, hollow and nonnegative. *)
  Definition distancelike (a : nat -> nat -> R) : Prop := (forall k l, 0 <= a k l) /\ (forall k l, a k l = a l k) /\ (forall k, a k k = 0).
  Let at_ (a : nat -> nat -> R) (s : nat -> nat) := fun i j : nat => a (s i) (s j).

  Lemma consistent_inner a b : distancelike a -> distancelike b -> consistent K w (fun n s => udcov2 n (at_ a s) (at_ b s)) (population_dcov2 K w a b).
  Proof. intros (Pa & Sa & Za) (Pb & Sb & Zb). apply consistent_udcov2; auto. Qed.

  Lemma consistent_pcov a b c : distancelike a -> distancelike b -> distancelike c ->
    consistent K w (fun n s => sample_pcov n (at_ a s) (at_ b s) (at_ c s)) (population_pcov K w a b c).
  Proof.
    intros Ha Hb Hc. rewrite population_pcov_inv. pose proof (consistent_inner a b Ha Hb) as Cab. pose proof (consistent_inner a c Ha Hc) as Cac.
    pose proof (consistent_inner b c Hb Hc) as Cbc. pose proof (consistent_inner c c Hc Hc) as Ccc. pose proof Hc as (Pc & Sc & Zc).
    pose proof (population_variance_nonneg K w c HD Sc) as Vc. destruct (Req_dec (population_dcov2 K w c c) 0) as [Z|Z].
    - rewrite Z, Rinv_0, Rmult_0_r, Rminus_0_r. apply (consistent_possible K w _ _ _ HD) with (2 := Cab). intros n s Hn Hs. unfold sample_pcov.
      rewrite (udcov2_ext n (at_ a s) (at_ c s) (at_ a s) (fun i j => 0 * 0)), (udcov2_ext n (at_ c s) (at_ c s) (fun i j => 0 * 0) (fun i j => 0 * 0));
        auto; try (intros i j Hi Hj; unfold at_; rewrite (population_variance_zero K w c HD Sc Zc Z); [ring|apply Hs; auto..]).
      rewrite !(udcov2_scal_r n 0). ring.
    - unfold sample_pcov. apply consistent_minus; auto. apply consistent_mult; auto; [apply consistent_mult; auto|].
      apply (consistent_map_pt K w HD Rinv); auto. apply (continuity_pt_inv id); [apply derivable_continuous_pt, derivable_pt_id|exact Z].
  Qed.

  (** Where the partial distance variance of the distribution is 0, that of every possible sample is 0. *)
  Lemma pvar_degenerate a c n s : distancelike a -> distancelike c -> population_pcov K w a a c = 0 ->
    (forall i, (i < n)%nat -> (s i < K)%nat /\ 0 < w (s i)) -> sample_pcov n (at_ a s) (at_ a s) (at_ c s) = 0.
  Proof.
    intros (Pa & Sa & Za) (Pc & Sc & Zc) H0 Hs.
    assert (T : exists t, forall k l, (k < K)%nat -> (l < K)%nat -> 0 < w k -> 0 < w l -> a k l = t * c k l).
    { unfold population_pcov in H0. destruct (Req_EM_T (population_dcov2 K w c c) 0) as [Z|Z].
      - exists 0. intros k l Hk Hl Wk Wl. rewrite (population_variance_zero K w a HD Sa Za H0 k l) by auto. ring.
      - set (t := population_dcov2 K w a c / population_dcov2 K w c c). exists t. intros k l Hk Hl Wk Wl.
        enough (X : (fun k l => a k l - t * c k l) k l = 0) by (cbv beta in X; lra).
        apply (population_variance_zero K w (fun k l => a k l - t * c k l) HD); auto.
        + intros. cbv beta. rewrite Sa, Sc. reflexivity.
        + intros. cbv beta. rewrite Za, Zc. ring.
        + rewrite population_difference. rewrite <- H0. unfold t. field. auto. }
    destruct T as (t & T). unfold sample_pcov.
    rewrite (udcov2_ext n (at_ a s) (at_ a s) (fun i j => t * at_ c s i j) (fun i j => t * at_ c s i j)),
      (udcov2_ext n (at_ a s) (at_ c s) (fun i j => t * at_ c s i j) (at_ c s)); auto;
      try (intros i j Hi Hj; unfold at_; apply T; apply Hs; auto).
    rewrite !udcov2_scal_l, !udcov2_scal_r. set (u := udcov2 n (at_ c s) (at_ c s)). destruct (Req_dec u 0) as [->|]; [ring|field; auto].
  Qed.

  Lemma population_pvar_nonneg a c : distancelike a -> distancelike c -> 0 <= population_pcov K w a a c.
  Proof.
    intros (Pa & Sa & Za) (Pc & Sc & Zc). unfold population_pcov. destruct (Req_EM_T (population_dcov2 K w c c) 0) as [Z|Z].
    - apply population_variance_nonneg; auto.
    - set (t := population_dcov2 K w a c / population_dcov2 K w c c).
      assert (0 <= population_dcov2 K w (fun k l => a k l - t * c k l) (fun k l => a k l - t * c k l)).
      { apply population_variance_nonneg; auto. intros. rewrite Sa, Sc. reflexivity. }
      rewrite population_difference in H. replace (_ - _) with
        (population_dcov2 K w a a - 2 * t * population_dcov2 K w a c + t * t * population_dcov2 K w c c); [exact H|]. unfold t. field. auto.
  Qed.

  Lemma consistent_pcor a b c : distancelike a -> distancelike b -> distancelike c ->
    consistent K w (fun n s => corr (sample_pcov n (at_ a s) (at_ b s) (at_ c s)) (sample_pcov n (at_ a s) (at_ a s) (at_ c s)) (sample_pcov n (at_ b s) (at_ b s) (at_ c s)))
      (corr (population_pcov K w a b c) (population_pcov K w a a c) (population_pcov K w b b c)).
  Proof.
    intros Ha Hb Hc. pose proof (population_pvar_nonneg a c Ha Hc) as Va. pose proof (population_pvar_nonneg b c Hb Hc) as Vb.
    destruct (Req_dec (population_pcov K w a a c * population_pcov K w b b c) 0) as [Z|Z].
    - assert (T0 : corr (population_pcov K w a b c) (population_pcov K w a a c) (population_pcov K w b b c) = 0).
      { rewrite corr_product, Z, sqrt_0, Rinv_0. ring. }
      rewrite T0. apply (consistent_possible K w (fun _ _ => 0) _ _ HD); [|apply consistent_const; auto]. intros n s Hn Hs. rewrite corr_product.
      apply Rmult_integral in Z. destruct Z as [Z|Z].
      + rewrite (pvar_degenerate a c n s Ha Hc Z Hs), Rmult_0_l, sqrt_0, Rinv_0. ring.
      + rewrite (pvar_degenerate b c n s Hb Hc Z Hs), Rmult_0_r, sqrt_0, Rinv_0. ring.
    - apply consistent_corr; auto using consistent_pcov.
      + destruct Va as [|E]; auto. exfalso. apply Z. rewrite <- E. ring.
      + destruct Vb as [|E]; auto. exfalso. apply Z. rewrite <- E. ring.
  Qed.
End Kernels.

Lemma dmat_distancelike e p X : distancelike (dmat e p X).
Proof. split; [intros; apply rpow_nonneg|]. split; [intros; apply dmat_sym_all|intros; apply dmat_hollow_all]. Qed.
Lemma drawn_triple ns dt ns' dt' ns'' dt'' n p q r X Y Z s : (4 <= n)%nat ->
  triple n (drawn ns dt n p X s) (drawn ns' dt' n q Y s) (drawn ns'' dt'' n r Z s).
Proof. intros. repeat split; auto using drawn_wf, drawn_shape. Qed.
Lemma drawn_pcov ns dt ns' dt' ns'' dt'' n p q r X Y Z s :
  pcov n (drawn ns dt n p X s) (drawn ns' dt' n q Y s) (drawn ns'' dt'' n r Z s)
  = sample_pcov n (fun i j => dmat 1 p X (s i) (s j)) (fun i j => dmat 1 q Y (s i) (s j)) (fun i j => dmat 1 r Z (s i) (s j)).
Proof.
  rewrite pcov_sample. unfold sample_pcov. f_equal; [|f_equal; [f_equal|f_equal]]; apply udcov2_ext; intros; apply drawn_distances; auto.
Qed.

(** The partial functions on independent draws of triples converge to the partial distance covariance and correlation of the
    distribution, also when it is degenerate. *)
Theorem C74_given_third E K w X Y Z p q r ns dt ns' dt' ns'' dt'' : valid_env E -> distribution K w ->
  let a := dmat 1 p X in let b := dmat 1 q Y in let c := dmat 1 r Z in
  let x n s := drawn ns dt n p X s in let y n s := drawn ns' dt' n q Y s in let z n s := drawn ns'' dt'' n r Z s in
  exists u v, (forall n s, (4 <= n)%nat -> outcome (partial_distance_covariance E (x n s) (y n s) (z n s)) = Ok (u n s)) /\
  (forall n s, (4 <= n)%nat -> outcome (partial_distance_correlation E (x n s) (y n s) (z n s)) = Ok (v n s)) /\
  consistent K w u (population_pcov K w a b c) /\
  consistent K w v (corr (population_pcov K w a b c) (population_pcov K w a a c) (population_pcov K w b b c)).
Proof.
  intros HE HD a b c x y z. set (at_ := fun (d : nat -> nat -> R) (s : nat -> nat) (i j : nat) => d (s i) (s j)).
  exists (fun n s => sample_pcov n (at_ a s) (at_ b s) (at_ c s)),
    (fun n s => corr (sample_pcov n (at_ a s) (at_ b s) (at_ c s)) (sample_pcov n (at_ a s) (at_ a s) (at_ c s)) (sample_pcov n (at_ b s) (at_ b s) (at_ c s))).
  split; [|split; [|split]].
  - intros n s Hn. unfold x, y, z. rewrite (C22_value E _ _ _ n) by auto using drawn_triple. rewrite drawn_pcov. reflexivity.
  - intros n s Hn. unfold x, y, z. rewrite (C23_value E _ _ _ n) by auto using drawn_triple. rewrite !drawn_pcov. reflexivity.
  - apply (consistent_pcov K w HD a b c); apply dmat_distancelike.
  - apply (consistent_pcor K w HD a b c); apply dmat_distancelike.
Qed.

(** A coin against itself, given another coin. *)
Lemma abs_table p q (X : nat -> nat -> R) : dist 1 (X p) (X q) = Rabs (X p 0%nat - X q 0%nat).
Proof. unfold dist. cbn. rewrite Rplus_0_l, Rmult_1_r. apply sqrt_Rsqr_abs. Qed.

Example C74_given_meets : exists u v,
  let x n s := drawn Numpy F64 n 1 coin s in let y n s := drawn Numpy F64 n 1 coin s in let z n s := drawn Numpy F64 n 1 other s in
  (forall n s, (4 <= n)%nat -> outcome (partial_distance_covariance (env_R true) (x n s) (y n s) (z n s)) = Ok (u n s)) /\
  (forall n s, (4 <= n)%nat -> outcome (partial_distance_correlation (env_R true) (x n s) (y n s) (z n s)) = Ok (v n s)) /\
  consistent 4 (fun _ => 1 / 4) u (1 / 4) /\ consistent 4 (fun _ => 1 / 4) v 1.
Proof.
  destruct (C74_given_third (env_R true) 4 (fun _ => 1 / 4) coin coin other 1 1 1 Numpy F64 Numpy F64 Numpy F64) as (u & v & Hu & Hv & Cu & Cv).
  - apply env_R_valid.
  - split; [intros; lra|cbn; lra].
  - exists u, v. cbv zeta.
    assert (D : forall k l, dmat 1 1 coin k l = Rabs (coin k 0%nat - coin l 0%nat) /\ dmat 1 1 other k l = Rabs (other k 0%nat - other l 0%nat)).
    { intros k l. unfold dmat. rewrite !abs_table, !rpow_1 by apply Rabs_pos. auto. }
    assert (A : forall x y : R, (x = 0 \/ x = 1) -> (y = 0 \/ y = 1) -> Rabs (x - y) = (x - y) * (x - y)).
    { intros x y [->| ->] [->| ->]; [rewrite Rabs_pos_eq|rewrite Rabs_left|rewrite Rabs_pos_eq|rewrite Rabs_pos_eq]; lra. }
    assert (V1 : population_dcov2 4 (fun _ => 1 / 4) (dmat 1 1 coin) (dmat 1 1 coin) = 1 / 4 /\
      population_dcov2 4 (fun _ => 1 / 4) (dmat 1 1 coin) (dmat 1 1 other) = 0 /\
      population_dcov2 4 (fun _ => 1 / 4) (dmat 1 1 other) (dmat 1 1 other) = 1 / 4).
    { rewrite !population_rows. unfold rsum2. cbn [rsum]. rewrite !(fun k l => proj1 (D k l)), !(fun k l => proj2 (D k l)).
      unfold coin, other. cbn [Nat.modulo Nat.divmod fst snd Nat.sub Nat.div]. cbn [INR].
      rewrite !A by auto. repeat split; field. }
    destruct V1 as (V1 & V2 & V3). unfold population_pcov in Cu, Cv. rewrite V1, V2, V3 in Cu, Cv.
    destruct (Req_EM_T (1 / 4) 0); [lra|]. replace (1 / 4 - 0 * 0 / (1 / 4)) with (1 / 4) in Cu, Cv by field. unfold corr in Cv.
    destruct (Req_EM_T (1 / 4 * (1 / 4)) 0); [lra|]. rewrite sqrt_square in Cv by lra. replace (1 / 4 / (1 / 4)) with 1 in Cv by field.
    auto.
Qed.
