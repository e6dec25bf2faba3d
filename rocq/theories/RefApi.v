(** Facts about calls of the distance covariance/correlation functions. *)
From Coq Require Import Reals Lra Lia List Arith Bool ZArith.
From Verif Require Import Num Numpy MUtils MDcor Sums Spec Centering Tab Samples Api RefDist RefDcor
  Psd PowerKernel Nonneg Empirical EnergyMath Invariance SpecFacts.
Local Open Scope R_scope.

Lemma call_ok f E x y n e m cm : valid_env E -> paired n x y -> (min_size f <= n)%nat -> 0 < e ->
  accepts m cm x y e ->
  call f E x y e m cm = Ok (value f n (distances e x) (distances e y)).
Proof.
  intros HE (Hx & Hy & Hnx & Hny & Hn) Hmin He Hacc. unfold call.
  destruct f; cbn [api_fn value min_size] in *.
  - apply dcov_sqr_ok; auto.
  - apply dcov_ok; auto.
  - apply dcor_sqr_ok; auto.
  - apply dcor_ok; auto.
  - apply u_dcov_sqr_ok; auto.
  - apply u_dcor_sqr_ok; auto.
Qed.

Lemma paired_sym n x y : paired n x y -> paired n y x.
Proof. unfold paired. tauto. Qed.

Lemma value_sym f n a b : value f n a b = value f n b a.
Proof.
  destruct f; cbn [value]; rewrite ?(dcov2_sym n a b), ?(dcor2_sym n a b); auto;
    [apply udcov2_sym|apply udcor2_sym].
Qed.

Lemma value_ext f n a b a' b' :
  (forall i j, (i < n)%nat -> (j < n)%nat -> a i j = a' i j) ->
  (forall i j, (i < n)%nat -> (j < n)%nat -> b i j = b' i j) ->
  value f n a b = value f n a' b'.
Proof.
  intros Ha Hb.
  assert (E1 : dcov2 n a b = dcov2 n a' b') by (apply dcov2_ext; auto).
  assert (E2 : dcov2 n a a = dcov2 n a' a') by (apply dcov2_ext; auto).
  assert (E3 : dcov2 n b b = dcov2 n b' b') by (apply dcov2_ext; auto).
  assert (E4 : udcov2 n a b = udcov2 n a' b') by (apply udcov2_ext; auto).
  assert (E5 : udcov2 n a a = udcov2 n a' a') by (apply udcov2_ext; auto).
  assert (E6 : udcov2 n b b = udcov2 n b' b') by (apply udcov2_ext; auto).
  destruct f; cbn [value]; unfold dcor2, udcor2; congruence.
Qed.

Lemma value_relabel f n q a b : perm_on n q -> value f n (relabel q a) (relabel q b) = value f n a b.
Proof.
  intros Hq. destruct f; cbn [value].
  - apply dcov2_relabel; auto.
  - rewrite dcov2_relabel; auto.
  - apply dcor2_relabel; auto.
  - rewrite dcor2_relabel; auto.
  - apply udcov2_relabel; auto.
  - apply udcor2_relabel; auto.
Qed.

Lemma accepts_form m cm x y x' y' e : same_form x x' -> same_form y y' ->
  accepts m cm x y e -> accepts m cm x' y' e.
Proof.
  intros (Ax & Dx & Cx & Nx & _) (Ay & Dy & Cy & Ny & _).
  destruct m; cbn [accepts]; unfold fast_case, some_numpy, accepts_naive, accepts_avl, accepts_mergesort, mergesort_dtypes,
    forced_f64, is_float64, is_object, univariate, some_numpy;
    rewrite ?Ax, ?Dx, ?Cx, ?Nx, ?Ay, ?Dy, ?Cy, ?Ny; auto.
Qed.

Lemma paired_form n x y x' y' : same_form x x' -> same_form y y' -> paired n x y -> paired n x' y'.
Proof.
  intros (_ & _ & _ & Nx & Wx) (_ & _ & _ & Ny & Wy) (_ & _ & H1 & H2 & H3).
  unfold paired. rewrite Nx, Ny. auto.
Qed.

Lemma same_form_refl x : wf x -> same_form x x.
Proof. unfold same_form; auto. Qed.

Lemma isometric_distances e x x' i j : isometric x x' -> (i < shape0 x)%nat -> (j < shape0 x)%nat ->
  distances e x' i j = distances e x i j.
Proof. intros [_ H] Hi Hj. unfold distances, dmat. rewrite H; auto. Qed.

Lemma translated_isometric c x x' : translated c x x' -> isometric x x'.
Proof.
  intros [(_ & _ & Hc & Hn & _) H]. split; auto. intros i j Hi Hj. rewrite Hc. unfold dist. f_equal.
  apply rsum_ext. intros k Hk. rewrite !H by auto. ring.
Qed.

Lemma rotated_isometric Q x x' : rotated Q x x' -> isometric x x'.
Proof.
  intros (HQ & (_ & _ & Hc & Hn & _) & H). split; auto. intros i j Hi Hj. rewrite Hc. unfold dist. f_equal.
  set (p := ncols x) in *. set (d := fun l => obs x i l - obs x j l).
  rewrite (rsum_ext p _ (fun r => rsum2 p p (fun k l => d k * d l * (Q r k * Q r l)))).
  - unfold rsum2. rewrite rsum_swap. apply rsum_ext. intros k Hk. rewrite rsum_swap.
    rewrite (rsum_ext p _ (fun l => d k * d l * (if Nat.eqb k l then 1 else 0))).
    + rewrite (rsum_ext p _ (fun l => if Nat.eqb l k then d k * d k else 0)).
      * rewrite (rsum_delta p k (fun _ => d k * d k)) by auto. unfold d. ring.
      * intros l Hl. rewrite (Nat.eqb_sym k l). destruct (Nat.eqb_spec l k); [subst; ring|ring].
    + intros l Hl. rewrite rsum_scal_l. rewrite HQ by auto. reflexivity.
  - intros r Hr. rewrite !H by auto. rewrite <- rsum_minus.
    rewrite (rsum_ext p _ (fun l => Q r l * d l)) by (intros; unfold d; ring).
    replace (rsum p (fun l => Q r l * d l) ^ 2)
      with (rsum p (fun l => Q r l * d l) * rsum p (fun l => Q r l * d l)) by ring.
    rewrite rsum_mult. apply rsum2_ext. intros. ring.
Qed.

Lemma scaled_distances s e x x' i j : scaled s x x' -> (i < shape0 x)%nat -> (j < shape0 x)%nat ->
  distances e x' i j = rpow (Rabs s) e * distances e x i j.
Proof.
  intros [(_ & _ & Hc & Hn & _) H] Hi Hj. unfold distances. rewrite Hc.
  rewrite <- dmat_scal. apply dmat_ext; intros; apply H; auto.
Qed.

Lemma reordered_distances q e x x' i j : reordered q x x' -> (i < shape0 x)%nat -> (j < shape0 x)%nat ->
  distances e x' i j = relabel q (distances e x) i j.
Proof.
  intros [(_ & _ & Hc & Hn & _) H] Hi Hj. unfold distances, relabel. rewrite Hc.
  unfold dmat. f_equal. apply dist_ext; intros; apply H; auto.
Qed.
