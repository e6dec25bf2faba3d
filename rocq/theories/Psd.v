(** Positive semi-definite kernels on a finite index set, closed under Schur products with
    Gaussian kernels. *)
From Coq Require Import Reals Lra Lia List Arith Bool.
From Verif Require Import Sums Spec Centering.
Local Open Scope R_scope.

Definition psd (n : nat) (K : nat -> nat -> R) : Prop :=
  forall c : nat -> R, 0 <= rsum2 n n (fun i j => c i * c j * K i j).

(** Kernels whose entrywise product with a psd kernel is psd. *)
Definition schur (n : nat) (K : nat -> nat -> R) : Prop :=
  forall L, psd n L -> psd n (fun i j => K i j * L i j).

Lemma psd_ext n K L : (forall i j, (i < n)%nat -> (j < n)%nat -> K i j = L i j) -> psd n K -> psd n L.
Proof.
  intros H HK c. specialize (HK c). erewrite rsum2_ext; [exact HK|].
  intros. cbv beta. rewrite H by auto. reflexivity.
Qed.

Lemma psd_one n : psd n (fun _ _ => 1).
Proof.
  intros c. rewrite (rsum2_ext n n _ (fun i j => c i * c j)) by (intros; ring).
  rewrite <- rsum_mult. apply Rle_0_sqr.
Qed.

Lemma schur_psd n K : schur n K -> psd n K.
Proof.
  intros H. apply (psd_ext n (fun i j => K i j * 1)); [intros; ring|]. apply H, psd_one.
Qed.

Lemma schur_ext n K L : (forall i j, (i < n)%nat -> (j < n)%nat -> K i j = L i j) -> schur n K -> schur n L.
Proof.
  intros H HK M HM. apply (psd_ext n (fun i j => K i j * M i j)); auto.
  intros. rewrite H by auto. reflexivity.
Qed.

Lemma schur_rank1 n u : schur n (fun i j => u i * u j).
Proof.
  intros L HL c. specialize (HL (fun i => c i * u i)).
  erewrite rsum2_ext; [exact HL|]. intros. cbv beta. ring.
Qed.

Lemma schur_one n : schur n (fun _ _ => 1).
Proof. apply (schur_ext n (fun i j => 1 * 1)); [intros; ring|]. apply (schur_rank1 n (fun _ => 1)). Qed.

Lemma schur_zero n : schur n (fun _ _ => 0).
Proof. apply (schur_ext n (fun i j => 0 * 0)); [intros; ring|]. apply (schur_rank1 n (fun _ => 0)). Qed.

Lemma schur_plus n K L : schur n K -> schur n L -> schur n (fun i j => K i j + L i j).
Proof.
  intros HK HL M HM c. pose proof (HK M HM c) as H1. pose proof (HL M HM c) as H2.
  rewrite (rsum2_ext n n _ (fun i j => c i * c j * (K i j * M i j) + c i * c j * (L i j * M i j)))
    by (intros; ring).
  rewrite rsum2_plus. lra.
Qed.

Lemma schur_scal n k K : 0 <= k -> schur n K -> schur n (fun i j => k * K i j).
Proof.
  intros Hk HK M HM c. pose proof (HK M HM c) as H1.
  rewrite (rsum2_ext n n _ (fun i j => k * (c i * c j * (K i j * M i j)))) by (intros; ring).
  rewrite rsum2_scal_l. apply Rmult_le_pos; auto.
Qed.

Lemma schur_mult n K L : schur n K -> schur n L -> schur n (fun i j => K i j * L i j).
Proof.
  intros HK HL M HM. apply (psd_ext n (fun i j => K i j * (L i j * M i j))); [intros; ring|].
  apply HK, HL, HM.
Qed.

Lemma schur_sum n p K : (forall k, (k < p)%nat -> schur n (K k)) ->
  schur n (fun i j => rsum p (fun k => K k i j)).
Proof.
  induction p; intros H; cbn [rsum]; [apply schur_zero|].
  apply schur_plus; [apply IHp; intros; apply H; lia|apply H; lia].
Qed.

Lemma schur_pow n K m : schur n K -> schur n (fun i j => K i j ^ m).
Proof.
  intros H. induction m; [apply schur_one|]. apply (schur_mult n K _ H IHm).
Qed.

(** Limits. *)
Lemma rsum_cv n (u : nat -> nat -> R) l : (forall i, (i < n)%nat -> Un_cv (fun N => u N i) (l i)) ->
  Un_cv (fun N => rsum n (u N)) (rsum n l).
Proof.
  induction n; intros H; cbn [rsum].
  - intros eps He. exists 0%nat. intros. unfold R_dist. rewrite Rminus_eq_0, Rabs_R0. auto.
  - apply CV_plus; [apply IHn; intros; apply H; lia|apply H; lia].
Qed.

Lemma Un_cv_const c : Un_cv (fun _ => c) c.
Proof. intros eps He. exists 0%nat. intros. unfold R_dist. rewrite Rminus_eq_0, Rabs_R0. auto. Qed.

Lemma Un_cv_nonneg u l : (forall N, 0 <= u N) -> Un_cv u l -> 0 <= l.
Proof.
  intros H Hc. refine (Rle_cv_lim H (Un_cv_const 0) Hc).
Qed.

Lemma psd_limit n (K : nat -> nat -> nat -> R) L : (forall N, psd n (K N)) ->
  (forall i j, (i < n)%nat -> (j < n)%nat -> Un_cv (fun N => K N i j) (L i j)) -> psd n L.
Proof.
  intros HK Hc c. apply (Un_cv_nonneg (fun N => rsum2 n n (fun i j => c i * c j * K N i j))).
  - intros N. apply HK.
  - unfold rsum2. apply (rsum_cv n (fun N i => rsum n (fun j => c i * c j * K N i j))).
    intros i Hi. apply (rsum_cv n (fun N j => c i * c j * K N i j)). intros j Hj.
    apply CV_mult; [apply Un_cv_const|auto].
Qed.

Lemma schur_limit n (K : nat -> nat -> nat -> R) L : (forall N, schur n (K N)) ->
  (forall i j, (i < n)%nat -> (j < n)%nat -> Un_cv (fun N => K N i j) (L i j)) -> schur n L.
Proof.
  intros HK Hc M HM. apply (psd_limit n (fun N i j => K N i j * M i j)).
  - intros N. apply HK, HM.
  - intros i j Hi Hj. apply CV_mult; [auto|apply Un_cv_const].
Qed.

Lemma schur_exp n K : schur n K -> schur n (fun i j => exp (K i j)).
Proof.
  intros HK. apply (schur_limit n (fun N i j => E1 (K i j) N)).
  - intros N. unfold E1. induction N; cbn [sum_f_R0].
    + apply schur_scal; [|apply schur_pow, HK]. left. apply Rinv_0_lt_compat, INR_fact_lt_0.
    + apply (schur_plus n _ (fun i j => / INR (fact (S N)) * K i j ^ S N)); auto.
      apply schur_scal; [|apply schur_pow, HK]. left. apply Rinv_0_lt_compat, INR_fact_lt_0.
  - intros i j _ _. apply E1_cvg.
Qed.

(** The Gaussian kernel. *)
Definition sqdist (p : nat) (u v : nat -> R) : R := rsum p (fun k => (u k - v k) ^ 2).

Lemma sqdist_nonneg p u v : 0 <= sqdist p u v.
Proof. apply rsum_nonneg. intros. apply pow2_ge_0. Qed.

Lemma gauss_schur n p t X : 0 <= t -> schur n (fun i j => exp (- (t * sqdist p (X i) (X j)))).
Proof.
  intros Ht. set (N2 := fun i => rsum p (fun k => X i k ^ 2)).
  apply (schur_ext n (fun i j => (exp (- (t * N2 i)) * exp (- (t * N2 j)))
                                 * exp (2 * t * rsum p (fun k => X i k * X j k)))).
  - intros i j _ _. rewrite <- !exp_plus. f_equal. unfold sqdist, N2.
    rewrite (rsum_ext p (fun k => (X i k - X j k) ^ 2)
      (fun k => X i k ^ 2 + X j k ^ 2 - 2 * (X i k * X j k))) by (intros; ring).
    rewrite rsum_minus, rsum_plus, rsum_scal_l. ring.
  - apply schur_mult; [apply (schur_rank1 n (fun i => exp (- (t * N2 i))))|].
    apply schur_exp, schur_scal; [lra|]. apply schur_sum. intros k _.
    apply (schur_rank1 n (fun i => X i k)).
Qed.

(** ** Double centring is self-adjoint and preserves psd *)

Lemma dcenter_adjoint n a b : (1 <= n)%nat ->
  rsum2 n n (fun i j => dcenter n a i j * b i j) = rsum2 n n (fun i j => a i j * dcenter n b i j).
Proof.
  intros Hn.
  rewrite <- (dcenter_product_l n a (dcenter n b)); auto;
    [|intros; apply dcenter_row_sum; auto|intros; apply dcenter_col_sum; auto].
  rewrite (rsum2_ext n n (fun i j => dcenter n a i j * b i j) (fun i j => b i j * dcenter n a i j))
    by (intros; ring).
  rewrite <- (dcenter_product_l n b (dcenter n a)); auto;
    [|intros; apply dcenter_row_sum; auto|intros; apply dcenter_col_sum; auto].
  apply rsum2_ext; intros; ring.
Qed.

Lemma dcenter_rank1 n c d i j : (1 <= n)%nat ->
  dcenter n (fun i j => c i * d j) i j = (c i - mean n c) * (d j - mean n d).
Proof.
  intros Hn. pose proof (INR_pos n Hn). unfold dcenter, mean.
  rewrite rsum_div, rsum_scal_l, rsum_scal_r.
  rewrite (rsum_ext n (fun k => rsum n (fun l => c k * d l)) (fun k => c k * rsum n d))
    by (intros; rewrite rsum_scal_l; reflexivity).
  rewrite rsum_scal_r. eta. field. lra.
Qed.

Lemma psd_dcenter n K : (1 <= n)%nat -> psd n K -> psd n (dcenter n K).
Proof.
  intros Hn HK c. specialize (HK (fun i => c i - mean n c)).
  rewrite (rsum2_ext n n _ (fun i j => dcenter n K i j * (c i * c j))) by (intros; ring).
  rewrite (dcenter_adjoint n K (fun i j => c i * c j)) by auto.
  erewrite rsum2_ext; [exact HK|]. intros. cbv beta. rewrite dcenter_rank1 by auto. ring.
Qed.

Lemma dcenter_total n a : (1 <= n)%nat -> rsum2 n n (dcenter n a) = 0.
Proof.
  intros Hn. unfold rsum2. apply rsum_zero. intros i Hi. apply (dcenter_row_sum n a i); auto.
Qed.

(** The entrywise pairing of a centred Gaussian kernel with another one. *)
Lemma gauss_pairing_nonneg n p q t s X Y : (1 <= n)%nat -> 0 <= t -> 0 <= s ->
  0 <= rsum2 n n (fun i j => dcenter n (fun i j => exp (- (t * sqdist p (X i) (X j)))) i j
                             * exp (- (s * sqdist q (Y i) (Y j)))).
Proof.
  intros Hn Ht Hs.
  pose proof (gauss_schur n q s Y Hs _ (psd_dcenter n _ Hn (schur_psd n _ (gauss_schur n p t X Ht)))
                (fun _ => 1)) as H.
  erewrite rsum2_ext; [exact H|]. intros. cbv beta. ring.
Qed.
