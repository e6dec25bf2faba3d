(** Conditional negative definiteness of powers of the Euclidean distance, and its consequences
    for the specification of distance covariance. *)
From Coq Require Import Reals Lra Lia List Arith Bool.
From Verif Require Import Sums Spec Centering Psd PowerKernel.
Local Open Scope R_scope.

Lemma rsum_flatten n m f : rsum2 n m f = rsum (n * m) (fun k => f (k / m)%nat (k mod m)%nat).
Proof.
  unfold rsum2. induction n; [reflexivity|].
  replace (S n * m)%nat with (n * m + m)%nat by lia. rewrite rsum_app, <- IHn. cbn [rsum].
  f_equal. apply rsum_ext. intros i Hi.
  replace (n * m + i)%nat with (i + n * m)%nat by lia.
  rewrite Nat.div_add, Nat.mod_add, Nat.div_small, Nat.mod_small by lia. reflexivity.
Qed.

Lemma dist_sqdist p u v : dist p u v = sqrt (sqdist p u v).
Proof. reflexivity. Qed.

Lemma rpow_pw s e : 0 <= s -> rpow (sqrt s) e = pw s (e / 2).
Proof.
  intros Hs. unfold rpow, pw. destruct (Req_EM_T s 0) as [->|Hne].
  - rewrite sqrt_0. destruct (Rle_dec 0 0); [reflexivity|lra].
  - assert (0 < s) by lra. pose proof (sqrt_lt_R0 s H).
    destruct (Rle_dec (sqrt s) 0); [lra|]. unfold Rpower. f_equal.
    rewrite <- (sqrt_sqrt s Hs) at 2. rewrite ln_mult by auto. field.
Qed.

Lemma dmat_pw e p X i j : dmat e p X i j = pw (sqdist p (X i) (X j)) (e / 2).
Proof. unfold dmat. rewrite dist_sqdist, rpow_pw; auto. apply sqdist_nonneg. Qed.

(** Exponent 2: [q] itself is the derivative of [1 - exp (- t q)] at [0]. *)
Lemma exp_slope_cv q : Un_cv (fun N => (1 - exp (- (/ INR (S N) * q))) / / INR (S N)) q.
Proof.
  assert (Hd : derivable_pt_lim (fun t => - exp (- (t * q))) 0 q).
  { assert (H : derivable_pt_lim (fun t => - exp (- (t * q))) 0 (- (exp (- (0 * q)) * - q))).
    { apply (derivable_pt_lim_opp (fun t => exp (- (t * q)))).
      apply (derivable_pt_lim_comp (fun t => - (t * q)) exp).
      - apply (derivable_pt_lim_opp (fun t => t * q)).
        replace q with (1 * q + 0 * 0) at 1 by ring.
        pose proof (derivable_pt_lim_mult id (fct_cte q) 0 1 0 (derivable_pt_lim_id 0)
                      (derivable_pt_lim_const q 0)) as H. unfold mult_fct, id, fct_cte in H.
        exact H.
      - apply derivable_pt_lim_exp. }
    assert (E : - (exp (- (0 * q)) * - q) = q) by (rewrite Rmult_0_l, Ropp_0, exp_0; ring).
    rewrite E in H. exact H. }
  intros eps He. destruct (Hd eps He) as [del Hdel].
  destruct (archimed_cor1 del (cond_pos del)) as (N0 & HN0 & HN0').
  exists N0. intros N HN. unfold R_dist.
  assert (HI : 0 < INR (S N)) by (apply lt_0_INR; lia).
  assert (HI' : 0 < / INR (S N)) by (apply Rinv_0_lt_compat; auto).
  assert (Hlt : / INR (S N) < del).
  { apply Rle_lt_trans with (/ INR N0); auto. apply Rinv_le_contravar.
    - apply lt_0_INR; lia.
    - apply le_INR. lia. }
  specialize (Hdel (/ INR (S N))). rewrite Rplus_0_l, Rmult_0_l, Ropp_0, exp_0 in Hdel.
  replace ((1 - exp (- (/ INR (S N) * q))) / / INR (S N) - q)
    with ((- exp (- (/ INR (S N) * q)) - - 1) / / INR (S N) - q) by (field; lra).
  apply Hdel; [lra|]. rewrite Rabs_pos_eq; lra.
Qed.

Section Key.
Context (n p : nat) (X : nat -> nat -> R) (P : nat -> nat -> R).
Hypothesis HP : rsum2 n n P = 0.
Hypothesis Hg : forall t, 0 < t -> 0 <= rsum2 n n (fun i j => P i j * exp (- (t * sqdist p (X i) (X j)))).

Lemma cnd_nonpos e : 0 < e <= 2 -> rsum2 n n (fun i j => P i j * dmat e p X i j) <= 0.
Proof.
  intros He. destruct (Req_dec e 2) as [->|Hne].
  - enough (0 <= - rsum2 n n (fun i j => P i j * dmat 2 p X i j)) by lra.
    rewrite <- rsum2_opp.
    apply (Un_cv_nonneg (fun N => rsum2 n n (fun i j =>
             - P i j * ((1 - exp (- (/ INR (S N) * sqdist p (X i) (X j)))) / / INR (S N))))).
    + intros N. assert (HI : 0 < INR (S N)) by (apply lt_0_INR; lia).
      assert (HI' : 0 < / INR (S N)) by (apply Rinv_0_lt_compat; auto).
      rewrite (rsum2_ext n n _ (fun i j => INR (S N) *
         (P i j * exp (- (/ INR (S N) * sqdist p (X i) (X j))) - P i j))).
      * rewrite rsum2_scal_l, rsum2_minus. specialize (Hg (/ INR (S N)) HI').
        apply Rmult_le_pos; [lra|]. rewrite HP. lra.
      * intros. field. lra.
    + unfold rsum2. apply (rsum_cv n (fun N i => rsum n (fun j =>
             - P i j * ((1 - exp (- (/ INR (S N) * sqdist p (X i) (X j)))) / / INR (S N))))).
      intros i Hi. apply (rsum_cv n (fun N j =>
             - P i j * ((1 - exp (- (/ INR (S N) * sqdist p (X i) (X j)))) / / INR (S N)))).
      intros j Hj. replace (- (P i j * dmat 2 p X i j)) with (- P i j * sqdist p (X i) (X j)).
      * apply CV_mult; [apply Un_cv_const|apply exp_slope_cv].
      * rewrite dmat_pw. unfold pw. destruct (Req_EM_T (sqdist p (X i) (X j)) 0) as [E|E].
        -- rewrite E. ring.
        -- replace (2 / 2) with 1 by field. rewrite Rpower_1; [ring|].
           pose proof (sqdist_nonneg p (X i) (X j)). lra.
  - rewrite rsum_flatten.
    pose proof (mix_nonpos (n * n) (fun k => P (k / n)%nat (k mod n)%nat)
       (fun k => sqdist p (X (k / n)%nat) (X (k mod n)%nat)) (e / 2)) as H.
    rewrite rsum_flatten in HP.
    assert (H' : forall k, (k < n * n)%nat -> 0 <= sqdist p (X (k / n)%nat) (X (k mod n)%nat))
      by (intros; apply sqdist_nonneg).
    specialize (H ltac:(lra) H' HP).
    erewrite rsum_ext; [apply H|].
    + intros t Ht. rewrite <- (rsum_flatten n n (fun i j => P i j * exp (- (t * sqdist p (X i) (X j))))).
      auto.
    + intros k Hk. cbv beta. rewrite dmat_pw. reflexivity.
Qed.

Lemma cnd_zero e : 0 < e < 2 -> rsum2 n n (fun i j => P i j * dmat e p X i j) = 0 ->
  forall t, 0 < t -> rsum2 n n (fun i j => P i j * exp (- (t * sqdist p (X i) (X j)))) = 0.
Proof.
  intros He H0 t Ht.
  pose proof (mix_zero (n * n) (fun k => P (k / n)%nat (k mod n)%nat)
       (fun k => sqdist p (X (k / n)%nat) (X (k mod n)%nat)) (e / 2)) as H.
  rewrite rsum_flatten in HP.
  assert (H' : forall k, (k < n * n)%nat -> 0 <= sqdist p (X (k / n)%nat) (X (k mod n)%nat))
    by (intros; apply sqdist_nonneg).
  specialize (H ltac:(lra) H' HP).
  rewrite rsum_flatten. apply H; auto.
  - intros s Hs. rewrite <- (rsum_flatten n n (fun i j => P i j * exp (- (s * sqdist p (X i) (X j))))).
    auto.
  - rewrite <- H0, rsum_flatten. apply rsum_ext. intros k Hk. cbv beta. rewrite dmat_pw. reflexivity.
Qed.
End Key.

(** ** Distance covariance *)
Definition gauss (t : R) (p : nat) (X : nat -> nat -> R) (i j : nat) : R :=
  exp (- (t * sqdist p (X i) (X j))).

Section Dcov.
Context (n p q : nat) (X Y : nat -> nat -> R) (e f : R).
Hypothesis Hn : (1 <= n)%nat.

Lemma dcov2_pairing a b : dcov2 n a b = rsum2 n n (fun i j => a i j * dcenter n b i j) / (INR n * INR n).
Proof.
  clear X Y e f p q.
  rewrite dcov2_half by auto. pose proof (INR_pos n Hn). field. lra.
Qed.

Lemma inner_nonneg t : 0 < t -> 0 < f <= 2 ->
  rsum2 n n (fun i j => dcenter n (gauss t p X) i j * dmat f q Y i j) <= 0.
Proof.
  intros Ht Hf. apply (cnd_nonpos n q Y (dcenter n (gauss t p X))); auto.
  - apply dcenter_total; auto.
  - intros s Hs. apply gauss_pairing_nonneg; auto; lra.
Qed.

Lemma outer_nonneg t : 0 < t -> 0 < f <= 2 ->
  0 <= rsum2 n n (fun i j => - dcenter n (dmat f q Y) i j * exp (- (t * sqdist p (X i) (X j)))).
Proof.
  intros Ht Hf. pose proof (inner_nonneg t Ht Hf) as H.
  rewrite (rsum2_ext n n _ (fun i j => - (dcenter n (dmat f q Y) i j * gauss t p X i j)))
    by (intros; unfold gauss; ring).
  rewrite rsum2_opp, dcenter_adjoint by auto.
  rewrite (rsum2_ext n n (fun i j => dmat f q Y i j * _)
     (fun i j => dcenter n (gauss t p X) i j * dmat f q Y i j)) by (intros; ring).
  lra.
Qed.

Lemma neg_dcenter_total b : rsum2 n n (fun i j => - dcenter n b i j) = 0.
Proof.
  rewrite (rsum2_opp n n (dcenter n b)). rewrite dcenter_total by auto. ring.
Qed.

Theorem dcov2_nonneg : 0 < e <= 2 -> 0 < f <= 2 -> 0 <= dcov2 n (dmat e p X) (dmat f q Y).
Proof.
  intros He Hf. rewrite dcov2_pairing.
  pose proof (cnd_nonpos n p X (fun i j => - dcenter n (dmat f q Y) i j)
                (neg_dcenter_total _) (fun t Ht => outer_nonneg t Ht Hf) e He) as H.
  rewrite (rsum2_ext n n _ (fun i j => - (dmat e p X i j * dcenter n (dmat f q Y) i j))) in H
    by (intros; ring).
  rewrite rsum2_opp in H. pose proof (INR_pos n Hn).
  apply Rmult_le_pos; [lra|]. left. apply Rinv_0_lt_compat. apply Rmult_lt_0_compat; auto.
Qed.

Theorem dcov2_zero_gauss : 0 < e < 2 -> 0 < f < 2 -> dcov2 n (dmat e p X) (dmat f q Y) = 0 ->
  forall t s, 0 < t -> 0 < s ->
  rsum2 n n (fun i j => dcenter n (gauss t p X) i j * gauss s q Y i j) = 0.
Proof.
  intros He Hf H0 t s Ht Hs. rewrite dcov2_pairing in H0.
  pose proof (INR_pos n Hn) as Hnp. assert (Hnn : 0 < INR n * INR n) by (apply Rmult_lt_0_compat; auto).
  assert (H1 : rsum2 n n (fun i j => dmat e p X i j * dcenter n (dmat f q Y) i j) = 0).
  { apply (f_equal (fun z => z * (INR n * INR n))) in H0. rewrite Rmult_0_l in H0.
    rewrite <- H0. field. lra. }
  pose proof (cnd_zero n p X (fun i j => - dcenter n (dmat f q Y) i j)
                (neg_dcenter_total _) (fun t Ht => outer_nonneg t Ht ltac:(lra)) e He) as H2.
  assert (H3 : rsum2 n n (fun i j => dcenter n (gauss t p X) i j * dmat f q Y i j) = 0).
  { assert (H4 : rsum2 n n (fun i j => - dcenter n (dmat f q Y) i j * dmat e p X i j) = 0).
    { rewrite (rsum2_ext n n _ (fun i j => - (dmat e p X i j * dcenter n (dmat f q Y) i j)))
        by (intros; ring). rewrite rsum2_opp, H1. ring. }
    specialize (H2 H4 t Ht).
    rewrite (rsum2_ext n n _ (fun i j => - (dcenter n (dmat f q Y) i j * gauss t p X i j))) in H2
      by (intros; unfold gauss; ring).
    rewrite rsum2_opp, dcenter_adjoint in H2 by auto.
    rewrite (rsum2_ext n n (fun i j => dmat f q Y i j * _)
       (fun i j => dcenter n (gauss t p X) i j * dmat f q Y i j)) in H2 by (intros; ring).
    lra. }
  apply (cnd_zero n q Y (dcenter n (gauss t p X))) with (e := f); auto.
  - apply dcenter_total; auto.
  - intros r Hr. apply gauss_pairing_nonneg; auto; lra.
Qed.
End Dcov.
