(** Empirical frequencies: vanishing distance covariance and empirical independence, vanishing
    energy distance and equal empirical distributions. *)
From Coq Require Import Reals Lra Lia List Arith Bool.
From Verif Require Import Sums Spec Centering Psd PowerKernel Nonneg.
Local Open Scope R_scope.

Lemma same_pointb_true p u v : same_pointb p u v = true <-> same_point p u v.
Proof.
  unfold same_pointb, same_point. rewrite forallb_forall. split.
  - intros H k Hk. specialize (H k). rewrite in_seq in H. specialize (H ltac:(lia)).
    destruct (Req_EM_T (u k) (v k)); auto; discriminate.
  - intros H k Hk. apply in_seq in Hk. destruct (Req_EM_T (u k) (v k)) as [|Hne]; auto.
    exfalso. apply Hne, H. lia.
Qed.

Definition dl (p : nat) (u v : nat -> R) : R := if same_pointb p u v then 1 else 0.

Lemma same_point_sym p u v : same_point p u v -> same_point p v u.
Proof. intros H k Hk. symmetry. auto. Qed.
Lemma same_point_trans p u v w : same_point p u v -> same_point p v w -> same_point p u w.
Proof. intros H H' k Hk. rewrite H, H' by auto. auto. Qed.
Lemma same_point_refl p u : same_point p u u.
Proof. intros k Hk. auto. Qed.

Lemma dl_sym p u v : dl p u v = dl p v u.
Proof.
  unfold dl. destruct (same_pointb p u v) eqn:A, (same_pointb p v u) eqn:B; auto; exfalso.
  - apply same_pointb_true, same_point_sym, same_pointb_true in A. congruence.
  - apply same_pointb_true, same_point_sym, same_pointb_true in B. congruence.
Qed.
Lemma dl_refl p u : dl p u u = 1.
Proof.
  unfold dl. replace (same_pointb p u u) with true; auto. symmetry. apply same_pointb_true, same_point_refl.
Qed.
Lemma dl_idem p u v : dl p u v * dl p u v = dl p u v.
Proof. unfold dl. destruct (same_pointb p u v); ring. Qed.
Lemma dl_range p u v : 0 <= dl p u v <= 1.
Proof. unfold dl. destruct (same_pointb p u v); lra. Qed.
Lemma dl_case p u v : (same_point p u v /\ dl p u v = 1) \/ (~ same_point p u v /\ dl p u v = 0).
Proof.
  unfold dl. destruct (same_pointb p u v) eqn:A; [left|right]; split; auto.
  - apply same_pointb_true; auto.
  - intros H. apply same_pointb_true in H. congruence.
Qed.
Lemma dl_trans p u v w : dl p u v * dl p u w = dl p u v * dl p v w.
Proof.
  destruct (dl_case p u v) as [[H ->]|[H ->]]; [|ring].
  destruct (dl_case p u w) as [[H1 ->]|[H1 ->]], (dl_case p v w) as [[H2 ->]|[H2 ->]]; try ring; exfalso.
  - apply H2. eapply same_point_trans; [apply same_point_sym|]; eauto.
  - apply H1. eapply same_point_trans; eauto.
Qed.

Lemma sqdist_zero p u v : sqdist p u v = 0 <-> same_point p u v.
Proof.
  unfold sqdist. split.
  - intros H k Hk.
    pose proof (rsum_zero_all p (fun k => (u k - v k) ^ 2) (fun k _ => pow2_ge_0 _) H k Hk) as H'.
    cbv beta in H'. assert (u k - v k = 0); [|lra].
    apply Rsqr_0_uniq. unfold Rsqr. rewrite <- H'. ring.
  - intros H. apply rsum_zero. intros k Hk. rewrite H by auto. ring.
Qed.

(** The Gaussian kernel tends to the indicator of equality. *)
Lemma gauss_limit p X i j : Un_cv (fun N => gauss (INR (S N)) p X i j) (dl p (X i) (X j)).
Proof.
  unfold gauss. destruct (dl_case p (X i) (X j)) as [[H ->]|[H ->]].
  - apply sqdist_zero in H. rewrite H.
    apply (Un_cv_ext (fun _ => 1)); [|apply Un_cv_const].
    intros N. rewrite Rmult_0_r, Ropp_0, exp_0. reflexivity.
  - rewrite <- sqdist_zero in H. pose proof (sqdist_nonneg p (X i) (X j)) as H1.
    set (s := sqdist p (X i) (X j)) in *. assert (Hs : 0 < s) by lra. clearbody s.
    intros eps He.
    destruct (archimed_cor1 (s * eps)) as (N0 & HN0 & HN0'); [apply Rmult_lt_0_compat; auto|].
    exists N0. intros N HN. unfold R_dist. rewrite Rminus_0_r.
    rewrite Rabs_pos_eq by (left; apply exp_pos).
    assert (HI : 0 < INR (S N)) by (apply lt_0_INR; lia).
    assert (HI0 : 0 < INR N0) by (apply lt_0_INR; lia).
    assert (Hp : 0 < INR (S N) * s) by (apply Rmult_lt_0_compat; auto).
    rewrite exp_Ropp. apply Rlt_trans with (/ (INR (S N) * s)).
    + apply Rinv_lt_contravar; [apply Rmult_lt_0_compat; [auto|apply exp_pos]|].
      pose proof (exp_ineq1 (INR (S N) * s) ltac:(lra)). lra.
    + apply Rle_lt_trans with (/ (INR N0 * s)).
      * apply Rinv_le_contravar; [apply Rmult_lt_0_compat; auto|].
        apply Rmult_le_compat_r; [lra|]. apply le_INR. lia.
      * rewrite Rinv_mult_distr by lra. apply (Rmult_lt_reg_l s); auto.
        replace (s * (/ INR N0 * / s)) with (/ INR N0) by (field; lra). auto.
Qed.

Lemma rsum2_cv n m (u : nat -> nat -> nat -> R) l :
  (forall i j, (i < n)%nat -> (j < m)%nat -> Un_cv (fun N => u N i j) (l i j)) ->
  Un_cv (fun N => rsum2 n m (u N)) (rsum2 n m l).
Proof.
  intros H. unfold rsum2. apply (rsum_cv n (fun N i => rsum m (u N i))).
  intros i Hi. apply (rsum_cv m (fun N j => u N i j)). auto.
Qed.

Lemma dcenter_cv n (u : nat -> nat -> nat -> R) l i j : (i < n)%nat -> (j < n)%nat ->
  (forall i j, (i < n)%nat -> (j < n)%nat -> Un_cv (fun N => u N i j) (l i j)) ->
  Un_cv (fun N => dcenter n (u N) i j) (dcenter n l i j).
Proof.
  intros Hi Hj H. unfold dcenter, mean.
  apply CV_plus; [apply CV_minus; [apply CV_minus|]|].
  - auto.
  - unfold Rdiv. apply CV_mult; [|apply Un_cv_const]. apply (rsum_cv n (fun N l => u N i l)). auto.
  - unfold Rdiv. apply CV_mult; [|apply Un_cv_const]. apply (rsum_cv n (fun N k => u N k j)). auto.
  - unfold Rdiv. apply CV_mult; [|apply Un_cv_const].
    apply (rsum_cv n (fun N k => rsum n (fun l => u N k l) * / INR n)). intros k Hk.
    apply CV_mult; [|apply Un_cv_const]. apply (rsum_cv n (fun N l => u N k l)). auto.
Qed.

(** ** Multiplicities *)
Section Freq.
Context (n p : nat) (X : nat -> nat -> R).

Definition mult (i : nat) : R := rsum n (fun k => dl p (X k) (X i)).

Lemma mult_pos i : (i < n)%nat -> 0 < mult i.
Proof.
  intros Hi. unfold mult. apply Rlt_le_trans with 1; [lra|].
  rewrite <- (rsum_delta n i (fun _ => 1) Hi). apply rsum_le. intros k Hk.
  destruct (Nat.eqb k i) eqn:E; [apply Nat.eqb_eq in E; subst; rewrite dl_refl; lra|].
  apply dl_range.
Qed.

Lemma mult_same i k : dl p (X i) (X k) * / mult i = dl p (X i) (X k) * / mult k.
Proof.
  destruct (dl_case p (X i) (X k)) as [[H ->]|[H ->]]; [|ring]. f_equal. f_equal.
  unfold mult. apply rsum_ext. intros l Hl.
  destruct (dl_case p (X l) (X i)) as [[H1 ->]|[H1 ->]], (dl_case p (X l) (X k)) as [[H2 ->]|[H2 ->]];
    auto; exfalso.
  - apply H2. eapply same_point_trans; eauto.
  - apply H1. eapply same_point_trans; [eauto|]. apply same_point_sym; auto.
Qed.

(** Each index is counted once when summing over classes with weight 1/multiplicity. *)
Lemma mult_unit k : (k < n)%nat -> rsum n (fun i => / mult i * dl p (X i) (X k)) = 1.
Proof.
  intros Hk. rewrite (rsum_ext n _ (fun i => / mult k * dl p (X i) (X k))).
  - rewrite rsum_scal_l. fold (mult k). pose proof (mult_pos k Hk). field. lra.
  - intros i Hi. pose proof (mult_same i k). lra.
Qed.

Lemma dl_split i j : (i < n)%nat -> (j < n)%nat ->
  dl p (X i) (X j) = rsum n (fun k => / mult k * (dl p (X k) (X i) * dl p (X k) (X j))).
Proof.
  intros Hi Hj. rewrite (rsum_ext n _ (fun k => / mult k * dl p (X k) (X i) * dl p (X i) (X j))).
  - rewrite rsum_scal_r, mult_unit by auto. ring.
  - intros k Hk. rewrite (dl_trans p (X k) (X i) (X j)). ring.
Qed.
End Freq.

Lemma rsum_sqr_zero n m (w v : nat -> R) (f : nat -> nat -> R) :
  (forall i, (i < n)%nat -> 0 < w i) -> (forall j, (j < m)%nat -> 0 < v j) ->
  rsum2 n m (fun i j => w i * v j * (f i j * f i j)) = 0 ->
  forall i j, (i < n)%nat -> (j < m)%nat -> f i j = 0.
Proof.
  intros Hw Hv H i j Hi Hj.
  assert (H' : w i * v j * (f i j * f i j) = 0).
  { apply (rsum2_zero_all n m (fun i j => w i * v j * (f i j * f i j))); auto.
    intros. apply Rmult_le_pos; [|apply Rle_0_sqr].
    left. apply Rmult_lt_0_compat; auto. }
  assert (0 < w i * v j) by (apply Rmult_lt_0_compat; auto).
  apply Rmult_integral in H'. destruct H' as [H'|H']; [lra|]. apply Rsqr_0_uniq. exact H'.
Qed.

Section Indep.
Context (n p q : nat) (X Y : nat -> nat -> R).
Hypothesis Hn : (1 <= n)%nat.

Definition joint (i j : nat) : R := rsum n (fun k => dl p (X i) (X k) * dl q (Y j) (Y k)).

Lemma mean_dl i : mean n (fun k => dl p (X i) (X k)) = mult n p X i / INR n.
Proof. unfold mean, mult. f_equal. apply rsum_ext. intros. apply dl_sym. Qed.

Lemma dcenter_rsum N f i j :
  dcenter n (fun i j => rsum N (fun k => f k i j)) i j = rsum N (fun k => dcenter n (f k) i j).
Proof.
  induction N.
  - cbn [rsum]. unfold dcenter, mean. cbn [rsum].
    rewrite !(rsum_zero n (fun _ => 0)) by auto.
    rewrite (rsum_zero n (fun _ => 0 / INR n)) by (intros; unfold Rdiv; ring).
    unfold Rdiv. ring.
  - cbn [rsum]. rewrite <- IHN. unfold dcenter, mean.
    rewrite !rsum_div, !rsum_plus.
    rewrite (rsum_ext n (fun i0 => rsum n (fun i1 => rsum N (fun k => f k i0 i1) + f N i0 i1))
              (fun i0 => rsum n (fun i1 => rsum N (fun k => f k i0 i1)) + rsum n (fun i1 => f N i0 i1)))
      by (intros; rewrite rsum_plus; reflexivity).
    rewrite rsum_plus. unfold Rdiv. eta. ring.
Qed.

Lemma dcenter_scal c a i j : dcenter n (fun i j => c * a i j) i j = c * dcenter n a i j.
Proof.
  unfold dcenter, mean. rewrite !rsum_scal_l, !rsum_div.
  rewrite (rsum_ext n (fun i0 => rsum n (fun i1 => c * a i0 i1)) (fun i0 => c * rsum n (fun l => a i0 l)))
    by (intros; rewrite rsum_scal_l; reflexivity).
  rewrite rsum_scal_l. unfold Rdiv. eta. ring.
Qed.

Lemma indicator_pairing :
  rsum2 n n (fun i j => dcenter n (fun i j => dl p (X i) (X j)) i j * dl q (Y i) (Y j))
  = rsum2 n n (fun k l => / mult n p X k * / mult n q Y l *
       ((joint k l - mult n p X k / INR n * mult n q Y l)
        * (joint k l - mult n p X k / INR n * mult n q Y l))).
Proof.
  set (c := fun k i => dl p (X k) (X i) - mult n p X k / INR n).
  rewrite (rsum2_ext n n _ (fun i j => rsum2 n n (fun k l =>
      / mult n p X k * / mult n q Y l * ((c k i * dl q (Y l) (Y i)) * (c k j * dl q (Y l) (Y j)))))).
  2:{ intros i j Hi Hj.
      rewrite (dcenter_ext n _ (fun i j => rsum n (fun k => / mult n p X k * (dl p (X k) (X i) * dl p (X k) (X j)))))
        by (auto; intros; apply dl_split; auto).
      rewrite dcenter_rsum. rewrite (dl_split n q Y i j) by auto.
      rewrite rsum_mult. apply rsum2_ext. intros k l Hk Hl.
      rewrite dcenter_scal.
      rewrite (dcenter_rank1 n (fun i => dl p (X k) (X i)) (fun i => dl p (X k) (X i))) by auto.
      rewrite mean_dl. unfold c. ring. }
  unfold rsum2 at 1.
  rewrite (rsum_ext n _ (fun i => rsum n (fun k => rsum n (fun j => rsum n (fun l =>
      / mult n p X k * / mult n q Y l * ((c k i * dl q (Y l) (Y i)) * (c k j * dl q (Y l) (Y j)))))))).
  2:{ intros i Hi. unfold rsum2. apply (rsum_swap n n (fun j k => rsum n (fun l =>
      / mult n p X k * / mult n q Y l * ((c k i * dl q (Y l) (Y i)) * (c k j * dl q (Y l) (Y j)))))). }
  rewrite (rsum_swap n n (fun i k => rsum n (fun j => rsum n (fun l =>
      / mult n p X k * / mult n q Y l * ((c k i * dl q (Y l) (Y i)) * (c k j * dl q (Y l) (Y j))))))).
  unfold rsum2. apply rsum_ext. intros k Hk.
  rewrite (rsum_ext n _ (fun i => rsum n (fun l => rsum n (fun j =>
      / mult n p X k * / mult n q Y l * ((c k i * dl q (Y l) (Y i)) * (c k j * dl q (Y l) (Y j))))))).
  2:{ intros i Hi. apply (rsum_swap n n (fun j l => 
      / mult n p X k * / mult n q Y l * ((c k i * dl q (Y l) (Y i)) * (c k j * dl q (Y l) (Y j))))). }
  rewrite (rsum_swap n n (fun i l => rsum n (fun j =>
      / mult n p X k * / mult n q Y l * ((c k i * dl q (Y l) (Y i)) * (c k j * dl q (Y l) (Y j)))))).
  apply rsum_ext. intros l Hl.
  assert (Hs : rsum n (fun i => c k i * dl q (Y l) (Y i)) = joint k l - mult n p X k / INR n * mult n q Y l).
  { unfold c, joint. rewrite (rsum_ext n _ (fun i => dl p (X k) (X i) * dl q (Y l) (Y i)
        - mult n p X k / INR n * dl q (Y l) (Y i))) by (intros; ring).
    rewrite rsum_minus, rsum_scal_l. f_equal. f_equal. apply rsum_ext. intros. apply dl_sym. }
  rewrite <- Hs.
  rewrite (rsum_mult n n (fun i => c k i * dl q (Y l) (Y i)) (fun i => c k i * dl q (Y l) (Y i))).
  unfold rsum2. rewrite <- rsum_scal_l. apply rsum_ext. intros i Hi. rewrite <- rsum_scal_l. reflexivity.
Qed.

Lemma independent_joint : empirically_independent n p q X Y <->
  forall i j, (i < n)%nat -> (j < n)%nat -> joint i j = mult n p X i / INR n * mult n q Y j.
Proof.
  pose proof (INR_pos n Hn) as HI. unfold empirically_independent.
  assert (Hc : forall i j, count n (fun k => same_pointb p (X k) (X i) && same_pointb q (Y k) (Y j)) = joint i j).
  { intros i j. unfold count, joint. apply rsum_ext. intros k Hk.
    rewrite (dl_sym p (X i)), (dl_sym q (Y j)). unfold dl.
    destruct (same_pointb p (X k) (X i)), (same_pointb q (Y k) (Y j)); cbn [andb]; ring. }
  assert (Hx : forall i, count n (fun k => same_pointb p (X k) (X i)) = mult n p X i) by reflexivity.
  assert (Hy : forall j, count n (fun k => same_pointb q (Y k) (Y j)) = mult n q Y j) by reflexivity.
  split; intros H i j Hi Hj; specialize (H i j Hi Hj).
  - rewrite Hc, Hx, Hy in H. apply (f_equal (fun z => z * INR n)) in H.
    replace (joint i j / INR n * INR n) with (joint i j) in H by (field; lra). rewrite H. field. lra.
  - rewrite Hc, Hx, Hy, H. field. lra.
Qed.

Lemma indep_sum F : empirically_independent n p q X Y ->
  (forall i i' j j', (i < n)%nat -> (i' < n)%nat -> (j < n)%nat -> (j' < n)%nat ->
     same_point p (X i) (X i') -> same_point q (Y j) (Y j') -> F i j = F i' j') ->
  rsum n (fun k => F k k) = rsum2 n n F / INR n.
Proof.
  intros Hi HF. pose proof (proj1 independent_joint Hi) as HJ.
  pose proof (INR_pos n Hn) as HI.
  rewrite (rsum_ext n _ (fun k => rsum2 n n (fun i j =>
     / mult n p X i * / mult n q Y j * F i j * (dl p (X i) (X k) * dl q (Y j) (Y k))))).
  - unfold rsum2 at 1.
    rewrite (rsum_swap n n (fun k i => rsum n (fun j =>
     / mult n p X i * / mult n q Y j * F i j * (dl p (X i) (X k) * dl q (Y j) (Y k))))).
    unfold rsum2. unfold Rdiv. rewrite <- rsum_scal_r. apply rsum_ext. intros i Hi'.
    rewrite (rsum_swap n n (fun k j =>
     / mult n p X i * / mult n q Y j * F i j * (dl p (X i) (X k) * dl q (Y j) (Y k)))).
    rewrite <- rsum_scal_r. apply rsum_ext. intros j Hj. rewrite rsum_scal_l. fold (joint i j).
    rewrite HJ by auto. pose proof (mult_pos n p X i Hi'). pose proof (mult_pos n q Y j Hj).
    field. lra.
  - intros k Hk.
    rewrite (rsum2_ext n n _ (fun i j => F k k * ((/ mult n p X i * dl p (X i) (X k)) * (/ mult n q Y j * dl q (Y j) (Y k))))).
    + rewrite rsum2_scal_l, <- rsum_mult, !mult_unit by auto. ring.
    + intros i j Hi' Hj.
      destruct (dl_case p (X i) (X k)) as [[H1 ->]|[H1 ->]]; [|ring].
      destruct (dl_case q (Y j) (Y k)) as [[H2 ->]|[H2 ->]]; [|ring].
      rewrite (HF i k j k) by auto. ring.
Qed.

Lemma same_sqdist u v w : same_point p u v -> sqdist p u w = sqdist p v w.
Proof. intros H. unfold sqdist. apply rsum_ext. intros. rewrite H by auto. reflexivity. Qed.
End Indep.

Lemma sqdist_sym p u v : sqdist p u v = sqdist p v u.
Proof. unfold sqdist. apply rsum_ext. intros. ring. Qed.

Lemma dmat_same e p X i j j' : same_point p (X j) (X j') -> dmat e p X i j = dmat e p X i j'.
Proof.
  intros H. rewrite !dmat_pw, !(sqdist_sym p (X i)). f_equal. apply same_sqdist; auto.
Qed.

Lemma dmat_same_l e p X i j j' : same_point p (X j) (X j') -> dmat e p X j i = dmat e p X j' i.
Proof. intros H. rewrite !dmat_pw. f_equal. apply same_sqdist; auto. Qed.

Theorem dcov2_zero_indep n p q X Y e f : (1 <= n)%nat -> 0 < e < 2 -> 0 < f < 2 ->
  dcov2 n (dmat e p X) (dmat f q Y) = 0 -> empirically_independent n p q X Y.
Proof.
  intros Hn He Hf H0. pose proof (INR_pos n Hn) as HI.
  pose proof (dcov2_zero_gauss n p q X Y e f Hn He Hf H0) as HG.
  assert (H1 : forall s, 0 < s ->
    rsum2 n n (fun i j => dcenter n (fun i j => dl p (X i) (X j)) i j * gauss s q Y i j) = 0).
  { intros s Hs. eapply UL_sequence.
    - apply (rsum2_cv n n (fun N i j => dcenter n (gauss (INR (S N)) p X) i j * gauss s q Y i j)).
      intros i j Hi Hj. apply CV_mult; [|apply Un_cv_const].
      apply (dcenter_cv n (fun N => gauss (INR (S N)) p X)); auto. intros. apply gauss_limit.
    - apply (Un_cv_ext (fun _ => 0)); [|apply Un_cv_const].
      intros N. symmetry. apply HG; auto. apply lt_0_INR. lia. }
  assert (H2 : rsum2 n n (fun i j => dcenter n (fun i j => dl p (X i) (X j)) i j * dl q (Y i) (Y j)) = 0).
  { eapply UL_sequence.
    - apply (rsum2_cv n n (fun N i j => dcenter n (fun i j => dl p (X i) (X j)) i j * gauss (INR (S N)) q Y i j)).
      intros i j Hi Hj. apply CV_mult; [apply Un_cv_const|]. apply gauss_limit.
    - apply (Un_cv_ext (fun _ => 0)); [|apply Un_cv_const].
      intros N. symmetry. apply H1; auto. apply lt_0_INR. lia. }
  rewrite indicator_pairing in H2 by auto.
  apply independent_joint; auto. intros i j Hi Hj.
  enough (joint n p q X Y i j - mult n p X i / INR n * mult n q Y j = 0) by lra.
  apply (rsum_sqr_zero n n (fun k => / mult n p X k) (fun l => / mult n q Y l)
     (fun i j => joint n p q X Y i j - mult n p X i / INR n * mult n q Y j)); auto;
    intros; apply Rinv_0_lt_compat, mult_pos; auto.
Qed.

Theorem indep_dcov2_zero n p q X Y e f : (1 <= n)%nat ->
  empirically_independent n p q X Y -> dcov2 n (dmat e p X) (dmat f q Y) = 0.
Proof.
  intros Hn Hi. pose proof (INR_pos n Hn) as HI.
  rewrite dcov2_pairing by auto.
  enough (E : rsum2 n n (fun i j => dmat e p X i j * dcenter n (dmat f q Y) i j) = 0)
    by (rewrite E; unfold Rdiv; ring).
  unfold rsum2. apply rsum_zero. intros i Hi'.
  rewrite (indep_sum n p q X Y Hn (fun j l => dmat e p X i j * dcenter n (dmat f q Y) i l)); auto.
  - rewrite <- rsum_mult, dcenter_row_sum by auto. unfold Rdiv. ring.
  - intros j j' l l' Hj Hj' Hl Hl' Hx Hy. f_equal; [apply dmat_same; auto|].
    unfold dcenter, mean. rewrite (dmat_same f q Y i l l') by auto.
    rewrite (rsum_ext n (fun k => dmat f q Y k l) (fun k => dmat f q Y k l'))
      by (intros; apply dmat_same; auto).
    reflexivity.
Qed.
