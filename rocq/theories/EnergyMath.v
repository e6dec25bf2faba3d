(** The energy distance of two samples: nonnegativity, vanishing, invariances. *)
From Coq Require Import Reals Lra Lia List Arith Bool.
From Verif Require Import Sums Spec Centering Psd PowerKernel Nonneg Empirical.
Local Open Scope R_scope.

Definition pool (n : nat) (X Y : nat -> nat -> R) (i : nat) : nat -> R :=
  if Nat.ltb i n then X i else Y (i - n)%nat.

Definition pweight (n m i : nat) : R := if Nat.ltb i n then / INR n else - / INR m.

Lemma pool_l n X Y i : (i < n)%nat -> pool n X Y i = X i.
Proof. intros H. unfold pool. apply Nat.ltb_lt in H. rewrite H. reflexivity. Qed.
Lemma pool_r n X Y i : pool n X Y (n + i) = Y i.
Proof.
  unfold pool. replace (Nat.ltb (n + i) n) with false by (symmetry; apply Nat.ltb_ge; lia).
  f_equal. lia.
Qed.
Lemma pweight_l n m i : (i < n)%nat -> pweight n m i = / INR n.
Proof. intros H. unfold pweight. apply Nat.ltb_lt in H. rewrite H. reflexivity. Qed.
Lemma pweight_r n m i : pweight n m (n + i) = - / INR m.
Proof.
  unfold pweight. replace (Nat.ltb (n + i) n) with false by (symmetry; apply Nat.ltb_ge; lia).
  reflexivity.
Qed.

Lemma rsum2_pool n m (f : nat -> nat -> R) :
  rsum2 (n + m) (n + m) f
  = rsum2 n n f + rsum2 n m (fun i j => f i (n + j)%nat)
    + rsum2 m n (fun i j => f (n + i)%nat j) + rsum2 m m (fun i j => f (n + i)%nat (n + j)%nat).
Proof.
  unfold rsum2. rewrite rsum_app.
  rewrite (rsum_ext n _ (fun i => rsum n (fun j => f i j) + rsum m (fun j => f i (n + j)%nat)))
    by (intros; apply rsum_app).
  rewrite (rsum_ext m _
     (fun i => rsum n (fun j => f (n + i)%nat j) + rsum m (fun j => f (n + i)%nat (n + j)%nat)))
    by (intros; apply rsum_app).
  rewrite !rsum_plus. ring.
Qed.

Lemma dist_sym p u v : dist p u v = dist p v u.
Proof. rewrite !dist_sqdist, sqdist_sym. reflexivity. Qed.

Section Energy.
Context (e : R) (p n m : nat) (X Y : nat -> nat -> R).
Hypothesis Hn : (1 <= n)%nat.
Hypothesis Hm : (1 <= m)%nat.

Let Z := pool n X Y.
Let c := pweight n m.

Lemma pool_form (k : (nat -> R) -> (nat -> R) -> R) : (forall u v, k u v = k v u) ->
  rsum2 (n + m) (n + m) (fun i j => c i * c j * k (Z i) (Z j))
  = rsum2 n n (fun i j => k (X i) (X j)) / (INR n * INR n)
    + rsum2 m m (fun i j => k (Y i) (Y j)) / (INR m * INR m)
    - 2 * (rsum2 n m (fun i j => k (X i) (Y j)) / (INR n * INR m)).
Proof.
  intros Hk. pose proof (INR_pos n Hn). pose proof (INR_pos m Hm).
  rewrite rsum2_pool. unfold c, Z.
  rewrite (rsum2_ext n n _ (fun i j => / (INR n * INR n) * k (X i) (X j)))
    by (intros; rewrite !pweight_l, !pool_l by auto; field; lra).
  rewrite (rsum2_ext n m _ (fun i j => - / (INR n * INR m) * k (X i) (Y j)))
    by (intros; rewrite pweight_l, pool_l, pweight_r, pool_r by auto; field; lra).
  rewrite (rsum2_ext m n _ (fun i j => - / (INR n * INR m) * k (X j) (Y i)))
    by (intros; rewrite pweight_r, pool_r, pweight_l, pool_l by auto; rewrite (Hk (Y i)); field; lra).
  rewrite (rsum2_ext m m _ (fun i j => / (INR m * INR m) * k (Y i) (Y j)))
    by (intros; rewrite !pweight_r, !pool_r by auto; field; lra).
  rewrite !rsum2_scal_l.
  rewrite (rsum2_swap m n (fun i j => k (X j) (Y i))).
  field. lra.
Qed.

Lemma energy_pool : energy e p n m X Y = - rsum2 (n + m) (n + m) (fun i j => c i * c j * dmat e p Z i j).
Proof.
  unfold dmat. rewrite (pool_form (fun u v => rpow (dist p u v) e)) by (intros; rewrite dist_sym; auto).
  unfold energy. ring.
Qed.

Lemma pweight_total : rsum (n + m) c = 0.
Proof.
  pose proof (INR_pos n Hn). pose proof (INR_pos m Hm). unfold c.
  rewrite rsum_app, (rsum_ext n _ (fun _ => / INR n)) by (intros; apply pweight_l; auto).
  rewrite (rsum_ext m _ (fun _ => - / INR m)) by (intros; apply pweight_r; auto).
  rewrite !rsum_const. field. lra.
Qed.

Lemma pweight_total2 : rsum2 (n + m) (n + m) (fun i j => c i * c j) = 0.
Proof. rewrite <- rsum_mult, pweight_total. ring. Qed.

Lemma energy_gauss_nonneg t : 0 < t ->
  0 <= rsum2 (n + m) (n + m) (fun i j => c i * c j * exp (- (t * sqdist p (Z i) (Z j)))).
Proof. intros Ht. apply (schur_psd _ _ (gauss_schur (n + m) p t Z ltac:(lra))). Qed.

Theorem energy_nonneg : 0 < e <= 2 -> 0 <= energy e p n m X Y.
Proof.
  intros He. rewrite energy_pool.
  pose proof (cnd_nonpos (n + m) p Z (fun i j => c i * c j) pweight_total2 energy_gauss_nonneg e He).
  lra.
Qed.

Lemma count_l z : count n (fun k => same_pointb p (X k) z) = rsum n (fun k => dl p (X k) z).
Proof. reflexivity. Qed.

Theorem energy_zero_same : 0 < e < 2 -> energy e p n m X Y = 0 -> same_distribution p n m X Y.
Proof.
  intros He H0. rewrite energy_pool in H0.
  pose proof (INR_pos n Hn). pose proof (INR_pos m Hm).
  pose proof (cnd_zero (n + m) p Z (fun i j => c i * c j) pweight_total2 energy_gauss_nonneg e He
                ltac:(lra)) as HG.
  assert (H2 : rsum2 (n + m) (n + m) (fun i j => c i * c j * dl p (Z i) (Z j)) = 0).
  { eapply UL_sequence.
    - apply (rsum2_cv (n + m) (n + m) (fun N i j => c i * c j * gauss (INR (S N)) p Z i j)).
      intros i j Hi Hj. apply CV_mult; [apply Un_cv_const|]. apply gauss_limit.
    - apply (Un_cv_ext (fun _ => 0)); [|apply Un_cv_const].
      intros N. symmetry. apply HG. apply lt_0_INR. lia. }
  set (s := fun k => rsum (n + m) (fun i => c i * dl p (Z k) (Z i))).
  assert (H3 : forall k, (k < n + m)%nat -> s k = 0).
  { intros k Hk.
    apply (rsum_sqr_zero (n + m) 1 (fun k => / mult (n + m) p Z k) (fun _ => 1) (fun k _ => s k)) with (j := 0%nat);
      auto; [intros; apply Rinv_0_lt_compat, mult_pos; auto|intros; lra|].
    rewrite <- H2. unfold rsum2 at 1. cbn [rsum].
    rewrite (rsum2_ext (n + m) (n + m) (fun i j => c i * c j * dl p (Z i) (Z j))
      (fun i j => rsum (n + m) (fun k => / mult (n + m) p Z k * ((c i * dl p (Z k) (Z i)) * (c j * dl p (Z k) (Z j)))))).
    2:{ intros i j Hi Hj. rewrite (dl_split (n + m) p Z i j) by auto. rewrite <- rsum_scal_l.
        apply rsum_ext. intros. ring. }
    unfold rsum2.
    rewrite (rsum_ext (n + m) (fun i => rsum (n + m) (fun j => rsum (n + m) _))
      (fun i => rsum (n + m) (fun k => rsum (n + m) (fun j =>
        / mult (n + m) p Z k * ((c i * dl p (Z k) (Z i)) * (c j * dl p (Z k) (Z j))))))).
    2:{ intros i Hi. apply (rsum_swap (n + m) (n + m) (fun j k => 
        / mult (n + m) p Z k * ((c i * dl p (Z k) (Z i)) * (c j * dl p (Z k) (Z j))))). }
    rewrite (rsum_swap (n + m) (n + m) (fun i k => rsum (n + m) (fun j =>
        / mult (n + m) p Z k * ((c i * dl p (Z k) (Z i)) * (c j * dl p (Z k) (Z j)))))).
    apply rsum_ext. intros l Hl. unfold s.
    rewrite (rsum_mult (n + m) (n + m) (fun i => c i * dl p (Z l) (Z i)) (fun i => c i * dl p (Z l) (Z i))).
    rewrite Rplus_0_l, Rmult_1_r. unfold rsum2. rewrite <- rsum_scal_l. apply rsum_ext.
    intros i Hi. rewrite <- rsum_scal_l. reflexivity. }
  assert (H4 : forall k z, (k < n + m)%nat -> same_point p (Z k) z ->
     count n (fun k => same_pointb p (X k) z) / INR n = count m (fun k => same_pointb p (Y k) z) / INR m).
  { intros k z Hk Hz. specialize (H3 k Hk). unfold s in H3. rewrite rsum_app in H3.
    unfold c, Z in H3.
    assert (Hd : forall u, dl p (pool n X Y k) u = dl p u z).
    { intros u. rewrite (dl_sym p u). destruct (dl_case p (pool n X Y k) u) as [[A ->]|[A ->]],
        (dl_case p z u) as [[B ->]|[B ->]]; auto; exfalso.
      - apply B. eapply same_point_trans; [apply same_point_sym, Hz|auto].
      - apply A. eapply same_point_trans; [apply Hz|auto]. }
    rewrite (rsum_ext n _ (fun i => / INR n * dl p (X i) z)) in H3
      by (intros; rewrite Hd, pweight_l, pool_l by auto; reflexivity).
    rewrite (rsum_ext m _ (fun i => - / INR m * dl p (Y i) z)) in H3
      by (intros; rewrite Hd, pweight_r, pool_r by auto; reflexivity).
    rewrite !rsum_scal_l in H3.
    change (count n (fun k => same_pointb p (X k) z)) with (rsum n (fun k => dl p (X k) z)).
    change (count m (fun k => same_pointb p (Y k) z)) with (rsum m (fun k => dl p (Y k) z)).
    unfold Rdiv. lra. }
  intros z.
  destruct (Classical_Prop.classic (exists k, (k < n + m)%nat /\ same_point p (Z k) z)) as [(k & Hk & Hz)|Hno].
  - apply (H4 k z Hk Hz).
  - assert (Hc : count n (fun k => same_pointb p (X k) z) = 0).
    { apply rsum_zero. intros k Hk. destruct (same_pointb p (X k) z) eqn:E; auto. exfalso. apply Hno.
      exists k. split; [lia|]. unfold Z. rewrite pool_l by auto. apply same_pointb_true; auto. }
    assert (Hc' : count m (fun k => same_pointb p (Y k) z) = 0).
    { apply rsum_zero. intros k Hk. destruct (same_pointb p (Y k) z) eqn:E; auto. exfalso. apply Hno.
      exists (n + k)%nat. split; [lia|]. unfold Z. rewrite pool_r by auto. apply same_pointb_true; auto. }
    rewrite Hc, Hc'. unfold Rdiv. ring.
Qed.
End Energy.

(** Conversely, equal empirical distributions give equal averages of every function of the point. *)
Lemma same_distribution_avg p n m X Y (F : (nat -> R) -> R) : (1 <= n)%nat -> (1 <= m)%nat ->
  same_distribution p n m X Y ->
  (forall u v, same_point p u v -> F u = F v) ->
  rsum n (fun i => F (X i)) / INR n = rsum m (fun j => F (Y j)) / INR m.
Proof.
  intros Hn Hm HD HF. pose proof (INR_pos n Hn). pose proof (INR_pos m Hm).
  set (Z := pool n X Y). set (N := (n + m)%nat).
  assert (Hsum : forall r W, (forall i, (i < r)%nat -> exists k, (k < N)%nat /\ Z k = W i) ->
    rsum r (fun i => F (W i)) = rsum N (fun k => / mult N p Z k * F (Z k) * rsum r (fun i => dl p (W i) (Z k)))).
  { intros r W HW.
    rewrite (rsum_ext N _ (fun k => rsum r (fun i => / mult N p Z k * F (Z k) * dl p (W i) (Z k))))
      by (intros; rewrite rsum_scal_l; reflexivity).
    rewrite (rsum_swap N r (fun k i => / mult N p Z k * F (Z k) * dl p (W i) (Z k))).
    apply rsum_ext. intros i Hi. destruct (HW i Hi) as (k0 & Hk0 & HZ).
    rewrite (rsum_ext N _ (fun k => F (W i) * (/ mult N p Z k * dl p (Z k) (Z k0)))).
    - rewrite rsum_scal_l, mult_unit by auto. ring.
    - intros k Hk. rewrite HZ, (dl_sym p (W i)).
      destruct (dl_case p (Z k) (W i)) as [[A ->]|[A ->]]; [|ring]. rewrite (HF _ _ A). ring. }
  rewrite (Hsum n X), (Hsum m Y).
  - unfold Rdiv. rewrite <- !rsum_scal_r. apply rsum_ext. intros k Hk.
    specialize (HD (Z k)). unfold count in HD. fold (dl p) in HD.
    change (rsum n (fun i => dl p (X i) (Z k)) / INR n = rsum m (fun i => dl p (Y i) (Z k)) / INR m) in HD.
    unfold Rdiv in HD. rewrite !Rmult_assoc, HD. ring.
  - intros i Hi. exists (n + i)%nat. split; [unfold N; lia|]. apply pool_r.
  - intros i Hi. exists i. split; [unfold N; lia|]. apply pool_l; auto.
Qed.

Theorem same_energy_zero e p n m X Y : (1 <= n)%nat -> (1 <= m)%nat ->
  same_distribution p n m X Y -> energy e p n m X Y = 0.
Proof.
  intros Hn Hm HD. pose proof (INR_pos n Hn). pose proof (INR_pos m Hm).
  set (k := fun u v => rpow (dist p u v) e).
  assert (Hk : forall u v w, same_point p v w -> k u v = k u w).
  { intros u v w H1. unfold k. rewrite !dist_sqdist, !(sqdist_sym p u), (same_sqdist p v w u H1). reflexivity. }
  assert (Hk' : forall u v w, same_point p v w -> k v u = k w u).
  { intros u v w H1. unfold k. rewrite !dist_sqdist, (same_sqdist p v w u H1). reflexivity. }
  assert (A : forall u, rsum n (fun j => k u (X j)) / INR n = rsum m (fun j => k u (Y j)) / INR m).
  { intros u. apply (same_distribution_avg p n m X Y (k u)); auto. }
  assert (B : forall u, rsum n (fun j => k (X j) u) / INR n = rsum m (fun j => k (Y j) u) / INR m).
  { intros u. apply (same_distribution_avg p n m X Y (fun v => k v u)); auto. }
  assert (E1 : rsum2 n n (fun i j => k (X i) (X j)) / (INR n * INR n)
               = rsum2 n m (fun i j => k (X i) (Y j)) / (INR n * INR m)).
  { replace (rsum2 n n (fun i j => k (X i) (X j)) / (INR n * INR n))
      with (rsum n (fun i => rsum n (fun j => k (X i) (X j)) / INR n) / INR n)
      by (rewrite rsum_div; unfold rsum2; field; lra).
    rewrite (rsum_ext n _ (fun i => rsum m (fun j => k (X i) (Y j)) / INR m)) by (intros; apply A).
    rewrite rsum_div. unfold rsum2. field. lra. }
  assert (E2 : rsum2 n m (fun i j => k (X i) (Y j)) / (INR n * INR m)
               = rsum2 m m (fun i j => k (Y i) (Y j)) / (INR m * INR m)).
  { rewrite rsum2_swap.
    replace (rsum2 m n (fun j i => k (X i) (Y j)) / (INR n * INR m))
      with (rsum m (fun j => rsum n (fun i => k (X i) (Y j)) / INR n) / INR m)
      by (rewrite rsum_div; unfold rsum2; field; lra).
    rewrite (rsum_ext m _ (fun j => rsum m (fun i => k (Y i) (Y j)) / INR m)) by (intros; apply B).
    rewrite rsum_div. rewrite (rsum2_swap m m). unfold rsum2. field. lra. }
  unfold energy. fold k. change (fun i j => rpow (dist p (X i) (Y j)) e) with (fun i j => k (X i) (Y j)).
  change (fun i j => rpow (dist p (X i) (X j)) e) with (fun i j => k (X i) (X j)).
  change (fun i j => rpow (dist p (Y i) (Y j)) e) with (fun i j => k (Y i) (Y j)).
  lra.
Qed.
