(** Further facts about the specification of distance covariance and correlation. *)
From Coq Require Import Reals Lra Lia List Arith Bool.
From Verif Require Import Sums Spec Centering Psd PowerKernel Nonneg Empirical EnergyMath Invariance.
Local Open Scope R_scope.

(** ** Cauchy-Schwarz and the range of the correlations *)

Lemma dcov2_cs n a b : dcov2 n a b * dcov2 n a b <= dcov2 n a a * dcov2 n b b.
Proof.
  unfold dcov2. pose proof (rsum2_cauchy_schwarz n n (dcenter n a) (dcenter n b)) as H.
  set (k := / INR n ^ 2). assert (0 <= k * k) by (apply Rle_0_sqr).
  apply (Rmult_le_compat_l (k * k)) in H; auto. lra.
Qed.

Lemma udcov2_cs n a b : udcov2 n a b * udcov2 n a b <= udcov2 n a a * udcov2 n b b.
Proof.
  unfold udcov2, uprod. pose proof (rsum2_cauchy_schwarz n n (ucenter n a) (ucenter n b)) as H.
  set (k := / (INR n * (INR n - 3))). assert (0 <= k * k) by (apply Rle_0_sqr).
  apply (Rmult_le_compat_l (k * k)) in H; auto. lra.
Qed.

Lemma Rabs_def2_le x a : Rabs x <= a -> - a <= x <= a.
Proof. unfold Rabs. destruct (Rcase_abs x); lra. Qed.

Lemma sqr_le_abs c v : c * c <= v -> Rabs c <= sqrt v.
Proof.
  intros H. rewrite <- sqrt_Rsqr_abs. apply sqrt_le_1_alt. exact H.
Qed.

Lemma corr_range c vx vy : c * c <= vx * vy -> -1 <= corr c vx vy <= 1.
Proof.
  intros H. unfold corr. destruct (Req_EM_T (vx * vy) 0) as [E|E]; [lra|].
  assert (Hp : 0 < vx * vy) by (pose proof (Rle_0_sqr c); unfold Rsqr in *; lra).
  pose proof (sqrt_lt_R0 _ Hp) as Hs. apply sqr_le_abs in H. apply Rabs_def2_le in H.
  split; apply (Rmult_le_reg_r (sqrt (vx * vy))); auto;
    unfold Rdiv; rewrite Rmult_assoc, Rinv_l by lra; lra.
Qed.

Lemma corr_nonneg c vx vy : 0 <= c -> 0 <= vx * vy -> 0 <= corr c vx vy.
Proof.
  intros H H'. unfold corr. destruct (Req_EM_T (vx * vy) 0) as [E|E]; [lra|].
  apply Rmult_le_pos; auto. left. apply Rinv_0_lt_compat, sqrt_lt_R0. lra.
Qed.

Theorem dcor2_range n p q X Y e f : (1 <= n)%nat -> 0 < e <= 2 -> 0 < f <= 2 ->
  0 <= dcor2 n (dmat e p X) (dmat f q Y) <= 1.
Proof.
  intros Hn He Hf. split.
  - apply corr_nonneg; [apply dcov2_nonneg; auto|]. apply Rmult_le_pos; apply dvar_nonneg.
  - apply corr_range. apply dcov2_cs.
Qed.

Theorem udcor2_range n a b : -1 <= udcor2 n a b <= 1.
Proof. apply corr_range. apply udcov2_cs. Qed.

Lemma corr_sym c vx vy : corr c vx vy = corr c vy vx.
Proof. unfold corr. rewrite (Rmult_comm vy vx). reflexivity. Qed.
Lemma dcor2_sym n a b : dcor2 n a b = dcor2 n b a.
Proof. unfold dcor2. rewrite (dcov2_sym n a b). apply corr_sym. Qed.
Lemma udcor2_sym n a b : udcor2 n a b = udcor2 n b a.
Proof. unfold udcor2. rewrite (udcov2_sym n a b). apply corr_sym. Qed.

(** ** Scaling *)

Lemma ucenter_scal n c a i j : ucenter n (fun i j => c * a i j) i j = c * ucenter n a i j.
Proof.
  unfold ucenter. destruct (Nat.eqb i j); [ring|]. rewrite !rsum_scal_l, rsum2_scal_l. eta. ring.
Qed.

Lemma dcov2_scal n c d a b : dcov2 n (fun i j => c * a i j) (fun i j => d * b i j) = c * d * dcov2 n a b.
Proof.
  unfold dcov2.
  rewrite (rsum2_ext n n _ (fun i j => c * d * (dcenter n a i j * dcenter n b i j)))
    by (intros; rewrite !dcenter_scal; ring).
  rewrite rsum2_scal_l. ring.
Qed.

Lemma udcov2_scal n c d a b : udcov2 n (fun i j => c * a i j) (fun i j => d * b i j) = c * d * udcov2 n a b.
Proof.
  unfold udcov2, uprod.
  rewrite (rsum2_ext n n _ (fun i j => c * d * (ucenter n a i j * ucenter n b i j)))
    by (intros; rewrite !ucenter_scal; ring).
  rewrite rsum2_scal_l. ring.
Qed.

Lemma corr_scal c d v vx vy : 0 < c -> 0 < d -> 0 <= vx -> 0 <= vy ->
  corr (c * d * v) (c * c * vx) (d * d * vy) = corr v vx vy.
Proof.
  intros Hc Hd Hx Hy. unfold corr.
  assert (Hcd : 0 < c * d) by (apply Rmult_lt_0_compat; auto).
  assert (Hxy : 0 <= vx * vy) by (apply Rmult_le_pos; auto).
  replace (c * c * vx * (d * d * vy)) with ((c * d) * (c * d) * (vx * vy)) by ring.
  destruct (Req_EM_T (c * d * (c * d) * (vx * vy)) 0) as [E|E], (Req_EM_T (vx * vy) 0) as [E'|E']; auto.
  - exfalso. apply Rmult_integral in E. destruct E as [E|E]; [|lra].
    assert (0 < c * d * (c * d)) by (apply Rmult_lt_0_compat; auto). lra.
  - exfalso. apply E. rewrite E'. ring.
  - rewrite sqrt_mult_alt by apply Rle_0_sqr.
    rewrite (sqrt_square (c * d)) by lra.
    assert (0 < sqrt (vx * vy)) by (apply sqrt_lt_R0; lra). field. repeat split; lra.
Qed.

Lemma dcor2_scal n c d a b : 0 < c -> 0 < d ->
  dcor2 n (fun i j => c * a i j) (fun i j => d * b i j) = dcor2 n a b.
Proof.
  intros Hc Hd. unfold dcor2. rewrite !dcov2_scal. apply corr_scal; auto; apply dvar_nonneg.
Qed.

Lemma udcor2_scal n c d a b : (4 <= n)%nat -> 0 < c -> 0 < d ->
  udcor2 n (fun i j => c * a i j) (fun i j => d * b i j) = udcor2 n a b.
Proof.
  intros Hn Hc Hd. unfold udcor2. rewrite !udcov2_scal. apply corr_scal; auto; apply udvar_nonneg; auto.
Qed.

(** Multiplying a sample by a number. *)
Lemma rpow_mult a x e : 0 <= a -> 0 <= x -> rpow (a * x) e = rpow a e * rpow x e.
Proof.
  intros Ha Hx. unfold rpow. destruct (Rle_dec a 0).
  - assert (a = 0) as -> by lra. rewrite Rmult_0_l. destruct (Rle_dec 0 0); lra.
  - destruct (Rle_dec x 0).
    + assert (x = 0) as -> by lra. rewrite Rmult_0_r. destruct (Rle_dec 0 0); lra.
    + assert (0 < a * x) by (apply Rmult_lt_0_compat; lra).
      destruct (Rle_dec (a * x) 0); [lra|]. rewrite ln_mult by lra.
      rewrite Rmult_plus_distr_l, exp_plus. reflexivity.
Qed.

Lemma rpow_pos a e : 0 < a -> 0 < rpow a e.
Proof. intros H. unfold rpow. destruct (Rle_dec a 0); [lra|]. apply exp_pos. Qed.

Lemma dist_scal p a u v : dist p (fun k => a * u k) (fun k => a * v k) = Rabs a * dist p u v.
Proof.
  unfold dist. rewrite (rsum_ext p _ (fun k => a² * (u k - v k) ^ 2)) by (intros; unfold Rsqr; ring).
  rewrite rsum_scal_l, sqrt_mult_alt by apply Rle_0_sqr. rewrite sqrt_Rsqr_abs. reflexivity.
Qed.

Lemma dist_nonneg p u v : 0 <= dist p u v.
Proof. apply sqrt_pos. Qed.

Lemma dmat_scal e p a X i j : dmat e p (fun i k => a * X i k) i j = rpow (Rabs a) e * dmat e p X i j.
Proof.
  unfold dmat. rewrite dist_scal, rpow_mult; auto; [apply Rabs_pos|apply dist_nonneg].
Qed.

Lemma dist_ext p u v u' v' : (forall k, (k < p)%nat -> u k = u' k) -> (forall k, (k < p)%nat -> v k = v' k) ->
  dist p u v = dist p u' v'.
Proof. intros H H'. unfold dist. f_equal. apply rsum_ext. intros. rewrite H, H' by auto. reflexivity. Qed.

Lemma dmat_ext e p X X' i j : (forall k, (k < p)%nat -> X i k = X' i k) -> (forall k, (k < p)%nat -> X j k = X' j k) ->
  dmat e p X i j = dmat e p X' i j.
Proof. intros. unfold dmat. f_equal. apply dist_ext; auto. Qed.

(** ** Recovering a distance matrix from its centred version *)

Lemma dcenter_recover n a i j : symmetric n a -> hollow n a -> (i < n)%nat -> (j < n)%nat ->
  a i j = dcenter n a i j - (dcenter n a i i + dcenter n a j j) / 2.
Proof.
  intros Hs Hh Hi Hj. unfold dcenter, mean. rewrite (Hh i), (Hh j) by auto.
  rewrite (rsum_ext n (fun k => a k i) (fun l => a i l)) by (intros; apply Hs; auto).
  rewrite (rsum_ext n (fun k => a k j) (fun l => a j l)) by (intros; apply Hs; auto).
  unfold Rdiv. lra.
Qed.

Lemma dcov2_zero_centered n a : (1 <= n)%nat -> dcov2 n a a = 0 ->
  forall i j, (i < n)%nat -> (j < n)%nat -> dcenter n a i j = 0.
Proof.
  intros Hn H i j Hi Hj. pose proof (INR_pos n Hn) as HI.
  assert (0 < / INR n ^ 2) by (apply Rinv_0_lt_compat, pow_lt; auto).
  unfold dcov2 in H. apply Rmult_integral in H. destruct H as [H|H]; [lra|].
  apply (rsum_sqr_zero n n (fun _ => 1) (fun _ => 1) (dcenter n a)); auto; try (intros; lra).
  rewrite <- H. apply rsum2_ext. intros. ring.
Qed.

Lemma dvar_zero_iff n a : (1 <= n)%nat -> symmetric n a -> hollow n a ->
  (dcov2 n a a = 0 <-> forall i j, (i < n)%nat -> (j < n)%nat -> a i j = 0).
Proof.
  intros Hn Hs Hh. split.
  - intros H i j Hi Hj. rewrite (dcenter_recover n a i j) by auto.
    rewrite !(dcov2_zero_centered n a Hn H) by auto. lra.
  - intros H. rewrite (dcov2_ext n a a (fun _ _ => 0) (fun _ _ => 0)) by auto.
    rewrite dcov2_half by auto. unfold rsum2. rewrite rsum_zero; [ring|].
    intros. apply rsum_zero. intros. ring.
Qed.

Lemma rpow_zero_iff x e : 0 <= x -> (rpow x e = 0 <-> x = 0).
Proof.
  intros Hx. unfold rpow. destruct (Rle_dec x 0).
  - split; intros; lra.
  - split; intros H; [|lra]. pose proof (exp_pos (e * ln x)). lra.
Qed.

Lemma dmat_zero_iff e p X i j : dmat e p X i j = 0 <-> same_point p (X i) (X j).
Proof.
  unfold dmat. rewrite rpow_zero_iff by apply dist_nonneg. rewrite dist_sqdist, <- sqdist_zero.
  split; intros H.
  - apply sqrt_eq_0; auto. apply sqdist_nonneg.
  - rewrite H. apply sqrt_0.
Qed.

Lemma dmat_symmetric e p X n : symmetric n (dmat e p X).
Proof. intros i j _ _. unfold dmat. rewrite dist_sym. reflexivity. Qed.
Lemma dmat_hollow e p X n : hollow n (dmat e p X).
Proof. intros i _. apply dmat_zero_iff. apply same_point_refl. Qed.

(** All observations equal. *)
Definition constant_sample (n p : nat) (X : nat -> nat -> R) : Prop :=
  forall i j, (i < n)%nat -> (j < n)%nat -> same_point p (X i) (X j).

Theorem dvar_zero_constant n p X e : (1 <= n)%nat ->
  (dcov2 n (dmat e p X) (dmat e p X) = 0 <-> constant_sample n p X).
Proof.
  intros Hn. rewrite dvar_zero_iff by (auto using dmat_symmetric, dmat_hollow).
  unfold constant_sample. split; intros H i j Hi Hj; apply (dmat_zero_iff e); auto.
Qed.

Theorem constant_dcov_zero n p X e b : (1 <= n)%nat -> constant_sample n p X ->
  dcov2 n (dmat e p X) b = 0 /\ dcor2 n (dmat e p X) b = 0.
Proof.
  intros Hn H.
  assert (E : dcov2 n (dmat e p X) b = 0).
  { rewrite dcov2_half by auto. unfold rsum2. rewrite rsum_zero; [ring|]. intros i Hi. apply rsum_zero.
    intros j Hj. rewrite (proj2 (dmat_zero_iff e p X i j)) by auto. ring. }
  split; auto. unfold dcor2. rewrite E. unfold corr.
  destruct (Req_EM_T _ 0); auto. unfold Rdiv. ring.
Qed.

(** ** Correlation one *)

Lemma dcenter_minus n a b i j :
  dcenter n (fun i j => a i j - b i j) i j = dcenter n a i j - dcenter n b i j.
Proof.
  unfold dcenter, mean. rewrite !rsum_div.
  rewrite (rsum_ext n (fun k => rsum n (fun l => a k l - b k l))
    (fun k => rsum n (fun l => a k l) - rsum n (fun l => b k l)))
    by (intros; apply rsum_minus).
  rewrite !rsum_minus. unfold Rdiv. eta. ring.
Qed.


(** The distances of the two samples are proportional, with a positive factor. *)
Definition proportional (n : nat) (a b : nat -> nat -> R) : Prop :=
  exists c, 0 < c /\ forall i j, (i < n)%nat -> (j < n)%nat -> a i j = c * b i j.

Lemma corr_one_cs c vx vy : 0 <= vx -> 0 <= vy -> corr c vx vy = 1 -> 0 < vx /\ 0 < vy /\ 0 < c /\ c * c = vx * vy.
Proof.
  intros Hx Hy. unfold corr. destruct (Req_EM_T (vx * vy) 0) as [E|E]; [lra|]. intros H.
  assert (Hp : 0 < vx * vy) by (pose proof (Rmult_le_pos _ _ Hx Hy); lra).
  assert (0 < vx) by (destruct (Req_dec vx 0) as [E'|]; [rewrite E' in Hp; lra|lra]).
  assert (0 < vy) by (destruct (Req_dec vy 0) as [E'|]; [rewrite E' in Hp; lra|lra]).
  pose proof (sqrt_lt_R0 _ Hp) as Hs.
  assert (Hc : c = sqrt (vx * vy)).
  { apply (f_equal (fun z => z * sqrt (vx * vy))) in H. unfold Rdiv in H.
    rewrite Rmult_assoc, Rinv_l in H by lra. lra. }
  repeat split; auto; [lra|]. rewrite Hc. apply sqrt_sqrt. lra.
Qed.

Theorem dcor2_one_iff n a b : (1 <= n)%nat -> symmetric n a -> symmetric n b -> hollow n a -> hollow n b ->
  (dcor2 n a b = 1 <-> dcov2 n a a <> 0 /\ dcov2 n b b <> 0 /\ proportional n a b).
Proof.
  intros Hn Hsa Hsb Hha Hhb. pose proof (INR_pos n Hn) as HI.
  assert (Hk : 0 < / INR n ^ 2) by (apply Rinv_0_lt_compat, pow_lt; auto).
  split.
  - intros H. apply corr_one_cs in H; try apply dvar_nonneg. destruct H as (Hx & Hy & Hc & Hcs).
    split; [lra|]. split; [lra|]. exists (dcov2 n a b / dcov2 n b b).
    set (t := dcov2 n a b / dcov2 n b b).
    split; [apply Rdiv_lt_0_compat; auto|].
    assert (Hz : dcov2 n (fun i j => a i j - t * b i j) (fun i j => a i j - t * b i j) = 0).
    { assert (HE : dcov2 n (fun i j => a i j - t * b i j) (fun i j => a i j - t * b i j)
               = dcov2 n a a - 2 * t * dcov2 n a b + t * t * dcov2 n b b).
      { unfold dcov2.
        rewrite (rsum2_ext n n _ (fun i j => dcenter n a i j * dcenter n a i j
           - 2 * t * (dcenter n a i j * dcenter n b i j) + t * t * (dcenter n b i j * dcenter n b i j))).
        - rewrite rsum2_plus, rsum2_minus, !rsum2_scal_l. ring.
        - intros i j Hi Hj.
          assert (Hd : dcenter n (fun i j => a i j - t * b i j) i j = dcenter n a i j - t * dcenter n b i j).
          { rewrite <- dcenter_scal. apply (dcenter_minus n a (fun i j => t * b i j)). }
          rewrite Hd. ring. }
      rewrite HE. unfold t. apply (Rmult_eq_reg_r (dcov2 n b b)); [|lra].
      replace (_ * dcov2 n b b) with (dcov2 n a a * dcov2 n b b - dcov2 n a b * dcov2 n a b) by (field; lra).
      rewrite Hcs. ring. }
    rewrite (dvar_zero_iff n (fun i j => a i j - t * b i j)) in Hz; auto.
    + intros i j Hi Hj. specialize (Hz i j Hi Hj). cbv beta in Hz. lra.
    + intros i j Hi Hj. rewrite (Hsa i j), (Hsb i j) by auto. reflexivity.
    + intros i Hi. rewrite (Hha i), (Hhb i) by auto. ring.
  - intros (Hx & Hy & c & Hc & Hab).
    unfold dcor2.
    rewrite (dcov2_ext n a b (fun i j => c * b i j) (fun i j => 1 * b i j)) by (auto; intros; ring).
    rewrite (dcov2_ext n a a (fun i j => c * b i j) (fun i j => c * b i j)) by auto.
    rewrite !dcov2_scal. pose proof (dvar_nonneg n b) as Hv.
    assert (0 < dcov2 n b b) by lra. unfold corr.
    replace (c * c * dcov2 n b b * dcov2 n b b) with ((c * dcov2 n b b) * (c * dcov2 n b b)) by ring.
    assert (0 < c * dcov2 n b b) by (apply Rmult_lt_0_compat; auto).
    destruct (Req_EM_T (c * dcov2 n b b * (c * dcov2 n b b)) 0) as [E|E].
    + assert (0 < c * dcov2 n b b * (c * dcov2 n b b)) by (apply Rmult_lt_0_compat; auto). lra.
    + rewrite sqrt_square by lra. field. lra.
Qed.

(** ** Exponent 2 *)

(** Sample covariance of two univariate samples (divided by n). *)
Definition cov1 (n : nat) (u v : nat -> R) : R :=
  mean n (fun i => (u i - mean n u) * (v i - mean n v)).

Lemma dmat_2 p X i j : dmat 2 p X i j = sqdist p (X i) (X j).
Proof.
  rewrite dmat_pw. replace (2 / 2) with 1 by field. unfold pw. destruct (Req_EM_T _ 0) as [E|E]; [lra|].
  rewrite Rpower_1; auto. pose proof (sqdist_nonneg p (X i) (X j)). lra.
Qed.

Lemma dcenter_sqdiff n (u : nat -> R) i j : (1 <= n)%nat ->
  dcenter n (fun i j => (u i - u j) ^ 2) i j = -2 * ((u i - mean n u) * (u j - mean n u)).
Proof.
  intros Hn. pose proof (INR_pos n Hn) as HI.
  rewrite <- (dcenter_rank1 n u u) by auto. rewrite <- dcenter_scal.
  assert (E : forall k, rsum n (fun l => (u k - u l) ^ 2)
     = INR n * (u k ^ 2) + rsum n (fun l => u l ^ 2) - 2 * (u k * rsum n u)).
  { intros k. rewrite (rsum_ext n _ (fun l => u k ^ 2 + u l ^ 2 - 2 * u k * u l)) by (intros; ring).
    rewrite rsum_minus, rsum_plus, rsum_const, rsum_scal_l. eta. ring. }
  assert (E' : forall k, rsum n (fun l => (u l - u k) ^ 2)
     = INR n * (u k ^ 2) + rsum n (fun l => u l ^ 2) - 2 * (u k * rsum n u)).
  { intros k. rewrite <- E. apply rsum_ext. intros. ring. }
  unfold dcenter, mean. rewrite !rsum_div. rewrite E, E'.
  rewrite (rsum_ext n (fun k => rsum n (fun l => (u k - u l) ^ 2))
    (fun k => INR n * (u k ^ 2) + rsum n (fun l => u l ^ 2) - 2 * (u k * rsum n u))) by (intros; apply E).
  rewrite rsum_minus, rsum_plus, rsum_const, rsum_scal_l.
  rewrite !rsum_scal_l.
  rewrite (rsum_ext n (fun i0 => rsum n (fun l => -2 * (u i0 * u l))) (fun i0 => -2 * (u i0 * rsum n (fun l => u l))))
    by (intros; rewrite rsum_scal_l, rsum_scal_l; reflexivity).
  rewrite !rsum_scal_l, !rsum_scal_r. eta. field. lra.
Qed.

Theorem dcov2_exponent_2 n X Y : (1 <= n)%nat ->
  dcov2 n (dmat 2 1 X) (dmat 2 1 Y) = 4 * cov1 n (fun i => X i 0%nat) (fun i => Y i 0%nat) ^ 2.
Proof.
  intros Hn. pose proof (INR_pos n Hn) as HI.
  set (u := fun i => X i 0%nat). set (v := fun i => Y i 0%nat).
  rewrite (dcov2_ext n _ _ (fun i j => (u i - u j) ^ 2) (fun i j => (v i - v j) ^ 2)).
  - unfold dcov2.
    rewrite (rsum2_ext n n _ (fun i j => 4 * (((u i - mean n u) * (v i - mean n v)) * ((u j - mean n u) * (v j - mean n v)))))
      by (intros; rewrite !dcenter_sqdiff by auto; ring).
    rewrite rsum2_scal_l.
    rewrite <- (rsum_mult n n (fun i => (u i - mean n u) * (v i - mean n v)) (fun i => (u i - mean n u) * (v i - mean n v))).
    unfold cov1. unfold mean at 5. field. lra.
  - intros. rewrite dmat_2. unfold sqdist, u. cbn [rsum]. ring.
  - intros. rewrite dmat_2. unfold sqdist, v. cbn [rsum]. ring.
Qed.

(** ** Energy distance as the distance covariance with the group label *)

Definition label (n : nat) (i k : nat) : R := if Nat.ltb i n then 0 else 1.

Lemma rpow_1_l e : rpow 1 e = 1.
Proof. unfold rpow. destruct (Rle_dec 1 0); [lra|]. rewrite ln_1, Rmult_0_r, exp_0. reflexivity. Qed.

Lemma dmat_label n e i j : dmat e 1 (label n) i j = (label n i 0 - label n j 0) ^ 2.
Proof.
  unfold dmat, dist. cbn [rsum]. rewrite Rplus_0_l. unfold label.
  destruct (Nat.ltb i n), (Nat.ltb j n).
  - replace ((0 - 0) ^ 2) with 0 by ring. rewrite sqrt_0. unfold rpow. destruct (Rle_dec 0 0); lra.
  - replace ((0 - 1) ^ 2) with 1 by ring. rewrite sqrt_1. apply rpow_1_l.
  - replace ((1 - 0) ^ 2) with 1 by ring. rewrite sqrt_1. apply rpow_1_l.
  - replace ((1 - 1) ^ 2) with 0 by ring. rewrite sqrt_0. unfold rpow. destruct (Rle_dec 0 0); lra.
Qed.

Theorem energy_dcov_label e f p n m X Y : (1 <= n)%nat -> (1 <= m)%nat ->
  dcov2 (n + m) (dmat e p (pool n X Y)) (dmat f 1 (label n))
  = 2 * (INR n * INR m) ^ 2 / (INR n + INR m) ^ 4 * energy e p n m X Y.
Proof.
  intros Hn Hm. pose proof (INR_pos n Hn) as HI. pose proof (INR_pos m Hm) as HJ.
  assert (HNM : INR (n + m) = INR n + INR m) by apply plus_INR.
  assert (Hpos : (1 <= n + m)%nat) by lia.
  rewrite dcov2_pairing by auto.
  assert (Hmean : mean (n + m) (fun i => label n i 0) = INR m / (INR n + INR m)).
  { unfold mean. rewrite HNM. f_equal. rewrite rsum_app.
    rewrite (rsum_ext n _ (fun _ => 0)).
    2:{ intros i Hi. unfold label. apply Nat.ltb_lt in Hi. rewrite Hi. reflexivity. }
    rewrite (rsum_ext m _ (fun _ => 1)).
    2:{ intros i Hi. unfold label. replace (Nat.ltb (n + i) n) with false; auto.
        symmetry. apply Nat.ltb_ge. lia. }
    rewrite !rsum_const. ring. }
  assert (Hc : forall i, label n i 0 - INR m / (INR n + INR m)
                 = - (INR n * INR m / (INR n + INR m)) * pweight n m i).
  { intros i. unfold label, pweight. destruct (Nat.ltb i n); field; lra. }
  rewrite (rsum2_ext (n + m) (n + m) _ (fun i j => -2 * (INR n * INR m / (INR n + INR m)) ^ 2 *
     (pweight n m i * pweight n m j * dmat e p (pool n X Y) i j))).
  - rewrite rsum2_scal_l, energy_pool by auto. rewrite HNM. field. lra.
  - intros i j Hi Hj.
    rewrite (dcenter_ext (n + m) _ (fun i j => (label n i 0 - label n j 0) ^ 2))
      by (auto; intros; apply dmat_label).
    rewrite (dcenter_sqdiff (n + m) (fun i => label n i 0)) by auto.
    rewrite Hmean, !Hc. ring.
Qed.
