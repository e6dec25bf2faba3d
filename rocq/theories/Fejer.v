(** The integral of (1 - cos (u t)) / t^2 over the positive numbers is pi |u| / 2, by comparison with Fejer's kernel. *)
From Coq Require Import Reals Lra Lia Arith.
From Coquelicot Require Import Coquelicot.
From Verif Require Import Sums.
Local Open Scope R_scope.

(** ** Dirichlet's and Fejer's kernel *)
Definition dirichlet (k : nat) (w : R) : R := 1 + 2 * rsum k (fun j => cos (2 * INR (S j) * w)).
Definition fejer (n : nat) (w : R) : R := rsum n (fun k => dirichlet k w).

Lemma sin2_cos2' a : cos a * cos a = 1 - sin a * sin a.
Proof. pose proof (sin2_cos2 a) as H. unfold Rsqr in H. lra. Qed.

Lemma dirichlet_sin k w : sin w * dirichlet k w = sin ((2 * INR k + 1) * w).
Proof.
  unfold dirichlet. induction k as [|k IH].
  - cbn [rsum INR]. replace ((2 * 0 + 1) * w) with w by ring. ring.
  - cbn [rsum]. replace (sin w * (1 + 2 * (rsum k (fun j => cos (2 * INR (S j) * w)) + cos (2 * INR (S k) * w))))
      with (sin w * (1 + 2 * rsum k (fun j => cos (2 * INR (S j) * w))) + 2 * sin w * cos (2 * INR (S k) * w)) by ring.
    rewrite IH. set (A := 2 * INR (S k) * w).
    replace ((2 * INR k + 1) * w) with (A - w) by (unfold A; rewrite S_INR; ring).
    replace ((2 * INR (S k) + 1) * w) with (A + w) by (unfold A; ring).
    rewrite sin_minus, sin_plus. ring.
Qed.

Lemma fejer_sin n w : sin w * sin w * fejer n w = sin (INR n * w) * sin (INR n * w).
Proof.
  unfold fejer. induction n as [|n IH].
  - cbn [rsum INR]. rewrite Rmult_0_l, sin_0. ring.
  - cbn [rsum]. rewrite Rmult_plus_distr_l, IH.
    replace (sin w * sin w * dirichlet n w) with (sin w * (sin w * dirichlet n w)) by ring. rewrite dirichlet_sin.
    replace (INR (S n) * w) with (INR n * w + w) by (rewrite S_INR; ring).
    replace ((2 * INR n + 1) * w) with (INR n * w + INR n * w + w) by ring.
    rewrite !sin_plus, cos_plus. set (s := sin (INR n * w)). set (c := cos (INR n * w)).
    apply Rminus_diag_uniq.
    match goal with |- ?l = 0 => replace l with (s * s * (1 - sin w * sin w - cos w * cos w)) by ring end.
    rewrite sin2_cos2'. ring.
Qed.

Lemma dirichlet_le k w : dirichlet k w <= 2 * INR k + 1.
Proof.
  unfold dirichlet.
  assert (rsum k (fun j => cos (2 * INR (S j) * w)) <= rsum k (fun _ => 1)) by (apply rsum_le; intros; apply COS_bound).
  rewrite rsum_const in H. lra.
Qed.

Lemma fejer_le n w : fejer n w <= INR n ^ 2.
Proof.
  unfold fejer. eapply Rle_trans; [apply rsum_le; intros; apply dirichlet_le|]. right.
  induction n as [|n IH]; [cbn; ring|]. cbn [rsum]. rewrite IH, S_INR. ring.
Qed.

(** ** Integrals of sums *)
Lemma is_RInt_rsum n (f : nat -> R -> R) a b l : (forall k, (k < n)%nat -> is_RInt (f k) a b (l k)) ->
  is_RInt (fun t => rsum n (fun k => f k t)) a b (rsum n l).
Proof.
  induction n as [|n IH]; intros H; cbn [rsum].
  - pose proof (is_RInt_const (V := R_NormedModule) a b 0) as H0. unfold scal in H0; cbn in H0; unfold mult in H0; cbn in H0.
    rewrite Rmult_0_r in H0. exact H0.
  - apply (is_RInt_plus (V := R_NormedModule)); [apply IH; intros; apply H; lia|apply H; lia].
Qed.

Lemma is_RInt_one a b : is_RInt (fun _ => 1) a b (b - a).
Proof.
  pose proof (is_RInt_const (V := R_NormedModule) a b 1) as H. unfold scal in H; cbn in H; unfold mult in H; cbn in H.
  rewrite Rmult_1_r in H. exact H.
Qed.

Lemma is_RInt_scal_R (f : R -> R) k a b l : is_RInt f a b l -> is_RInt (fun t => k * f t) a b (k * l).
Proof. exact (is_RInt_scal (V := R_NormedModule) f a b k l). Qed.

Lemma is_RInt_cos c T : c <> 0 -> is_RInt (fun t => cos (c * t)) 0 T (sin (c * T) / c).
Proof.
  intros Hc.
  replace (sin (c * T) / c) with (minus (sin (c * T) / c) (sin (c * 0) / c))
    by (rewrite Rmult_0_r, sin_0; unfold minus, plus, opp; cbn; field; auto).
  apply (is_RInt_derive (V := R_CompleteNormedModule) (fun t => sin (c * t) / c)).
  - intros x _. auto_derive; auto. field. auto.
  - intros x _. apply (ex_derive_continuous (fun t => cos (c * t))). auto_derive. auto.
Qed.

Section Scaled.
  Context (n : nat).
  Hypothesis Hn : (1 <= n)%nat.
  Let N := INR n.

  (** Fejer's kernel on (0, n pi) *)
  Let q (t : R) : R := fejer n (t / (2 * N)).

  Lemma N_pos : 0 < N.
  Proof. apply (lt_0_INR n). lia. Qed.

  Lemma q_int T : is_RInt q 0 T (rsum n (fun k => T + 2 * rsum k (fun j => sin (INR (S j) / N * T) / (INR (S j) / N)))).
  Proof.
    pose proof N_pos. unfold q, fejer, dirichlet. apply is_RInt_rsum. intros k Hk.
    apply (is_RInt_plus (V := R_NormedModule)).
    - pose proof (is_RInt_one 0 T) as H1. rewrite Rminus_0_r in H1. exact H1.
    - apply is_RInt_scal_R. apply (is_RInt_rsum k (fun j t => cos (2 * INR (S j) * (t / (2 * N))))). intros j Hj.
      assert (0 < INR (S j)) by (apply lt_0_INR; lia).
      apply (is_RInt_ext (fun t => cos (INR (S j) / N * t))).
      + intros t _. f_equal. field. lra.
      + apply is_RInt_cos. apply Rgt_not_eq. apply Rdiv_lt_0_compat; auto.
  Qed.

  Lemma q_total : is_RInt q 0 (N * PI) (N * (N * PI)).
  Proof.
    pose proof N_pos. replace (N * (N * PI)) with (rsum n (fun k => N * PI + 2 * rsum k (fun j => sin (INR (S j) / N * (N * PI)) / (INR (S j) / N)))).
    - apply q_int.
    - rewrite (rsum_ext n _ (fun _ => N * PI)); [apply rsum_const|]. intros k Hk. rewrite (rsum_zero k); [ring|]. intros j Hj.
      assert (0 < INR (S j)) by (apply lt_0_INR; lia).
      replace (INR (S j) / N * (N * PI)) with (IZR (Z.of_nat (S j)) * PI) by (rewrite <- INR_IZR_INZ; field; lra).
      rewrite sin_eq_0_1 by (eexists; reflexivity). unfold Rdiv. ring.
  Qed.

  (** The kernel [(1 - cos t) / t^2] *)
  Definition bump (t : R) : R := (1 - cos t) / t ^ 2.

  Lemma one_minus_cos t : 1 - cos t = 2 * (sin (t / 2) * sin (t / 2)).
  Proof.
    replace (cos t) with (cos (t / 2 + t / 2)) by (f_equal; field). rewrite cos_plus, sin2_cos2'. ring.
  Qed.

  Lemma sin_below w : 0 <= w -> sin w <= w.
  Proof. intros [H|<-]; [left; apply sin_lt_x; auto|rewrite sin_0; lra]. Qed.
  Lemma sin_above w : 0 <= w <= 4 -> w - w ^ 3 / 6 <= sin w.
  Proof.
    intros H. pose proof (proj1 (pre_sin_bound w 0 (proj1 H) (proj2 H))) as B. unfold sin_approx, sin_term in B. cbn in B.
    eapply Rle_trans; [|exact B]. right. field.
  Qed.

  Lemma bump_q t : 0 < t < N * PI -> q t / (2 * N ^ 2) - / N ^ 2 <= bump t <= q t / (2 * N ^ 2).
  Proof.
    intros Ht. pose proof N_pos as HN. pose proof PI_4 as P4. set (w := t / (2 * N)).
    assert (Hw : 0 < w) by (apply Rdiv_lt_0_compat; lra).
    assert (Hw2 : w < 2).
    { apply (Rmult_lt_reg_r (2 * N)); [lra|]. unfold w. unfold Rdiv. rewrite Rmult_assoc, Rinv_l, Rmult_1_r by lra.
      apply Rlt_le_trans with (1 := proj2 Ht). apply Rle_trans with (N * 4); [apply Rmult_le_compat_l; lra|lra]. }
    assert (Et : t = 2 * N * w) by (unfold w; field; lra).
    assert (Ew : w <= PI / 2).
    { apply (Rmult_le_reg_r (2 * N)); [lra|]. replace (w * (2 * N)) with t by (rewrite Et; ring). lra. }
    assert (S1 : sin w <= w) by (apply sin_below; lra).
    assert (S2 : w - w ^ 3 / 6 <= sin w) by (apply sin_above; lra).
    assert (W3 : w * (w * w) <= w * 3).
    { apply Rmult_le_compat_l; [lra|].
      assert (PI / 2 <= 1.7) by (pose proof PI_ineq 2 as [_ HP]; unfold tg_alt, PI_tg in HP; cbn in HP; lra).
      assert (w * w <= 1.7 * 1.7) by (apply Rmult_le_compat; lra). lra. }
    assert (S3 : w / 2 <= sin w) by (cbn in S2; lra).
    pose proof (fejer_sin n w) as F. fold N in F. change (fejer n w) with (q t) in F.
    assert (Hq0 : 0 <= q t).
    { apply (Rmult_le_reg_l (sin w * sin w)); [apply Rmult_lt_0_compat; lra|]. rewrite F, Rmult_0_r. apply Rle_0_sqr. }
    assert (B : bump t = q t * (sin w * sin w) / (2 * N ^ 2 * (w * w))).
    { unfold bump. rewrite one_minus_cos. replace (t / 2) with (N * w) by (rewrite Et; field). rewrite <- F, Et. field. lra. }
    assert (SS : sin w * sin w <= w * w) by (apply Rmult_le_compat; lra).
    assert (HN2 : 0 < N ^ 2) by (apply pow_lt; auto). assert (Hww : 0 < w * w) by (apply Rmult_lt_0_compat; auto).
    split.
    - assert (D : q t / (2 * N ^ 2) - bump t = (q t * (w * w - sin w * sin w)) / (2 * N ^ 2 * (w * w))) by (rewrite B; field; lra).
      assert (D2 : q t * (w * w - sin w * sin w) <= 2 * (w * w)).
      { apply (Rmult_le_reg_l (sin w * sin w)); [apply Rmult_lt_0_compat; lra|]. rewrite <- Rmult_assoc, F.
        assert (Q1 : sin (N * w) * sin (N * w) <= 1) by (pose proof (SIN_bound (N * w)); nra).
        assert (Q2 : 0 <= sin (N * w) * sin (N * w)) by apply Rle_0_sqr.
        assert (G1 : w - sin w <= w * (w * w) / 6) by (cbn in S2; lra).
        assert (G2 : w * w - sin w * sin w <= (w * (w * w) / 6) * (2 * w)).
        { replace (w * w - sin w * sin w) with ((w - sin w) * (w + sin w)) by ring. apply Rmult_le_compat; lra. }
        assert (G3 : w * w / 4 <= sin w * sin w) by (replace (w * w / 4) with (w / 2 * (w / 2)) by field; apply Rmult_le_compat; lra).
        apply Rle_trans with (1 * (w * w - sin w * sin w)); [apply Rmult_le_compat_r; lra|].
        apply Rle_trans with ((w * (w * w) / 6) * (2 * w)); [lra|].
        apply Rle_trans with (w * w / 4 * (2 * (w * w))); [|apply Rmult_le_compat_r; lra].
        assert (0 <= w * w * (w * w)) by (apply Rmult_le_pos; lra). lra. }
      assert (D3 : (q t * (w * w - sin w * sin w)) / (2 * N ^ 2 * (w * w)) <= / N ^ 2).
      { apply (Rmult_le_reg_r (2 * N ^ 2 * (w * w))); [apply Rmult_lt_0_compat; lra|].
        unfold Rdiv. rewrite Rmult_assoc, Rinv_l by (apply Rgt_not_eq, Rmult_lt_0_compat; lra).
        replace (/ N ^ 2 * (2 * N ^ 2 * (w * w))) with (2 * (w * w)) by (field; lra). lra. }
      lra.
    - rewrite B. apply (Rmult_le_reg_r (2 * N ^ 2 * (w * w))); [apply Rmult_lt_0_compat; lra|].
      unfold Rdiv. rewrite Rmult_assoc, Rinv_l by (apply Rgt_not_eq, Rmult_lt_0_compat; lra).
      replace (q t * / (2 * N ^ 2) * (2 * N ^ 2 * (w * w))) with (q t * (w * w)) by (field; lra).
      rewrite Rmult_1_r. apply Rmult_le_compat_l; auto.
  Qed.

  Lemma bump_int a : 0 < a < N * PI -> forall I, is_RInt bump a (N * PI) I -> Rabs (I - PI / 2) <= a / 2 + 4 / N.
  Proof.
    intros Ha I HI. pose proof N_pos as HN. pose proof PI_4 as P4. pose proof PI_RGT_0 as P0.
    pose proof (q_int a) as Q1. set (A := rsum n _) in Q1.
    assert (Q2 : is_RInt q a (N * PI) (N * (N * PI) - A)).
    { replace (N * (N * PI) - A) with (plus (opp A) (N * (N * PI))) by (unfold plus, opp; cbn; ring).
      apply (is_RInt_Chasles (V := R_NormedModule) q a 0); [apply (is_RInt_swap (V := R_NormedModule)); exact Q1|apply q_total]. }
    assert (HN2 : 0 < N ^ 2) by (apply pow_lt; auto).
    assert (HA : A <= N ^ 2 * a).
    { apply (is_RInt_le q (fun _ => N ^ 2 * 1) 0 a); [lra|exact Q1| |intros; rewrite Rmult_1_r; apply fejer_le].
      pose proof (is_RInt_scal_R (fun _ => 1) (N ^ 2) 0 a (a - 0) (is_RInt_one 0 a)) as H. rewrite Rminus_0_r in H. exact H. }
    assert (Q3 : is_RInt (fun t => / (2 * N ^ 2) * q t) a (N * PI) (/ (2 * N ^ 2) * (N * (N * PI) - A))) by (apply is_RInt_scal_R; auto).
    assert (U : I <= / (2 * N ^ 2) * (N * (N * PI) - A)).
    { apply (is_RInt_le bump (fun t => / (2 * N ^ 2) * q t) a (N * PI)); auto; [lra|]. intros t Ht.
      pose proof (bump_q t ltac:(lra)) as [_ H]. unfold Rdiv in H. rewrite Rmult_comm. exact H. }
    assert (L : / (2 * N ^ 2) * (N * (N * PI) - A) - / N ^ 2 * (N * PI - a) <= I).
    { apply (is_RInt_le (fun t => / (2 * N ^ 2) * q t - / N ^ 2 * 1) bump a (N * PI)); auto; [lra| |].
      - apply (is_RInt_minus (V := R_NormedModule)); auto. apply (is_RInt_scal_R (fun _ => 1)). apply is_RInt_one.
      - intros t Ht. pose proof (bump_q t ltac:(lra)) as [H _]. unfold Rdiv in H. lra. }
    assert (E1 : / (2 * N ^ 2) * (N * (N * PI) - A) = PI / 2 - A / (2 * N ^ 2)) by (field; lra).
    rewrite E1 in U, L.
    assert (A0 : 0 <= A).
    { apply (is_RInt_le (fun _ => 0 * 1) q 0 a); [lra| |exact Q1|].
      - pose proof (is_RInt_scal_R (fun _ => 1) 0 0 a (a - 0) (is_RInt_one 0 a)) as H. rewrite Rmult_0_l in H. exact H.
      - intros t Ht. pose proof (bump_q t ltac:(lra)) as [_ H].
        assert (0 <= bump t) by (unfold bump; apply Rdiv_le_0_compat; [pose proof (COS_bound t); lra|apply pow_lt; lra]).
        apply (Rmult_le_reg_r (/ (2 * N ^ 2))); [apply Rinv_0_lt_compat; lra|]. unfold Rdiv in H. lra. }
    assert (A2 : A / (2 * N ^ 2) <= a / 2).
    { apply (Rmult_le_reg_r (2 * N ^ 2)); [lra|]. unfold Rdiv. rewrite Rmult_assoc, Rinv_l by lra. lra. }
    assert (A3 : 0 <= A / (2 * N ^ 2)) by (apply Rdiv_le_0_compat; lra).
    assert (A4 : / N ^ 2 * (N * PI - a) <= 4 / N).
    { apply (Rmult_le_reg_l (N ^ 2)); auto. rewrite <- Rmult_assoc, Rinv_r, Rmult_1_l by lra.
      replace (N ^ 2 * (4 / N)) with (4 * N) by (field; lra). nra. }
    apply Rabs_le. assert (0 < 4 / N) by (apply Rdiv_lt_0_compat; lra). lra.
  Qed.
End Scaled.

Lemma bump_continuous t : 0 < t -> continuous bump t.
Proof. intros H. apply (ex_derive_continuous bump). unfold bump. auto_derive. apply Rgt_not_eq. nra. Qed.

Lemma bump_ex a b : 0 < a -> a <= b -> ex_RInt bump a b.
Proof.
  intros Ha Hab. apply (ex_RInt_continuous (V := R_CompleteNormedModule) bump). intros t Ht.
  rewrite Rmin_left, Rmax_right in Ht by lra. apply bump_continuous. lra.
Qed.

Lemma bump_tail b c I : 0 < b -> b <= c -> is_RInt bump b c I -> 0 <= I <= 2 / b.
Proof.
  intros Hb Hc HI.
  assert (H : is_RInt (fun t => 2 / t ^ 2) b c (minus (- 2 / c) (- 2 / b))).
  { apply (is_RInt_derive (V := R_CompleteNormedModule) (fun t => - 2 / t)).
    - intros t Ht. rewrite Rmin_left, Rmax_right in Ht by lra. auto_derive; [lra|]. field. lra.
    - intros t Ht. rewrite Rmin_left, Rmax_right in Ht by lra.
      apply (ex_derive_continuous (fun t => 2 / t ^ 2)). auto_derive. apply Rgt_not_eq. nra. }
  assert (P : forall t, b < t < c -> 0 <= bump t <= 2 / t ^ 2).
  { intros t Ht. assert (0 < t ^ 2) by (apply pow_lt; lra). unfold bump. pose proof (COS_bound t). split.
    - apply Rdiv_le_0_compat; lra.
    - apply Rmult_le_compat_r; [left; apply Rinv_0_lt_compat; auto|lra]. }
  split.
  - apply (is_RInt_le (fun _ => 0 * 1) bump b c); auto; [|intros; rewrite Rmult_0_l; apply P; auto].
    pose proof (is_RInt_scal_R (fun _ => 1) 0 b c (c - b) (is_RInt_one b c)) as H0. rewrite Rmult_0_l in H0. exact H0.
  - assert (I <= minus (- 2 / c) (- 2 / b)) by (apply (is_RInt_le bump (fun t => 2 / t ^ 2) b c); auto; intros; apply P; auto).
    unfold minus, plus, opp in H0; cbn in H0. assert (0 < 2 / c) by (apply Rdiv_lt_0_compat; lra).
    replace (- 2 / c + - (- 2 / b)) with (2 / b - 2 / c) in H0 by (unfold Rdiv; ring). lra.
Qed.

Lemma bump_bound a b I : 0 < a -> a <= b -> is_RInt bump a b I -> Rabs (I - PI / 2) <= a / 2 + 2 / b.
Proof.
  intros Ha Hab HI. pose proof PI_RGT_0 as P0.
  apply le_epsilon. intros eps Heps.
  assert (exists n, Rmax (b / PI) (4 / eps) < INR n) as [n Hn].
  { exists (Z.to_nat (up (Rmax (b / PI) (4 / eps)))). destruct (archimed (Rmax (b / PI) (4 / eps))) as [U _].
    eapply Rlt_le_trans; [exact U|]. rewrite INR_IZR_INZ. apply IZR_le. lia. }
  assert (B1 : b / PI < INR n) by (eapply Rle_lt_trans; [apply Rmax_l|exact Hn]).
  assert (B2 : 4 / eps < INR n) by (eapply Rle_lt_trans; [apply Rmax_r|exact Hn]).
  assert (E0 : 0 < 4 / eps) by (apply Rdiv_lt_0_compat; lra).
  assert (HN : (1 <= n)%nat) by (destruct n; [cbn in B2; lra|lia]).
  assert (C : b < INR n * PI).
  { apply (Rmult_lt_compat_r PI) in B1; auto. unfold Rdiv in B1. rewrite Rmult_assoc, Rinv_l, Rmult_1_r in B1 by lra. auto. }
  destruct (bump_ex b (INR n * PI) ltac:(lra) ltac:(lra)) as [J HJ].
  pose proof (bump_tail b (INR n * PI) J ltac:(lra) ltac:(lra) HJ) as T.
  pose proof (is_RInt_Chasles (V := R_NormedModule) bump a b (INR n * PI) I J HI HJ) as HIJ. unfold plus in HIJ; cbn in HIJ.
  pose proof (bump_int n HN a ltac:(lra) (I + J) HIJ) as B.
  assert (4 / INR n <= eps).
  { apply (Rmult_le_reg_r (INR n)); [lra|]. unfold Rdiv. rewrite Rmult_assoc, Rinv_l by lra.
    apply (Rmult_lt_compat_r eps) in B2; auto. unfold Rdiv in B2. rewrite Rmult_assoc, Rinv_l in B2 by lra. lra. }
  apply Rabs_le_between in B. apply Rabs_le. lra.
Qed.

(** ** The integral for every frequency *)
Definition wave (u t : R) : R := (1 - cos (u * t)) / t ^ 2.

Lemma wave_bound u a b : 0 < a -> a <= b -> exists I, is_RInt (wave u) a b I /\ Rabs (I - PI / 2 * Rabs u) <= u ^ 2 * a / 2 + 2 / b.
Proof.
  intros Ha Hab. assert (Hb : 0 < 2 / b) by (apply Rdiv_lt_0_compat; lra).
  destruct (Req_dec u 0) as [->|Hu].
  - exists 0. split.
    + apply (is_RInt_ext (fun _ => 0 * 1)); [intros t _; change (@eq R (0 * 1) (wave 0 t)); unfold wave; rewrite (Rmult_0_l t), cos_0; unfold Rdiv; ring|].
      pose proof (is_RInt_scal_R (fun _ => 1) 0 a b (b - a) (is_RInt_one a b)) as H0. rewrite Rmult_0_l in H0. exact H0.
    + rewrite Rabs_R0. replace (0 - PI / 2 * 0) with 0 by ring. rewrite Rabs_R0. lra.
  - set (c := Rabs u). assert (Hc : 0 < c) by (apply Rabs_pos_lt; auto).
    assert (Hca : c * a <= c * b) by (apply Rmult_le_compat_l; lra).
    assert (Hca0 : 0 < c * a) by (apply Rmult_lt_0_compat; auto).
    destruct (bump_ex (c * a) (c * b) Hca0 Hca) as [J HJ].
    pose proof (bump_bound (c * a) (c * b) J Hca0 Hca HJ) as B.
    exists (c * J). split.
    + assert (HJ' : is_RInt bump (c * a + 0) (c * b + 0) J) by (rewrite !Rplus_0_r; exact HJ).
      pose proof (is_RInt_comp_lin (V := R_NormedModule) bump c 0 a b J HJ') as H1.
      apply (is_RInt_scal_R _ c) in H1. unfold scal in H1; cbn in H1; unfold mult in H1; cbn in H1.
      eapply is_RInt_ext; [|exact H1]. intros t Ht. rewrite Rmin_left, Rmax_right in Ht by auto.
      change (@eq R (c * (c * bump (c * t + 0))) (wave u t)). rewrite Rplus_0_r. unfold bump, wave.
      assert (E : cos (c * t) = cos (u * t)).
      { unfold c, Rabs. destruct (Rcase_abs u); [|reflexivity]. replace (- u * t) with (- (u * t)) by ring. apply cos_neg. }
      rewrite E. field. lra.
    + replace (c * J - PI / 2 * c) with (c * (J - PI / 2)) by ring. rewrite Rabs_mult, (Rabs_pos_eq c) by lra.
      apply Rle_trans with (c * (c * a / 2 + 2 / (c * b))); [apply Rmult_le_compat_l; lra|]. right.
      replace (u ^ 2) with (c * c) by (unfold c; rewrite <- Rabs_mult, Rabs_pos_eq; [ring|apply Rle_0_sqr]). field. lra.
Qed.

Theorem wave_integral u : is_RInt_gen (wave u) (at_right 0) (Rbar_locally p_infty) (PI / 2 * Rabs u).
Proof.
  intros P [eps HP]. pose proof (cond_pos eps) as He.
  apply (Filter_prod _ _ _ (fun a => 0 < a /\ a < Rmin 1 (eps / 2 / (u ^ 2 + 1))) (fun b => Rmax 1 (8 / eps) < b)).
  - assert (Hd : 0 < Rmin 1 (eps / 2 / (u ^ 2 + 1))).
    { apply Rmin_pos; [lra|]. apply Rdiv_lt_0_compat; [lra|]. pose proof (pow2_ge_0 u). lra. }
    exists (mkposreal _ Hd). intros a Ha Hpos. cbn in Ha. unfold ball in Ha; cbn in Ha. unfold AbsRing_ball, abs, minus, plus, opp in Ha; cbn in Ha.
    rewrite Ropp_0, Rplus_0_r, Rabs_pos_eq in Ha by lra. split; auto.
  - exists (Rmax 1 (8 / eps)). auto.
  - intros a b (Ha & Ha') Hb. cbn [fst snd].
    pose proof (Rmin_l 1 (eps / 2 / (u ^ 2 + 1))). pose proof (Rmin_r 1 (eps / 2 / (u ^ 2 + 1))).
    pose proof (Rmax_l 1 (8 / eps)). pose proof (Rmax_r 1 (8 / eps)).
    destruct (wave_bound u a b Ha ltac:(lra)) as (I & HI & HB). exists I. split; [exact HI|]. apply HP.
    unfold ball; cbn. unfold AbsRing_ball, abs, minus, plus, opp; cbn.
    eapply Rle_lt_trans; [exact HB|]. pose proof (pow2_ge_0 u).
    assert (B1 : u ^ 2 * a / 2 < eps / 2).
    { assert (a * (u ^ 2 + 1) < eps / 2).
      { apply (Rmult_lt_reg_r (/ (u ^ 2 + 1))); [apply Rinv_0_lt_compat; lra|]. rewrite Rmult_assoc, Rinv_r, Rmult_1_r by lra.
        change (a < eps / 2 / (u ^ 2 + 1)). lra. }
      nra. }
    assert (B2 : 2 / b < eps / 2).
    { apply (Rmult_lt_reg_r b); [lra|]. unfold Rdiv at 1. rewrite Rmult_assoc, Rinv_l by lra.
      assert (8 < b * eps) by (apply (Rmult_lt_reg_r (/ eps)); [apply Rinv_0_lt_compat; auto|]; rewrite Rmult_assoc, Rinv_r, Rmult_1_r by lra; change (8 / eps < b); lra).
      lra. }
    lra.
Qed.
