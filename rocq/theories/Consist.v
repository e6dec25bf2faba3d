(** Laws of large numbers for independent draws from a finitely supported distribution: relative frequencies, and quantities that
    depend on them in a Lipschitz way. *)
From Coq Require Import Reals Lra Lia List Arith Bool FunctionalExtensionality.
From Verif Require Import Sums Spec Expect.
Local Open Scope R_scope.

(** Probability of an event under [n] independent draws. *)
Definition probability (K : nat) (w : nat -> R) (n : nat) (event : (nat -> nat) -> bool) : R :=
  expect K w n (fun s => if event s then 1 else 0).

(** At least [eps] away from [t]. *)
Definition far (eps v t : R) : bool := if Rle_dec eps (Rabs (v - t)) then true else false.

(** Relative frequency of the atom [k] among [n] draws. *)
Definition freq (n : nat) (s : nat -> nat) (k : nat) : R := rsum n (fun i => if Nat.eqb (s i) k then 1 else 0) / INR n.

Lemma rsum_Rabs_le n f : Rabs (rsum n f) <= rsum n (fun k => Rabs (f k)).
Proof.
  induction n as [|n IH]; cbn [rsum]; [rewrite Rabs_R0; lra|]. eapply Rle_trans; [apply Rabs_triang|]. lra.
Qed.

Section Draws.
  Context (K : nat) (w : nat -> R).
  Hypothesis HD : distribution K w.

  Lemma atoms_pos : (0 < K)%nat.
  Proof. destruct HD as [_ H]. destruct K; [cbn in H; lra|lia]. Qed.

  (** Only the sequences of atoms with positive probability matter. *)
  Lemma expect_le_possible n f g : (forall s, (forall i, (i < n)%nat -> (s i < K)%nat /\ 0 < w (s i)) -> f s <= g s) ->
    expect K w n f <= expect K w n g.
  Proof.
    destruct HD as [Hw _]. revert f g. induction n as [|n IH]; intros f g H; cbn [expect].
    - apply H. intros. lia.
    - apply rsum_le. intros k Hk. destruct (Req_dec (w k) 0) as [Z|Z]; [rewrite Z; lra|]. specialize (Hw k Hk).
      apply Rmult_le_compat_l; [auto|]. apply IH. intros s Hs. apply H. intros i Hi. destruct (Nat.eqb_spec i n); [split; auto; lra|apply Hs; lia].
  Qed.
  Lemma expect_le n f g : (forall s, (forall i, (s i < K)%nat) -> f s <= g s) -> expect K w n f <= expect K w n g.
  Proof.
    pose proof atoms_pos as HK. destruct HD as [Hw _]. revert f g. induction n as [|n IH]; intros f g H; cbn [expect].
    - apply H. intros. exact HK.
    - apply rsum_le. intros k Hk. apply Rmult_le_compat_l; [apply Hw; auto|]. apply IH. intros s Hs. apply H. intros i.
      destruct (Nat.eqb i n); auto.
  Qed.
  Lemma expect_eq n f g : (forall s, (forall i, (s i < K)%nat) -> f s = g s) -> expect K w n f = expect K w n g.
  Proof. intros H. apply Rle_antisym; apply expect_le; intros s Hs; rewrite H by auto; lra. Qed.
  Lemma expect_nonneg n f : (forall s, (forall i, (s i < K)%nat) -> 0 <= f s) -> 0 <= expect K w n f.
  Proof. intros H. rewrite <- (expect_const K w (proj2 HD) n 0). apply expect_le. auto. Qed.

  Lemma expect_1 n i (g : nat -> R) : (i < n)%nat -> expect K w n (fun s => g (s i)) = rsum K (fun k => w k * g k).
  Proof.
    intros Hi. destruct HD as [_ Hw]. rewrite <- (expect_redraw K w Hw n i) by auto. unfold redraw. rewrite Nat.eqb_refl.
    apply expect_const; auto.
  Qed.

  Lemma probability_range n ev : 0 <= probability K w n ev <= 1.
  Proof.
    unfold probability. split.
    - apply expect_nonneg. intros. destruct (ev s); lra.
    - rewrite <- (expect_const K w (proj2 HD) n 1) at 1. apply expect_le. intros. destruct (ev s); lra.
  Qed.
  Lemma probability_le n ev ev' : (forall s, (forall i, (s i < K)%nat) -> ev s = true -> ev' s = true) ->
    probability K w n ev <= probability K w n ev'.
  Proof.
    intros H. unfold probability. apply expect_le. intros s Hs. specialize (H s Hs). destruct (ev s), (ev' s); try lra; discriminate H; auto.
  Qed.
  Lemma probability_or n ev ev' : probability K w n (fun s => ev s || ev' s) <= probability K w n ev + probability K w n ev'.
  Proof.
    unfold probability. rewrite <- expect_plus. apply expect_le. intros s Hs. destruct (ev s), (ev' s); cbn [orb]; lra.
  Qed.
  Lemma probability_or_le n ev e1 e2 : (forall s, (forall i, (s i < K)%nat) -> ev s = true -> e1 s = true \/ e2 s = true) ->
    probability K w n ev <= probability K w n e1 + probability K w n e2.
  Proof.
    intros H. eapply Rle_trans; [|apply probability_or]. apply probability_le. intros s Hs He. apply orb_true_iff. auto.
  Qed.

  (** Markov and Chebyshev. *)
  Lemma chebyshev n v t eps : 0 < eps -> probability K w n (fun s => far eps (v s) t) <= expect K w n (fun s => (v s - t) ^ 2) / eps ^ 2.
  Proof.
    intros He. unfold Rdiv. rewrite Rmult_comm, <- expect_scal. unfold probability. apply expect_le. intros s _.
    assert (0 < / eps ^ 2) by (apply Rinv_0_lt_compat, pow_lt; auto). unfold far. destruct (Rle_dec eps (Rabs (v s - t))) as [H1|H1].
    - replace 1 with (/ eps ^ 2 * eps ^ 2) by (field; lra). apply Rmult_le_compat_l; [lra|]. rewrite <- (pow2_abs (v s - t)). apply pow_incr. lra.
    - apply Rmult_le_pos; [lra|]. apply pow2_ge_0.
  Qed.

  (** ** Relative frequencies *)

  Lemma freq_sum n s g : (1 <= n)%nat -> (forall i, (s i < K)%nat) -> rsum n (fun i => g (s i)) = INR n * rsum K (fun k => freq n s k * g k).
  Proof.
    intros Hn Hs. assert (0 < INR n) by (apply lt_0_INR; lia).
    rewrite <- rsum_scal_l. rewrite (rsum_ext K _ (fun k => rsum n (fun i => if Nat.eqb k (s i) then g k else 0))).
    - rewrite rsum_swap. apply rsum_ext. intros i Hi. symmetry. apply (rsum_delta K (s i) g). auto.
    - intros k Hk. unfold freq. transitivity (rsum n (fun i => if Nat.eqb (s i) k then 1 else 0) * g k); [field; lra|].
      rewrite <- rsum_scal_r. apply rsum_ext. intros i Hi. rewrite (Nat.eqb_sym k). destruct (Nat.eqb (s i) k); ring.
  Qed.
  Lemma freq_nonneg n s k : (1 <= n)%nat -> 0 <= freq n s k.
  Proof.
    intros Hn. assert (0 < INR n) by (apply lt_0_INR; lia). apply Rmult_le_pos; [apply rsum_nonneg; intros; destruct (Nat.eqb _ _); lra|].
    left. apply Rinv_0_lt_compat. auto.
  Qed.
  Lemma freq_total n s : (1 <= n)%nat -> (forall i, (s i < K)%nat) -> rsum K (freq n s) = 1.
  Proof.
    intros Hn Hs. assert (0 < INR n) by (apply lt_0_INR; lia). pose proof (freq_sum n s (fun _ => 1) Hn Hs) as H0. cbv beta in H0. rewrite rsum_const in H0.
    rewrite (rsum_ext K _ (freq n s)) in H0 by (intros; ring). apply Rmult_eq_reg_l with (INR n); lra.
  Qed.
  Lemma freq_distribution n s : (1 <= n)%nat -> (forall i, (s i < K)%nat) -> distribution K (freq n s).
  Proof. intros Hn Hs. split; [intros; apply freq_nonneg; auto|apply freq_total; auto]. Qed.

  Lemma freq_variance n k : (1 <= n)%nat -> (k < K)%nat -> expect K w n (fun s => (freq n s k - w k) ^ 2) = w k * (1 - w k) / INR n.
  Proof.
    intros Hn Hk. destruct HD as [_ Hw]. assert (0 < INR n) by (apply lt_0_INR; lia).
    set (z := fun l => (if Nat.eqb l k then 1 else 0) - w k).
    rewrite (expect_ext K w n _ (fun s => / (INR n) ^ 2 * rsum2 n n (fun i j => z (s i) * z (s j)))).
    - rewrite expect_scal, (expect_rsum2 K w Hw). unfold rsum2.
      assert (Z1 : rsum K (fun l => w l * z l) = 0).
      { unfold z. rewrite (rsum_ext K _ (fun l => (if Nat.eqb l k then w l else 0) - w l * w k)) by (intros l Hl; destruct (Nat.eqb l k); ring).
        rewrite rsum_minus, (rsum_delta K k w Hk), rsum_scal_r, Hw. ring. }
      assert (Z2 : rsum K (fun l => w l * (z l * z l)) = w k * (1 - w k)).
      { unfold z. rewrite (rsum_ext K _ (fun l => (if Nat.eqb l k then w l * (1 - 2 * w k) else 0) + w l * (w k * w k))) by (intros l Hl; destruct (Nat.eqb l k); ring).
        rewrite rsum_plus, (rsum_delta K k (fun l => w l * (1 - 2 * w k)) Hk), rsum_scal_r, Hw. ring. }
      rewrite (rsum_ext n _ (fun _ => w k * (1 - w k))); [rewrite rsum_const; field; lra|].
      intros i Hi. rewrite (rsum_one n _ i Hi 0).
      + rewrite (expect_1 n i (fun l => z l * z l)) by auto. rewrite Z2. ring.
      + intros j Hj Hji. rewrite (expect_2 K w Hw n i j (fun a b => z a * z b)) by auto. apply rsum_zero. intros a Ha.
        rewrite (rsum_ext K _ (fun l => z a * (w l * z l))) by (intros; ring). rewrite rsum_scal_l, Z1. ring.
    - intros s. unfold freq. rewrite <- (rsum_mult n n (fun i => z (s i)) (fun j => z (s j))).
      assert (X : rsum n (fun i => z (s i)) = rsum n (fun i => if Nat.eqb (s i) k then 1 else 0) - INR n * w k).
      { unfold z. rewrite rsum_minus, rsum_const. reflexivity. }
      rewrite X. field. lra.
  Qed.

  (** The squared distance of the frequencies from the probabilities has mean at most 1/n. *)
  Definition gap2 (n : nat) (s : nat -> nat) : R := rsum K (fun k => (freq n s k - w k) ^ 2).
  Lemma gap2_mean n : (1 <= n)%nat -> expect K w n (gap2 n) <= / INR n.
  Proof.
    intros Hn. destruct HD as [Hp Hw]. assert (0 < INR n) by (apply lt_0_INR; lia).
    unfold gap2. rewrite (expect_rsum K w Hw n K (fun k s => (freq n s k - w k) ^ 2)).
    rewrite (rsum_ext K _ (fun k => w k * (1 - w k) / INR n)) by (intros; apply freq_variance; auto).
    rewrite rsum_div. unfold Rdiv. rewrite <- (Rmult_1_l (/ INR n)) at 2. apply Rmult_le_compat_r; [left; apply Rinv_0_lt_compat; auto|].
    rewrite <- Hw. apply rsum_le. intros k Hk. specialize (Hp k Hk). nra.
  Qed.
  Lemma gap_sqr n s : (rsum K (fun k => Rabs (freq n s k - w k))) ^ 2 <= INR K * gap2 n s.
  Proof.
    pose proof (rsum_cauchy_schwarz K (fun _ => 1) (fun k => Rabs (freq n s k - w k))) as H.
    cbv beta in H. rewrite (rsum_ext K (fun i => 1 * _) (fun k => Rabs (freq n s k - w k))) in H by (intros; ring).
    rewrite rsum_const in H. unfold gap2.
    rewrite (rsum_ext K (fun k => (freq n s k - w k) ^ 2) (fun k => Rabs (freq n s k - w k) * Rabs (freq n s k - w k))) by (intros; rewrite <- pow2_abs; ring).
    lra.
  Qed.

  (** A quantity within [L] times the distance of the frequencies from a value. *)
  Lemma lipschitz_mean n v t L : (1 <= n)%nat ->
    (forall s, (forall i, (s i < K)%nat) -> Rabs (v s - t) <= L * rsum K (fun k => Rabs (freq n s k - w k))) ->
    expect K w n (fun s => (v s - t) ^ 2) <= L ^ 2 * INR K / INR n.
  Proof.
    intros Hn HL. apply Rle_trans with (expect K w n (fun s => L ^ 2 * INR K * gap2 n s)).
    - apply expect_le. intros s Hs. specialize (HL s Hs). rewrite <- (pow2_abs (v s - t)).
      apply Rle_trans with ((L * rsum K (fun k => Rabs (freq n s k - w k))) ^ 2).
      + apply pow_incr. split; [apply Rabs_pos|auto].
      + rewrite Rpow_mult_distr, Rmult_assoc. apply Rmult_le_compat_l; [apply pow2_ge_0|]. apply gap_sqr.
    - rewrite expect_scal. unfold Rdiv. apply Rmult_le_compat_l; [apply Rmult_le_pos; [apply pow2_ge_0|apply pos_INR]|]. apply gap2_mean; auto.
  Qed.
  Lemma lipschitz_probability n v t L eps : (1 <= n)%nat -> 0 < eps ->
    (forall s, (forall i, (s i < K)%nat) -> Rabs (v s - t) <= L * rsum K (fun k => Rabs (freq n s k - w k))) ->
    probability K w n (fun s => far eps (v s) t) <= L ^ 2 * INR K / (INR n * eps ^ 2).
  Proof.
    intros Hn He HL. assert (0 < INR n) by (apply lt_0_INR; lia). eapply Rle_trans; [apply chebyshev; auto|].
    replace (L ^ 2 * INR K / (INR n * eps ^ 2)) with (L ^ 2 * INR K / INR n / eps ^ 2) by (field; lra).
    unfold Rdiv at 1. unfold Rdiv at 1. apply Rmult_le_compat_r; [left; apply Rinv_0_lt_compat, pow_lt; auto|].
    apply lipschitz_mean; auto.
  Qed.
End Draws.

(** ** Forms in the probabilities *)
Section Forms.
  Context (K : nat) (f w : nat -> R).
  Hypothesis (Hf : distribution K f) (Hw : distribution K w).
  Let D := rsum K (fun k => Rabs (f k - w k)).

  Lemma linear_bound g c A : distribution K g -> (forall k, (k < K)%nat -> 0 <= c k <= A) -> 0 <= rsum K (fun k => g k * c k) <= A.
  Proof.
    intros [Hg Sg] Hc. split; [apply rsum_nonneg; intros k Hk; apply Rmult_le_pos; [auto|apply Hc; auto]|].
    rewrite <- (Rmult_1_l A), <- Sg, <- rsum_scal_r. apply rsum_le. intros k Hk. apply Rmult_le_compat_l; [auto|apply Hc; auto].
  Qed.
  Lemma linear_moved c A : (forall k, (k < K)%nat -> Rabs (c k) <= A) -> Rabs (rsum K (fun k => f k * c k) - rsum K (fun k => w k * c k)) <= A * D.
  Proof.
    intros Hc. rewrite <- rsum_minus. eapply Rle_trans; [apply rsum_Rabs_le|]. unfold D. rewrite <- rsum_scal_l. apply rsum_le. intros k Hk.
    replace (f k * c k - w k * c k) with (c k * (f k - w k)) by ring. rewrite Rabs_mult. apply Rmult_le_compat_r; [apply Rabs_pos|auto].
  Qed.
  Lemma gap_nonneg : 0 <= D.
  Proof. apply rsum_nonneg. intros. apply Rabs_pos. Qed.
End Forms.

Lemma rsum2_form K w c : rsum2 K K (fun k l => w k * w l * c k l) = rsum K (fun k => w k * rsum K (fun l => w l * c k l)).
Proof. unfold rsum2. apply rsum_ext. intros. rewrite <- rsum_scal_l. apply rsum_ext. intros. ring. Qed.

Lemma in_abs x A : 0 <= x <= A -> Rabs x <= A.
Proof. intros. rewrite Rabs_pos_eq; lra. Qed.

(** A quadratic form of a kernel between 0 and C moves by at most 2 C times the distance. *)
Lemma quadratic_moved K f w c C : distribution K f -> distribution K w -> (forall k l, (k < K)%nat -> (l < K)%nat -> 0 <= c k l <= C) ->
  Rabs (rsum2 K K (fun k l => f k * f l * c k l) - rsum2 K K (fun k l => w k * w l * c k l)) <= 2 * C * rsum K (fun k => Rabs (f k - w k)).
Proof.
  intros Hf Hw Hc. rewrite !rsum2_form. set (D := rsum K (fun k => Rabs (f k - w k))).
  set (F := fun k => rsum K (fun l => f l * c k l)). set (W := fun k => rsum K (fun l => w l * c k l)).
  assert (BF : forall k, (k < K)%nat -> 0 <= F k <= C) by (intros; apply linear_bound; auto).
  assert (BW : forall k, (k < K)%nat -> 0 <= W k <= C) by (intros; apply linear_bound; auto).
  assert (M : forall k, (k < K)%nat -> Rabs (F k - W k) <= C * D).
  { intros k Hk. apply linear_moved. intros l Hl. apply in_abs. auto. }
  match goal with |- Rabs _ <= ?r => change (Rabs (rsum K (fun k => f k * F k) - rsum K (fun k => w k * W k)) <= r) end.
  replace (rsum K (fun k => f k * F k) - rsum K (fun k => w k * W k))
    with ((rsum K (fun k => f k * F k) - rsum K (fun k => w k * F k)) + rsum K (fun k => w k * (F k - W k))).
  2:{ rewrite (rsum_ext K (fun k => w k * (F k - W k)) (fun k => w k * F k - w k * W k)) by (intros; ring). rewrite rsum_minus. ring. }
  eapply Rle_trans; [apply Rabs_triang|]. replace (2 * C * D) with (C * D + C * D) by ring. apply Rplus_le_compat.
  - apply linear_moved. intros k Hk. apply in_abs. auto.
  - eapply Rle_trans; [apply rsum_Rabs_le|]. destruct Hw as [Pw Sw]. rewrite <- (Rmult_1_l (C * D)), <- Sw, <- rsum_scal_r. apply rsum_le.
    intros k Hk. rewrite Rabs_mult, (Rabs_pos_eq (w k)) by auto. apply Rmult_le_compat_l; auto.
Qed.

Lemma quadratic_bound K f c C : distribution K f -> (forall k l, (k < K)%nat -> (l < K)%nat -> 0 <= c k l <= C) ->
  0 <= rsum2 K K (fun k l => f k * f l * c k l) <= C.
Proof. intros Hf Hc. rewrite rsum2_form. apply linear_bound; auto. intros. apply linear_bound; auto. Qed.

(** Two distributions on two sets of atoms. *)
Lemma bilinear_moved K L f w g v c C : distribution K f -> distribution K w -> distribution L g -> distribution L v ->
  (forall k l, (k < K)%nat -> (l < L)%nat -> 0 <= c k l <= C) ->
  Rabs (rsum2 K L (fun k l => f k * g l * c k l) - rsum2 K L (fun k l => w k * v l * c k l))
  <= C * (rsum K (fun k => Rabs (f k - w k)) + rsum L (fun l => Rabs (g l - v l))).
Proof.
  intros Hf Hw Hg Hv Hc.
  assert (X : forall f g, rsum2 K L (fun k l => f k * g l * c k l) = rsum K (fun k => f k * rsum L (fun l => g l * c k l))).
  { intros. unfold rsum2. apply rsum_ext. intros. rewrite <- rsum_scal_l. apply rsum_ext. intros. ring. }
  rewrite !X. set (F := fun k => rsum L (fun l => g l * c k l)). set (W := fun k => rsum L (fun l => v l * c k l)).
  match goal with |- Rabs _ <= ?r => change (Rabs (rsum K (fun k => f k * F k) - rsum K (fun k => w k * W k)) <= r) end.
  replace (rsum K (fun k => f k * F k) - rsum K (fun k => w k * W k))
    with ((rsum K (fun k => f k * F k) - rsum K (fun k => w k * F k)) + rsum K (fun k => w k * (F k - W k))).
  2:{ rewrite (rsum_ext K (fun k => w k * (F k - W k)) (fun k => w k * F k - w k * W k)) by (intros; ring). rewrite rsum_minus. ring. }
  eapply Rle_trans; [apply Rabs_triang|]. rewrite Rmult_plus_distr_l. apply Rplus_le_compat.
  - apply linear_moved. intros k Hk. apply in_abs. apply linear_bound; auto.
  - eapply Rle_trans; [apply rsum_Rabs_le|]. destruct Hw as [Pw Sw].
    set (Dl := rsum L (fun l => Rabs (g l - v l))). rewrite <- (Rmult_1_l (C * Dl)), <- Sw, <- rsum_scal_r. apply rsum_le.
    intros k Hk. rewrite Rabs_mult, (Rabs_pos_eq (w k)) by auto. apply Rmult_le_compat_l; auto. apply linear_moved. intros l Hl. apply in_abs. auto.
Qed.
