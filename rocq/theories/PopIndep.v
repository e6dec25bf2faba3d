(** Population quantities as forms in signed weights: nonnegativity, and what vanishing means. *)
From Coq Require Import Reals Lra Lia List Arith Bool.
From Verif Require Import Sums Spec Centering Psd PowerKernel Nonneg SpecFacts RefDist Empirical EnergyMath PEmpirical Expect PUnbiased Consist PopMath.
Local Open Scope R_scope.

(** ** Specification *)

(** Probability that X = x, that Y = y, and both, when the pair (X, Y) is atom k with probability [w k]. *)
Definition prob_at (K : nat) (w : nat -> R) (p : nat) (X : nat -> nat -> R) (x : nat -> R) : R :=
  rsum K (fun k => if same_pointb p (X k) x then w k else 0).
Definition prob_both (K : nat) (w : nat -> R) (p q : nat) (X Y : nat -> nat -> R) (x y : nat -> R) : R :=
  rsum K (fun k => if same_pointb p (X k) x && same_pointb q (Y k) y then w k else 0).
Definition independent (K : nat) (w : nat -> R) (p q : nat) (X Y : nat -> nat -> R) : Prop :=
  forall x y, prob_both K w p q X Y x y = prob_at K w p X x * prob_at K w q Y y.
Definition same_law (p K L : nat) (w v : nat -> R) (X Y : nat -> nat -> R) : Prop :=
  forall z, prob_at K w p X z = prob_at L v p Y z.

(** ** Signed weights *)
Lemma rsum2_zero n m f : (forall i j, (i < n)%nat -> (j < m)%nat -> f i j = 0) -> rsum2 n m f = 0.
Proof. intros H. unfold rsum2. apply rsum_zero. intros i Hi. apply rsum_zero. auto. Qed.

Section Signed.
  Context (N p : nat) (c : nat -> R) (Z : nat -> nat -> R).

  Lemma signed_dl_zero : rsum2 N N (fun i j => c i * c j * dl p (Z i) (Z j)) = 0 ->
    forall k, (k < N)%nat -> rsum N (fun i => c i * dl p (Z k) (Z i)) = 0.
  Proof.
    intros H2. set (s := fun k => rsum N (fun i => c i * dl p (Z k) (Z i))). intros k Hk.
    apply (rsum_sqr_zero N 1 (fun k => / mult N p Z k) (fun _ => 1) (fun k _ => s k)) with (j := 0%nat);
      auto; [intros; apply Rinv_0_lt_compat, mult_pos; auto|intros; lra|].
    rewrite <- H2. unfold rsum2 at 1. cbn [rsum].
    rewrite (rsum2_ext N N (fun i j => c i * c j * dl p (Z i) (Z j))
      (fun i j => rsum N (fun k => / mult N p Z k * ((c i * dl p (Z k) (Z i)) * (c j * dl p (Z k) (Z j)))))).
    2:{ intros i j Hi Hj. rewrite (dl_split N p Z i j) by auto. rewrite <- rsum_scal_l. apply rsum_ext. intros. ring. }
    unfold rsum2.
    rewrite (rsum_ext N (fun i => rsum N (fun j => rsum N _))
      (fun i => rsum N (fun k => rsum N (fun j => / mult N p Z k * ((c i * dl p (Z k) (Z i)) * (c j * dl p (Z k) (Z j))))))).
    2:{ intros i Hi. apply (rsum_swap N N (fun j k => / mult N p Z k * ((c i * dl p (Z k) (Z i)) * (c j * dl p (Z k) (Z j))))). }
    rewrite (rsum_swap N N (fun i k => rsum N (fun j => / mult N p Z k * ((c i * dl p (Z k) (Z i)) * (c j * dl p (Z k) (Z j)))))).
    apply rsum_ext. intros l Hl. unfold s.
    rewrite (rsum_mult N N (fun i => c i * dl p (Z l) (Z i)) (fun i => c i * dl p (Z l) (Z i))).
    rewrite Rplus_0_l, Rmult_1_r. unfold rsum2. rewrite <- rsum_scal_l. apply rsum_ext.
    intros i Hi. rewrite <- rsum_scal_l. reflexivity.
  Qed.

  (** Zero weight on every point: zero sums of functions of the point. *)
  Lemma signed_sum_zero (F : (nat -> R) -> R) : (forall u v, same_point p u v -> F u = F v) ->
    (forall k, (k < N)%nat -> rsum N (fun i => c i * dl p (Z k) (Z i)) = 0) -> rsum N (fun i => c i * F (Z i)) = 0.
  Proof.
    intros HF H.
    rewrite (rsum_ext N _ (fun i => rsum N (fun k => / mult N p Z k * F (Z k) * (c i * dl p (Z k) (Z i))))).
    - rewrite rsum_swap. apply rsum_zero. intros k Hk. rewrite rsum_scal_l, H by auto. ring.
    - intros i Hi. rewrite (rsum_ext N _ (fun k => c i * F (Z i) * (/ mult N p Z k * dl p (Z k) (Z i)))).
      + rewrite rsum_scal_l, mult_unit by auto. ring.
      + intros k Hk. destruct (dl_case p (Z k) (Z i)) as [[A ->]|[A ->]]; [rewrite (HF _ _ A)|]; ring.
  Qed.

  Lemma signed_zero_everywhere : (forall k, (k < N)%nat -> rsum N (fun i => c i * dl p (Z k) (Z i)) = 0) ->
    forall z, rsum N (fun i => c i * dl p (Z i) z) = 0.
  Proof.
    intros H z. apply (signed_sum_zero (fun u => dl p u z)); auto. intros u v Huv.
    destruct (dl_case p u z) as [[A ->]|[A ->]], (dl_case p v z) as [[B ->]|[B ->]]; auto; exfalso.
    - apply B. eapply same_point_trans; [apply same_point_sym|]; eauto.
    - apply A. eapply same_point_trans; eauto.
  Qed.
End Signed.

Section Product.
  Context (N p q : nat) (c : nat -> R) (X Y : nat -> nat -> R).
  (** Both margins of the weights vanish. *)
  Hypothesis MX : forall g : (nat -> R) -> (nat -> R) -> R, rsum2 N N (fun i j => c i * c j * g (X i) (X j)) = 0.
  Hypothesis MY : forall g : (nat -> R) -> (nat -> R) -> R, rsum2 N N (fun i j => c i * c j * g (Y i) (Y j)) = 0.

  Lemma product_gauss t s : 0 < t -> 0 < s -> 0 <= rsum2 N N (fun i j => c i * c j * gauss t p X i j * exp (- (s * sqdist q (Y i) (Y j)))).
  Proof.
    intros Ht Hs. rewrite (rsum2_ext N N _ (fun i j => c i * c j * (gauss t p X i j * gauss s q Y i j))) by (intros; unfold gauss; ring).
    apply (schur_psd N (fun i j => gauss t p X i j * gauss s q Y i j)). apply schur_mult; apply gauss_schur; lra.
  Qed.
  Lemma product_inner t f : 0 < t -> 0 < f <= 2 -> rsum2 N N (fun i j => c i * c j * gauss t p X i j * dmat f q Y i j) <= 0.
  Proof.
    intros Ht Hf. apply (cnd_nonpos N q Y (fun i j => c i * c j * gauss t p X i j)); auto.
    - apply (MX (fun u v => exp (- (t * sqdist p u v)))).
    - intros s Hs. apply product_gauss; auto.
  Qed.
  Lemma product_outer f : 0 < f <= 2 -> forall t, 0 < t -> 0 <= rsum2 N N (fun i j => - (c i * c j * dmat f q Y i j) * exp (- (t * sqdist p (X i) (X j)))).
  Proof.
    intros Hf t Ht. pose proof (product_inner t f Ht Hf) as H.
    rewrite (rsum2_ext N N _ (fun i j => - (c i * c j * gauss t p X i j * dmat f q Y i j))) by (intros; unfold gauss; ring). rewrite rsum2_opp. lra.
  Qed.
  Lemma product_total f : rsum2 N N (fun i j => - (c i * c j * dmat f q Y i j)) = 0.
  Proof. rewrite rsum2_opp. unfold dmat. rewrite (MY (fun u v => rpow (dist q u v) f)). ring. Qed.

  Lemma product_nonneg e f : 0 < e <= 2 -> 0 < f <= 2 -> 0 <= rsum2 N N (fun i j => c i * c j * (dmat e p X i j * dmat f q Y i j)).
  Proof.
    intros He Hf. pose proof (cnd_nonpos N p X (fun i j => - (c i * c j * dmat f q Y i j)) (product_total f) (product_outer f Hf) e He) as H.
    rewrite (rsum2_ext N N _ (fun i j => - (c i * c j * (dmat e p X i j * dmat f q Y i j)))) in H by (intros; ring). rewrite rsum2_opp in H. lra.
  Qed.
  Lemma product_zero e f : 0 < e < 2 -> 0 < f < 2 -> rsum2 N N (fun i j => c i * c j * (dmat e p X i j * dmat f q Y i j)) = 0 ->
    rsum2 N N (fun i j => c i * c j * (dl p (X i) (X j) * dl q (Y i) (Y j))) = 0.
  Proof.
    intros He Hf H0.
    assert (H1 : forall t, 0 < t -> rsum2 N N (fun i j => c i * c j * gauss t p X i j * dmat f q Y i j) = 0).
    { intros t Ht. pose proof (cnd_zero N p X (fun i j => - (c i * c j * dmat f q Y i j)) (product_total f) (product_outer f ltac:(lra)) e He) as H.
      assert (Z : rsum2 N N (fun i j => - (c i * c j * dmat f q Y i j) * dmat e p X i j) = 0).
      { rewrite (rsum2_ext N N _ (fun i j => - (c i * c j * (dmat e p X i j * dmat f q Y i j)))) by (intros; ring). rewrite rsum2_opp, H0. ring. }
      specialize (H Z t Ht). rewrite (rsum2_ext N N _ (fun i j => - (c i * c j * gauss t p X i j * dmat f q Y i j))) in H by (intros; unfold gauss; ring).
      rewrite rsum2_opp in H. lra. }
    assert (H2 : forall t s, 0 < t -> 0 < s -> rsum2 N N (fun i j => c i * c j * (gauss t p X i j * gauss s q Y i j)) = 0).
    { intros t s Ht Hs. rewrite (rsum2_ext N N _ (fun i j => c i * c j * gauss t p X i j * exp (- (s * sqdist q (Y i) (Y j))))) by (intros; unfold gauss; ring).
      apply (cnd_zero N q Y (fun i j => c i * c j * gauss t p X i j)) with (e := f); auto.
      - apply (MX (fun u v => exp (- (t * sqdist p u v)))).
      - intros r Hr. apply product_gauss; auto. }
    eapply UL_sequence.
    - apply (rsum2_cv N N (fun M i j => c i * c j * (gauss (INR (S M)) p X i j * gauss (INR (S M)) q Y i j))).
      intros i j Hi Hj. apply CV_mult; [apply Un_cv_const|]. apply CV_mult; apply gauss_limit.
    - apply (Un_cv_ext (fun _ => 0)); [|apply Un_cv_const].
      intros M. symmetry. apply H2; apply lt_0_INR; lia.
  Qed.

  Lemma glue_dl i j : dl (p + q) (glue p X Y i) (glue p X Y j) = dl p (X i) (X j) * dl q (Y i) (Y j).
  Proof.
    unfold dl at 1. rewrite glue_same.
    assert (A : same_pointb p (X i) (glue p X Y j) = same_pointb p (X i) (X j)).
    { apply eq_true_iff_eq. rewrite !same_pointb_true. split; intros H k Hk; [rewrite <- (glue_l p X Y j k Hk)|rewrite (glue_l p X Y j k Hk)]; auto. }
    assert (B : same_pointb q (Y i) (fun k => glue p X Y j (p + k)) = same_pointb q (Y i) (Y j)).
    { apply eq_true_iff_eq. rewrite !same_pointb_true. split; intros H k Hk; specialize (H k Hk); cbv beta in *; rewrite ?glue_r in H; rewrite ?glue_r; auto. }
    rewrite A, B. unfold dl. destruct (same_pointb p (X i) (X j)), (same_pointb q (Y i) (Y j)); cbn [andb]; ring.
  Qed.
End Product.

(** ** The distribution of a pair minus the product of its margins *)
Section Cells.
  Context (K p q : nat) (w : nat -> R) (X Y : nat -> nat -> R).
  Hypothesis HD : distribution K w.

  Definition cell (t : nat) : R := (if Nat.eqb (t / K) (t mod K) then w (t / K)%nat else 0) - w (t / K)%nat * w (t mod K)%nat.
  Definition cellX (t : nat) := X (t / K)%nat.
  Definition cellY (t : nat) := Y (t mod K)%nat.

  Lemma cell_sum (G : nat -> nat -> R) : rsum (K * K) (fun t => cell t * G (t / K)%nat (t mod K)%nat) = rsum K (fun k => w k * G k k) - rsum2 K K (fun k l => w k * w l * G k l).
  Proof.
    unfold cell. rewrite <- (rsum_flatten K K (fun k l => ((if Nat.eqb k l then w k else 0) - w k * w l) * G k l)).
    unfold rsum2. rewrite <- rsum_minus. apply rsum_ext. intros k Hk.
    rewrite (rsum_ext K _ (fun l => (if Nat.eqb l k then w k * G k l else 0) - w k * w l * G k l)).
    - rewrite rsum_minus, (rsum_delta K k (fun l => w k * G k l)) by auto. reflexivity.
    - intros l Hl. rewrite Nat.eqb_sym. destruct (Nat.eqb l k); ring.
  Qed.
  Lemma cell_sum2 (G : nat -> nat -> nat -> nat -> R) :
    rsum2 (K * K) (K * K) (fun t u => cell t * cell u * G (t / K)%nat (t mod K)%nat (u / K)%nat (u mod K)%nat)
    = rsum K (fun k => w k * (rsum K (fun k' => w k' * G k k k' k') - rsum2 K K (fun k' l' => w k' * w l' * G k k k' l')))
      - rsum2 K K (fun k l => w k * w l * (rsum K (fun k' => w k' * G k l k' k') - rsum2 K K (fun k' l' => w k' * w l' * G k l k' l'))).
  Proof.
    rewrite <- (cell_sum (fun k l => rsum K (fun k' => w k' * G k l k' k') - rsum2 K K (fun k' l' => w k' * w l' * G k l k' l'))).
    unfold rsum2 at 1. apply rsum_ext. intros t Ht. rewrite <- (cell_sum (G (t / K)%nat (t mod K)%nat)), <- rsum_scal_l. apply rsum_ext. intros. ring.
  Qed.
  Lemma cell_margin_x g : rsum2 (K * K) (K * K) (fun t u => cell t * cell u * g (cellX t) (cellX u)) = 0.
  Proof.
    unfold cellX. rewrite (cell_sum2 (fun k _ k' _ => g (X k) (X k'))). destruct HD as [_ Hs].
    assert (Z : forall x, rsum K (fun k' => w k' * g x (X k')) - rsum2 K K (fun k' l' => w k' * w l' * g x (X k')) = 0).
    { intros x. unfold rsum2. rewrite (rsum_ext K (fun k' => rsum K (fun l' => w k' * w l' * g x (X k'))) (fun k' => w k' * g x (X k'))); [ring|].
      intros k Hk. rewrite (rsum_ext K _ (fun l => w l * (w k * g x (X k)))) by (intros; ring). rewrite rsum_scal_r, Hs. ring. }
    rewrite (rsum_zero K), (rsum2_zero K K); [ring|intros; rewrite Z; ring|intros; rewrite Z; ring].
  Qed.
  Lemma cell_margin_y g : rsum2 (K * K) (K * K) (fun t u => cell t * cell u * g (cellY t) (cellY u)) = 0.
  Proof.
    unfold cellY. rewrite (cell_sum2 (fun _ l _ l' => g (Y l) (Y l'))). destruct HD as [_ Hs].
    assert (Z : forall y, rsum K (fun l' => w l' * g y (Y l')) - rsum2 K K (fun k' l' => w k' * w l' * g y (Y l')) = 0).
    { intros y. unfold rsum2. rewrite (rsum_ext K (fun k' => rsum K (fun l' => w k' * w l' * g y (Y l'))) (fun k' => w k' * rsum K (fun l' => w l' * g y (Y l')))).
      - rewrite rsum_scal_r, Hs. ring.
      - intros k Hk. rewrite <- rsum_scal_l. apply rsum_ext. intros. ring. }
    rewrite (rsum_zero K), (rsum2_zero K K); [ring|intros; rewrite Z; ring|intros; rewrite Z; ring].
  Qed.
  Lemma cell_population a b : (forall k l, a k l = a l k) -> (forall k l, b k l = b l k) ->
    population_dcov2 K w a b = rsum2 (K * K) (K * K) (fun t u => cell t * cell u * (a (t / K)%nat (u / K)%nat * b (t mod K)%nat (u mod K)%nat)).
  Proof.
    intros Sa Sb. rewrite (cell_sum2 (fun k l k' l' => a k k' * b l l')), population_rows, !rsum2_form.
    assert (P : forall k l, rsum2 K K (fun k' l' => w k' * w l' * (a k k' * b l l')) = rsum K (fun m => w m * a k m) * rsum K (fun m => w m * b l m)).
    { intros k l. rewrite (rsum_mult K K). apply rsum2_ext. intros. ring. }
    rewrite (rsum_ext K (fun k => w k * (rsum K (fun k' => w k' * (a k k' * b k k')) - rsum2 K K (fun k' l' => w k' * w l' * (a k k' * b k l'))))
      (fun k => w k * rsum K (fun l => w l * (a k l * b k l)) - w k * (rsum K (fun l => w l * a k l) * rsum K (fun l => w l * b k l)))) by (intros; rewrite P; ring).
    rewrite rsum_minus.
    rewrite (rsum_ext K (fun k => w k * rsum K (fun l => w l * (rsum K (fun k' => w k' * (a k k' * b l k')) - rsum2 K K (fun k' l' => w k' * w l' * (a k k' * b l l')))))
      (fun k => rsum K (fun l => rsum K (fun m => w k * w l * (w m * (a k m * b l m)))) - (w k * rsum K (fun m => w m * a k m)) * rsum K (fun l => w l * rsum K (fun m => w m * b l m)))).
    - rewrite rsum_minus, rsum_scal_r.
      assert (B : rsum K (fun k => rsum K (fun l => rsum K (fun m => w k * w l * (w m * (a k m * b l m))))) = rsum K (fun k => w k * (rsum K (fun l => w l * a k l) * rsum K (fun l => w l * b k l)))).
      { rewrite (rsum_ext K _ (fun k => rsum K (fun m => rsum K (fun l => w k * w l * (w m * (a k m * b l m)))))) by (intros; apply rsum_swap).
        rewrite rsum_swap. apply rsum_ext. intros m Hm. rewrite (rsum_mult K K (fun l => w l * a m l) (fun l => w l * b m l)). unfold rsum2.
        rewrite <- rsum_scal_l. apply rsum_ext. intros k Hk. rewrite <- rsum_scal_l. apply rsum_ext. intros l Hl. rewrite (Sa k m), (Sb l m). ring. }
      rewrite B. ring.
    - intros k Hk.
      rewrite (rsum_ext K (fun l => rsum K (fun m => w k * w l * (w m * (a k m * b l m)))) (fun l => w k * (w l * rsum K (fun m => w m * (a k m * b l m))))).
      2:{ intros l Hl. rewrite rsum_scal_l. ring. }
      rewrite (rsum_ext K (fun l => w l * (rsum K (fun k' => w k' * (a k k' * b l k')) - rsum2 K K (fun k' l' => w k' * w l' * (a k k' * b l l'))))
        (fun l => w l * rsum K (fun k' => w k' * (a k k' * b l k')) - rsum K (fun m => w m * a k m) * (w l * rsum K (fun m => w m * b l m)))) by (intros; rewrite P; ring).
      rewrite rsum_minus, !rsum_scal_l. ring.
  Qed.

  Lemma cell_independent x y : rsum (K * K) (fun t => cell t * (dl p (cellX t) x * dl q (cellY t) y)) = prob_both K w p q X Y x y - prob_at K w p X x * prob_at K w q Y y.
  Proof.
    unfold cellX, cellY. rewrite (cell_sum (fun k l => dl p (X k) x * dl q (Y l) y)). unfold prob_both, prob_at. f_equal.
    - apply rsum_ext. intros k Hk. unfold dl. destruct (same_pointb p (X k) x), (same_pointb q (Y k) y); cbn [andb]; ring.
    - rewrite (rsum_mult K K). apply rsum2_ext. intros k l Hk Hl. unfold dl. destruct (same_pointb p (X k) x), (same_pointb q (Y l) y); ring.
  Qed.

  Theorem population_nonneg e f : 0 < e <= 2 -> 0 < f <= 2 -> 0 <= population_dcov2 K w (dmat e p X) (dmat f q Y).
  Proof.
    intros He Hf. rewrite cell_population by (intros; apply dmat_sym_all).
    apply (product_nonneg (K * K) p q cell cellX cellY cell_margin_x cell_margin_y e f He Hf).
  Qed.
  Theorem population_zero_iff e f : 0 < e < 2 -> 0 < f < 2 -> (population_dcov2 K w (dmat e p X) (dmat f q Y) = 0 <-> independent K w p q X Y).
  Proof.
    intros He Hf. rewrite cell_population by (intros; apply dmat_sym_all). set (Z := glue p cellX cellY).
    assert (GD : forall t x y, dl p (cellX t) x * dl q (cellY t) y = dl (p + q) (Z t) (glue p (fun _ => x) (fun _ => y) O)).
    { intros t x y. unfold Z, dl. rewrite glue_same.
      assert (A : same_pointb p (cellX t) (glue p (fun _ => x) (fun _ => y) O) = same_pointb p (cellX t) x).
      { apply eq_true_iff_eq. rewrite !same_pointb_true. split; intros H k Hk; specialize (H k Hk); pose proof (glue_l p (fun _ => x) (fun _ => y) O k Hk); cbv beta in *; congruence. }
      assert (B : same_pointb q (cellY t) (fun k => glue p (fun _ => x) (fun _ => y) O (p + k)) = same_pointb q (cellY t) y).
      { apply eq_true_iff_eq. rewrite !same_pointb_true. split; intros H k Hk; specialize (H k Hk); cbv beta in *; rewrite ?glue_r in H; rewrite ?glue_r; auto. }
      rewrite A, B. destruct (same_pointb p (cellX t) x), (same_pointb q (cellY t) y); cbn [andb]; ring. }
    split.
    - intros H0. pose proof (product_zero (K * K) p q cell cellX cellY cell_margin_x cell_margin_y e f He Hf H0) as H1.
      rewrite (rsum2_ext _ _ _ (fun t u => cell t * cell u * dl (p + q) (Z t) (Z u))) in H1 by (intros; unfold Z; rewrite glue_dl; reflexivity).
      pose proof (signed_zero_everywhere _ _ _ _ (signed_dl_zero _ _ _ _ H1)) as H2. intros x y.
      specialize (H2 (glue p (fun _ => x) (fun _ => y) O)). pose proof (cell_independent x y) as H3.
      rewrite (rsum_ext _ _ (fun t => cell t * dl (p + q) (Z t) (glue p (fun _ => x) (fun _ => y) O))) in H3 by (intros; rewrite GD; reflexivity). lra.
    - intros HI.
      assert (H1 : forall t, (t < K * K)%nat -> rsum (K * K) (fun u => cell u * dl (p + q) (Z t) (Z u)) = 0).
      { intros t Ht. rewrite (rsum_ext _ _ (fun u => cell u * (dl p (cellX u) (cellX t) * dl q (cellY u) (cellY t)))).
        - rewrite cell_independent, (HI (cellX t) (cellY t)). ring.
        - intros u Hu. unfold Z. rewrite glue_dl, (dl_sym p (cellX t)), (dl_sym q (cellY t)). reflexivity. }
      unfold rsum2. apply rsum_zero. intros t Ht.
      set (F := fun z : nat -> R => rpow (dist p (cellX t) z) e * rpow (dist q (cellY t) (fun k => z (p + k)%nat)) f).
      rewrite (rsum_ext _ _ (fun u => cell t * (cell u * F (Z u)))).
      + rewrite rsum_scal_l, (signed_sum_zero (K * K) (p + q) cell Z F); [ring| |auto].
        intros u v Huv. unfold F. f_equal; apply kernel_same; try apply same_point_refl; intros k Hk; apply Huv; lia.
      + intros u Hu. unfold F, Z, dmat.
        assert (A : rpow (dist p (cellX t) (glue p cellX cellY u)) e = rpow (dist p (X (t / K)%nat) (X (u / K)%nat)) e).
        { apply kernel_same; [apply same_point_refl|apply (glue_l p cellX cellY u)]. }
        assert (B : rpow (dist q (cellY t) (fun k => glue p cellX cellY u (p + k)%nat)) f = rpow (dist q (Y (t mod K)%nat) (Y (u mod K)%nat)) f).
        { apply kernel_same; [apply same_point_refl|]. intros k Hk. rewrite glue_r. reflexivity. }
        rewrite A, B. ring.
  Qed.
End Cells.

(** ** The difference of two distributions *)
Section Laws.
  Context (e : R) (p K L : nat) (w v : nat -> R) (X Y : nat -> nat -> R).
  Hypothesis (Hw : distribution K w) (Hv : distribution L v).
  Let Z := pool K X Y.
  Let c (i : nat) : R := if Nat.ltb i K then w i else - v (i - K)%nat.

  Lemma c_l i : (i < K)%nat -> c i = w i.
  Proof. intros H. unfold c. apply Nat.ltb_lt in H. rewrite H. reflexivity. Qed.
  Lemma c_r i : c (K + i) = - v i.
  Proof. unfold c. replace (Nat.ltb (K + i) K) with false by (symmetry; apply Nat.ltb_ge; lia). do 2 f_equal. lia. Qed.
  Lemma law_sum F : rsum (K + L) (fun i => c i * F (Z i)) = rsum K (fun k => w k * F (X k)) - rsum L (fun l => v l * F (Y l)).
  Proof.
    rewrite rsum_app. unfold Z. rewrite (rsum_ext K _ (fun k => w k * F (X k))) by (intros; rewrite c_l, pool_l by auto; reflexivity).
    rewrite (rsum_ext L _ (fun l => - (v l * F (Y l)))) by (intros; rewrite c_r, pool_r; ring). rewrite rsum_opp. ring.
  Qed.
  Lemma law_total : rsum2 (K + L) (K + L) (fun i j => c i * c j) = 0.
  Proof.
    rewrite <- rsum_mult. assert (T : rsum (K + L) c = 0).
    { pose proof (law_sum (fun _ => 1)) as H. rewrite (rsum_ext _ _ c) in H by (intros; ring). rewrite H, !rsum_scal_r.
      destruct Hw as [_ ->], Hv as [_ ->]. ring. }
    rewrite T. ring.
  Qed.
  Lemma law_population : population_energy e p K L w v X Y = - rsum2 (K + L) (K + L) (fun i j => c i * c j * dmat e p Z i j).
  Proof.
    set (G := fun z => rsum K (fun k => w k * rpow (dist p z (X k)) e) - rsum L (fun l => v l * rpow (dist p z (Y l)) e)).
    replace (rsum2 (K + L) (K + L) (fun i j => c i * c j * dmat e p Z i j)) with (rsum (K + L) (fun i => c i * G (Z i))).
    - rewrite law_sum. unfold population_energy, rsum2, G.
      rewrite (rsum_ext K (fun k => w k * (rsum K (fun k0 => w k0 * rpow (dist p (X k) (X k0)) e) - rsum L (fun l => v l * rpow (dist p (X k) (Y l)) e)))
        (fun k => rsum K (fun l => w k * w l * rpow (dist p (X k) (X l)) e) - rsum L (fun l => w k * v l * rpow (dist p (X k) (Y l)) e))).
      2:{ intros k Hk. rewrite Rmult_minus_distr_l, <- !rsum_scal_l. f_equal; apply rsum_ext; intros; ring. }
      rewrite (rsum_ext L (fun l => v l * (rsum K (fun k => w k * rpow (dist p (Y l) (X k)) e) - rsum L (fun l0 => v l0 * rpow (dist p (Y l) (Y l0)) e)))
        (fun l => rsum K (fun k => w k * v l * rpow (dist p (X k) (Y l)) e) - rsum L (fun k => v l * v k * rpow (dist p (Y l) (Y k)) e))).
      2:{ intros l Hl. rewrite Rmult_minus_distr_l, <- !rsum_scal_l. f_equal; apply rsum_ext; intros; [rewrite (dist_sym p (Y l))|]; ring. }
      rewrite !rsum_minus, (rsum_swap L K). ring.
    - unfold rsum2. apply rsum_ext. intros i Hi. unfold G. rewrite <- (law_sum (fun u => rpow (dist p (Z i) u) e)), <- rsum_scal_l. apply rsum_ext. intros. unfold dmat. ring.
  Qed.
  Lemma law_gauss t : 0 < t -> 0 <= rsum2 (K + L) (K + L) (fun i j => c i * c j * exp (- (t * sqdist p (Z i) (Z j)))).
  Proof. intros Ht. apply (schur_psd _ _ (gauss_schur (K + L) p t Z ltac:(lra))). Qed.

  Theorem population_energy_nonneg : 0 < e <= 2 -> 0 <= population_energy e p K L w v X Y.
  Proof.
    intros He. rewrite law_population. pose proof (cnd_nonpos (K + L) p Z (fun i j => c i * c j) law_total law_gauss e He). lra.
  Qed.
  Lemma law_at z : rsum (K + L) (fun i => c i * dl p (Z i) z) = prob_at K w p X z - prob_at L v p Y z.
  Proof.
    rewrite (law_sum (fun u => dl p u z)). unfold prob_at. f_equal; apply rsum_ext; intros; unfold dl; destruct (same_pointb _ _ _); ring.
  Qed.
  Theorem population_energy_zero_iff : 0 < e < 2 -> (population_energy e p K L w v X Y = 0 <-> same_law p K L w v X Y).
  Proof.
    intros He. rewrite law_population. split.
    - intros H0. pose proof (cnd_zero (K + L) p Z (fun i j => c i * c j) law_total law_gauss e He ltac:(lra)) as HG.
      assert (H2 : rsum2 (K + L) (K + L) (fun i j => c i * c j * dl p (Z i) (Z j)) = 0).
      { eapply UL_sequence.
        - apply (rsum2_cv (K + L) (K + L) (fun N i j => c i * c j * gauss (INR (S N)) p Z i j)).
          intros i j Hi Hj. apply CV_mult; [apply Un_cv_const|]. apply gauss_limit.
        - apply (Un_cv_ext (fun _ => 0)); [|apply Un_cv_const]. intros N. symmetry. apply HG. apply lt_0_INR. lia. }
      intros z. pose proof (signed_zero_everywhere _ _ _ _ (signed_dl_zero _ _ _ _ H2) z) as H3. rewrite law_at in H3. lra.
    - intros HS. rewrite <- Ropp_0. f_equal. unfold rsum2. apply rsum_zero. intros i Hi.
      rewrite (rsum_ext (K + L) _ (fun j => c i * (c j * (fun u => rpow (dist p (Z i) u) e) (Z j)))) by (intros; unfold dmat; ring).
      rewrite rsum_scal_l, (signed_sum_zero (K + L) p c Z (fun u => rpow (dist p (Z i) u) e)); [ring| |].
      + intros u u' Hu. apply kernel_same; auto using same_point_refl.
      + intros k Hk. rewrite (rsum_ext (K + L) _ (fun j => c j * dl p (Z j) (Z k))) by (intros; rewrite dl_sym; reflexivity). rewrite law_at, (HS (Z k)). ring.
  Qed.
End Laws.
