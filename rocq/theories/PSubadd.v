(** C83: adding independent pairs: the distance covariance of the sum is at most the sum of the distance covariances, so
    independent noise added to one of the variables does not increase it.

    [population_dcov2 K w a b]: the squared distance covariance of a distribution that gives probability [w k] to atom [k],
    from the matrices of distances of the atoms (PUnbiased.v); [dmat e p X]: distances, to the power [e], of the points
    [X k] with [p] coordinates (Spec.v). *)
From Coq Require Import Reals Lra Lia List Arith Bool ZArith.
From Verif Require Import Num Numpy MUtils MDistances MInternals MDcor Sums Spec Centering Tab Samples Api RefDist RefDcor
  Psd PowerKernel Nonneg SpecFacts RefApi Empirical EnergyMath PEmpirical Expect PUnbiased Consist PopMath PopIndep Witness.
Import ListNotations.
Local Open Scope R_scope.

(** ** The form of two signed weights with vanishing margins *)
Section Form.
  Context (e f : R) (p q : nat).
  Hypothesis He : 0 < e <= 2.
  Hypothesis Hf : 0 < f <= 2.

  Definition kernel (e f : R) (p q : nat) (x y x' y' : nat -> R) : R := rpow (dist p x x') e * rpow (dist q y y') f.
  Definition cross (e f : R) (p q N M : nat) (c d : nat -> R) (X Y X' Y' : nat -> nat -> R) : R :=
    rsum2 N M (fun t u => c t * d u * kernel e f p q (X t) (Y t) (X' u) (Y' u)).
  Definition vanishes (N : nat) (c : nat -> R) (X : nat -> nat -> R) : Prop :=
    forall g : (nat -> R) -> R, rsum N (fun t => c t * g (X t)) = 0.

  Section Two.
    Context (N M : nat) (c d : nat -> R) (X Y X' Y' : nat -> nat -> R).
    Hypothesis (VX : vanishes N c X) (VY : vanishes N c Y) (VX' : vanishes M d X') (VY' : vanishes M d Y').

    Definition both (s : R) (i : nat) : R := if Nat.ltb i N then s * c i else d (i - N)%nat.
    Lemma both_l s i : (i < N)%nat -> both s i = s * c i.
    Proof. intros H. unfold both. apply Nat.ltb_lt in H. rewrite H. reflexivity. Qed.
    Lemma both_r s i : both s (N + i) = d i.
    Proof. unfold both. replace (Nat.ltb (N + i) N) with false by (symmetry; apply Nat.ltb_ge; lia). f_equal. lia. Qed.

    Lemma both_vanishes s Z Z' : vanishes N c Z -> vanishes M d Z' -> vanishes (N + M) (both s) (pool N Z Z').
    Proof.
      intros H H' g. rewrite rsum_app.
      rewrite (rsum_ext N _ (fun t => s * (c t * g (Z t)))) by (intros; rewrite both_l, pool_l by auto; ring).
      rewrite (rsum_ext M _ (fun t => d t * g (Z' t))) by (intros; rewrite both_r, pool_r; reflexivity).
      rewrite rsum_scal_l, H, H'. ring.
    Qed.
    Lemma vanishes_two K k Z : vanishes K k Z -> forall g, rsum2 K K (fun i j => k i * k j * g (Z i) (Z j)) = 0.
    Proof.
      intros H g. unfold rsum2. apply rsum_zero. intros i Hi.
      rewrite (rsum_ext K _ (fun j => k i * (k j * g (Z i) (Z j)))) by (intros; ring). rewrite rsum_scal_l, (H (g (Z i))). ring.
    Qed.

    Lemma cross_sym : cross e f p q M N d c X' Y' X Y = cross e f p q N M c d X Y X' Y'.
    Proof.
      unfold cross. rewrite rsum2_swap. apply rsum2_ext. intros t u Ht Hu. unfold kernel. rewrite (dist_sym p (X t)), (dist_sym q (Y t)). rewrite (Rmult_comm (c t)). reflexivity.
    Qed.

    Lemma both_form s : rsum2 (N + M) (N + M) (fun i j => both s i * both s j * (dmat e p (pool N X X') i j * dmat f q (pool N Y Y') i j))
      = s * s * cross e f p q N N c c X Y X Y + 2 * s * cross e f p q N M c d X Y X' Y' + cross e f p q M M d d X' Y' X' Y'.
    Proof.
      rewrite rsum2_pool. unfold dmat.
      rewrite (rsum2_ext N N _ (fun t u => s * s * (c t * c u * kernel e f p q (X t) (Y t) (X u) (Y u))))
        by (intros; rewrite !both_l, !pool_l by auto; unfold kernel; ring).
      rewrite (rsum2_ext N M _ (fun t u => s * (c t * d u * kernel e f p q (X t) (Y t) (X' u) (Y' u))))
        by (intros; rewrite !both_r, !pool_r, !both_l, !pool_l by auto; unfold kernel; ring).
      rewrite (rsum2_ext M N _ (fun t u => s * (d t * c u * kernel e f p q (X' t) (Y' t) (X u) (Y u))))
        by (intros; rewrite !both_r, !pool_r, !both_l, !pool_l by auto; unfold kernel; ring).
      rewrite (rsum2_ext M M _ (fun t u => (d t * d u * kernel e f p q (X' t) (Y' t) (X' u) (Y' u))))
        by (intros; rewrite !both_r, !pool_r by auto; unfold kernel; ring).
      rewrite !rsum2_scal_l. fold (cross e f p q N N c c X Y X Y) (cross e f p q N M c d X Y X' Y').
      fold (cross e f p q M N d c X' Y' X Y) (cross e f p q M M d d X' Y' X' Y'). rewrite cross_sym. ring.
    Qed.

    Lemma both_nonneg s : 0 <= s * s * cross e f p q N N c c X Y X Y + 2 * s * cross e f p q N M c d X Y X' Y' + cross e f p q M M d d X' Y' X' Y'.
    Proof.
      rewrite <- both_form. apply product_nonneg; auto; apply vanishes_two; apply both_vanishes; auto.
    Qed.
  End Two.

  Lemma cross_nonneg N c X Y : vanishes N c X -> vanishes N c Y -> 0 <= cross e f p q N N c c X Y X Y.
  Proof. intros HX HY. apply (product_nonneg N p q c X Y); auto; apply (vanishes_two N c); auto. Qed.

  (** Cauchy-Schwarz *)
  Lemma cross_bound N M c d X Y X' Y' : vanishes N c X -> vanishes N c Y -> vanishes M d X' -> vanishes M d Y' ->
    cross e f p q N M c d X Y X' Y' <= sqrt (cross e f p q N N c c X Y X Y) * sqrt (cross e f p q M M d d X' Y' X' Y').
  Proof.
    intros HX HY HX' HY'. pose proof (fun s => both_nonneg N M c d X Y X' Y' HX HY HX' HY' s) as H.
    pose proof (cross_nonneg N c X Y HX HY) as H1. pose proof (cross_nonneg M d X' Y' HX' HY') as H2.
    set (A := cross e f p q N N c c X Y X Y) in *. set (B := cross e f p q N M c d X Y X' Y') in *.
    set (C := cross e f p q M M d d X' Y' X' Y') in *.
    rewrite <- sqrt_mult by auto. destruct (Rle_dec B 0) as [Hle|Hgt]; [eapply Rle_trans; [exact Hle|apply sqrt_pos]|].
    assert (BB : B * B <= A * C).
    { destruct (Req_dec A 0) as [Hz|Hnz].
      - exfalso. specialize (H (- (C + 1) / (2 * B))). rewrite Hz in H.
        replace (2 * (- (C + 1) / (2 * B)) * B) with (- (C + 1)) in H by (field; lra). lra.
      - specialize (H (- B / A)). replace (- B / A * (- B / A) * A + 2 * (- B / A) * B + C) with (C - B * B / A) in H by (field; auto).
        apply (Rmult_le_compat_l A) in H; [|auto]. replace (A * (C - B * B / A)) with (A * C - B * B) in H by (field; auto). lra. }
    apply Rsqr_incr_0_var; [|apply sqrt_pos]. rewrite Rsqr_sqrt by (apply Rmult_le_pos; auto). exact BB.
  Qed.

  (** A mixture of signed weights *)
  Lemma mixture_bound N c X Y (K : nat) (rho : nat -> R) (Nr : nat -> nat) (cr : nat -> nat -> R) (Xr Yr : nat -> nat -> nat -> R) :
    (forall r, (r < K)%nat -> 0 <= rho r) ->
    (forall r, (r < K)%nat -> vanishes (Nr r) (cr r) (Xr r) /\ vanishes (Nr r) (cr r) (Yr r)) ->
    (forall g : (nat -> R) -> (nat -> R) -> R, rsum N (fun t => c t * g (X t) (Y t))
       = rsum K (fun r => rho r * rsum (Nr r) (fun t => cr r t * g (Xr r t) (Yr r t)))) ->
    cross e f p q N N c c X Y X Y
    <= rsum K (fun r => rho r * sqrt (cross e f p q (Nr r) (Nr r) (cr r) (cr r) (Xr r) (Yr r) (Xr r) (Yr r))) ^ 2.
  Proof.
    intros Hr HV Hmix.
    assert (HE : cross e f p q N N c c X Y X Y
      = rsum2 K K (fun r s => rho r * rho s * cross e f p q (Nr r) (Nr s) (cr r) (cr s) (Xr r) (Yr r) (Xr s) (Yr s))).
    { unfold cross at 1, rsum2 at 1.
      rewrite (rsum_ext N _ (fun t => c t * (fun x y => rsum N (fun u => c u * kernel e f p q x y (X u) (Y u))) (X t) (Y t)))
        by (intros; rewrite <- rsum_scal_l; apply rsum_ext; intros; ring).
      rewrite (Hmix (fun x y => rsum N (fun u => c u * kernel e f p q x y (X u) (Y u)))). unfold rsum2 at 1.
      apply rsum_ext. intros r Hr'.
      rewrite (rsum_ext (Nr r) _ (fun t => rsum K (fun s => cr r t * (rho s * rsum (Nr s) (fun u => cr s u * kernel e f p q (Xr r t) (Yr r t) (Xr s u) (Yr s u)))))).
      2:{ intros t Ht. rewrite (Hmix (fun x y => kernel e f p q (Xr r t) (Yr r t) x y)), rsum_scal_l. reflexivity. }
      rewrite rsum_swap, <- rsum_scal_l. apply rsum_ext. intros s Hs. unfold cross, rsum2.
      rewrite <- !rsum_scal_l. apply rsum_ext. intros t Ht. rewrite <- !rsum_scal_l. apply rsum_ext. intros. ring. }
    rewrite HE. rewrite <- Rsqr_pow2. unfold Rsqr. rewrite (rsum_mult K K). unfold rsum2.
    apply rsum_le. intros r Hr'. apply rsum_le. intros s Hs.
    destruct (HV r Hr'), (HV s Hs).
    pose proof (cross_bound (Nr r) (Nr s) (cr r) (cr s) (Xr r) (Yr r) (Xr s) (Yr s) ltac:(auto) ltac:(auto) ltac:(auto) ltac:(auto)) as HB.
    eapply Rle_trans; [apply Rmult_le_compat_l; [apply Rmult_le_pos; auto|exact HB]|]. right. ring.
  Qed.
End Form.

(** ** The distribution of a sum *)
Definition shift (a : nat -> R) (X : nat -> nat -> R) (t c : nat) : R := X t c + a c.

Lemma dist_shift p u v a : dist p (fun c => u c + a c) (fun c => v c + a c) = dist p u v.
Proof. unfold dist. f_equal. apply rsum_ext. intros. ring. Qed.

Lemma cross_shift e f p q N c X Y a b : cross e f p q N N c c (shift a X) (shift b Y) (shift a X) (shift b Y) = cross e f p q N N c c X Y X Y.
Proof.
  unfold cross. apply rsum2_ext. intros t u Ht Hu. unfold kernel, shift.
  rewrite (dist_shift p (X t) (X u) a), (dist_shift q (Y t) (Y u) b). reflexivity.
Qed.

Lemma vanishes_shift N c X a : vanishes N c X -> vanishes N c (shift a X).
Proof. intros H g. apply (H (fun u => g (fun k => u k + a k))). Qed.

Section Sum.
  Context (K L : nat) (w v : nat -> R) (X1 Y1 X2 Y2 : nat -> nat -> R).
  Hypothesis (Hw : distribution K w) (Hv : distribution L v).

  (** Atom [k * L + l] of the sum is the sum of atom [k] of the first and atom [l] of the second pair; its probability is the
      product of theirs. *)
  Definition sum_weight (L : nat) (w v : nat -> R) (t : nat) : R := w (t / L)%nat * v (t mod L)%nat.
  Definition sum_point (L : nat) (X1 X2 : nat -> nat -> R) (t c : nat) : R := X1 (t / L)%nat c + X2 (t mod L)%nat c.

  Lemma sum_distribution : distribution (K * L) (sum_weight L w v).
  Proof.
    destruct Hw as [Pw Sw], Hv as [Pv Sv].
    assert (HL : (0 < L)%nat) by (destruct L; [cbn in Sv; lra|lia]). split.
    - intros t Ht. apply Rmult_le_pos; [apply Pw, Nat.div_lt_upper_bound; lia|apply Pv, Nat.mod_upper_bound; lia].
    - unfold sum_weight. rewrite <- (rsum_flatten K L (fun k l => w k * v l)), <- rsum_mult, Sw, Sv. ring.
  Qed.

  Lemma cell_vanishes_x J u Z : distribution J u -> vanishes (J * J) (cell J u) (cellX J Z).
  Proof.
    intros [_ Hs] g. unfold cellX. rewrite (cell_sum J u (fun k l => g (Z k))). unfold rsum2.
    rewrite (rsum_ext J (fun k => rsum J _) (fun k => u k * g (Z k))); [ring|].
    intros k Hk. rewrite (rsum_ext J _ (fun l => u l * (u k * g (Z k)))) by (intros; ring). rewrite rsum_scal_r, Hs. ring.
  Qed.
  Lemma cell_vanishes_y J u Z : distribution J u -> vanishes (J * J) (cell J u) (cellY J Z).
  Proof.
    intros [_ Hs] g. unfold cellY. rewrite (cell_sum J u (fun k l => g (Z l))). unfold rsum2.
    rewrite (rsum_ext J (fun k => rsum J _) (fun k => u k * rsum J (fun l => u l * g (Z l)))).
    - rewrite rsum_scal_r, Hs. ring.
    - intros k Hk. rewrite <- rsum_scal_l. apply rsum_ext. intros. ring.
  Qed.

  Lemma population_cross e f p q J u A B : population_dcov2 J u (dmat e p A) (dmat f q B)
    = cross e f p q (J * J) (J * J) (cell J u) (cell J u) (cellX J A) (cellY J B) (cellX J A) (cellY J B).
  Proof. rewrite cell_population by (intros; apply dmat_sym_all). reflexivity. Qed.

  (** The pairs of which the signed weights of the sum are a mixture: the first pair moved by an atom of the second one (the
      first [L]), and the second pair moved by a coordinate-wise choice of atoms of the first one. *)
  Let R0 := (L + K * K)%nat.
  Let rho (r : nat) : R := if Nat.ltb r L then v r else w ((r - L) / K)%nat * w ((r - L) mod K)%nat.
  Let Nr (r : nat) : nat := if Nat.ltb r L then (K * K)%nat else (L * L)%nat.
  Let cr (r : nat) : nat -> R := if Nat.ltb r L then cell K w else cell L v.
  Let Xr (r : nat) : nat -> nat -> R :=
    if Nat.ltb r L then shift (X2 r) (cellX K X1) else shift (X1 ((r - L) / K)%nat) (cellX L X2).
  Let Yr (r : nat) : nat -> nat -> R :=
    if Nat.ltb r L then shift (Y2 r) (cellY K Y1) else shift (Y1 ((r - L) mod K)%nat) (cellY L Y2).

  Lemma swap_sum (u z : nat -> R) : (fun c => u c + z c) = (fun c => z c + u c).
  Proof. apply FunctionalExtensionality.functional_extensionality. intros. ring. Qed.

  Lemma sum_mixture g : rsum (K * L * (K * L)) (fun t => cell (K * L) (sum_weight L w v) t
       * g (cellX (K * L) (sum_point L X1 X2) t) (cellY (K * L) (sum_point L Y1 Y2) t))
    = rsum R0 (fun r => rho r * rsum (Nr r) (fun t => cr r t * g (Xr r t) (Yr r t))).
  Proof.
    unfold cellX, cellY. rewrite (cell_sum (K * L) (sum_weight L w v) (fun t u => g (sum_point L X1 X2 t) (sum_point L Y1 Y2 u))).
    unfold R0. rewrite rsum_app.
    set (G := fun k l k' l' => g (fun c => X1 k c + X2 l c) (fun c => Y1 k' c + Y2 l' c)).
    assert (E1 : rsum L (fun r => rho r * rsum (Nr r) (fun t => cr r t * g (Xr r t) (Yr r t)))
      = rsum L (fun l => v l * (rsum K (fun k => w k * G k l k l) - rsum2 K K (fun k k' => w k * w k' * G k l k' l)))).
    { apply rsum_ext. intros l Hl. unfold rho, Nr, cr, Xr, Yr. replace (Nat.ltb l L) with true by (symmetry; apply Nat.ltb_lt; auto).
      f_equal. exact (cell_sum K w (fun k k' => G k l k' l)). }
    assert (E2 : rsum (K * K) (fun i => rho (L + i)%nat * rsum (Nr (L + i)%nat) (fun t => cr (L + i)%nat t * g (Xr (L + i)%nat t) (Yr (L + i)%nat t)))
      = rsum2 K K (fun k k' => w k * w k' * (rsum L (fun l => v l * G k l k' l) - rsum2 L L (fun l l' => v l * v l' * G k l k' l')))).
    { rewrite rsum_flatten. apply rsum_ext. intros i Hi. unfold rho, Nr, cr, Xr, Yr.
      replace (Nat.ltb (L + i) L) with false by (symmetry; apply Nat.ltb_ge; lia). replace (L + i - L)%nat with i by lia.
      f_equal. rewrite <- (cell_sum L v (fun l l' => G (i / K)%nat l (i mod K)%nat l')). apply rsum_ext. intros t Ht. f_equal.
      unfold G, shift, cellX, cellY. rewrite (swap_sum (X1 (i / K)%nat)), (swap_sum (Y1 (i mod K)%nat)). reflexivity. }
    rewrite E1, E2. clear E1 E2.
    assert (E0 : rsum (K * L) (fun t => sum_weight L w v t * g (sum_point L X1 X2 t) (sum_point L Y1 Y2 t))
      = rsum2 K L (fun k l => w k * v l * G k l k l)) by (rewrite rsum_flatten; reflexivity).
    assert (E3 : rsum2 (K * L) (K * L) (fun t u => sum_weight L w v t * sum_weight L w v u
        * g (sum_point L X1 X2 t) (sum_point L Y1 Y2 u))
      = rsum2 K K (fun k k' => w k * w k' * rsum2 L L (fun l l' => v l * v l' * G k l k' l'))).
    { unfold rsum2 at 1.
      transitivity (rsum2 K L (fun k l => rsum (K * L) (fun u => w k * v l * (w (u / L)%nat * v (u mod L)%nat) * G k l (u / L)%nat (u mod L)%nat)));
        [rewrite rsum_flatten; reflexivity|].
      unfold rsum2. apply rsum_ext. intros k Hk.
      rewrite (rsum_ext L _ (fun l => rsum K (fun k' => rsum L (fun l' => w k * v l * (w k' * v l') * G k l k' l')))).
      2:{ intros l Hl. rewrite <- (rsum_flatten K L (fun k' l' => w k * v l * (w k' * v l') * G k l k' l')). reflexivity. }
      rewrite rsum_swap. apply rsum_ext. intros k' Hk'. rewrite <- rsum_scal_l. apply rsum_ext. intros l Hl.
      rewrite <- rsum_scal_l. apply rsum_ext. intros. ring. }
    rewrite E0, E3. clear E0 E3.
    assert (E4 : rsum2 K L (fun k l => w k * v l * G k l k l) = rsum L (fun l => v l * rsum K (fun k => w k * G k l k l))).
    { rewrite rsum2_swap. unfold rsum2. apply rsum_ext. intros l Hl. rewrite <- rsum_scal_l. apply rsum_ext. intros. ring. }
    assert (E5 : rsum L (fun l => v l * rsum2 K K (fun k k' => w k * w k' * G k l k' l))
                 = rsum2 K K (fun k k' => w k * w k' * rsum L (fun l => v l * G k l k' l))).
    { unfold rsum2.
      rewrite (rsum_ext L _ (fun l => rsum K (fun k => rsum K (fun k' => w k * w k' * (v l * G k l k' l))))).
      2:{ intros l Hl. rewrite <- rsum_scal_l. apply rsum_ext. intros k Hk. rewrite <- rsum_scal_l. apply rsum_ext. intros. ring. }
      rewrite rsum_swap. apply rsum_ext. intros k Hk. rewrite rsum_swap. apply rsum_ext. intros k' Hk'. rewrite rsum_scal_l. reflexivity. }
    rewrite E4.
    rewrite (rsum_ext L (fun l => v l * (rsum K _ - rsum2 K K _))
      (fun l => v l * rsum K (fun k => w k * G k l k l) - v l * rsum2 K K (fun k k' => w k * w k' * G k l k' l))) by (intros; ring).
    rewrite rsum_minus, E5.
    rewrite (rsum2_ext K K (fun k k' => w k * w k' * (rsum L _ - rsum2 L L _))
      (fun k k' => w k * w k' * rsum L (fun l => v l * G k l k' l) - w k * w k' * rsum2 L L (fun l l' => v l * v l' * G k l k' l'))) by (intros; ring).
    rewrite rsum2_minus. ring.
  Qed.

  Theorem C83_population e f p q : 0 < e <= 2 -> 0 < f <= 2 ->
    sqrt (population_dcov2 (K * L) (sum_weight L w v) (dmat e p (sum_point L X1 X2)) (dmat f q (sum_point L Y1 Y2)))
    <= sqrt (population_dcov2 K w (dmat e p X1) (dmat f q Y1)) + sqrt (population_dcov2 L v (dmat e p X2) (dmat f q Y2)).
  Proof.
    intros He Hf. destruct Hw as [Pw Sw]; destruct Hv as [Pv Sv].
    rewrite <- (sqrt_pow2 (sqrt _ + sqrt _)) by (apply Rplus_le_le_0_compat; apply sqrt_pos). apply sqrt_le_1_alt.
    rewrite !population_cross.
    eapply Rle_trans; [apply (mixture_bound e f p q He Hf _ _ _ _ R0 rho Nr cr Xr Yr)|].
    - intros r Hr. unfold rho. destruct (Nat.ltb_spec r L); [auto|]. unfold R0 in Hr.
      apply Rmult_le_pos; apply Pw; [apply Nat.div_lt_upper_bound; lia|apply Nat.mod_upper_bound; lia].
    - intros r Hr. unfold Nr, cr, Xr, Yr. destruct (Nat.ltb_spec r L); split; apply vanishes_shift;
        (apply cell_vanishes_x || apply cell_vanishes_y); auto.
    - apply sum_mixture.
    - right. f_equal. unfold R0. rewrite rsum_app. f_equal.
      + rewrite (rsum_ext L _ (fun r => v r * sqrt (cross e f p q (K * K) (K * K) (cell K w) (cell K w) (cellX K X1) (cellY K Y1) (cellX K X1) (cellY K Y1)))).
        * rewrite rsum_scal_r, Sv. ring.
        * intros r Hr. unfold rho, Nr, cr, Xr, Yr. replace (Nat.ltb r L) with true by (symmetry; apply Nat.ltb_lt; auto).
          rewrite cross_shift. reflexivity.
      + rewrite (rsum_ext (K * K) _ (fun i => w (i / K)%nat * w (i mod K)%nat
          * sqrt (cross e f p q (L * L) (L * L) (cell L v) (cell L v) (cellX L X2) (cellY L Y2) (cellX L X2) (cellY L Y2)))).
        * rewrite rsum_scal_r, <- (rsum_flatten K K (fun k k' => w k * w k')), <- rsum_mult, Sw. ring.
        * intros i Hi. unfold rho, Nr, cr, Xr, Yr. replace (Nat.ltb (L + i) L) with false by (symmetry; apply Nat.ltb_ge; lia).
          replace (L + i - L)%nat with i by lia. rewrite cross_shift. reflexivity.
  Qed.
End Sum.

(** ** Samples *)

(** A sample is the distribution that gives the same probability to each observation. *)
Lemma dcov2_uniform n a b : (1 <= n)%nat -> (forall k l, a k l = a l k) -> (forall k l, b k l = b l k) ->
  dcov2 n a b = population_dcov2 n (fun _ => / INR n) a b.
Proof.
  intros Hn Sa Sb. pose proof (INR_pos n Hn).
  rewrite dcov2_from_terms by (auto; intros i j _ _; auto). rewrite population_rows. unfold dcov2_terms.
  rewrite (rsum2_ext n n (fun k l => / INR n * / INR n * (a k l * b k l)) (fun k l => / INR n ^ 2 * (a k l * b k l))) by (intros; field; lra).
  rewrite (rsum2_ext n n (fun k l => / INR n * / INR n * a k l) (fun k l => / INR n ^ 2 * a k l)) by (intros; field; lra).
  rewrite (rsum2_ext n n (fun k l => / INR n * / INR n * b k l) (fun k l => / INR n ^ 2 * b k l)) by (intros; field; lra).
  rewrite !rsum2_scal_l.
  rewrite (rsum_ext n (fun k => / INR n * (rsum n (fun l => / INR n * a k l) * rsum n (fun l => / INR n * b k l)))
    (fun k => / INR n ^ 2 * (rsum n (a k) / INR n * rsum n (b k)))).
  2:{ intros k Hk. rewrite (rsum_scal_l n (/ INR n) (a k)), (rsum_scal_l n (/ INR n) (b k)). field. lra. }
  rewrite rsum_scal_l. field. lra.
Qed.

Lemma uniform_distribution n : (1 <= n)%nat -> distribution n (fun _ => / INR n).
Proof.
  intros Hn. pose proof (INR_pos n Hn). split; [intros; left; apply Rinv_0_lt_compat; auto|]. rewrite rsum_const. field. lra.
Qed.

(** [s] holds the sums of every observation of [x] and every observation of [z]: row [i * m + k] is row [i] of [x] plus row
    [k] of [z]. *)
Definition all_sums (x z s : array R) : Prop :=
  wf s /\ ncols s = ncols x /\ ncols z = ncols x /\ shape0 s = (shape0 x * shape0 z)%nat /\
  forall i k c, (i < shape0 x)%nat -> (k < shape0 z)%nat -> (c < ncols x)%nat ->
  obs s (i * shape0 z + k) c = obs x i c + obs z k c.

Lemma sums_dmat e x z s i j : all_sums x z s -> (i < shape0 s)%nat -> (j < shape0 s)%nat ->
  distances e s i j = dmat e (ncols x) (sum_point (shape0 z) (obs x) (obs z)) i j.
Proof.
  intros (_ & Hc & _ & Hs & H) Hi Hj. unfold distances, dmat. rewrite Hc. f_equal. unfold dist. f_equal. apply rsum_ext.
  intros c Hc'.
  assert (E : forall t, (t < shape0 s)%nat -> obs s t c = sum_point (shape0 z) (obs x) (obs z) t c).
  { intros t Ht. rewrite Hs in Ht. assert (Hz : (0 < shape0 z)%nat) by lia. unfold sum_point.
    rewrite <- H by (auto; try (apply Nat.div_lt_upper_bound; lia); apply Nat.mod_upper_bound; lia).
    f_equal. rewrite Nat.mul_comm. apply Nat.div_mod. lia. }
  rewrite !E by auto. reflexivity.
Qed.

Lemma sums_dcov2 e f x1 y1 x2 y2 sx sy n m : paired n x1 y1 -> paired m x2 y2 -> all_sums x1 x2 sx -> all_sums y1 y2 sy ->
  0 < e <= 2 -> 0 < f <= 2 ->
  sqrt (dcov2 (n * m) (distances e sx) (distances f sy))
  <= sqrt (dcov2 n (distances e x1) (distances f y1)) + sqrt (dcov2 m (distances e x2) (distances f y2)).
Proof.
  intros (_ & _ & N1 & M1 & Hn) (_ & _ & N2 & M2 & Hm) Hx Hy He Hf.
  pose proof (INR_pos n Hn). pose proof (INR_pos m Hm).
  destruct (Hx) as (_ & _ & Cx & Sx & _). destruct (Hy) as (_ & _ & Cy & Sy & _).
  assert (Hnm : (1 <= n * m)%nat) by nia.
  rewrite (dcov2_ext (n * m) _ _ (dmat e (ncols x1) (sum_point m (obs x1) (obs x2))) (dmat f (ncols y1) (sum_point m (obs y1) (obs y2)))).
  2:{ intros i j Hi Hj. rewrite <- N2. apply sums_dmat; auto; rewrite Sx, N1, N2; auto. }
  2:{ intros i j Hi Hj. rewrite <- M2. apply sums_dmat; auto; rewrite Sy, M1, M2; auto. }
  unfold distances. rewrite Cx, Cy. rewrite !dcov2_uniform by (auto; intros; apply dmat_sym_all).
  eapply Rle_trans; [|apply (C83_population n m (fun _ => / INR n) (fun _ => / INR m)); auto using uniform_distribution].
  right. f_equal. f_equal. unfold sum_weight. apply FunctionalExtensionality.functional_extensionality. intros t.
  rewrite mult_INR. field. lra.
Qed.

(** [distance_covariance] of the sums of two independent pairs of samples is at most the sum of their distance covariances. *)
Theorem C83_sums E x1 y1 x2 y2 sx sy n m e mt cm mt1 cm1 mt2 cm2 : valid_env E ->
  paired n x1 y1 -> paired m x2 y2 -> all_sums x1 x2 sx -> all_sums y1 y2 sy -> 0 < e <= 2 ->
  accepts mt cm sx sy e -> accepts mt1 cm1 x1 y1 e -> accepts mt2 cm2 x2 y2 e ->
  exists v v1 v2,
    outcome (distance_covariance E sx sy e (MethodEnum mt) cm) = Ok v /\
    outcome (distance_covariance E x1 y1 e (MethodEnum mt1) cm1) = Ok v1 /\
    outcome (distance_covariance E x2 y2 e (MethodEnum mt2) cm2) = Ok v2 /\
    v <= v1 + v2.
Proof.
  intros HE P1 P2 Hx Hy He Ha Ha1 Ha2.
  assert (P : paired (n * m) sx sy).
  { destruct P1 as (_ & _ & N1 & M1 & Hn), P2 as (_ & _ & N2 & M2 & Hm), Hx as (Wx & _ & _ & Sx & _), Hy as (Wy & _ & _ & Sy & _).
    unfold paired. rewrite Sx, Sy, N1, N2, M1, M2. repeat split; auto. nia. }
  assert (V : forall a b r t c, paired r a b -> accepts t c a b e ->
    outcome (distance_covariance E a b e (MethodEnum t) c) = Ok (sqrt (dcov2 r (distances e a) (distances e b)))).
  { intros a b r t c Hp Hacc. exact (call_ok Dcov E a b r e t c HE Hp (proj2 (proj2 (proj2 (proj2 Hp)))) (proj1 He) Hacc). }
  do 3 eexists. split; [apply (V _ _ _ _ _ P Ha)|]. split; [apply (V _ _ _ _ _ P1 Ha1)|]. split; [apply (V _ _ _ _ _ P2 Ha2)|].
  apply sums_dcov2; auto.
Qed.

(** Independent noise [z] added to [x], with [y] repeated for every value of the noise, does not increase it. *)
Definition repeated (r : nat) (y s : array R) : Prop :=
  wf s /\ ncols s = ncols y /\ shape0 s = (shape0 y * r)%nat /\
  forall i k c, (i < shape0 y)%nat -> (k < r)%nat -> (c < ncols y)%nat -> obs s (i * r + k) c = obs y i c.

Theorem C83_noise E x y z sx sy n e mt cm mt1 cm1 : valid_env E -> paired n x y -> (1 <= shape0 z)%nat ->
  all_sums x z sx -> repeated (shape0 z) y sy -> 0 < e <= 2 -> accepts mt cm sx sy e -> accepts mt1 cm1 x y e ->
  exists v v1,
    outcome (distance_covariance E sx sy e (MethodEnum mt) cm) = Ok v /\
    outcome (distance_covariance E x y e (MethodEnum mt1) cm1) = Ok v1 /\
    v <= v1.
Proof.
  intros HE P1 Hz Hx Hy He Ha Ha1.
  pose proof P1 as (Wx & Wy & Nx & Ny & Hn). pose proof Hx as (Wsx & Csx & Cz & Ssx & _). pose proof Hy as (Wsy & Csy & Ssy & Hsy).
  set (m := shape0 z) in *.
  assert (P : paired (n * m) sx sy).
  { unfold paired. rewrite Ssx, Ssy, Nx, Ny. repeat split; auto. nia. }
  assert (V : forall a b r t c, paired r a b -> accepts t c a b e ->
    outcome (distance_covariance E a b e (MethodEnum t) c) = Ok (sqrt (dcov2 r (distances e a) (distances e b)))).
  { intros a b r t c Hp Hacc. exact (call_ok Dcov E a b r e t c HE Hp (proj2 (proj2 (proj2 (proj2 Hp)))) (proj1 He) Hacc). }
  do 2 eexists. split; [apply (V _ _ _ _ _ P Ha)|]. split; [apply (V _ _ _ _ _ P1 Ha1)|].
  pose proof (INR_pos n Hn). pose proof (INR_pos m Hz).
  assert (Hnm : (1 <= n * m)%nat) by nia.
  rewrite (dcov2_ext (n * m) _ _ (dmat e (ncols x) (sum_point m (obs x) (obs z)))
    (dmat e (ncols y) (sum_point m (obs y) (fun _ _ => 0)))).
  2:{ intros i j Hi Hj. apply sums_dmat; auto; rewrite Ssx, Nx; auto. }
  2:{ intros i j Hi Hj. unfold distances, dmat. rewrite Csy. f_equal. unfold dist. f_equal. apply rsum_ext. intros c Hc.
      assert (T : forall t, (t < n * m)%nat -> obs sy t c = sum_point m (obs y) (fun _ _ => 0) t c).
      { intros t Ht. unfold sum_point.
        rewrite <- (Hsy (t / m)%nat (t mod m)%nat c) by (auto; try (rewrite Ny; apply Nat.div_lt_upper_bound; lia); apply Nat.mod_upper_bound; lia).
        rewrite Rplus_0_r. f_equal. rewrite Nat.mul_comm. apply Nat.div_mod. lia. }
      rewrite !T by auto. reflexivity. }
  unfold distances. rewrite !dcov2_uniform by (auto; intros; apply dmat_sym_all).
  eapply Rle_trans; [|eapply Rle_trans;
    [apply (C83_population n m (fun _ => / INR n) (fun _ => / INR m) (obs x) (obs y) (obs z) (fun _ _ => 0)) with (e := e) (f := e) (p := ncols x) (q := ncols y); auto using uniform_distribution|]].
  - right. f_equal. f_equal. unfold sum_weight. apply FunctionalExtensionality.functional_extensionality. intros t.
    rewrite mult_INR. field. lra.
  - assert (Z : population_dcov2 m (fun _ => / INR m) (dmat e (ncols x) (obs z)) (dmat e (ncols y) (fun _ _ => 0)) = 0).
    { assert (D : forall k l, dmat e (ncols y) (fun _ _ => 0) k l = 0).
      { intros. unfold dmat. replace (dist (ncols y) (fun _ => 0) (fun _ => 0)) with 0.
        - unfold rpow. destruct (Rle_dec 0 0); lra.
        - unfold dist. rewrite rsum_zero by (intros; ring). symmetry. apply sqrt_0. }
      rewrite population_rows. unfold rsum2.
      rewrite (rsum_zero m) by (intros; apply rsum_zero; intros; rewrite D; ring).
      rewrite (rsum_zero m (fun k => rsum m (fun l => _ * dmat e (ncols y) _ k l))) by (intros; apply rsum_zero; intros; rewrite D; ring).
      rewrite (rsum_zero m (fun k => _ * (_ * _))).
      - ring.
      - intros k Hk. rewrite (rsum_zero m (fun l => _ * dmat e (ncols y) _ k l)) by (intros; rewrite D; ring). ring. }
    rewrite Z, sqrt_0. lra.
Qed.

(** The pairs (0,0), (1,2), (4,1) and the noise 0, 3 *)
Definition noisy_x : array R := mkArr Numpy F64 (Vec [0; 1; 4]).
Definition noisy_y : array R := mkArr Numpy F64 (Vec [0; 2; 1]).
Definition noise : array R := mkArr Numpy F64 (Vec [0; 3]).
Definition noisy_sums : array R := mkArr Numpy F64 (Vec [0; 3; 1; 4; 4; 7]).
Definition noisy_rep : array R := mkArr Numpy F64 (Vec [0; 0; 2; 2; 1; 1]).

Example C83_meets : paired 3 noisy_x noisy_y /\ all_sums noisy_x noise noisy_sums /\ repeated 2 noisy_y noisy_rep
  /\ paired 2 noise noise /\ all_sums noisy_y noise (mkArr Numpy F64 (Vec [0; 3; 2; 5; 1; 4]))
  /\ accepts MAuto CAuto noisy_sums noisy_rep 1.
Proof.
  split; [unfold paired, wf; cbn; repeat split; auto; lia|].
  split; [|split; [|split; [|split]]]; [| |unfold paired, wf; cbn; repeat split; auto; lia| |apply auto_accepts];
    repeat split; try exact I; intros i k c Hi Hk Hc; cbn in Hi, Hk, Hc; assert (c = 0%nat) by lia; subst c;
    (do 3 (destruct i; [do 2 (destruct k; [cbn; ring|]); lia|])); lia.
Qed.
