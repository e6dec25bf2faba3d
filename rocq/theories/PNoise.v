(** C86: independent noise does not increase the energy distance, and the square roots of the energy distances of independent
    samples add up at most.

    [all_sums x z s] (PSubadd.v): [s] holds the sums of every observation of [x] and every observation of [z], that is, the
    distribution of the sum of independent draws. *)
From Coq Require Import Reals Lra Lia List Arith Bool ZArith.
From Verif Require Import Num Numpy MUtils MDistances MEnergy Sums Spec Centering Psd PowerKernel Nonneg Empirical EnergyMath
  Samples Api RefDist SpecFacts RefEnergy PEnergy PMetric PSubadd Witness.
Import ListNotations.
Local Open Scope R_scope.

Definition shifted (u v : nat -> R) (l : nat) : R := u l + v l.

Lemma swap_four a b c d (G : nat -> nat -> nat -> nat -> R) :
  rsum2 a b (fun i j => rsum2 c d (G i j)) = rsum2 c d (fun k l => rsum2 a b (fun i j => G i j k l)).
Proof.
  unfold rsum2.
  rewrite (rsum_ext a _ (fun i => rsum c (fun k => rsum b (fun j => rsum d (fun l => G i j k l))))) by (intros; apply rsum_swap).
  rewrite rsum_swap. apply rsum_ext. intros k _.
  rewrite (rsum_ext a _ (fun i => rsum d (fun l => rsum b (fun j => G i j k l)))) by (intros; apply rsum_swap).
  apply rsum_swap.
Qed.
Lemma flat_four a b c d (G : nat -> nat -> nat -> nat -> R) :
  rsum2 (a * c) (b * d) (fun s t => G (s / c)%nat (s mod c)%nat (t / d)%nat (t mod d)%nat) = rsum2 c d (fun k l => rsum2 a b (fun i j => G i k j l)).
Proof.
  transitivity (rsum2 a c (fun i k => rsum2 b d (fun j l => G i k j l))).
  - rewrite (rsum2_ext a c _ (fun i k => rsum (b * d) (fun t => G i k (t / d)%nat (t mod d)%nat))) by (intros; apply rsum_flatten).
    symmetry. exact (rsum_flatten a c (fun i k => rsum (b * d) (fun t => G i k (t / d)%nat (t mod d)%nat))).
  - unfold rsum2. rewrite rsum_swap. apply rsum_ext. intros k _.
    rewrite (rsum_ext a _ (fun i => rsum d (fun l => rsum b (fun j => G i k j l)))) by (intros; apply rsum_swap).
    apply rsum_swap.
Qed.

Section Noise.
  Context (e : R) (p n m : nat) (X Y : nat -> nat -> R).
  Hypothesis He : 0 < e <= 2.
  Hypothesis Hn : (1 <= n)%nat.
  Hypothesis Hm : (1 <= m)%nat.

  Let g (u v : nat -> R) : R := rpow (dist p u v) e.
  Let N := (n + m)%nat.
  (** The points of both samples with signed weights *)
  Let c (k : nat) : R := if Nat.ltb k n then / INR n else - / INR m.
  Let P := pool n X Y.

  Lemma signed_sum_v (f : (nat -> R) -> R) : rsum N (fun k => c k * f (P k)) = rsum n (fun i => f (X i)) / INR n - rsum m (fun j => f (Y j)) / INR m.
  Proof.
    unfold N. rewrite rsum_app. unfold c, P.
    rewrite (rsum_ext n _ (fun i => / INR n * f (X i))) by (intros i Hi; rewrite pool_l by auto; destruct (Nat.ltb_spec i n); [reflexivity|lia]).
    rewrite (rsum_ext m _ (fun j => - / INR m * f (Y j))).
    2:{ intros j Hj. rewrite pool_r. destruct (Nat.ltb_spec (n + j) n); [lia|]. reflexivity. }
    rewrite !rsum_scal_l. unfold Rdiv. ring.
  Qed.
  Lemma signed_zero_v : rsum N c = 0.
  Proof.
    pose proof (INR_pos n Hn). pose proof (INR_pos m Hm). pose proof (signed_sum_v (fun _ => 1)) as H1. cbv beta in H1. rewrite !rsum_const in H1.
    rewrite (rsum_ext _ c (fun k => c k * 1)) by (intros; ring). rewrite H1. field. lra.
  Qed.
  Lemma signed_form_v (f : (nat -> R) -> (nat -> R) -> R) : rsum2 N N (fun k l => c k * c l * f (P k) (P l))
    = rsum2 n n (fun i j => f (X i) (X j)) * / (INR n * INR n) - rsum2 n m (fun i j => f (X i) (Y j)) * / (INR n * INR m)
      - rsum2 m n (fun j i => f (Y j) (X i)) * / (INR n * INR m) + rsum2 m m (fun i j => f (Y i) (Y j)) * / (INR m * INR m).
  Proof.
    pose proof (INR_pos n Hn). pose proof (INR_pos m Hm). unfold rsum2 at 1.
    rewrite (rsum_ext N _ (fun k => c k * (rsum n (fun i => f (P k) (X i)) / INR n - rsum m (fun j => f (P k) (Y j)) / INR m))).
    2:{ intros k Hk. rewrite <- (signed_sum_v (f (P k))), <- rsum_scal_l. apply rsum_ext. intros. ring. }
    rewrite (signed_sum_v (fun u => rsum n (fun i => f u (X i)) / INR n - rsum m (fun j => f u (Y j)) / INR m)).
    rewrite !rsum_minus, !rsum_div. unfold rsum2. field. lra.
  Qed.

  (** The form between the samples moved by [v] and by [v'] *)
  Let Q (v v' : nat -> R) : R := rsum2 N N (fun k l => c k * c l * g (shifted (P k) v) (shifted (P l) v')).

  Lemma Q_same v : Q v v = - energy e p n m X Y.
  Proof.
    pose proof (INR_pos n Hn). pose proof (INR_pos m Hm). unfold Q.
    rewrite (rsum2_ext N N _ (fun k l => c k * c l * g (P k) (P l))).
    - rewrite (signed_form_v g). rewrite energy_between, (rsum2_swap m n).
      rewrite (rsum2_ext n m (fun j i => g (Y i) (X j)) (fun i j => g (X i) (Y j))) by (intros; unfold g; rewrite dist_sym; reflexivity).
      unfold between, g. field. lra.
    - intros k l _ _. f_equal. unfold g, shifted. f_equal. unfold dist. f_equal. apply rsum_ext. intros. ring.
  Qed.

  Lemma Q_two v v' : Q v v + Q v' v' - Q v v' - Q v' v <= 0.
  Proof.
    set (W := pool N (fun k => shifted (P k) v) (fun k => shifted (P k) v')).
    set (w := fun k => if Nat.ltb k N then c k else - c (k - N)%nat).
    assert (w1 : forall i, (i < N)%nat -> w i = c i) by (intros i Hi; unfold w; destruct (Nat.ltb_spec i N); [reflexivity|lia]).
    assert (w2 : forall i, w (N + i)%nat = - c i).
    { intros i. unfold w. destruct (Nat.ltb_spec (N + i) N); [lia|]. do 2 f_equal. lia. }
    assert (W1 : forall i, (i < N)%nat -> W i = shifted (P i) v) by (intros; apply pool_l; auto).
    assert (W2 : forall i, W (N + i)%nat = shifted (P i) v') by (intros; apply pool_r).
    assert (H : rsum2 (N + N) (N + N) (fun i j => w i * w j * dmat e p W i j) <= 0).
    { apply (cnd_nonpos (N + N) p W (fun i j => w i * w j)); auto.
      - assert (T : rsum (N + N) w = 0).
        { rewrite rsum_app, (rsum_ext N w c) by auto. rewrite (rsum_ext N (fun i => w (N + i)%nat) (fun i => -1 * c i)) by (intros; rewrite w2; ring).
          rewrite rsum_scal_l. ring. }
        rewrite <- rsum_mult, T. ring.
      - intros t Ht. apply (schur_psd _ _ (gauss_schur (N + N) p t W ltac:(lra))). }
    rewrite rsum2_pool in H. unfold dmat in H.
    rewrite (rsum2_ext N N (fun i j => w i * w j * rpow (dist p (W i) (W j)) e) (fun k l => c k * c l * g (shifted (P k) v) (shifted (P l) v))) in H
      by (intros; rewrite !w1, !W1 by auto; reflexivity).
    rewrite (rsum2_ext N N (fun i j => w i * w (N + j)%nat * rpow (dist p (W i) (W (N + j)%nat)) e)
      (fun k l => (-1) * (c k * c l * g (shifted (P k) v) (shifted (P l) v')))) in H by (intros; rewrite w2, W2, w1, W1 by auto; unfold g; ring).
    rewrite (rsum2_ext N N (fun i j => w (N + i)%nat * w j * rpow (dist p (W (N + i)%nat) (W j)) e)
      (fun k l => (-1) * (c k * c l * g (shifted (P k) v') (shifted (P l) v)))) in H by (intros; rewrite w2, W2, w1, W1 by auto; unfold g; ring).
    rewrite (rsum2_ext N N (fun i j => w (N + i)%nat * w (N + j)%nat * rpow (dist p (W (N + i)%nat) (W (N + j)%nat)) e)
      (fun k l => c k * c l * g (shifted (P k) v') (shifted (P l) v'))) in H by (intros; rewrite !w2, !W2; unfold g; ring).
    rewrite !rsum2_scal_l in H. unfold Q. lra.
  Qed.

  Context (K : nat) (Z : nat -> nat -> R).
  Hypothesis HK : (1 <= K)%nat.

  (** The sum of the distances between the points of two samples with noise *)
  Definition noisy (a b : nat) (A B : nat -> nat -> R) : R :=
    rsum2 K K (fun k l => rsum2 a b (fun i j => rpow (dist p (shifted (A i) (Z k)) (shifted (B j) (Z l))) e)).

  Lemma noisy_bound : (2 * (noisy n m X Y / (INR n * INR m)) - noisy n n X X / (INR n * INR n) - noisy m m Y Y / (INR m * INR m)) / (INR K * INR K)
    <= energy e p n m X Y.
  Proof.
    pose proof (INR_pos n Hn). pose proof (INR_pos m Hm). pose proof (INR_pos K HK).
    assert (S : noisy m n Y X = noisy n m X Y).
    { unfold noisy. rewrite rsum2_swap. apply rsum2_ext. intros k l _ _. rewrite rsum2_swap. apply rsum2_ext. intros. rewrite dist_sym. reflexivity. }
    assert (T : rsum2 K K (fun k l => Q (Z k) (Z l)) = noisy n n X X * / (INR n * INR n) - noisy n m X Y * / (INR n * INR m)
       - noisy m n Y X * / (INR n * INR m) + noisy m m Y Y * / (INR m * INR m)).
    { unfold Q. rewrite (rsum2_ext K K _ _ (fun k l _ _ => signed_form_v (fun u w => g (shifted u (Z k)) (shifted w (Z l))))).
      rewrite rsum2_plus, !rsum2_minus, !rsum2_scal_r. reflexivity. }
    assert (B : rsum2 K K (fun k l => Q (Z k) (Z l) + Q (Z l) (Z k)) >= rsum2 K K (fun k l => - 2 * energy e p n m X Y)).
    { apply Rle_ge. unfold rsum2. apply rsum_le. intros k _. apply rsum_le. intros l _. pose proof (Q_two (Z k) (Z l)) as H2. rewrite !Q_same in H2. lra. }
    rewrite rsum2_plus, <- (rsum2_swap K K (fun k l => Q (Z k) (Z l))), T, S in B.
    assert (C : rsum2 K K (fun _ _ => - 2 * energy e p n m X Y) = INR K * INR K * (- 2 * energy e p n m X Y)).
    { unfold rsum2. rewrite !rsum_const. ring. }
    rewrite C in B. apply (Rmult_le_reg_r (INR K * INR K)); [apply Rmult_lt_0_compat; auto|].
    unfold Rdiv at 1. rewrite Rmult_assoc, Rinv_l, Rmult_1_r by (apply Rgt_not_eq, Rmult_lt_0_compat; auto). unfold Rdiv. lra.
  Qed.

  Lemma flat_inner a b A B : rsum2 (a * K) (b * K) (fun s t => rpow (dist p (sum_point K A Z s) (sum_point K B Z t)) e) = noisy a b A B.
  Proof. exact (flat_four a b K K (fun i k j l => rpow (dist p (shifted (A i) (Z k)) (shifted (B j) (Z l))) e)). Qed.
  Lemma flat_outer a b A B : rsum2 (K * a) (K * b) (fun s t => rpow (dist p (sum_point a Z A s) (sum_point b Z B t)) e) = noisy a b A B.
  Proof.
    transitivity (rsum2 a b (fun i j => rsum2 K K (fun k l => rpow (dist p (shifted (Z k) (A i)) (shifted (Z l) (B j))) e)));
      [exact (flat_four K K a b (fun k i l j => rpow (dist p (shifted (Z k) (A i)) (shifted (Z l) (B j))) e))|].
    rewrite swap_four. unfold noisy. apply rsum2_ext. intros k l _ _. apply rsum2_ext. intros i j _ _.
    f_equal. unfold dist. f_equal. apply rsum_ext. intros. unfold shifted. ring.
  Qed.

  Lemma noise_inner : energy e p (n * K) (m * K) (sum_point K X Z) (sum_point K Y Z) <= energy e p n m X Y.
  Proof.
    pose proof (INR_pos n Hn). pose proof (INR_pos m Hm). pose proof (INR_pos K HK).
    eapply Rle_trans; [|apply noisy_bound]. right. unfold energy. rewrite !flat_inner, !mult_INR. field. lra.
  Qed.
  Lemma noise_outer : energy e p (K * n) (K * m) (sum_point n Z X) (sum_point m Z Y) <= energy e p n m X Y.
  Proof.
    pose proof (INR_pos n Hn). pose proof (INR_pos m Hm). pose proof (INR_pos K HK).
    eapply Rle_trans; [|apply noisy_bound]. right. unfold energy. rewrite !flat_outer, !mult_INR. field. lra.
  Qed.
End Noise.

(** ** The functions *)
Lemma energy_sums e p n m x z sx y w sy :
  all_sums x z sx -> all_sums y w sy -> ncols x = p -> ncols y = p -> shape0 x = n -> shape0 y = m ->
  energy e p (n * shape0 z) (m * shape0 w) (obs sx) (obs sy)
  = energy e p (n * shape0 z) (m * shape0 w) (sum_point (shape0 z) (obs x) (obs z)) (sum_point (shape0 w) (obs y) (obs w)).
Proof.
  intros Hx Hy Cx Cy Nx Ny.
  assert (P : forall a b s t c, all_sums a b s -> ncols a = p -> (t < shape0 a * shape0 b)%nat -> (c < p)%nat -> obs s t c = sum_point (shape0 b) (obs a) (obs b) t c).
  { intros a b s t c (_ & _ & _ & _ & H) Ca Ht Hc. assert (Hb : (0 < shape0 b)%nat) by lia. unfold sum_point.
    rewrite <- H by (try (apply Nat.div_lt_upper_bound; lia); try (apply Nat.mod_upper_bound; lia); lia).
    f_equal. rewrite Nat.mul_comm. apply Nat.div_mod. lia. }
  subst n m. unfold energy. f_equal; [f_equal|].
  - do 2 f_equal. apply rsum2_ext. intros i j Hi Hj. f_equal. apply dist_ext; intros; apply P; auto.
  - f_equal. apply rsum2_ext. intros i j Hi Hj. f_equal. apply dist_ext; intros; apply P; auto.
  - f_equal. apply rsum2_ext. intros i j Hi Hj. f_equal. apply dist_ext; intros; apply P; auto.
Qed.

Lemma sums_samples x z sx y w sy n m p : two_samples n m p x y -> all_sums x z sx -> all_sums y w sy ->
  two_samples (n * shape0 z) (m * shape0 w) p sx sy.
Proof.
  intros (_ & _ & Nx & Ny & Cx & Cy) (Wx & C1 & _ & S1 & _) (Wy & C2 & _ & S2 & _). unfold two_samples.
  rewrite S1, S2, C1, C2, Nx, Ny. auto 6.
Qed.

(** The same noise added to both samples brings them closer. *)
Theorem C86_noise E x y z sx sy n m p e : valid_env E -> two_samples n m p x y -> all_sums x z sx -> all_sums y z sy ->
  (1 <= n)%nat -> (1 <= m)%nat -> (1 <= shape0 z)%nat -> 0 < e <= 2 ->
  exists d ds, outcome (energy_distance E x y e None V) = Ok d /\ outcome (energy_distance E sx sy e None V) = Ok ds /\ ds <= d.
Proof.
  intros HE H Hx Hy Hn Hm Hk He. pose proof (sums_samples x z sx y z sy n m p H Hx Hy) as HS.
  do 2 eexists. split; [apply energy_V; eauto; lra|]. split; [apply energy_V; eauto; lra|].
  destruct H as (_ & _ & Nx & Ny & Cx & Cy). rewrite (energy_sums e p n m x z sx y z sy) by auto. apply noise_inner; auto.
Qed.

(** The roots of the energy distances of independent pairs of samples add up at most. *)
Theorem C86_sums E x1 y1 x2 y2 sx sy n m k l p e : valid_env E -> two_samples n m p x1 y1 -> two_samples k l p x2 y2 ->
  all_sums x1 x2 sx -> all_sums y1 y2 sy -> (1 <= n)%nat -> (1 <= m)%nat -> (1 <= k)%nat -> (1 <= l)%nat -> 0 < e <= 2 ->
  exists d1 d2 ds, outcome (energy_distance E x1 y1 e None V) = Ok d1 /\ outcome (energy_distance E x2 y2 e None V) = Ok d2 /\
    outcome (energy_distance E sx sy e None V) = Ok ds /\ sqrt ds <= sqrt d1 + sqrt d2.
Proof.
  intros HE H1 H2 Hx Hy Hn Hm Hk Hl He. pose proof (sums_samples x1 x2 sx y1 y2 sy n m p H1 Hx Hy) as HS.
  do 3 eexists. split; [apply energy_V; eauto; lra|]. split; [apply energy_V; eauto; lra|]. split; [apply energy_V; eauto; lra|].
  destruct H1 as (_ & _ & Nx & Ny & Cx & Cy). rewrite (energy_sums e p n m x1 x2 sx y1 y2 sy) by auto.
  destruct H2 as (_ & _ & Kx & Ky & _ & _). rewrite Kx, Ky.
  assert (A1 : (1 <= n * k)%nat) by nia. assert (A2 : (1 <= m * k)%nat) by nia. assert (A3 : (1 <= m * l)%nat) by nia.
  eapply Rle_trans; [apply (energy_triangle e p (n * k) (m * k) (m * l) _ (sum_point k (obs y1) (obs x2))); auto|].
  apply Rplus_le_compat; apply sqrt_le_1_alt; [apply noise_inner; auto|apply noise_outer; auto].
Qed.

(** Hypotheses met: two samples, the noise 0, 3 *)
Definition noisy_y_sums : array R := mkArr Numpy F64 (Vec [0; 3; 2; 5; 1; 4]).
Example C86_meets : valid_env (env_R true) /\ two_samples 3 3 1 noisy_x noisy_y /\ all_sums noisy_x noise noisy_sums
  /\ all_sums noisy_y noise noisy_y_sums /\ two_samples 2 2 1 noise noise.
Proof.
  pose proof C83_meets as (_ & H1 & _ & _ & H2 & _). split; [apply env_R_valid|]. split; [repeat split|]. split; [exact H1|]. split; [exact H2|repeat split].
Qed.
