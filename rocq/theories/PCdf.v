(** C84: for samples of numbers and exponent 1 the statistics are distances between distribution functions: the energy
    distance is twice the squared L2 distance of the two empirical distribution functions (the square of
    scipy.stats.energy_distance), and the squared distance covariance four times the squared L2 distance of the joint
    distribution function and the product of the two marginal ones.

    [is_RInt f a b v]: [f] is Riemann integrable from [a] to [b], with integral [v] (Coquelicot). The empirical distribution
    functions are step functions, so these integrals are also sums over the intervals of a grid that contains the observations. *)
From Coq Require Import Reals Lra Lia List Arith Bool ZArith.
From Coquelicot Require Import Coquelicot.
From Verif Require Import Num Numpy MUtils MDistances MInternals MDcor MEnergy Sums Spec Centering Tab Samples Api RefDist RefDcor
  Psd PowerKernel Nonneg SpecFacts RefApi Empirical EnergyMath PEmpirical Expect PUnbiased Consist PopMath PopIndep
  RefEnergy PEnergy PSubadd Witness.
Import ListNotations.
Local Open Scope R_scope.

(** ** Specification *)

(** One if [u] is at most [t], zero if not *)
Definition step (u t : R) : R := if Rle_dec u t then 1 else 0.

(** The proportion of the [n] observations [x] that are at most [t], and of those with [x] at most [s] and [y] at most [t] *)
Definition cdf (n : nat) (x : nat -> R) (t : R) : R := rsum n (fun i => step (x i) t) / INR n.
Definition joint_cdf (n : nat) (x y : nat -> R) (s t : R) : R := rsum n (fun i => step (x i) s * step (y i) t) / INR n.

(** [z 0 <= ... <= z N], and every observation is one of these numbers *)
Definition grid (N : nat) (z : nat -> R) (n : nat) (x : nat -> R) : Prop :=
  (forall k, (k < N)%nat -> z k <= z (S k)) /\ forall i, (i < n)%nat -> exists k, (k <= N)%nat /\ x i = z k.

(** The integral over [z 0, z N] of a function that is constant on each interval of the grid *)
Definition integral (N : nat) (z : nat -> R) (f : R -> R) : R := rsum N (fun k => f (z k) * (z (S k) - z k)).

(** ** The absolute value of a difference counts the intervals between *)
Lemma grid_le N z : (forall k, (k < N)%nat -> z k <= z (S k)) -> forall i j, (i <= j)%nat -> (j <= N)%nat -> z i <= z j.
Proof.
  intros H i j Hij. induction Hij as [|j Hij IH]; intros Hj; [lra|]. eapply Rle_trans; [apply IH; lia|apply H; lia].
Qed.

Lemma steps_from N z t : (forall k, (k < N)%nat -> z k <= z (S k)) -> (exists k, (k <= N)%nat /\ t = z k) ->
  rsum N (fun k => step t (z k) * (z (S k) - z k)) = z N - t.
Proof.
  intros Hz (i & Hi & ->).
  assert (H : forall M, (M <= N)%nat -> rsum M (fun k => step (z i) (z k) * (z (S k) - z k)) = if Nat.leb i M then z M - z i else 0).
  { induction M as [|M IH]; intros HM; cbn [rsum].
    - destruct i; cbn; lra.
    - rewrite IH by lia. unfold step.
      destruct (Nat.leb_spec i M), (Nat.leb_spec i (S M)); try lia.
      + destruct (Rle_dec (z i) (z M)) as [|Hn]; [lra|]. exfalso. apply Hn. apply (grid_le N z Hz); lia.
      + assert (i = S M) by lia. subst i. pose proof (Hz M ltac:(lia)). destruct (Rle_dec (z (S M)) (z M)); [|lra].
        assert (z (S M) = z M) by lra. lra.
      + pose proof (grid_le N z Hz (S M) i ltac:(lia) ltac:(lia)). pose proof (Hz M ltac:(lia)).
        destruct (Rle_dec (z i) (z M)); [|lra]. assert (z (S M) = z M) by lra. lra. }
  rewrite H by lia. destruct (Nat.leb_spec i N); [reflexivity|lia].
Qed.

Lemma step_range u t : step u t = 0 \/ step u t = 1.
Proof. unfold step. destruct (Rle_dec u t); auto. Qed.

Lemma step_mono u v t : u <= v -> step v t <= step u t.
Proof. intros H. unfold step. destruct (Rle_dec v t), (Rle_dec u t); lra. Qed.

Lemma abs_steps N z u v : (forall k, (k < N)%nat -> z k <= z (S k)) ->
  (exists k, (k <= N)%nat /\ u = z k) -> (exists k, (k <= N)%nat /\ v = z k) ->
  Rabs (u - v) = rsum N (fun k => (step u (z k) - step v (z k)) ^ 2 * (z (S k) - z k)).
Proof.
  intros Hz Hu Hv.
  assert (H : forall a b, a <= b -> forall t, (step a t - step b t) ^ 2 = step a t - step b t).
  { intros a b Hab t. pose proof (step_mono a b t Hab). destruct (step_range a t) as [E|E], (step_range b t) as [E'|E']; rewrite E, E' in *; lra. }
  assert (S : forall a b, a <= b -> (exists k, (k <= N)%nat /\ a = z k) -> (exists k, (k <= N)%nat /\ b = z k) ->
    rsum N (fun k => (step a (z k) - step b (z k)) ^ 2 * (z (Datatypes.S k) - z k)) = b - a).
  { intros a b Hab Ha Hb.
    rewrite (rsum_ext N _ (fun k => step a (z k) * (z (Datatypes.S k) - z k) - step b (z k) * (z (Datatypes.S k) - z k)))
      by (intros; rewrite H by auto; ring).
    rewrite rsum_minus, !steps_from by auto. ring. }
  destruct (Rle_dec u v) as [Hle|Hgt].
  - rewrite S by auto. rewrite Rabs_left1 by lra. ring.
  - rewrite (rsum_ext N _ (fun k => (step v (z k) - step u (z k)) ^ 2 * (z (Datatypes.S k) - z k))) by (intros; ring).
    rewrite S by (auto; lra). apply Rabs_pos_eq. lra.
Qed.

(** ** Energy distance *)
Lemma mean_square n m (a b : nat -> R) : (1 <= n)%nat -> (1 <= m)%nat ->
  rsum2 n m (fun i j => (a i - b j) ^ 2) / (INR n * INR m)
  = rsum n (fun i => a i ^ 2) / INR n + rsum m (fun j => b j ^ 2) / INR m - 2 * (rsum n a / INR n) * (rsum m b / INR m).
Proof.
  intros Hn Hm. pose proof (INR_pos n Hn). pose proof (INR_pos m Hm).
  rewrite (rsum2_ext n m _ (fun i j => (a i ^ 2 * 1 + 1 * b j ^ 2) - 2 * (a i * b j))) by (intros; ring).
  rewrite rsum2_minus, rsum2_plus, (rsum2_scal_l n m 2), <- (rsum_mult n m a b), <- (rsum_mult n m (fun i => a i ^ 2) (fun _ => 1)),
    <- (rsum_mult n m (fun _ => 1) (fun j => b j ^ 2)), !rsum_const. field. lra.
Qed.

Lemma abs_mean N z n m x y : grid N z n x -> grid N z m y ->
  rsum2 n m (fun i j => Rabs (x i - y j)) = rsum N (fun k => (z (S k) - z k) * rsum2 n m (fun i j => (step (x i) (z k) - step (y j) (z k)) ^ 2)).
Proof.
  intros [Hz Hx] [_ Hy].
  rewrite (rsum2_ext n m _ (fun i j => rsum N (fun k => (step (x i) (z k) - step (y j) (z k)) ^ 2 * (z (S k) - z k))))
    by (intros; apply abs_steps; auto).
  unfold rsum2. rewrite (rsum_ext n _ (fun i => rsum N (fun k => rsum m (fun j => (step (x i) (z k) - step (y j) (z k)) ^ 2 * (z (S k) - z k)))))
    by (intros; apply rsum_swap).
  rewrite rsum_swap. apply rsum_ext. intros k Hk. rewrite <- rsum_scal_l. apply rsum_ext. intros i Hi.
  rewrite <- rsum_scal_l. apply rsum_ext. intros. ring.
Qed.

Lemma energy_cdf N z n m X Y : (1 <= n)%nat -> (1 <= m)%nat ->
  grid N z n (fun i => X i 0%nat) -> grid N z m (fun j => Y j 0%nat) ->
  energy 1 1 n m X Y = 2 * integral N z (fun t => (cdf n (fun i => X i 0%nat) t - cdf m (fun j => Y j 0%nat) t) ^ 2).
Proof.
  intros Hn Hm Hx Hy. pose proof (INR_pos n Hn). pose proof (INR_pos m Hm). unfold energy.
  rewrite (rsum2_ext n m _ (fun i j => Rabs (X i 0%nat - Y j 0%nat))) by (intros; rewrite rpow_1, dist_1 by apply dist_nonneg; reflexivity).
  rewrite (rsum2_ext n n _ (fun i j => Rabs (X i 0%nat - X j 0%nat))) by (intros; rewrite rpow_1, dist_1 by apply dist_nonneg; reflexivity).
  rewrite (rsum2_ext m m _ (fun i j => Rabs (Y i 0%nat - Y j 0%nat))) by (intros; rewrite rpow_1, dist_1 by apply dist_nonneg; reflexivity).
  rewrite (abs_mean N z n m (fun i => X i 0%nat) (fun j => Y j 0%nat)), (abs_mean N z n n (fun i => X i 0%nat) (fun i => X i 0%nat)),
    (abs_mean N z m m (fun j => Y j 0%nat) (fun j => Y j 0%nat)) by auto.
  rewrite <- !rsum_div, <- rsum_scal_l, <- !rsum_minus. unfold integral. rewrite <- rsum_scal_l.
  apply rsum_ext. intros k Hk.
  set (a := fun i => step (X i 0%nat) (z k)). set (b := fun j => step (Y j 0%nat) (z k)).
  pose proof (mean_square n m a b Hn Hm) as E1. pose proof (mean_square n n a a Hn Hn) as E2. pose proof (mean_square m m b b Hm Hm) as E3.
  assert (A : forall g u c : R, g * u / c = g * (u / c)) by (intros; unfold Rdiv; ring).
  rewrite !A. unfold a, b in E1, E2, E3. rewrite E1, E2, E3. unfold cdf.
  fold a. fold b. field. lra.
Qed.

Theorem C84_energy E x y n m N z : valid_env E -> two_samples n m 1 x y -> (1 <= n)%nat -> (1 <= m)%nat ->
  grid N z n (fun i => obs x i 0%nat) -> grid N z m (fun j => obs y j 0%nat) ->
  outcome (energy_distance E x y 1 None V)
  = Ok (2 * integral N z (fun t => (cdf n (fun i => obs x i 0%nat) t - cdf m (fun j => obs y j 0%nat) t) ^ 2)).
Proof.
  intros HE H Hn Hm Hx Hy. rewrite (energy_V E HE x y n m 1) by (auto; lra). f_equal. apply energy_cdf; auto.
Qed.

(** ** Distance covariance *)
Lemma four_sums M (c a b : nat -> R) : rsum M c = 0 -> rsum M (fun t => c t * a t) = 0 -> rsum M (fun t => c t * b t) = 0 ->
  (forall t, a t ^ 2 = a t) -> (forall t, b t ^ 2 = b t) ->
  rsum2 M M (fun t u => c t * c u * ((a t - a u) ^ 2 * (b t - b u) ^ 2)) = 4 * rsum M (fun t => c t * (a t * b t)) ^ 2.
Proof.
  intros C0 Ca Cb Ia Ib.
  set (A := fun t => c t * a t). set (B := fun t => c t * b t). set (D := fun t => c t * (a t * b t)).
  rewrite (rsum2_ext M M _ (fun t u => D t * c u + A t * B u + B t * A u + c t * D u - 2 * (D t * A u) - 2 * (A t * D u)
      - 2 * (D t * B u) - 2 * (B t * D u) + 4 * (D t * D u))).
  2:{ intros t u _ _. unfold A, B, D.
      replace ((a t - a u) ^ 2) with (a t + a u - 2 * a t * a u) by (rewrite <- (Ia t), <- (Ia u) at 1; ring).
      replace ((b t - b u) ^ 2) with (b t + b u - 2 * b t * b u) by (rewrite <- (Ib t), <- (Ib u) at 1; ring).
      ring. }
  change (rsum M A = 0) in Ca. change (rsum M B = 0) in Cb. fold D.
  rewrite rsum2_plus, !rsum2_minus, !rsum2_plus, !rsum2_scal_l, <- !rsum_mult.
  change (rsum M (fun i => c i)) with (rsum M c). change (rsum M (fun i => A i)) with (rsum M A).
  change (rsum M (fun i => B i)) with (rsum M B). rewrite C0, Ca, Cb. ring.
Qed.

Lemma dcov2_cdf N z M v n X Y : (1 <= n)%nat -> grid N z n (fun i => X i 0%nat) -> grid M v n (fun i => Y i 0%nat) ->
  dcov2 n (dmat 1 1 X) (dmat 1 1 Y)
  = 4 * integral N z (fun s => integral M v (fun t =>
      (joint_cdf n (fun i => X i 0%nat) (fun i => Y i 0%nat) s t - cdf n (fun i => X i 0%nat) s * cdf n (fun i => Y i 0%nat) t) ^ 2)).
Proof.
  intros Hn [Hz Hx] [Hv Hy]. pose proof (INR_pos n Hn).
  assert (HD : distribution n (fun _ => / INR n)) by (apply uniform_distribution; auto).
  rewrite dcov2_uniform by (auto; intros; apply dmat_sym_all). rewrite cell_population by (intros; apply dmat_sym_all).
  set (c := cell n (fun _ => / INR n)). set (P := (n * n)%nat).
  assert (Hi : forall t, (t < P)%nat -> (t / n < n)%nat) by (intros; apply Nat.div_lt_upper_bound; lia).
  assert (Hj : forall t, (t mod n < n)%nat) by (intros; apply Nat.mod_upper_bound; lia).
  set (a := fun k t => step (X (t / n)%nat 0%nat) (z k)). set (b := fun l t => step (Y (t mod n)%nat 0%nat) (v l)).
  rewrite (rsum2_ext P P _ (fun t u => rsum N (fun k => rsum M (fun l => (z (S k) - z k) * (v (S l) - v l)
     * (c t * c u * ((a k t - a k u) ^ 2 * (b l t - b l u) ^ 2)))))).
  2:{ intros t u Ht Hu. unfold dmat. rewrite !rpow_1, !dist_1 by apply dist_nonneg.
      rewrite (abs_steps N z) by (auto; apply Hx; auto). rewrite (abs_steps M v (Y (t mod n)%nat 0%nat)) by (auto; apply Hy; auto).
      rewrite (rsum_mult N M). unfold rsum2. rewrite <- rsum_scal_l. apply rsum_ext. intros k Hk. rewrite <- rsum_scal_l.
      apply rsum_ext. intros l Hl. unfold a, b. ring. }
  unfold integral. rewrite <- rsum_scal_l.
  transitivity (rsum N (fun k => rsum M (fun l => (z (S k) - z k) * (v (S l) - v l)
     * rsum2 P P (fun t u => c t * c u * ((a k t - a k u) ^ 2 * (b l t - b l u) ^ 2))))).
  { unfold rsum2.
    rewrite (rsum_ext P _ (fun t => rsum N (fun k => rsum P (fun u => rsum M (fun l => (z (S k) - z k) * (v (S l) - v l)
       * (c t * c u * ((a k t - a k u) ^ 2 * (b l t - b l u) ^ 2))))))) by (intros; apply rsum_swap).
    rewrite rsum_swap. apply rsum_ext. intros k Hk.
    rewrite (rsum_ext P _ (fun t => rsum M (fun l => rsum P (fun u => (z (S k) - z k) * (v (S l) - v l)
       * (c t * c u * ((a k t - a k u) ^ 2 * (b l t - b l u) ^ 2)))))) by (intros; apply rsum_swap).
    rewrite rsum_swap. apply rsum_ext. intros l Hl. rewrite <- rsum_scal_l. apply rsum_ext. intros t Ht.
    rewrite rsum_scal_l. reflexivity. }
  apply rsum_ext. intros k Hk. rewrite <- rsum_scal_r, <- rsum_scal_l. apply rsum_ext. intros l Hl.
  rewrite four_sums.
  - assert (E : rsum P (fun t => c t * (a k t * b l t)) = joint_cdf n (fun i => X i 0%nat) (fun i => Y i 0%nat) (z k) (v l)
        - cdf n (fun i => X i 0%nat) (z k) * cdf n (fun i => Y i 0%nat) (v l)).
    { unfold a, b, c, P. rewrite (cell_sum n (fun _ => / INR n) (fun i j => step (X i 0%nat) (z k) * step (Y j 0%nat) (v l))).
      rewrite rsum_scal_l.
      rewrite rsum2_scal_l, <- rsum_mult. unfold joint_cdf, cdf. field. lra. }
    rewrite E. ring.
  - pose proof (cell_vanishes_x n (fun _ => / INR n) X HD (fun _ => 1)) as V.
    rewrite <- V. apply rsum_ext. intros. unfold c. ring.
  - exact (cell_vanishes_x n (fun _ => / INR n) X HD (fun u => step (u 0%nat) (z k))).
  - exact (cell_vanishes_y n (fun _ => / INR n) Y HD (fun u => step (u 0%nat) (v l))).
  - intros t. unfold a. destruct (step_range (X (t / n)%nat 0%nat) (z k)) as [-> | ->]; ring.
  - intros t. unfold b. destruct (step_range (Y (t mod n)%nat 0%nat) (v l)) as [-> | ->]; ring.
Qed.

Theorem C84_distance_covariance E x y n m cm N z M v : valid_env E -> paired n x y -> univariate x -> univariate y -> accepts m cm x y 1 ->
  grid N z n (fun i => obs x i 0%nat) -> grid M v n (fun i => obs y i 0%nat) ->
  outcome (distance_covariance_sqr E x y 1 (MethodEnum m) cm)
  = Ok (4 * integral N z (fun s => integral M v (fun t =>
      (joint_cdf n (fun i => obs x i 0%nat) (fun i => obs y i 0%nat) s t
       - cdf n (fun i => obs x i 0%nat) s * cdf n (fun i => obs y i 0%nat) t) ^ 2))).
Proof.
  intros HE Hp Ux Uy Ha Hx Hy. pose proof Hp as (_ & _ & _ & _ & Hn).
  change (outcome _) with (call DcovSqr E x y 1 m cm). rewrite (call_ok DcovSqr E x y n) by (auto; lra). cbn [value]. f_equal.
  unfold distances. unfold univariate in Ux, Uy. rewrite Ux, Uy. apply dcov2_cdf; auto.
Qed.

(** ** Riemann integrals *)
Lemma RInt_grid N z (f : R -> R) : (forall k, (k < N)%nat -> z k <= z (S k)) ->
  (forall k t, (k < N)%nat -> z k < t < z (S k) -> f t = f (z k)) -> is_RInt f (z 0%nat) (z N) (integral N z f).
Proof.
  intros Hz Hf. unfold integral. induction N as [|N IH]; cbn [rsum].
  - apply (is_RInt_point f (z 0%nat)).
  - apply (is_RInt_Chasles f _ (z N)).
    + apply IH; intros; [apply Hz|apply Hf]; auto; lia.
    + apply (is_RInt_ext (fun _ => f (z N))).
      * intros t Ht. pose proof (Hz N ltac:(lia)). rewrite Rmin_left, Rmax_right in Ht by auto. symmetry. apply Hf; auto.
      * rewrite Rmult_comm. exact (is_RInt_const (V := R_NormedModule) (z N) (z (S N)) (f (z N))).
Qed.

Lemma step_between N z u k t : (forall k, (k < N)%nat -> z k <= z (S k)) -> (exists i, (i <= N)%nat /\ u = z i) ->
  (k < N)%nat -> z k < t < z (S k) -> step u t = step u (z k).
Proof.
  intros Hz (i & Hi & ->) Hk Ht. unfold step. destruct (le_lt_dec i k) as [Hik|Hik].
  - pose proof (grid_le N z Hz i k ltac:(lia) ltac:(lia)). destruct (Rle_dec (z i) t), (Rle_dec (z i) (z k)); lra.
  - pose proof (grid_le N z Hz (S k) i ltac:(lia) ltac:(lia)). destruct (Rle_dec (z i) t), (Rle_dec (z i) (z k)); lra.
Qed.

(** Numbers between [a] and [b] have a grid from [a] to [b]. *)
Lemma grid_exists a b n (u : nat -> R) : a <= b -> (forall i, (i < n)%nat -> a <= u i <= b) ->
  exists N z, z 0%nat = a /\ z N = b /\ grid N z n u.
Proof.
  intros Hab. induction n as [|n IH]; intros H.
  - exists 1%nat, (fun k => match k with 0%nat => a | _ => b end). split; auto. split; auto. split; [|intros; lia].
    intros k Hk. assert (k = 0%nat) by lia. subst. auto.
  - destruct IH as (N & z & Z0 & ZN & Hz & Hu); [intros; apply H; lia|]. pose proof (H n ltac:(lia)) as Hn.
    assert (J : forall M, (M <= N)%nat -> u n <= z M -> (exists k, (k <= N)%nat /\ u n = z k)
                \/ exists j, (j < N)%nat /\ z j <= u n <= z (S j)).
    { induction M as [|M IHM]; intros HM Hle; [left; exists 0%nat; split; [lia|lra]|].
      destruct (Rle_dec (u n) (z M)); [apply IHM; auto; lia|]. right. exists M. split; [lia|lra]. }
    destruct (J N ltac:(lia) ltac:(lra)) as [Hin|(j & Hj & Hju)].
    + exists N, z. split; auto. split; auto. split; auto. intros i Hi. assert (i = n \/ i < n)%nat as [->|] by lia; auto.
    + set (z' := fun k => if Nat.leb k j then z k else if Nat.eqb k (S j) then u n else z (k - 1)%nat).
      assert (A1 : forall k, (k <= j)%nat -> z' k = z k) by (intros k Hk; unfold z'; destruct (Nat.leb_spec k j); [reflexivity|lia]).
      assert (A2 : z' (S j) = u n).
      { unfold z'. destruct (Nat.leb_spec (S j) j); [lia|]. rewrite Nat.eqb_refl. reflexivity. }
      assert (A3 : forall k, (j < k)%nat -> z' (S k) = z k).
      { intros k Hk. unfold z'. destruct (Nat.leb_spec (S k) j); [lia|]. destruct (Nat.eqb_spec (S k) (S j)); [lia|]. f_equal. lia. }
      exists (S N), z'. split; [rewrite A1 by lia; auto|]. split; [rewrite A3 by lia; auto|]. split.
      * intros k Hk. assert (k < j \/ k = j \/ k = S j \/ S j < k)%nat as [?|[?|[?|?]]] by lia.
        -- rewrite !A1 by lia. apply Hz. lia.
        -- subst k. rewrite A1, A2 by lia. lra.
        -- subst k. rewrite A2, A3 by lia. lra.
        -- destruct k as [|k]; [lia|]. rewrite !A3 by lia. apply Hz. lia.
      * intros i Hi. assert (i = n \/ i < n)%nat as [->|Hlt] by lia; [exists (S j); split; [lia|auto]|].
        destruct (Hu i Hlt) as (k & Hk & ->). destruct (le_lt_dec k j).
        -- exists k. split; [lia|]. rewrite A1 by lia. reflexivity.
        -- exists (S k). split; [lia|]. rewrite A3 by lia. reflexivity.
Qed.

Lemma grid_cdf N z n x k t : grid N z n x -> (k < N)%nat -> z k < t < z (S k) -> cdf n x t = cdf n x (z k).
Proof.
  intros [Hz Hx] Hk Ht. unfold cdf. f_equal. apply rsum_ext. intros i Hi. apply (step_between N z); auto.
Qed.

(** All the observations lie between [a] and [b]. *)
Definition within (a b : R) (x : array R) : Prop :=
  forall i, (i < shape0 x)%nat -> a <= obs x i 0%nat <= b.

(** The energy distance of two samples of numbers is twice the integral of the squared difference of their distribution
    functions. *)
Theorem C84_energy_integral E x y n m a b : valid_env E -> two_samples n m 1 x y -> (1 <= n)%nat -> (1 <= m)%nat ->
  within a b x -> within a b y ->
  exists v, is_RInt (fun t => (cdf n (fun i => obs x i 0%nat) t - cdf m (fun j => obs y j 0%nat) t) ^ 2) a b v /\
  outcome (energy_distance E x y 1 None V) = Ok (2 * v).
Proof.
  intros HE H Hn Hm Wx Wy. pose proof H as (_ & _ & Sx & Sy & _ & _). unfold within in Wx, Wy. rewrite Sx in Wx. rewrite Sy in Wy.
  set (X := fun i => obs x i 0%nat) in *. set (Y := fun j => obs y j 0%nat) in *.
  assert (Hab : a <= b) by (pose proof (Wx 0%nat Hn); lra).
  destruct (grid_exists a b (n + m) (fun i => if Nat.ltb i n then X i else Y (i - n)%nat) Hab) as (N & z & Z0 & ZN & Hz & Hu).
  { intros i Hi. destruct (Nat.ltb_spec i n); [apply Wx; auto|apply Wy; lia]. }
  assert (GX : grid N z n X).
  { split; auto. intros i Hi. destruct (Hu i ltac:(lia)) as (k & Hk & Ek). exists k. split; auto.
    destruct (Nat.ltb_spec i n); [auto|lia]. }
  assert (GY : grid N z m Y).
  { split; auto. intros i Hi. destruct (Hu (n + i)%nat ltac:(lia)) as (k & Hk & Ek). exists k. split; auto.
    destruct (Nat.ltb_spec (n + i) n); [lia|]. replace (n + i - n)%nat with i in Ek by lia. auto. }
  eexists. split; [|apply (C84_energy E x y n m N z); auto].
  rewrite <- Z0, <- ZN. apply RInt_grid; auto. intros k t Hk Ht. cbv beta. fold X Y.
  rewrite (grid_cdf N z n X k t), (grid_cdf N z m Y k t) by auto. reflexivity.
Qed.

(** The squared distance covariance of two samples of numbers is four times the double integral of the squared difference of the
    joint distribution function and the product of the marginal ones. *)
Theorem C84_covariance_integral E x y n m cm a b c d : valid_env E -> paired n x y -> univariate x -> univariate y ->
  accepts m cm x y 1 -> within a b x -> within c d y ->
  exists (I : R -> R) v,
    (forall s, is_RInt (fun t => (joint_cdf n (fun i => obs x i 0%nat) (fun i => obs y i 0%nat) s t
                                  - cdf n (fun i => obs x i 0%nat) s * cdf n (fun i => obs y i 0%nat) t) ^ 2) c d (I s)) /\
    is_RInt I a b v /\
    outcome (distance_covariance_sqr E x y 1 (MethodEnum m) cm) = Ok (4 * v).
Proof.
  intros HE Hp Ux Uy Ha Wx Wy. pose proof Hp as (_ & _ & Sx & Sy & Hn). unfold within in Wx, Wy. rewrite Sx in Wx. rewrite Sy in Wy.
  set (X := fun i => obs x i 0%nat) in *. set (Y := fun j => obs y j 0%nat) in *.
  assert (Hab : a <= b) by (pose proof (Wx 0%nat Hn); lra). assert (Hcd : c <= d) by (pose proof (Wy 0%nat Hn); lra).
  destruct (grid_exists a b n X Hab Wx) as (N & z & Z0 & ZN & GX). destruct (grid_exists c d n Y Hcd Wy) as (M & v & V0 & VM & GY).
  exists (fun s => integral M v (fun t => (joint_cdf n X Y s t - cdf n X s * cdf n Y t) ^ 2)). eexists. split; [|split].
  - intros s. rewrite <- V0, <- VM. apply RInt_grid; [apply GY|]. intros k t Hk Ht. rewrite (grid_cdf M v n Y k t) by auto.
    f_equal. f_equal. unfold joint_cdf. f_equal. apply rsum_ext. intros i Hi. f_equal. destruct GY as [Hv Hy]. apply (step_between M v); auto.
  - rewrite <- Z0, <- ZN. apply RInt_grid; [apply GX|]. intros k s Hk Hs. unfold integral. apply rsum_ext. intros l Hl. f_equal.
    rewrite (grid_cdf N z n X k s) by auto. f_equal. f_equal. unfold joint_cdf. f_equal. apply rsum_ext. intros i Hi. f_equal.
    destruct GX as [Hz Hx]. apply (step_between N z); auto.
  - apply C84_distance_covariance; auto.
Qed.

(** Samples that meet the hypotheses: 0, 1, 3 and 1, 2, all between 0 and 3 *)
Definition cdf_x : array R := mkArr Numpy F64 (Vec [0; 1; 3]).
Definition cdf_y : array R := mkArr Numpy F64 (Vec [1; 2]).

Example C84_samples : valid_env (env_R true) /\ two_samples 3 2 1 cdf_x cdf_y /\ within 0 3 cdf_x /\ within 0 3 cdf_y
  /\ paired 3 cdf_x cdf_x /\ univariate cdf_x /\ accepts MAuto CAuto cdf_x cdf_x 1.
Proof.
  split; [apply env_R_valid|]. split; [repeat split|]. split; [|split; [|split; [|split]]].
  - intros i Hi. cbn in Hi. destruct i as [|[|[|i]]]; [cbn; lra|cbn; lra|cbn; lra|lia].
  - intros i Hi. cbn in Hi. destruct i as [|[|i]]; [cbn; lra|cbn; lra|lia].
  - unfold paired, wf; cbn; repeat split; auto; lia.
  - reflexivity.
  - apply auto_accepts.
Qed.


Example C84_meets : grid 3 (fun k => INR k) 3 (fun i => nth i [0; 1; 3] 0) /\ grid 3 (fun k => INR k) 2 (fun i => nth i [1; 2] 0)
  /\ 2 * integral 3 (fun k => INR k) (fun t => (cdf 3 (fun i => nth i [0; 1; 3] 0) t - cdf 2 (fun i => nth i [1; 2] 0) t) ^ 2) = 1 / 2.
Proof.
  split; [|split].
  - split; [intros; rewrite S_INR; lra|]. intros i Hi. destruct i as [|[|[|i]]]; [exists 0%nat|exists 1%nat|exists 3%nat|lia]; (split; [lia|cbn; lra]).
  - split; [intros; rewrite S_INR; lra|]. intros i Hi. destruct i as [|[|i]]; [exists 1%nat|exists 2%nat|lia]; (split; [lia|cbn; lra]).
  - unfold integral, cdf, step. cbn.
    repeat match goal with |- context [Rle_dec ?a ?b] => destruct (Rle_dec a b); try lra end; try (exfalso; lra).
Qed.
