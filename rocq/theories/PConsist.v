(** C74: the statistics converge to the population quantities they estimate. *)
From Coq Require Import Reals Lra Lia List Arith Bool.
From Verif Require Import Num Numpy MUtils MDcor MEnergy Sums Spec Tab Samples Api Witness Centering SpecFacts RefDist RefApi RefEnergy PDcov PEnergy
  Expect PUnbiased Nonneg PStable Consist PopMath PopIndep.
Import ListNotations.
Local Open Scope R_scope.

(** ** Specification *)

(** [v n s] is a number computed from [n] draws [s]: the probability that it is at least [eps] away from [t] gets arbitrarily small. *)
Definition consistent (K : nat) (w : nat -> R) (v : nat -> (nat -> nat) -> R) (t : R) : Prop :=
  forall eps delta, 0 < eps -> 0 < delta ->
  exists N, forall n, (N <= n)%nat -> probability K w n (fun s => far eps (v n s) t) <= delta.

(** The quantity each function estimates; [a] and [b] are the distances between the atoms. *)
Definition population (f : api) (K : nat) (w : nat -> R) (a b : nat -> nat -> R) : R :=
  let cov := population_dcov2 K w a b in
  let cor := corr (population_dcov2 K w a b) (population_dcov2 K w a a) (population_dcov2 K w b b) in
  match f with DcovSqr | UDcovSqr => cov | Dcov => sqrt cov | DcorSqr | UDcorSqr => cor | Dcor => sqrt cor end.

(** No two of the first [K] points are further apart than [A], after raising the distance to the power [e]. *)
Definition within (e : R) (p K : nat) (X : nat -> nat -> R) (A : R) : Prop :=
  forall k l, (k < K)%nat -> (l < K)%nat -> rpow (dist p (X k) (X l)) e <= A.

(** ** Lemmas *)

Lemma within_below e p K X A : within e p K X A -> kernel_below K (dmat e p X) A.
Proof. intros H k l Hk Hl. split; [apply rpow_nonneg|apply H; auto]. Qed.

Lemma rsum_term_le n f i : (i < n)%nat -> (forall k, (k < n)%nat -> 0 <= f k) -> f i <= rsum n f.
Proof.
  intros Hi Hf. rewrite <- (rsum_delta n i f Hi). apply rsum_le. intros k Hk. destruct (Nat.eqb k i); [lra|auto].
Qed.
Lemma finite_bound (c : nat -> nat -> R) K L : exists M, 0 <= M /\ forall k l, (k < K)%nat -> (l < L)%nat -> c k l <= M.
Proof.
  exists (rsum2 K L (fun k l => Rabs (c k l))). split.
  - apply rsum_nonneg. intros; apply rsum_nonneg; intros; apply Rabs_pos.
  - intros k l Hk Hl. eapply Rle_trans; [apply Rle_abs|]. unfold rsum2.
    apply Rle_trans with (rsum L (fun l => Rabs (c k l))); [apply (rsum_term_le L (fun l => Rabs (c k l)) l)|
      apply (rsum_term_le K (fun k => rsum L (fun l => Rabs (c k l))) k)]; auto; intros; try apply rsum_nonneg; intros; apply Rabs_pos.
Qed.

Lemma far_true eps v t : far eps v t = true <-> eps <= Rabs (v - t).
Proof. unfold far. destruct (Rle_dec eps (Rabs (v - t))); split; intros; auto; try discriminate; lra. Qed.
Lemma far_false eps v t : far eps v t = false <-> Rabs (v - t) < eps.
Proof. unfold far. destruct (Rle_dec eps (Rabs (v - t))); split; intros; auto; try discriminate; lra. Qed.

Section Limits.
  Context (K : nat) (w : nat -> R).
  Hypothesis HD : distribution K w.

  Lemma consistent_ext v v' t : (exists N, forall n s, (N <= n)%nat -> (forall i, (s i < K)%nat) -> v n s = v' n s) -> consistent K w v t -> consistent K w v' t.
  Proof.
    intros [N0 H0] H eps delta He Hd. destruct (H eps delta He Hd) as [N HN]. exists (max N N0). intros n Hn.
    eapply Rle_trans; [|apply (HN n); lia]. apply probability_le; auto. intros s Hs. rewrite (H0 n s) by (auto; lia). auto.
  Qed.
  Lemma consistent_map2 (g : R -> R -> R) u v t t' :
    (forall eps, 0 < eps -> exists d, 0 < d /\ forall x y, Rabs (x - t) < d -> Rabs (y - t') < d -> Rabs (g x y - g t t') < eps) ->
    consistent K w u t -> consistent K w v t' -> consistent K w (fun n s => g (u n s) (v n s)) (g t t').
  Proof.
    intros Hg Hu Hv eps delta He Hd. destruct (Hg eps He) as (d & Hd0 & Hd1).
    destruct (Hu d (delta / 2) Hd0 ltac:(lra)) as [N1 H1]. destruct (Hv d (delta / 2) Hd0 ltac:(lra)) as [N2 H2]. exists (max N1 N2). intros n Hn.
    apply Rle_trans with (delta / 2 + delta / 2); [|lra].
    eapply Rle_trans; [|apply Rplus_le_compat; [apply (H1 n)|apply (H2 n)]; lia]. apply probability_or_le; auto. intros s _ Hf.
    destruct (far d (u n s) t) eqn:E1; auto. destruct (far d (v n s) t') eqn:E2; auto. exfalso. apply far_false in E1, E2. apply far_true in Hf.
    specialize (Hd1 _ _ E1 E2). lra.
  Qed.
  Lemma consistent_map g u t : (forall eps, 0 < eps -> exists d, 0 < d /\ forall x, Rabs (x - t) < d -> Rabs (g x - g t) < eps) ->
    consistent K w u t -> consistent K w (fun n s => g (u n s)) (g t).
  Proof.
    intros Hg Hu. apply (consistent_map2 (fun x _ => g x) u u t t); auto. intros eps He. destruct (Hg eps He) as (d & H1 & H2). exists d. auto.
  Qed.
  Lemma consistent_map_pt g u t : continuity_pt g t -> consistent K w u t -> consistent K w (fun n s => g (u n s)) (g t).
  Proof.
    intros Hg. apply consistent_map. intros eps He. destruct (Hg eps He) as (d & Hd & H). exists d. split; auto. intros x Hx.
    destruct (Req_dec x t) as [->|Hne]; [rewrite Rminus_diag_eq, Rabs_R0 by auto; lra|]. apply H. split; [split; [exact I|auto]|exact Hx].
  Qed.
  Lemma consistent_mult u v t t' : consistent K w u t -> consistent K w v t' -> consistent K w (fun n s => u n s * v n s) (t * t').
  Proof.
    apply (consistent_map2 Rmult). intros eps He. pose proof (Rabs_pos t). pose proof (Rabs_pos t').
    set (c := 1 + Rabs t + Rabs t'). assert (Hc : 0 < c) by (unfold c; lra).
    exists (Rmin 1 (eps / c)). split; [apply Rmin_pos; [lra|apply Rdiv_lt_0_compat; auto]|]. intros x y Hx Hy.
    pose proof (Rmin_l 1 (eps / c)) as M1. pose proof (Rmin_r 1 (eps / c)) as M2. set (d := Rmin 1 (eps / c)) in *.
    assert (Hd : 0 < d) by (apply Rle_lt_trans with (Rabs (x - t)); [apply Rabs_pos|auto]).
    assert (Hdc : d * c <= eps) by (apply Rle_trans with (eps / c * c); [apply Rmult_le_compat_r; lra|right; field; lra]).
    replace (x * y - t * t') with ((x - t) * (y - t') + (x - t) * t' + t * (y - t')) by ring.
    eapply Rle_lt_trans; [apply Rabs_triang|]. eapply Rle_lt_trans; [apply Rplus_le_compat_r, Rabs_triang|]. rewrite !Rabs_mult.
    apply Rlt_le_trans with (d * c); auto. unfold c. pose proof (Rabs_pos (x - t)). pose proof (Rabs_pos (y - t')).
    assert (Rabs (x - t) * Rabs (y - t') < d * 1) by (apply Rmult_le_0_lt_compat; lra).
    assert (Rabs (x - t) * Rabs t' <= d * Rabs t') by (apply Rmult_le_compat_r; lra).
    assert (Rabs t * Rabs (y - t') <= Rabs t * d) by (apply Rmult_le_compat_l; lra). lra.
  Qed.

  Lemma corr_product c vx vy : corr c vx vy = c * / sqrt (vx * vy).
  Proof. unfold corr. destruct (Req_EM_T (vx * vy) 0) as [->|]; [rewrite sqrt_0, Rinv_0; ring|reflexivity]. Qed.

  Lemma consistent_corr c vx vy tc tx ty : consistent K w c tc -> consistent K w vx tx -> consistent K w vy ty -> 0 < tx -> 0 < ty ->
    consistent K w (fun n s => corr (c n s) (vx n s) (vy n s)) (corr tc tx ty).
  Proof.
    intros Hc Hx Hy Px Py. rewrite corr_product.
    apply (consistent_ext (fun n s => c n s * (fun q => / sqrt q) (vx n s * vy n s))); [exists O; intros; rewrite corr_product; reflexivity|].
    apply consistent_mult; auto. assert (0 < tx * ty) by (apply Rmult_lt_0_compat; auto).
    apply (consistent_map_pt (fun q => / sqrt q)); [|apply consistent_mult; auto].
    apply (continuity_pt_inv sqrt); [apply sqrt_continuity_pt; auto|]. apply Rgt_not_eq, sqrt_lt_R0. auto.
  Qed.
  Lemma sqrt_close u v : Rabs (sqrt u - sqrt v) <= sqrt (Rabs (u - v)).
  Proof.
    assert (W : forall u v, 0 <= u -> Rabs (sqrt u - sqrt v) <= sqrt (Rabs (u - v))).
    { intros x y Hx. destruct (Rle_dec 0 y); [apply sqrt_moved; auto|]. rewrite (sqrt_neg_0 y), Rminus_0_r, Rabs_pos_eq by (try apply sqrt_pos; lra).
      apply sqrt_le_1_alt. rewrite Rabs_pos_eq; lra. }
    destruct (Rle_dec 0 u); [apply W; auto|]. rewrite Rabs_minus_sym, (Rabs_minus_sym u). destruct (Rle_dec 0 v); [apply W; auto|].
    rewrite (sqrt_neg_0 u), (sqrt_neg_0 v), Rminus_diag_eq, Rabs_R0 by lra. apply sqrt_pos.
  Qed.
  Lemma consistent_sqrt u t : consistent K w u t -> consistent K w (fun n s => sqrt (u n s)) (sqrt t).
  Proof.
    apply consistent_map. intros eps He. exists (eps * eps). split; [nra|]. intros x Hx. eapply Rle_lt_trans; [apply sqrt_close|].
    rewrite <- (sqrt_square eps) by lra. apply sqrt_lt_1_alt. split; [apply Rabs_pos|auto].
  Qed.

  Lemma eventually_small c d : 0 < d -> exists N, (1 <= N)%nat /\ forall n, (N <= n)%nat -> c / INR n <= d.
  Proof.
    intros Hd. pose proof (Rabs_pos c) as Hc. destruct (archimed_cor1 (d / (Rabs c + 1))) as (N & HN & H0); [apply Rdiv_lt_0_compat; lra|].
    exists N. split; [lia|]. intros n Hn. assert (0 < INR N) by (apply lt_0_INR; lia). assert (INR N <= INR n) by (apply le_INR; lia).
    assert (/ INR n <= d / (Rabs c + 1)) by (apply Rle_trans with (/ INR N); [apply Rinv_le_contravar; lra|lra]).
    apply Rle_trans with ((Rabs c + 1) * / INR n).
    - apply Rmult_le_compat_r; [left; apply Rinv_0_lt_compat; lra|]. pose proof (Rle_abs c). lra.
    - replace d with ((Rabs c + 1) * (d / (Rabs c + 1))) by (field; lra). apply Rmult_le_compat_l; lra.
  Qed.

  (** Two sequences that get close. *)
  Lemma consistent_gap u v c t : (forall n s, (4 <= n)%nat -> (forall i, (s i < K)%nat) -> Rabs (v n s - u n s) <= c / (INR n - 3)) ->
    consistent K w u t -> consistent K w v t.
  Proof.
    intros Hg Hu eps delta He Hd. destruct (Hu (eps / 2) delta ltac:(lra) Hd) as [N1 H1].
    destruct (eventually_small (4 * Rabs c) (eps / 4) ltac:(lra)) as (N2 & _ & H2). exists (max (max N1 N2) 4). intros n Hn.
    eapply Rle_trans; [|apply (H1 n); lia]. apply probability_le; auto. intros s Hs Hf. apply far_true in Hf. apply far_true.
    specialize (Hg n s ltac:(lia) Hs). specialize (H2 n ltac:(lia)). pose proof (INR_ge4 n ltac:(lia)).
    assert (c / (INR n - 3) <= 4 * Rabs c / INR n).
    { apply Rmult_le_reg_r with (INR n * (INR n - 3)); [nra|]. replace (c / (INR n - 3) * (INR n * (INR n - 3))) with (c * INR n) by (field; lra).
      replace (4 * Rabs c / INR n * (INR n * (INR n - 3))) with (4 * Rabs c * (INR n - 3)) by (field; lra).
      apply Rle_trans with (Rabs c * INR n); [apply Rmult_le_compat_r; [lra|apply Rle_abs]|]. pose proof (Rabs_pos c). nra. }
    pose proof (Rabs_triang (v n s - u n s) (u n s - t)) as T. replace (v n s - u n s + (u n s - t)) with (v n s - t) in T by ring. lra.
  Qed.
End Limits.

(** The population variance is a mean of squares. *)
Lemma population_variance K w a : distribution K w -> (forall k l, a k l = a l k) ->
  let r k := rsum K (fun m => w m * a k m) in let T := rsum K (fun k => w k * r k) in
  population_dcov2 K w a a = rsum K (fun k => w k * rsum K (fun l => w l * (a k l - r k - r l + T) ^ 2)).
Proof.
  intros [Hp Hs] Sa r T. rewrite population_rows, !rsum2_form. fold T. change (rsum K (fun k => w k * rsum K (fun l => w l * a k l))) with T.
  change (rsum K (fun k => w k * (rsum K (fun l => w l * a k l) * rsum K (fun l => w l * a k l)))) with (rsum K (fun k => w k * (r k * r k))).
  set (Q := rsum K (fun k => w k * (r k * r k))).
  assert (In : forall k, rsum K (fun l => w l * (a k l - r k - r l + T) ^ 2)
    = rsum K (fun l => w l * (a k l * a k l)) - r k * r k + Q - T * T + 2 * T * r k - 2 * rsum K (fun l => w l * (a k l * r l))).
  { intros k. rewrite (rsum_ext K _ (fun l => w l * (a k l * a k l) + (r k * r k + T * T - 2 * r k * T) * w l + w l * (r l * r l)
      + (2 * T - 2 * r k) * (w l * a k l) + (-2) * (w l * (a k l * r l)) + (2 * r k - 2 * T) * (w l * r l))) by (intros; ring).
    rewrite !rsum_plus, !rsum_scal_l, Hs. fold Q. change (rsum K (fun k0 => w k0 * r k0)) with T. change (rsum K (fun l => w l * a k l)) with (r k). ring. }
  rewrite (rsum_ext K (fun k => w k * rsum K (fun l => w l * (a k l - r k - r l + T) ^ 2))
    (fun k => w k * rsum K (fun l => w l * (a k l * a k l)) + (-1) * (w k * (r k * r k)) + (Q - T * T) * w k + 2 * T * (w k * r k)
      + (-2) * (w k * rsum K (fun l => w l * (a k l * r l))))) by (intros; rewrite In; ring).
  rewrite !rsum_plus, !rsum_scal_l, Hs. fold Q. change (rsum K (fun k0 => w k0 * r k0)) with T.
  assert (P : rsum K (fun k => w k * rsum K (fun l => w l * (a k l * r l))) = Q).
  { rewrite (rsum_ext K _ (fun k => rsum K (fun l => w k * (w l * (a k l * r l))))) by (intros; rewrite rsum_scal_l; reflexivity).
    rewrite rsum_swap. unfold Q. apply rsum_ext. intros l Hl. unfold r at 2. rewrite <- rsum_scal_r, <- rsum_scal_l. apply rsum_ext. intros k Hk. rewrite (Sa k l). ring. }
  rewrite P. ring.
Qed.
Lemma population_variance_nonneg K w a : distribution K w -> (forall k l, a k l = a l k) -> 0 <= population_dcov2 K w a a.
Proof.
  intros HD Sa. rewrite population_variance by auto. destruct HD as [Hp _]. apply rsum_nonneg. intros k Hk. apply Rmult_le_pos; auto.
  apply rsum_nonneg. intros l Hl. apply Rmult_le_pos; [auto|apply pow2_ge_0].
Qed.
Lemma population_variance_zero K w a : distribution K w -> (forall k l, a k l = a l k) -> (forall k, a k k = 0) -> population_dcov2 K w a a = 0 ->
  forall k l, (k < K)%nat -> (l < K)%nat -> 0 < w k -> 0 < w l -> a k l = 0.
Proof.
  intros HD Sa Za H0. rewrite population_variance in H0 by auto. destruct HD as [Hp Hs].
  set (r := fun k => rsum K (fun m => w m * a k m)) in *. set (T := rsum K (fun k => w k * r k)) in *.
  assert (Z : forall k l, (k < K)%nat -> (l < K)%nat -> 0 < w k -> 0 < w l -> a k l - r k - r l + T = 0).
  { intros k l Hk Hl Wk Wl.
    assert (N : forall k, (k < K)%nat -> 0 <= w k * rsum K (fun l => w l * (a k l - r k - r l + T) ^ 2)).
    { intros j Hj. apply Rmult_le_pos; auto. apply rsum_nonneg. intros i Hi. apply Rmult_le_pos; [auto|apply pow2_ge_0]. }
    pose proof (rsum_term_le K (fun k => w k * rsum K (fun l => w l * (a k l - r k - r l + T) ^ 2)) k Hk N) as L1. cbv beta in L1.
    assert (N2 : forall i, (i < K)%nat -> 0 <= w i * (a k i - r k - r i + T) ^ 2) by (intros i Hi; apply Rmult_le_pos; [auto|apply pow2_ge_0]).
    pose proof (rsum_term_le K (fun l => w l * (a k l - r k - r l + T) ^ 2) l Hl N2) as L2. cbv beta in L2.
    assert (L3 : w k * (w l * (a k l - r k - r l + T) ^ 2) <= 0).
    { eapply Rle_trans; [apply Rmult_le_compat_l; [lra|exact L2]|]. change (rsum K (fun k => w k * rsum K (fun l => w l * (a k l - r k - r l + T) ^ 2)) = 0) in H0. lra. }
    destruct (Req_dec (a k l - r k - r l + T) 0) as [E|E]; auto. exfalso. assert (0 < (a k l - r k - r l + T) ^ 2) by nra.
    assert (0 < w k * (w l * (a k l - r k - r l + T) ^ 2)) by (apply Rmult_lt_0_compat; [auto|apply Rmult_lt_0_compat; auto]). lra. }
  intros k l Hk Hl Wk Wl. pose proof (Z k k Hk Hk Wk Wk) as Z1. pose proof (Z l l Hl Hl Wl Wl) as Z2. pose proof (Z k l Hk Hl Wk Wl) as Z3.
  rewrite Za in Z1, Z2. lra.
Qed.

(** Statistics of drawn samples in terms of the atoms. *)
Lemma drawn_call f E K w X Y p q ns dt ns' dt' n s e m cm : valid_env E -> (4 <= n)%nat -> 0 < e ->
  accepts m cm (drawn ns dt n p X s) (drawn ns' dt' n q Y s) e -> distribution K w ->
  call f E (drawn ns dt n p X s) (drawn ns' dt' n q Y s) e m cm = Ok (value f n (fun i j => dmat e p X (s i) (s j)) (fun i j => dmat e q Y (s i) (s j))).
Proof.
  intros HE Hn He Ha _. rewrite (call_ok f _ _ _ n); auto.
  - f_equal. apply value_ext; intros; apply drawn_distances; auto.
  - apply drawn_paired. lia.
  - destruct f; cbn; lia.
Qed.

Section Kernels.
  Context (K : nat) (w : nat -> R).
  Hypothesis HD : distribution K w.

  Let at_ (a : nat -> nat -> R) (s : nat -> nat) := fun i j : nat => a (s i) (s j).

  Lemma consistent_dcov2 a b : (forall k l, 0 <= a k l) -> (forall k l, 0 <= b k l) -> (forall k l, a k l = a l k) -> (forall k l, b k l = b l k) ->
    consistent K w (fun n s => dcov2 n (at_ a s) (at_ b s)) (population_dcov2 K w a b).
  Proof.
    intros Pa Pb Sa Sb. destruct (finite_bound a K K) as (A & HA & BA). destruct (finite_bound b K K) as (B & HB & BB).
    intros eps delta He Hd. destruct (eventually_small (144 * A ^ 2 * B ^ 2 * INR K / eps ^ 2) delta Hd) as (N & HN & H). exists N. intros n Hn.
    assert (0 < INR n) by (apply lt_0_INR; lia).
    eapply Rle_trans; [|apply (H n Hn)].
    eapply Rle_trans; [apply (lipschitz_probability K w HD n _ _ (12 * A * B) eps)|]; auto; [lia| |right; field; lra].
    intros s Hs. unfold at_. rewrite (dcov2_freq K n s a b) by (auto; lia). apply population_moved; auto.
    - apply freq_distribution; auto. lia.
    - intros k l Hk Hl. auto.
    - intros k l Hk Hl. auto.
  Qed.
  Lemma consistent_udcov2 a b : (forall k l, 0 <= a k l) -> (forall k l, 0 <= b k l) -> (forall k l, a k l = a l k) -> (forall k l, b k l = b l k) ->
    (forall k, a k k = 0) -> (forall k, b k k = 0) ->
    consistent K w (fun n s => udcov2 n (at_ a s) (at_ b s)) (population_dcov2 K w a b).
  Proof.
    intros Pa Pb Sa Sb Za Zb. destruct (finite_bound a K K) as (A & HA & BA). destruct (finite_bound b K K) as (B & HB & BB).
    apply (consistent_gap K w HD (fun n s => dcov2 n (at_ a s) (at_ b s)) _ (27 * A * B)); [|apply consistent_dcov2; auto].
    intros n s Hn Hs. apply bias_gap; auto; try (intros i j _ _; unfold at_; auto); try (intros i _; unfold at_; auto).
  Qed.

  Lemma value_degenerate f n a b : (forall i j, (i < n)%nat -> (j < n)%nat -> a i j = 0) \/ (forall i j, (i < n)%nat -> (j < n)%nat -> b i j = 0) ->
    match f with DcorSqr | Dcor | UDcorSqr => value f n a b = 0 | _ => True end.
  Proof.
    intros H.
    assert (V0 : dcov2 n (fun _ _ => 0) (fun _ _ => 0) = 0).
    { unfold dcov2. rewrite (rsum2_ext n n _ (fun _ _ => 0)); [rewrite rsum2_const; ring|]. intros. unfold dcenter.
      assert (M0 : mean n (fun _ => 0) = 0) by (unfold mean; rewrite rsum_const; unfold Rdiv; ring). cbv beta. rewrite !M0. ring. }
    assert (U0 : udcov2 n (fun _ _ => 0) (fun _ _ => 0) = 0).
    { unfold udcov2, uprod. rewrite (rsum2_ext n n _ (fun _ _ => 0)); [rewrite rsum2_const; ring|]. intros. unfold ucenter. rewrite ?rsum2_const, ?rsum_const.
      destruct (Nat.eqb i j); ring. }
    assert (C : corr (dcov2 n a b) (dcov2 n a a) (dcov2 n b b) = 0 /\ corr (udcov2 n a b) (udcov2 n a a) (udcov2 n b b) = 0).
    { rewrite !corr_product. destruct H as [H|H].
      - rewrite (dcov2_ext n a a (fun _ _ => 0) (fun _ _ => 0)), (udcov2_ext n a a (fun _ _ => 0) (fun _ _ => 0)), V0, U0 by auto.
        rewrite !Rmult_0_l, sqrt_0, Rinv_0. split; ring.
      - rewrite (dcov2_ext n b b (fun _ _ => 0) (fun _ _ => 0)), (udcov2_ext n b b (fun _ _ => 0) (fun _ _ => 0)), V0, U0 by auto.
        rewrite !Rmult_0_r, sqrt_0, Rinv_0. split; ring. }
    destruct C as [C1 C2]. destruct f; cbn [value]; auto. unfold dcor2. rewrite C1. apply sqrt_0.
  Qed.

  Lemma consistent_value f a b : (forall k l, 0 <= a k l) -> (forall k l, 0 <= b k l) -> (forall k l, a k l = a l k) -> (forall k l, b k l = b l k) ->
    (forall k, a k k = 0) -> (forall k, b k k = 0) ->
    consistent K w (fun n s => value f n (at_ a s) (at_ b s)) (population f K w a b).
  Proof.
    intros Pa Pb Sa Sb Za Zb.
    pose proof (consistent_dcov2 a b Pa Pb Sa Sb) as Cab. pose proof (consistent_dcov2 a a Pa Pa Sa Sa) as Caa. pose proof (consistent_dcov2 b b Pb Pb Sb Sb) as Cbb.
    pose proof (consistent_udcov2 a b Pa Pb Sa Sb Za Zb) as Uab. pose proof (consistent_udcov2 a a Pa Pa Sa Sa Za Za) as Uaa. pose proof (consistent_udcov2 b b Pb Pb Sb Sb Zb Zb) as Ubb.
    pose proof (population_variance_nonneg K w a HD Sa) as Va. pose proof (population_variance_nonneg K w b HD Sb) as Vb.
    destruct (Req_dec (population_dcov2 K w a a * population_dcov2 K w b b) 0) as [Z|Z].
    - assert (T0 : corr (population_dcov2 K w a b) (population_dcov2 K w a a) (population_dcov2 K w b b) = 0).
      { rewrite corr_product, Z, sqrt_0, Rinv_0. ring. }
      assert (G : match f with DcorSqr | Dcor | UDcorSqr => consistent K w (fun n s => value f n (at_ a s) (at_ b s)) 0 | _ => True end).
      { assert (G : match f with DcorSqr | Dcor | UDcorSqr => True | _ => False end -> consistent K w (fun n s => value f n (at_ a s) (at_ b s)) 0).
        { intros Hf eps delta He Hd. exists O. intros n _. unfold probability.
          apply Rle_trans with (expect K w n (fun _ => 0)); [|rewrite (expect_const K w (proj2 HD)); lra]. apply expect_le_possible; auto. intros s Hs.
          assert (X : value f n (at_ a s) (at_ b s) = 0).
          { assert (D : (forall i j, (i < n)%nat -> (j < n)%nat -> at_ a s i j = 0) \/ (forall i j, (i < n)%nat -> (j < n)%nat -> at_ b s i j = 0)).
            { apply Rmult_integral in Z. destruct Z as [Z|Z]; [left|right]; intros i j Hi Hj; unfold at_;
                apply (population_variance_zero K w); auto; apply Hs; auto. }
            pose proof (value_degenerate f n _ _ D). destruct f; try contradiction; auto. }
          rewrite X. assert (F0 : far eps 0 0 = false); [|rewrite F0; apply Rle_refl]. apply far_false. rewrite Rminus_0_r, Rabs_R0. lra. }
        destruct f; auto. }
      destruct f; cbn [value population] in *; auto using consistent_sqrt; rewrite T0, ?sqrt_0; auto.
    - assert (Pva : 0 < population_dcov2 K w a a) by (destruct Va as [|E]; auto; exfalso; apply Z; rewrite <- E; ring).
      assert (Pvb : 0 < population_dcov2 K w b b) by (destruct Vb as [|E]; auto; exfalso; apply Z; rewrite <- E; ring).
      destruct f; cbn [value population]; unfold dcor2, udcor2; auto using consistent_sqrt.
      + apply consistent_corr; auto.
      + apply consistent_sqrt; auto. apply consistent_corr; auto.
      + apply consistent_corr; auto.
  Qed.
End Kernels.

(** ** C74 *)

(** How far the squared distance covariance of n independent draws can be from the population value. *)
Theorem C74_rate E K w X Y p q ns dt ns' dt' n A B e m cm : valid_env E -> distribution K w -> (4 <= n)%nat -> 0 < e ->
  within e p K X A -> within e q K Y B ->
  (forall s, accepts m cm (drawn ns dt n p X s) (drawn ns' dt' n q Y s) e) ->
  exists v, (forall s, call DcovSqr E (drawn ns dt n p X s) (drawn ns' dt' n q Y s) e m cm = Ok (v s)) /\
  forall eps, 0 < eps ->
    probability K w n (fun s => far eps (v s) (population_dcov2 K w (dmat e p X) (dmat e q Y))) <= 144 * (A * B) ^ 2 * INR K / (INR n * eps ^ 2).
Proof.
  intros HE HD Hn He HX HY Ha. eexists. split; [intros s; apply (drawn_call DcovSqr E K w); auto|]. intros eps Heps. cbn [value].
  pose proof (atoms_pos K w HD) as HK.
  assert (HA : 0 <= A) by (eapply Rle_trans; [apply (rpow_nonneg (dist p (X O) (X O)) e)|apply HX; auto]).
  assert (HB : 0 <= B) by (eapply Rle_trans; [apply (rpow_nonneg (dist q (Y O) (Y O)) e)|apply HY; auto]).
  assert (0 < INR n) by (apply lt_0_INR; lia).
  eapply Rle_trans; [apply (lipschitz_probability K w HD n _ _ (12 * A * B) eps)|]; auto; [lia| |right; field; lra].
  intros s Hs. rewrite (dcov2_freq K n s (dmat e p X) (dmat e q Y)) by (auto using dmat_sym_all; lia).
  apply population_moved; auto using within_below. apply freq_distribution; auto. lia.
Qed.

(** Every function of the family converges in probability to the quantity it estimates. *)
Theorem C74_consistent f E K w X Y p q ns dt ns' dt' e m cm : valid_env E -> distribution K w -> 0 < e <= 2 ->
  (forall n s, accepts m cm (drawn ns dt n p X s) (drawn ns' dt' n q Y s) e) ->
  exists v, (forall n s, (4 <= n)%nat -> call f E (drawn ns dt n p X s) (drawn ns' dt' n q Y s) e m cm = Ok (v n s)) /\
  consistent K w v (population f K w (dmat e p X) (dmat e q Y)).
Proof.
  intros HE HD He Ha. eexists. split; [intros n s Hn; apply (drawn_call f E K w); auto; lra|].
  apply consistent_value; auto using dmat_sym_all, dmat_hollow_all; intros; apply rpow_nonneg.
Qed.

(** ** Zero limits *)

Lemma population_null K w a b : (forall k l, (k < K)%nat -> (l < K)%nat -> w k * w l * a k l = 0) -> population_dcov2 K w a b = 0.
Proof.
  intros H. rewrite population_rows.
  rewrite (rsum2_zero K K (fun k l => w k * w l * (a k l * b k l))), (rsum2_zero K K (fun k l => w k * w l * a k l))
    by (auto; intros k l Hk Hl; rewrite <- Rmult_assoc, (H k l Hk Hl); ring).
  rewrite (rsum_zero K); [ring|]. intros k Hk.
  assert (Z : w k * rsum K (fun l => w l * a k l) = 0) by (rewrite <- rsum_scal_l; apply rsum_zero; intros l Hl; specialize (H k l Hk Hl); lra).
  rewrite <- Rmult_assoc, Z. ring.
Qed.

Lemma population_degenerate K w a b : distribution K w -> (forall k l, a k l = a l k) -> (forall k, a k k = 0) -> population_dcov2 K w a a = 0 -> population_dcov2 K w a b = 0.
Proof.
  intros HD Sa Za H0. apply population_null. intros k l Hk Hl. pose proof HD as [Hp _]. pose proof (Hp k Hk). pose proof (Hp l Hl).
  destruct (Req_dec (w k) 0) as [->|]; [ring|]. destruct (Req_dec (w l) 0) as [->|]; [ring|].
  rewrite (population_variance_zero K w a HD Sa Za H0 k l) by (auto; lra). ring.
Qed.
Lemma population_sym K w a b : population_dcov2 K w a b = population_dcov2 K w b a.
Proof.
  rewrite !population_rows. f_equal; [f_equal; [apply rsum2_ext; intros; ring|ring]|]. f_equal. apply rsum_ext. intros. ring.
Qed.

Lemma consistent_unique K w v t t' : distribution K w -> consistent K w v t -> consistent K w v t' -> t = t'.
Proof.
  intros HD H H'. destruct (Req_dec t t') as [|Hne]; auto. exfalso. pose proof (Rabs_pos_lt (t - t') ltac:(lra)) as Hp.
  destruct (H (Rabs (t - t') / 2) (1 / 4) ltac:(lra) ltac:(lra)) as [N HN]. destruct (H' (Rabs (t - t') / 2) (1 / 4) ltac:(lra) ltac:(lra)) as [N' HN'].
  set (n := max N N'). specialize (HN n ltac:(lia)). specialize (HN' n ltac:(lia)).
  assert (X : probability K w n (fun _ => true) <= 1 / 2).
  { apply Rle_trans with (1 / 4 + 1 / 4); [|lra]. eapply Rle_trans; [|apply Rplus_le_compat; [exact HN|exact HN']].
    apply probability_or_le; auto. intros s _ _. rewrite !far_true.
    pose proof (Rabs_triang (t - v n s) (v n s - t')) as T. replace (t - v n s + (v n s - t')) with (t - t') in T by ring.
    rewrite (Rabs_minus_sym t (v n s)) in T. destruct (Rle_dec (Rabs (t - t') / 2) (Rabs (v n s - t))); [left; auto|right; lra]. }
  unfold probability in X. rewrite (expect_const K w (proj2 HD)) in X. lra.
Qed.

(** The quantity estimated is zero exactly for independent variables. *)
Theorem C74_population f K w X Y p q e : distribution K w -> 0 < e < 2 ->
  0 <= population f K w (dmat e p X) (dmat e q Y) /\
  (population f K w (dmat e p X) (dmat e q Y) = 0 <-> independent K w p q X Y).
Proof.
  intros HD He. rewrite <- (population_zero_iff K p q w X Y HD e e He He).
  pose proof (population_nonneg K p q w X Y HD e e ltac:(lra) ltac:(lra)) as Pc. set (a := dmat e p X) in *. set (b := dmat e q Y) in *.
  assert (Sa : forall k l, a k l = a l k) by (intros; apply dmat_sym_all). assert (Sb : forall k l, b k l = b l k) by (intros; apply dmat_sym_all).
  assert (Za : forall k, a k k = 0) by (intros; apply dmat_hollow_all). assert (Zb : forall k, b k k = 0) by (intros; apply dmat_hollow_all).
  pose proof (population_variance_nonneg K w a HD Sa) as Va. pose proof (population_variance_nonneg K w b HD Sb) as Vb.
  set (c := population_dcov2 K w a b) in *.
  assert (C : 0 <= corr c (population_dcov2 K w a a) (population_dcov2 K w b b) /\ (corr c (population_dcov2 K w a a) (population_dcov2 K w b b) = 0 <-> c = 0)).
  { rewrite corr_product. destruct (Req_dec (population_dcov2 K w a a * population_dcov2 K w b b) 0) as [Z|Z].
    - rewrite Z, sqrt_0, Rinv_0, Rmult_0_r. split; [lra|]. split; auto. intros _. apply Rmult_integral in Z. unfold c. destruct Z as [Z|Z].
      + apply population_degenerate; auto.
      + rewrite population_sym. apply population_degenerate; auto.
    - assert (0 < population_dcov2 K w a a * population_dcov2 K w b b) by (pose proof (Rmult_le_pos _ _ Va Vb); lra).
      assert (0 < / sqrt (population_dcov2 K w a a * population_dcov2 K w b b)) by (apply Rinv_0_lt_compat, sqrt_lt_R0; auto).
      split; [apply Rmult_le_pos; lra|]. split; [|intros ->; ring]. intros E0. apply Rmult_integral in E0. lra. }
  destruct C as [C1 C2]. assert (S0 : forall x, 0 <= x -> (sqrt x = 0 <-> x = 0)) by (intros x Hx; split; [apply sqrt_eq_0; auto|intros ->; apply sqrt_0]).
  destruct f; cbn [population]; fold c; try (split; [lra|tauto]); (split; [apply sqrt_pos|]); rewrite S0; tauto.
Qed.

(** The statistics tend to zero exactly when the variables are independent. *)
Theorem C74_zero_limit f E K w X Y p q ns dt ns' dt' e m cm : valid_env E -> distribution K w -> 0 < e < 2 ->
  (forall n s, accepts m cm (drawn ns dt n p X s) (drawn ns' dt' n q Y s) e) ->
  exists v, (forall n s, (4 <= n)%nat -> call f E (drawn ns dt n p X s) (drawn ns' dt' n q Y s) e m cm = Ok (v n s)) /\
  (consistent K w v 0 <-> independent K w p q X Y).
Proof.
  intros HE HD He Ha. destruct (C74_consistent f E K w X Y p q ns dt ns' dt' e m cm HE HD ltac:(lra) Ha) as (v & Hv & Hc).
  exists v. split; auto. rewrite <- (proj2 (C74_population f K w X Y p q e HD He)). split.
  - intros H0. apply (consistent_unique K w v); auto.
  - intros <-. exact Hc.
Qed.

(** ** Energy distance *)

(** Two independent samples of sizes [n] and [m]. *)
Definition consistent2 (K L : nat) (w v : nat -> R) (f : nat -> nat -> (nat -> nat) -> (nat -> nat) -> R) (t : R) : Prop :=
  forall eps delta, 0 < eps -> 0 < delta -> exists N, forall n m, (N <= n)%nat -> (N <= m)%nat ->
  expect K w n (fun s => probability L v m (fun u => far eps (f n m s u) t)) <= delta.

Section EnergyLimit.
  Context (e : R) (p K L : nat) (w v : nat -> R) (X Y : nat -> nat -> R) (M : R).
  Hypothesis (Hw : distribution K w) (Hv : distribution L v).
  Hypothesis HXY : forall k l, (k < K)%nat -> (l < L)%nat -> rpow (dist p (X k) (Y l)) e <= M.
  Hypothesis HX : within e p K X M.
  Hypothesis HY : within e p L Y M.

  Let stat n m (s u : nat -> nat) := energy e p n m (fun i => X (s i)) (fun j => Y (u j)).

  Lemma energy_probability n m eps : (1 <= n)%nat -> (1 <= m)%nat -> 0 < eps ->
    expect K w n (fun s => probability L v m (fun u => far eps (stat n m s u) (population_energy e p K L w v X Y)))
    <= 32 * M ^ 2 * (INR K / INR n + INR L / INR m) / eps ^ 2.
  Proof.
    intros Hn Hm He. assert (0 < INR n) by (apply lt_0_INR; lia). assert (0 < INR m) by (apply lt_0_INR; lia).
    assert (He2 : 0 < / eps ^ 2) by (apply Rinv_0_lt_compat, pow_lt; auto). assert (HC : 0 <= 32 * M ^ 2) by (pose proof (pow2_ge_0 M); lra).
    set (t := population_energy e p K L w v X Y).
    apply Rle_trans with (expect K w n (fun s => / eps ^ 2 * (32 * M ^ 2 * (INR K * gap2 K w n s + INR L / INR m)))).
    - apply expect_le; auto. intros s Hs. eapply Rle_trans; [apply chebyshev; auto|]. unfold Rdiv at 1. rewrite Rmult_comm. apply Rmult_le_compat_l; [lra|].
      apply Rle_trans with (expect L v m (fun u => 32 * M ^ 2 * (INR K * gap2 K w n s + INR L * gap2 L v m u))).
      + apply expect_le; auto. intros u Hu. unfold stat, t. rewrite (energy_freq e p K L) by auto.
        pose proof (energy_moved e p K L (freq n s) w (freq m u) v X Y M (freq_distribution K n s Hn Hs) Hw (freq_distribution L m u Hm Hu) Hv HXY
          (within_below _ _ _ _ _ HX) (within_below _ _ _ _ _ HY)) as B.
        pose proof (gap_sqr K w n s) as G1. pose proof (gap_sqr L v m u) as G2.
        set (D1 := rsum K (fun k => Rabs (freq n s k - w k))) in *. set (D2 := rsum L (fun l => Rabs (freq m u l - v l))) in *.
        rewrite <- (pow2_abs (_ - _)). eapply Rle_trans; [apply pow_incr; split; [apply Rabs_pos|exact B]|].
        apply Rle_trans with (32 * M ^ 2 * (D1 ^ 2 + D2 ^ 2)); [|apply Rmult_le_compat_l; lra].
        replace ((4 * M * (D1 + D2)) ^ 2) with (16 * M ^ 2 * (D1 + D2) ^ 2) by ring.
        replace (32 * M ^ 2 * (D1 ^ 2 + D2 ^ 2)) with (16 * M ^ 2 * (2 * (D1 ^ 2 + D2 ^ 2))) by ring. apply Rmult_le_compat_l; [lra|]. pose proof (pow2_ge_0 (D1 - D2)). lra.
      + rewrite expect_scal. apply Rmult_le_compat_l; auto. rewrite expect_plus, (expect_const L v (proj2 Hv)), expect_scal. apply Rplus_le_compat_l.
        unfold Rdiv. apply Rmult_le_compat_l; [apply pos_INR|apply gap2_mean; auto].
    - rewrite !expect_scal, expect_plus, expect_scal, (expect_const K w (proj2 Hw)). 
      match goal with |- _ <= ?r / ?d => replace (r / d) with (/ d * r) by (unfold Rdiv; ring) end. apply Rmult_le_compat_l; [lra|].
      apply Rmult_le_compat_l; auto. apply Rplus_le_compat_r. unfold Rdiv. apply Rmult_le_compat_l; [apply pos_INR|apply gap2_mean; auto].
  Qed.

  Lemma consistent2_energy : consistent2 K L w v stat (population_energy e p K L w v X Y).
  Proof.
    intros eps delta He Hd.
    destruct (eventually_small (32 * M ^ 2 * INR K / eps ^ 2) (delta / 2) ltac:(lra)) as (N1 & HN1 & H1).
    destruct (eventually_small (32 * M ^ 2 * INR L / eps ^ 2) (delta / 2) ltac:(lra)) as (N2 & HN2 & H2). exists (max N1 N2). intros n m Hn Hm.
    assert (0 < INR n) by (apply lt_0_INR; lia). assert (0 < INR m) by (apply lt_0_INR; lia).
    eapply Rle_trans; [apply energy_probability; auto; lia|].
    specialize (H1 n ltac:(lia)). specialize (H2 m ltac:(lia)).
    replace (32 * M ^ 2 * (INR K / INR n + INR L / INR m) / eps ^ 2) with (32 * M ^ 2 * INR K / eps ^ 2 / INR n + 32 * M ^ 2 * INR L / eps ^ 2 / INR m) by (field; lra). lra.
  Qed.

  Lemma consistent2_gap f f' t c : (forall n m s u, (2 <= n)%nat -> (2 <= m)%nat -> (forall i, (s i < K)%nat) -> (forall i, (u i < L)%nat) ->
      Rabs (f' n m s u - f n m s u) <= c / INR n + c / INR m) -> consistent2 K L w v f t -> consistent2 K L w v f' t.
  Proof.
    intros Hg Hf eps delta He Hd. destruct (Hf (eps / 2) delta ltac:(lra) Hd) as [N1 H1].
    destruct (eventually_small c (eps / 4) ltac:(lra)) as (N2 & _ & H2). exists (max (max N1 N2) 2). intros n m Hn Hm.
    eapply Rle_trans; [|apply (H1 n m); lia]. apply expect_le; auto. intros s Hs. apply probability_le; auto. intros u Hu Hfar. apply far_true in Hfar. apply far_true.
    specialize (Hg n m s u ltac:(lia) ltac:(lia) Hs Hu). pose proof (H2 n ltac:(lia)). pose proof (H2 m ltac:(lia)).
    pose proof (Rabs_triang (f' n m s u - f n m s u) (f n m s u - t)) as T. replace (f' n m s u - f n m s u + (f n m s u - t)) with (f' n m s u - t) in T by ring. lra.
  Qed.

  Lemma consistent2_unique f t t' : consistent2 K L w v f t -> consistent2 K L w v f t' -> t = t'.
  Proof.
    intros H H'. destruct (Req_dec t t') as [|Hne]; auto. exfalso. pose proof (Rabs_pos_lt (t - t') ltac:(lra)) as Hp.
    destruct (H (Rabs (t - t') / 2) (1 / 4) ltac:(lra) ltac:(lra)) as [N HN]. destruct (H' (Rabs (t - t') / 2) (1 / 4) ltac:(lra) ltac:(lra)) as [N' HN'].
    set (n := max N N'). specialize (HN n n ltac:(lia) ltac:(lia)). specialize (HN' n n ltac:(lia) ltac:(lia)).
    assert (B : expect K w n (fun _ => 1) <= 1 / 2); [|rewrite (expect_const K w (proj2 Hw)) in B; lra].
    apply Rle_trans with (1 / 4 + 1 / 4); [|lra]. eapply Rle_trans; [|apply Rplus_le_compat; [exact HN|exact HN']]. rewrite <- expect_plus.
    apply expect_le; auto. intros s _. rewrite <- (expect_const L v (proj2 Hv) n 1) at 1. change (expect L v n (fun _ => 1)) with (probability L v n (fun _ => true)).
    apply probability_or_le; auto. intros u _ _. rewrite !far_true.
    pose proof (Rabs_triang (t - f n n s u) (f n n s u - t')) as T. replace (t - f n n s u + (f n n s u - t')) with (t - t') in T by ring.
    rewrite (Rabs_minus_sym t (f n n s u)) in T. destruct (Rle_dec (Rabs (t - t') / 2) (Rabs (f n n s u - t))); [left; auto|right; lra].
  Qed.
End EnergyLimit.

Lemma drawn_rpow e p n m X Y ns dt ns' dt' s u i j : (i < n)%nat -> (j < m)%nat ->
  rpow (dist p (obs (drawn ns dt n p X s) i) (obs (drawn ns' dt' m p Y u) j)) e = rpow (dist p (X (s i)) (Y (u j))) e.
Proof. intros. f_equal. unfold dist. f_equal. apply rsum_ext. intros. rewrite !drawn_obs by auto. reflexivity. Qed.
Lemma energy_drawn e p n m X Y ns dt ns' dt' s u :
  energy e p n m (obs (drawn ns dt n p X s)) (obs (drawn ns' dt' m p Y u)) = energy e p n m (fun i => X (s i)) (fun j => Y (u j)).
Proof.
  unfold energy. rewrite (rsum2_ext n m _ (fun i j => rpow (dist p (X (s i)) (Y (u j))) e)), (rsum2_ext n n _ (fun i j => rpow (dist p (X (s i)) (X (s j))) e)),
    (rsum2_ext m m _ (fun i j => rpow (dist p (Y (u i)) (Y (u j))) e)) by (intros; apply drawn_rpow; auto). reflexivity.
Qed.
Lemma drawn_two ns dt ns' dt' n m p X Y s u : two_samples n m p (drawn ns dt n p X s) (drawn ns' dt' m p Y u).
Proof. repeat split; auto using drawn_wf, drawn_shape. Qed.

Theorem C74_energy_rate E K L w v X Y p ns dt ns' dt' n m M e : valid_env E -> distribution K w -> distribution L v -> (1 <= n)%nat -> (1 <= m)%nat -> 0 < e ->
  within e p K X M -> within e p L Y M -> (forall k l, (k < K)%nat -> (l < L)%nat -> rpow (dist p (X k) (Y l)) e <= M) ->
  exists f, (forall s u, outcome (energy_distance E (drawn ns dt n p X s) (drawn ns' dt' m p Y u) e None (EstEnum VStatistic)) = Ok (f s u)) /\
  forall eps, 0 < eps -> expect K w n (fun s => probability L v m (fun u => far eps (f s u) (population_energy e p K L w v X Y)))
    <= 32 * M ^ 2 * (INR K / INR n + INR L / INR m) / eps ^ 2.
Proof.
  intros HE Hw Hv Hn Hm He HX HY HXY. eexists. split.
  - intros s u. rewrite (energy_V E HE _ _ n m p) by (auto using drawn_two). rewrite energy_drawn. reflexivity.
  - intros eps Heps. apply energy_probability; auto.
Qed.

(** Both estimators of the energy distance converge, and tend to zero exactly for equal distributions. *)
Theorem C74_energy E K L w v X Y p ns dt ns' dt' e es : valid_env E -> distribution K w -> distribution L v -> 0 < e < 2 ->
  exists f, (forall n m s u, (2 <= n)%nat -> (2 <= m)%nat ->
    outcome (energy_distance E (drawn ns dt n p X s) (drawn ns' dt' m p Y u) e None (EstEnum es)) = Ok (f n m s u)) /\
  consistent2 K L w v f (population_energy e p K L w v X Y) /\
  (consistent2 K L w v f 0 <-> same_law p K L w v X Y).
Proof.
  intros HE Hw Hv He.
  destruct (finite_bound (fun k l => rpow (dist p (X k) (Y l)) e) K L) as (M1 & P1 & B1).
  destruct (finite_bound (fun k l => rpow (dist p (X k) (X l)) e) K K) as (M2 & P2 & B2).
  destruct (finite_bound (fun k l => rpow (dist p (Y k) (Y l)) e) L L) as (M3 & P3 & B3).
  set (M := M1 + M2 + M3).
  assert (HXY : forall k l, (k < K)%nat -> (l < L)%nat -> rpow (dist p (X k) (Y l)) e <= M) by (intros k l Hk Hl; specialize (B1 k l Hk Hl); unfold M; lra).
  assert (HX : within e p K X M) by (intros k l Hk Hl; specialize (B2 k l Hk Hl); unfold M; lra).
  assert (HY : within e p L Y M) by (intros k l Hk Hl; specialize (B3 k l Hk Hl); unfold M; lra).
  pose proof (consistent2_energy e p K L w v X Y M Hw Hv HXY HX HY) as HC.
  enough (G : exists f, (forall n m s u, (2 <= n)%nat -> (2 <= m)%nat ->
    outcome (energy_distance E (drawn ns dt n p X s) (drawn ns' dt' m p Y u) e None (EstEnum es)) = Ok (f n m s u)) /\
    consistent2 K L w v f (population_energy e p K L w v X Y)).
  { destruct G as (f & Hf & Hc). exists f. split; auto. split; auto. rewrite <- (population_energy_zero_iff e p K L w v X Y Hw Hv He). split.
    - intros H0. apply (consistent2_unique K L w v Hw Hv f); auto.
    - intros <-. exact Hc. }
  destruct es.
  - exists (fun n m s u => energy e p n m (fun i => X (s i)) (fun j => Y (u j))
       - rsum2 n n (fun i j => rpow (dist p (X (s i)) (X (s j))) e) / (INR n * INR n) / (INR n - 1)
       - rsum2 m m (fun i j => rpow (dist p (Y (u i)) (Y (u j))) e) / (INR m * INR m) / (INR m - 1)). split.
    + intros n m s u Hn Hm. rewrite (C27_u_ordered E _ _ n m p) by (auto using drawn_two; lra).
      assert (2 <= INR n) by (apply (le_INR 2); auto). assert (2 <= INR m) by (apply (le_INR 2); auto).
      f_equal. unfold energy.
      rewrite (rsum2_ext n m _ (fun i j => rpow (dist p (X (s i)) (Y (u j))) e)), (rsum2_ext n n _ (fun i j => rpow (dist p (X (s i)) (X (s j))) e)),
        (rsum2_ext m m _ (fun i j => rpow (dist p (Y (u i)) (Y (u j))) e)) by (intros; apply drawn_rpow; auto). field. lra.
    + apply (consistent2_gap K L w v Hw Hv (fun n m s u => energy e p n m (fun i => X (s i)) (fun j => Y (u j))) _ _ (2 * M)); auto.
      assert (A : forall n (d : nat -> nat -> R), (2 <= n)%nat -> (forall i j, 0 <= d i j <= M) -> 0 <= rsum2 n n d / (INR n * INR n) / (INR n - 1) <= 2 * M / INR n).
      { intros n d Hn Hd. assert (2 <= INR n) by (apply (le_INR 2); auto).
        assert (0 <= rsum2 n n d <= M * (INR n * INR n)).
        { split; [apply rsum_nonneg; intros; apply rsum_nonneg; intros; apply Hd|].
          replace (M * (INR n * INR n)) with (rsum2 n n (fun _ _ => M)) by (rewrite rsum2_const; ring).
          apply rsum_le. intros i Hi. apply rsum_le. intros j Hj. apply Hd. }
        assert (0 <= M) by (unfold M; lra).
        assert (0 < / (INR n * INR n)) by (apply Rinv_0_lt_compat; nra). assert (0 < / (INR n - 1)) by (apply Rinv_0_lt_compat; lra).
        split; [unfold Rdiv; repeat apply Rmult_le_pos; lra|].
        apply Rle_trans with (M * / (INR n - 1)).
        - unfold Rdiv. apply Rmult_le_compat_r; [lra|]. apply Rmult_le_reg_r with (INR n * INR n); [nra|]. rewrite Rmult_assoc, Rinv_l by nra. lra.
        - apply Rmult_le_reg_r with (INR n * (INR n - 1)); [nra|].
          replace (M * / (INR n - 1) * (INR n * (INR n - 1))) with (M * INR n) by (field; lra).
          replace (2 * M / INR n * (INR n * (INR n - 1))) with (2 * M * (INR n - 1)) by (field; lra). nra. }
      intros n m s u Hn Hm Hs Hu.
      pose proof (A n (fun i j => rpow (dist p (X (s i)) (X (s j))) e) Hn (fun i j => conj (rpow_nonneg _ _) (HX _ _ (Hs i) (Hs j)))) as A1.
      pose proof (A m (fun i j => rpow (dist p (Y (u i)) (Y (u j))) e) Hm (fun i j => conj (rpow_nonneg _ _) (HY _ _ (Hu i) (Hu j)))) as A2.
      apply Rabs_le. lra.
  - exists (fun n m s u => energy e p n m (fun i => X (s i)) (fun j => Y (u j))). split; auto.
    intros n m s u Hn Hm. rewrite (energy_V E HE _ _ n m p) by (auto using drawn_two; lra). rewrite energy_drawn. reflexivity.
Qed.

(** ** Concrete cases *)

(** A fair coin against itself and against another coin thrown independently: atoms 0, 1 and atoms 00, 10, 01, 11. *)
Definition coin (k : nat) (_ : nat) : R := INR (k mod 2).
Definition other (k : nat) (_ : nat) : R := INR (k / 2).

Lemma coin_at x y : same_pointb 1 (fun _ => x) (fun _ => y) = if Req_EM_T x y then true else false.
Proof. unfold same_pointb. cbn. destruct (Req_EM_T x y); reflexivity. Qed.

Example coin_dependent : ~ independent 2 (fun _ => 1 / 2) 1 1 coin coin.
Proof.
  intros H. specialize (H (fun _ => 0) (fun _ => 1)). unfold prob_both, prob_at, coin in H. cbn [rsum] in H. rewrite !coin_at in H. cbn in H.
  destruct (Req_EM_T 0 0), (Req_EM_T 0 1), (Req_EM_T 1 0), (Req_EM_T 1 1); cbn in H; lra.
Qed.
Example coins_independent : independent 4 (fun _ => 1 / 4) 1 1 coin other.
Proof.
  intros x y. unfold prob_both, prob_at, coin, other, same_pointb. cbn.
  repeat match goal with |- context [Req_EM_T ?a ?b] => destruct (Req_EM_T a b) end; cbn; lra.
Qed.

Example C74_meets : exists v,
  (forall n s, (4 <= n)%nat -> call Dcor (env_R true) (drawn Numpy F64 n 1 coin s) (drawn Numpy F64 n 1 coin s) 1 MAuto CAuto = Ok (v n s)) /\
  ~ consistent 2 (fun _ => 1 / 2) v 0.
Proof.
  destruct (C74_zero_limit Dcor (env_R true) 2 (fun _ => 1 / 2) coin coin 1 1 Numpy F64 Numpy F64 1 MAuto CAuto) as (v & Hv & Hc).
  - apply env_R_valid.
  - split; [intros; lra|cbn; lra].
  - lra.
  - intros n s. left. left. reflexivity.
  - exists v. split; auto. rewrite Hc. apply coin_dependent.
Qed.

Example C74_meets_independent : exists v,
  (forall n s, (4 <= n)%nat -> call Dcor (env_R true) (drawn Numpy F64 n 1 coin s) (drawn Numpy F64 n 1 other s) 1 MAuto CAuto = Ok (v n s)) /\
  consistent 4 (fun _ => 1 / 4) v 0.
Proof.
  destruct (C74_zero_limit Dcor (env_R true) 4 (fun _ => 1 / 4) coin other 1 1 Numpy F64 Numpy F64 1 MAuto CAuto) as (v & Hv & Hc).
  - apply env_R_valid.
  - split; [intros; lra|cbn; lra].
  - lra.
  - intros n s. left. left. reflexivity.
  - exists v. split; auto. rewrite Hc. apply coins_independent.
Qed.

(** A fair and a biased coin. *)
Example C74_energy_meets : exists f,
  (forall n m s u, (2 <= n)%nat -> (2 <= m)%nat ->
    outcome (energy_distance (env_R true) (drawn Numpy F64 n 1 coin s) (drawn Numpy F64 m 1 coin u) 1 None (EstEnum VStatistic)) = Ok (f n m s u)) /\
  ~ consistent2 2 2 (fun _ => 1 / 2) (fun k => if Nat.eqb k 0 then 1 / 4 else 3 / 4) f 0.
Proof.
  destruct (C74_energy (env_R true) 2 2 (fun _ => 1 / 2) (fun k => if Nat.eqb k 0 then 1 / 4 else 3 / 4) coin coin 1 Numpy F64 Numpy F64 1 VStatistic) as (f & Hf & _ & Hc).
  - apply env_R_valid.
  - split; [intros; lra|cbn; lra].
  - split; [intros k _; destruct (Nat.eqb k 0); lra|cbn; lra].
  - lra.
  - exists f. split; auto. rewrite Hc. intros H. specialize (H (fun _ => 0)). unfold prob_at, coin, same_pointb in H. cbn in H.
    destruct (Req_EM_T 0 0), (Req_EM_T 1 0); cbn in H; lra.
Qed.
