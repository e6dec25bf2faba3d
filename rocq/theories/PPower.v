(** The permutation tests find every dependence and every difference: C75.

    [words b (all_perms n)]: all sequences of [b] orders of [n] observations, which a fair generator makes equally likely;
    [dcov_test_on E y e x B r], [energy_test_on E e av es samples B r]: the test with a generator that returns the orders [r]
    (PValidity.v). [expect K w n]: the mean over [n] independent draws (Expect.v). *)
From Coq Require Import Reals Lra Lia List Arith Bool ZArith.
From Verif Require Import Num Numpy MUtils MDistances MMergesort MInternals MDcor MEnergy MHypothesis MHomogeneity MIndependence
  Sums Spec Centering Tab Samples Api RefDist RefDcor RefCenter RefApi SpecFacts Invariance RefEnergy RefTests RefHomogeneity Exchange PermMean
  Expect Consist PopMath PopIndep Nonneg EnergyMath Witness PEnergy PTests PValidity PTTest PPermMean PUnbiased PConsist.
Import List ListNotations.
Local Open Scope R_scope.

(** The share of the equally likely sequences of [b] orders of [n] observations with a given property. *)
Definition share_of_runs (n b : nat) (good : list (list nat) -> bool) : R :=
  INR (count_if good (words b (all_perms n))) / INR (length (words b (all_perms n))).

(** ** Counting *)

Lemma count_if_le {A} (f g : A -> bool) l : (forall a, In a l -> f a = true -> g a = true) -> (count_if f l <= count_if g l)%nat.
Proof.
  unfold count_if. induction l as [|a l IH]; intros H; cbn; auto. assert (IH' := IH (fun a h => H a (or_intror h))).
  specialize (H a (or_introl eq_refl)). destruct (f a); [rewrite H by auto; cbn; lia|]. destruct (g a); cbn; lia.
Qed.
Lemma count_if_total {A} (f : A -> bool) l : (count_if f l + count_if (fun a => negb (f a)) l = length l)%nat.
Proof. unfold count_if. induction l as [|a l IH]; cbn; auto. destruct (f a); cbn; lia. Qed.
Lemma count_if_most {A} (f : A -> bool) l : (count_if f l <= length l)%nat.
Proof. pose proof (count_if_total f l). lia. Qed.
Lemma count_if_app {A} (f : A -> bool) l l' : count_if f (l ++ l') = (count_if f l + count_if f l')%nat.
Proof. unfold count_if. rewrite filter_app, app_length. reflexivity. Qed.

Lemma words_count {A} b (l : list A) : INR (length (words b l)) = INR (length l) ^ b.
Proof.
  induction b as [|b IH]; cbn [words]; [reflexivity|]. rewrite <- tech_pow_Rmult, <- IH. clear IH. generalize (words b l). intros W.
  induction l as [|a l IH]; cbn [flat_map length]; [cbn; ring|]. rewrite app_length, map_length, plus_INR, IH, S_INR. ring.
Qed.

(** The share of the words with a letter from [P] is at most their length times the share of [P]. *)
Lemma words_union {A} (P : A -> bool) b (l : list A) : l <> [] ->
  INR (count_if (existsb P) (words b l)) / INR (length (words b l)) <= INR b * (INR (count_if P l) / INR (length l)).
Proof.
  intros Hl. assert (HL : 0 < INR (length l)) by (apply lt_0_INR; destruct l; [congruence|cbn; lia]).
  induction b as [|b IH]; [cbn; lra|]. rewrite S_INR. set (W := words b l) in *.
  assert (HW : 0 < INR (length W)) by (unfold W; rewrite words_count; apply pow_lt; auto).
  assert (HS : INR (length (words (S b) l)) = INR (length l) * INR (length W)) by (unfold W; rewrite !words_count; reflexivity).
  assert (HC : INR (count_if (existsb P) (words (S b) l)) <= INR (count_if P l) * INR (length W) + INR (length l) * INR (count_if (existsb P) W)).
  { cbn [words]. fold W. clear -W. clearbody W. induction l as [|a l IH]; cbn [flat_map length]; [cbn; lra|].
    rewrite count_if_app, count_if_map, plus_INR, S_INR.
    assert (H1 : INR (count_if (fun r => existsb P (a :: r)) W) <= INR (if P a then length W else count_if (existsb P) W)).
    { apply le_INR. cbn [existsb]. destruct (P a); cbn [orb]; [apply count_if_most|apply Nat.le_refl]. }
    assert (H2 : INR (count_if P (a :: l)) = (if P a then 1 else 0) + INR (count_if P l)).
    { unfold count_if. cbn [filter]. destruct (P a); cbn [length]; [rewrite S_INR|]; ring. }
    rewrite H2. pose proof (pos_INR (count_if (existsb P) W)). destruct (P a); lra. }
  rewrite HS. apply Rle_trans with ((INR (count_if P l) * INR (length W) + INR (length l) * INR (count_if (existsb P) W)) / (INR (length l) * INR (length W))).
  - unfold Rdiv. apply Rmult_le_compat_r; [left; apply Rinv_0_lt_compat; nra|exact HC].
  - replace ((INR (count_if P l) * INR (length W) + INR (length l) * INR (count_if (existsb P) W)) / (INR (length l) * INR (length W)))
      with (INR (count_if P l) / INR (length l) + INR (count_if (existsb P) W) / INR (length W)) by (field; lra). lra.
Qed.

Lemma markov {A} (P : A -> bool) (g : A -> R) h l : 0 < h -> (forall a, In a l -> 0 <= g a) -> (forall a, In a l -> P a = true -> h <= g a) ->
  INR (count_if P l) <= lsum (map g l) / h.
Proof.
  intros Hh H0 HP. apply Rmult_le_reg_r with h; auto. unfold Rdiv. rewrite Rmult_assoc, Rinv_l, Rmult_1_r by lra.
  induction l as [|a l IH]; [cbn; lra|]. cbn [map lsum fold_right]. unfold count_if in *. cbn [filter].
  assert (IH' := IH (fun a h => H0 a (or_intror h)) (fun a h => HP a (or_intror h))).
  specialize (H0 a (or_introl eq_refl)). specialize (HP a (or_introl eq_refl)).
  destruct (P a); cbn [length]; [rewrite S_INR; specialize (HP eq_refl)|]; unfold lsum in *; cbn; lra.
Qed.

Lemma all_perms_some n : all_perms n <> [].
Proof. pose proof (perm_count_pos n) as H. unfold perm_count in H. intros E. rewrite E in H. cbn in H. lra. Qed.
Lemma runs_pos n b : 0 < INR (length (words b (all_perms n))).
Proof. rewrite words_count. apply pow_lt. apply perm_count_pos. Qed.

Lemma share_range n b good : 0 <= share_of_runs n b good <= 1.
Proof.
  unfold share_of_runs. pose proof (runs_pos n b) as H. split.
  - apply Rmult_le_pos; [apply pos_INR|left; apply Rinv_0_lt_compat; auto].
  - apply Rmult_le_reg_r with (INR (length (words b (all_perms n)))); auto. unfold Rdiv. rewrite Rmult_assoc, Rinv_l, Rmult_1_r, Rmult_1_l by lra.
    apply le_INR. apply count_if_most.
Qed.
Lemma share_not n b good : share_of_runs n b good = 1 - share_of_runs n b (fun r => negb (good r)).
Proof.
  unfold share_of_runs. pose proof (runs_pos n b) as H. rewrite <- (count_if_total good (words b (all_perms n))) in *. rewrite plus_INR in *. field. lra.
Qed.
Lemma share_le n b g g' : (forall r, length r = b -> Forall (is_perm n) r -> g r = true -> g' r = true) -> share_of_runs n b g <= share_of_runs n b g'.
Proof.
  intros H. unfold share_of_runs, Rdiv. apply Rmult_le_compat_r; [left; apply Rinv_0_lt_compat, runs_pos|]. apply le_INR, count_if_le.
  intros r Hr. apply in_words in Hr. destruct Hr as [L I]. apply H; auto. apply Forall_forall. intros q Hq. apply in_all_perms, I, Hq.
Qed.

(** The smallest p-value is missed only if some resampled statistic exceeds the observed one. *)
Lemma p_value_least observed stats : (forall v, In v stats -> v <= observed) -> p_value observed stats = 1 / (1 + INR (length stats)).
Proof.
  intros H. unfold p_value. f_equal. replace (filter _ stats) with (@nil R); [cbn; ring|]. induction stats as [|v l IH]; [reflexivity|]. cbn.
  specialize (H v (or_introl eq_refl)) as Hv. destruct (Rlt_dec observed v); [lra|]. apply IH. intros; apply H; right; auto.
Qed.

(** Resampled statistics [f q], bounded by [g q] whose mean over all the orders is [mu]; observed statistic at least [h]. *)
Lemma miss_share n b (f g : list nat -> R) observed h alpha : 0 < h -> (forall q, is_perm n q -> 0 <= g q) ->
  (forall q, is_perm n q -> observed < f q -> h <= g q) -> 1 / (1 + INR b) <= alpha ->
  share_of_runs n b (fun r => negb (leb (p_value observed (map f r)) alpha)) <= INR b * (perm_average n g / h).
Proof.
  intros Hh H0 Hg Ha. set (P := fun q => if Rlt_dec observed (f q) then true else false).
  apply Rle_trans with (share_of_runs n b (existsb P)).
  - apply share_le. intros r Lr Fr Hr. destruct (existsb P r) eqn:Ex; auto. exfalso. unfold leb in Hr.
    rewrite p_value_least in Hr.
    + rewrite map_length, Lr in Hr. destruct (Rle_dec _ alpha); [discriminate Hr|contradiction].
    + intros v Hv. apply in_map_iff in Hv. destruct Hv as (q & <- & Hq). destruct (Rle_dec (f q) observed) as [|N]; auto. exfalso.
      assert (existsb P r = true) as X by (apply existsb_exists; exists q; split; auto; unfold P; destruct (Rlt_dec _ _); auto; lra). congruence.
  - eapply Rle_trans; [apply words_union, all_perms_some|]. apply Rmult_le_compat_l; [apply pos_INR|].
    unfold perm_average. pose proof (perm_count_pos n) as Hc. unfold perm_count in Hc.
    replace (lsum (map g (all_perms n)) / INR (length (all_perms n)) / h) with (lsum (map g (all_perms n)) / h / INR (length (all_perms n))) by (field; lra).
    unfold Rdiv at 1 2. apply Rmult_le_compat_r; [left; apply Rinv_0_lt_compat; auto|].
    apply markov; auto.
    + intros q Hq. apply H0, in_all_perms, Hq.
    + intros q Hq HP. apply Hg; [apply in_all_perms, Hq|]. unfold P in HP. destruct (Rlt_dec observed (f q)); auto; discriminate.
Qed.

(** ** distance_covariance_test *)

Lemma mean_distance_le n d A : (1 <= n)%nat -> (forall i j, (i < n)%nat -> (j < n)%nat -> 0 <= d i j <= A) -> 0 <= mean_distance n d <= A.
Proof.
  intros Hn H. pose proof (INR_pos n Hn). unfold mean_distance. assert (0 < / INR n ^ 2) by (apply Rinv_0_lt_compat, pow_lt; auto). split.
  - apply Rmult_le_pos; [|lra]. apply rsum_nonneg. intros. apply rsum_nonneg. intros. apply H; auto.
  - replace A with (rsum2 n n (fun _ _ => A) / INR n ^ 2) by (rewrite rsum2_const; field; lra). unfold Rdiv. apply Rmult_le_compat_r; [lra|].
    apply rsum_le. intros i Hi. apply rsum_le. intros j Hj. apply H; auto.
Qed.

Lemma dcov_relabel_nonneg n q e f x y : (1 <= n)%nat -> 0 < e <= 2 -> 0 < f <= 2 -> 0 <= dcov2 n (relabel (ith q) (distances e x)) (distances f y).
Proof. intros Hn He Hf. apply (dcov2_nonneg n (ncols x) (ncols y) (fun i => obs x (ith q i)) (obs y)); auto. Qed.

Lemma expect_cover K w n (g h : (nat -> nat) -> R) : distribution K w -> (forall s, (forall i, (s i < K)%nat) -> 1 <= g s + h s) ->
  1 <= expect K w n g + expect K w n h.
Proof.
  intros HD H. rewrite <- expect_plus. rewrite <- (expect_const K w (proj2 HD) n 1) at 1. apply expect_le; auto.
Qed.

(** For dependent variables the test with [b] resamples rejects at every level [alpha] that [b] resamples can reach (1/(b+1) or
    more), except with a probability of the order of 1/n: [t s r] is the result of the test on the draws [s] with the orders [r]. *)
Theorem C75_dcov_rate E K w X Y p q ns dt ns' dt' n A B e b alpha : valid_env E -> distribution K w -> (2 <= n)%nat -> 0 < e < 2 ->
  within e p K X A -> within e q K Y B -> ~ independent K w p q X Y -> 1 / (1 + INR b) <= alpha ->
  let pop := population_dcov2 K w (dmat e p X) (dmat e q Y) in
  0 < pop /\
  exists t, (forall s r, length r = b -> Forall (is_perm n) r ->
      exists st, dcov_test_on E (drawn ns' dt' n q Y s) e (drawn ns dt n p X s) (Z.of_nat b) r = Ok (t s r, st)) /\
  1 - 576 * (A * B) ^ 2 * INR K / (INR n * pop ^ 2) - 2 * INR b * (A * B) / ((INR n - 1) * pop)
  <= expect K w n (fun s => share_of_runs n b (fun r => leb (pvalue (t s r)) alpha)).
Proof.
  intros HE HD Hn He HX HY Hi Ha pop. pose proof (atoms_pos K w HD) as HK.
  assert (Hp : 0 < pop).
  { destruct (population_nonneg K p q w X Y HD e e) as [|Z0]; [lra|lra|auto|]. exfalso. apply Hi. apply (population_zero_iff K p q w X Y HD e e); auto. }
  split; auto.
  assert (HA : 0 <= A) by (eapply Rle_trans; [apply (rpow_nonneg (dist p (X O) (X O)) e)|apply HX; auto]).
  assert (HB : 0 <= B) by (eapply Rle_trans; [apply (rpow_nonneg (dist q (Y O) (Y O)) e)|apply HY; auto]).
  assert (Hn2 : 2 <= INR n) by (apply (le_INR 2); auto).
  set (x := drawn ns dt n p X). set (y := drawn ns' dt' n q Y).
  set (v := fun s => dcov2 n (distances e (x s)) (distances e (y s))).
  set (f := fun s o => INR n * dcov2 n (relabel (ith o) (distances e (x s))) (distances e (y s))).
  exists (fun s r => mkTest (p_value (INR n * v s) (map (f s) r)) (INR n * v s)). split.
  - intros s r Lr Fr. unfold dcov_test_on. rewrite (dcov_test_eval E replay (x s) (y s) n) by (auto using replay_permuting; try lra; apply drawn_paired; lia).
    cbn [random_state_init]. rewrite <- Lr, replay_draw by auto. cbn [fst snd]. eexists. reflexivity.
  - set (c := INR b * (2 * (A * B) / ((INR n - 1) * pop))).
    assert (Hc : 0 <= c).
    { unfold c. apply Rmult_le_pos; [apply pos_INR|]. apply Rmult_le_pos; [nra|]. left. apply Rinv_0_lt_compat. nra. }
    assert (Bd : probability K w n (fun s => far (pop / 2) (v s) pop) <= 576 * (A * B) ^ 2 * INR K / (INR n * pop ^ 2)).
    { eapply Rle_trans; [apply (lipschitz_probability K w HD n _ _ (12 * A * B) (pop / 2))|]; [lia|lra| |right; field; lra].
      intros s Hs. unfold v. rewrite (dcov2_ext n _ _ (fun i j => dmat e p X (s i) (s j)) (fun i j => dmat e q Y (s i) (s j)))
        by (intros; apply drawn_distances; auto).
      rewrite (dcov2_freq K n s (dmat e p X) (dmat e q Y)) by (auto using dmat_sym_all; lia).
      apply population_moved; auto using within_below. apply freq_distribution; auto. lia. }
    enough (G : 1 <= expect K w n (fun s => share_of_runs n b (fun r => leb (pvalue (mkTest (p_value (INR n * v s) (map (f s) r)) (INR n * v s))) alpha))
      + (probability K w n (fun s => far (pop / 2) (v s) pop) + c)) by (unfold c in G; unfold Rdiv in *; lra).
    unfold probability. rewrite <- (expect_const K w (proj2 HD) n c), <- expect_plus.
    apply expect_cover; auto. intros s Hs. cbn [pvalue]. rewrite share_not.
    match goal with |- 1 <= 1 - ?a + ?b => enough (a <= b) by lra end.
    unfold far. destruct (Rle_dec (pop / 2) (Rabs (v s - pop))) as [F|F].
    + eapply Rle_trans; [apply share_range|]. lra.
    + assert (Hv : pop / 2 <= v s) by (apply Rnot_le_lt, Rabs_def2 in F; lra). rewrite Rplus_0_l.
      eapply Rle_trans; [apply (miss_share n b (f s) (f s) (INR n * v s) (INR n * (pop / 2)) alpha); auto|].
      * nra.
      * intros o Ho. unfold f. apply Rmult_le_pos; [lra|]. apply dcov_relabel_nonneg; lra || lia.
      * intros o Ho Hlt. apply Rle_trans with (INR n * v s); [apply Rmult_le_compat_l; lra|lra].
      * unfold f. rewrite perm_average_scal. destruct (dist_sym_hollow n e (x s)) as [Sx Zx], (dist_sym_hollow n e (y s)) as [Sy Zy].
        rewrite average_dcov2 by auto. unfold c. apply Rmult_le_compat_l; [apply pos_INR|].
        assert (MX : 0 <= mean_distance n (distances e (x s)) <= A).
        { apply mean_distance_le; [lia|]. intros i j I J. unfold x. rewrite drawn_distances by auto. split; [apply rpow_nonneg|apply HX; auto]. }
        assert (MY : 0 <= mean_distance n (distances e (y s)) <= B).
        { apply mean_distance_le; [lia|]. intros i j I J. unfold y. rewrite drawn_distances by auto. split; [apply rpow_nonneg|apply HY; auto]. }
        set (mx := mean_distance n (distances e (x s))) in *. set (my := mean_distance n (distances e (y s))) in *.
        replace (INR n * (mx * my / (INR n - 1)) / (INR n * (pop / 2))) with (2 * (mx * my) * / ((INR n - 1) * pop)) by (field; lra).
        unfold Rdiv. apply Rmult_le_compat_r; [left; apply Rinv_0_lt_compat; nra|]. apply Rmult_le_compat_l; [lra|]. apply Rmult_le_compat; lra.
Qed.

(** So its power tends to 1. *)
Theorem C75_dcov_power E K w X Y p q ns dt ns' dt' e b alpha : valid_env E -> distribution K w -> 0 < e < 2 ->
  ~ independent K w p q X Y -> 1 / (1 + INR b) <= alpha ->
  exists t, (forall n s r, (2 <= n)%nat -> length r = b -> Forall (is_perm n) r ->
      exists st, dcov_test_on E (drawn ns' dt' n q Y s) e (drawn ns dt n p X s) (Z.of_nat b) r = Ok (t n s r, st)) /\
  forall delta, 0 < delta -> exists N, forall n, (N <= n)%nat ->
    1 - delta <= expect K w n (fun s => share_of_runs n b (fun r => leb (pvalue (t n s r)) alpha)).
Proof.
  intros HE HD He Hi Ha.
  destruct (finite_bound (dmat e p X) K K) as (A & HA & BA). destruct (finite_bound (dmat e q Y) K K) as (B & HB & BB).
  set (pop := population_dcov2 K w (dmat e p X) (dmat e q Y)).
  assert (T : forall n, (2 <= n)%nat -> exists t, (forall s r, length r = b -> Forall (is_perm n) r ->
      exists st, dcov_test_on E (drawn ns' dt' n q Y s) e (drawn ns dt n p X s) (Z.of_nat b) r = Ok (t s r, st)) /\
    1 - 576 * (A * B) ^ 2 * INR K / (INR n * pop ^ 2) - 2 * INR b * (A * B) / ((INR n - 1) * pop)
    <= expect K w n (fun s => share_of_runs n b (fun r => leb (pvalue (t s r)) alpha))).
  { intros n Hn. apply (C75_dcov_rate E K w X Y p q ns dt ns' dt' n A B e b alpha); auto. }
  assert (Hp : 0 < pop) by (apply (C75_dcov_rate E K w X Y p q ns dt ns' dt' 2 A B e b alpha); auto).
  assert (TT : exists t, forall n, (2 <= n)%nat -> (forall s r, length r = b -> Forall (is_perm n) r ->
      exists st, dcov_test_on E (drawn ns' dt' n q Y s) e (drawn ns dt n p X s) (Z.of_nat b) r = Ok (t n s r, st)) /\
    1 - 576 * (A * B) ^ 2 * INR K / (INR n * pop ^ 2) - 2 * INR b * (A * B) / ((INR n - 1) * pop)
    <= expect K w n (fun s => share_of_runs n b (fun r => leb (pvalue (t n s r)) alpha))).
  { set (x := drawn ns dt). set (y := drawn ns' dt').
    exists (fun n s r => match dcov_test_on E (y n q Y s) e (x n p X s) (Z.of_nat b) r with Ok (t, _) => t | Err _ => mkTest 0 0 end).
    intros n Hn. destruct (T n Hn) as (t & Ht & Hb). split.
    - intros s r Lr Fr. destruct (Ht s r Lr Fr) as (st & Hst). exists st. unfold x, y. rewrite Hst. reflexivity.
    - eapply Rle_trans; [exact Hb|]. right. apply expect_eq; auto. intros s _. unfold share_of_runs. f_equal. f_equal. apply count_if_ext.
      intros r Hr. apply in_words in Hr. destruct Hr as [Lr Ir]. destruct (Ht s r Lr) as (st & Hst).
      + apply Forall_forall. intros o Ho. apply in_all_perms, Ir, Ho.
      + unfold x, y. rewrite Hst. reflexivity. }
  destruct TT as (t & Ht). exists t. split; [intros n s r Hn; apply (Ht n Hn)|]. intros delta Hd.
  destruct (eventually_small (576 * (A * B) ^ 2 * INR K / pop ^ 2) (delta / 2)) as (N1 & HN1 & H1); [lra|].
  destruct (eventually_small (4 * INR b * (A * B) / pop) (delta / 2)) as (N2 & HN2 & H2); [lra|].
  exists (2 + N1 + N2)%nat. intros n Hn. destruct (Ht n ltac:(lia)) as [_ Hb]. eapply Rle_trans; [|exact Hb].
  specialize (H1 n ltac:(lia)). specialize (H2 n ltac:(lia)). assert (2 <= INR n) by (apply (le_INR 2); lia).
  assert (E1 : 576 * (A * B) ^ 2 * INR K / (INR n * pop ^ 2) = 576 * (A * B) ^ 2 * INR K / pop ^ 2 / INR n) by (field; lra).
  assert (E2 : 2 * INR b * (A * B) / ((INR n - 1) * pop) <= 4 * INR b * (A * B) / pop / INR n).
  { replace (2 * INR b * (A * B) / ((INR n - 1) * pop)) with (2 * INR b * (A * B) / pop * / (INR n - 1)) by (field; lra).
    replace (4 * INR b * (A * B) / pop / INR n) with (2 * INR b * (A * B) / pop * (2 / INR n)) by (field; lra).
    apply Rmult_le_compat_l.
    - apply Rmult_le_pos; [|left; apply Rinv_0_lt_compat; lra]. pose proof (pos_INR b). apply Rmult_le_pos; [lra|]. apply Rmult_le_pos; auto.
    - apply Rmult_le_reg_r with (INR n * (INR n - 1)); [nra|].
      replace (/ (INR n - 1) * (INR n * (INR n - 1))) with (INR n) by (field; lra).
      replace (2 / INR n * (INR n * (INR n - 1))) with (2 * (INR n - 1)) by (field; lra). lra. }
  rewrite E1. lra.
Qed.

(** ** energy_test for two samples *)

Lemma two_pairs E st e x y n m p : valid_env E -> two_samples n m p x y ->
  sum_of_pairs E e None st [x; y] = INR (n * m) / INR (n + m) * block_energy st n m (fun i j => rpow (dist p (obs x i) (obs x j)) e)
    (fun i j => rpow (dist p (obs y i) (obs y j)) e) (fun i j => rpow (dist p (obs x i) (obs y j)) e).
Proof.
  intros HE (Wx & Wy & Sx & Sy & Cx & Cy). unfold sum_of_pairs. cbn [length]. unfold rsum2. cbn [rsum Nat.ltb Nat.leb]. cbn [sample nth].
  rewrite pair_value_mean, Sx, Sy by auto. unfold distances, cross, dmat. rewrite Cx, Cy. ring.
Qed.

Lemma block_below st n m a b c : (2 <= n)%nat -> (2 <= m)%nat -> symmetric n a -> hollow n a -> symmetric m b -> hollow m b ->
  (forall i j, 0 <= a i j) -> (forall i j, 0 <= b i j) -> block_energy st n m a b c <= block_energy VStatistic n m a b c.
Proof.
  intros Hn Hm Sa Za Sb Zb Pa Pb. destruct st; [|apply Rle_refl]. unfold block_energy. rewrite !upper_mean_total by auto.
  assert (2 <= INR n) by (apply (le_INR 2); auto). assert (2 <= INR m) by (apply (le_INR 2); auto).
  assert (G : forall k d, 2 <= INR k -> (forall i j, 0 <= d i j) -> rsum2 k k d / (INR k * INR k) <= rsum2 k k d / (INR k * (INR k - 1))).
  { intros k d Hk Hd. unfold Rdiv. apply Rmult_le_compat_l; [apply rsum_nonneg; intros; apply rsum_nonneg; auto|]. apply Rinv_le_contravar; nra. }
  pose proof (G n a ltac:(auto) Pa). pose proof (G m b ltac:(auto) Pb). lra.
Qed.

Lemma block_above st n m a b c M : (2 <= n)%nat -> (2 <= m)%nat -> symmetric n a -> hollow n a -> symmetric m b -> hollow m b ->
  (forall i j, (i < n)%nat -> (j < n)%nat -> 0 <= a i j <= M) -> (forall i j, (i < m)%nat -> (j < m)%nat -> 0 <= b i j <= M) ->
  block_energy VStatistic n m a b c - match st with UStatistic => M / (INR n - 1) + M / (INR m - 1) | VStatistic => 0 end <= block_energy st n m a b c.
Proof.
  intros Hn Hm Sa Za Sb Zb Pa Pb. destruct st; [|lra]. unfold block_energy. rewrite !upper_mean_total by auto.
  assert (2 <= INR n) by (apply (le_INR 2); auto). assert (2 <= INR m) by (apply (le_INR 2); auto).
  assert (G : forall k d, (2 <= k)%nat -> (forall i j, (i < k)%nat -> (j < k)%nat -> 0 <= d i j <= M) ->
    rsum2 k k d / (INR k * (INR k - 1)) <= rsum2 k k d / (INR k * INR k) + M / (INR k - 1)).
  { intros k d Hk Hd. assert (2 <= INR k) by (apply (le_INR 2); auto).
    pose proof (mean_distance_le k d M ltac:(lia) Hd) as Md. unfold mean_distance in Md.
    replace (rsum2 k k d / (INR k * (INR k - 1))) with (rsum2 k k d / (INR k * INR k) + rsum2 k k d / INR k ^ 2 * / (INR k - 1)) by (field; lra).
    apply Rplus_le_compat_l. unfold Rdiv at 2. apply Rmult_le_compat_r; [left; apply Rinv_0_lt_compat; lra|]. lra. }
  pose proof (G n a Hn Pa). pose proof (G m b Hm Pb). lra.
Qed.

Lemma mean_distinct_le n d A : (2 <= n)%nat -> 0 <= A -> hollow n d -> (forall i j, (i < n)%nat -> (j < n)%nat -> 0 <= d i j <= A) -> mean_distinct n d <= A.
Proof.
  intros Hn HA Hh H. assert (2 <= INR n) by (apply (le_INR 2); auto). unfold mean_distinct.
  apply Rmult_le_reg_r with (INR n * (INR n - 1)); [nra|]. unfold Rdiv. rewrite Rmult_assoc, Rinv_l, Rmult_1_r by nra.
  apply Rle_trans with (rsum n (fun i => A * (INR n - 1))); [|rewrite rsum_const; lra].
  apply rsum_le. intros i Hi. apply Rle_trans with (rsum n (fun j => A - (if Nat.eqb j i then A else 0))).
  - apply rsum_le. intros j Hj. destruct (Nat.eqb_spec j i) as [->|]; [rewrite Hh by auto; lra|]. specialize (H i j Hi Hj). lra.
  - right. rewrite rsum_minus, rsum_const, (rsum_delta n i (fun _ => A)) by auto. ring.
Qed.

Lemma regroup_two x y n m p o : two_samples n m p x y -> is_perm (n + m) o ->
  exists x' y', regroup p o [x; y] = [x'; y'] /\ two_samples n m p x' y'.
Proof.
  intros (Wx & Wy & Sx & Sy & Cx & Cy) Ho.
  assert (Hw : well_formed p [x; y]) by (repeat constructor; auto).
  assert (Ht : total [x; y] = (n + m)%nat) by (unfold total; cbn; lia). rewrite <- Ht in Ho.
  destruct (regroup_props p o [x; y] Hw Ho) as (R1 & R2 & _). destruct (regroup p o [x; y]) as [|x' [|y' [|]]]; try discriminate R1.
  exists x', y'. split; auto. cbn in R1. injection R1 as R1a R1b. unfold well_formed in R2.
  apply Forall_cons_iff in R2 as [[W0 C0] R2]. apply Forall_cons_iff in R2 as [[W1 C1] _]. unfold two_samples. repeat split; auto; congruence.
Qed.

Lemma pooled_bound e p n m x y M : two_samples n m p x y ->
  (forall i j, (i < n)%nat -> (j < n)%nat -> rpow (dist p (obs x i) (obs x j)) e <= M) ->
  (forall i j, (i < m)%nat -> (j < m)%nat -> rpow (dist p (obs y i) (obs y j)) e <= M) ->
  (forall i j, (i < n)%nat -> (j < m)%nat -> rpow (dist p (obs x i) (obs y j)) e <= M) ->
  forall i j, (i < n + m)%nat -> (j < n + m)%nat -> 0 <= dmat e p (pooled [x; y]) i j <= M.
Proof.
  intros (Wx & Wy & Sx & Sy & Cx & Cy) HX HY HXY i j Hi Hj. split; [apply rpow_nonneg|]. unfold dmat.
  assert (P : forall i, (i < n + m)%nat -> (i < n)%nat /\ (forall k, pooled [x; y] i k = obs x i k) \/
    ((i - n < m)%nat /\ forall k, pooled [x; y] i k = obs y (i - n) k)).
  { intros k Hk. cbn [pooled]. rewrite Sx, Sy. destruct (Nat.ltb_spec k n); [left; auto|right]. split; [lia|]. intros l.
    destruct (Nat.ltb_spec (k - n) m); [reflexivity|lia]. }
  destruct (P i Hi) as [[I1 I2]|[I1 I2]], (P j Hj) as [[J1 J2]|[J1 J2]].
  - rewrite (dist_ext p _ _ (obs x i) (obs x j)) by auto. auto.
  - rewrite (dist_ext p _ _ (obs x i) (obs y (j - n))) by auto. auto.
  - rewrite (dist_ext p _ _ (obs y (i - n)) (obs x j)) by auto. rewrite dist_sym. auto.
  - rewrite (dist_ext p _ _ (obs y (i - n)) (obs y (j - n))) by auto. auto.
Qed.

Lemma energy_run E K L w v X Y p ns dt ns' dt' n m M e b alpha st h : valid_env E -> distribution K w -> distribution L v ->
  (2 <= n)%nat -> (2 <= m)%nat -> 0 < e < 2 ->
  within e p K X M -> within e p L Y M -> (forall k l, (k < K)%nat -> (l < L)%nat -> rpow (dist p (X k) (Y l)) e <= M) ->
  ~ same_law p K L w v X Y -> 1 / (1 + INR b) <= alpha ->
  let pop := population_energy e p K L w v X Y in
  0 < h -> match st with UStatistic => M / (INR n - 1) + M / (INR m - 1) | VStatistic => 0 end <= pop / 2 - h ->
  exists t, (forall s u r, length r = b -> Forall (is_perm (n + m)) r ->
      exists g, energy_test_on E e None (EstEnum st) [drawn ns dt n p X s; drawn ns' dt' m p Y u] (Z.of_nat b) r = Ok (t s u r, g)) /\
  1 - 128 * M ^ 2 * (INR K / INR n + INR L / INR m) / pop ^ 2 - INR b * (M * (/ INR n + / INR m) / h)
  <= expect K w n (fun s => expect L v m (fun u => share_of_runs (n + m) b (fun r => leb (pvalue (t s u r)) alpha))).
Proof.
  intros HE Hw Hv Hn Hm He HX HY HXY Hi Ha pop Hh Hst.
  pose proof (atoms_pos K w Hw) as HK. pose proof (atoms_pos L v Hv) as HL.
  assert (Hp : 0 < pop).
  { destruct (population_energy_nonneg e p K L w v X Y Hw Hv) as [|Z0]; [lra|auto|]. exfalso. apply Hi.
    apply (population_energy_zero_iff e p K L w v X Y Hw Hv He); auto. }
  assert (HM : 0 <= M) by (eapply Rle_trans; [apply (rpow_nonneg (dist p (X O) (X O)) e)|apply HX; auto]).
  assert (Hn2 : 2 <= INR n) by (apply (le_INR 2); auto). assert (Hm2 : 2 <= INR m) by (apply (le_INR 2); auto).
  set (x := drawn ns dt n p X). set (y := drawn ns' dt' m p Y). set (N := (n + m)%nat).
  assert (H2 : forall s u, two_samples n m p (x s) (y u)) by (intros; apply drawn_two).
  assert (Hsev : forall s u es, several p (EstEnum es) [x s; y u]).
  { intros s u es. split; [cbn; lia|]. destruct (H2 s u) as (Wx & Wy & Sx & Sy & Cx & Cy). repeat constructor; auto; cbn [to_estimation]; destruct es; lia. }
  assert (Htot : forall s u, total [x s; y u] = N).
  { intros s u. destruct (H2 s u) as (Wx & Wy & Sx & Sy & Cx & Cy). unfold total, N, list_sum. cbn [map fold_right]. rewrite Sx, Sy. lia. }
  set (f := fun es s u o => sum_of_pairs E e None es (regroup p o [x s; y u])).
  set (obs0 := fun es s u => sum_of_pairs E e None es [x s; y u]).
  set (c := INR (n * m) / INR (n + m)).
  assert (Hc : 0 < c) by (unfold c; rewrite mult_INR, plus_INR; apply Rdiv_lt_0_compat; nra).
  exists (fun s u r => mkTest (p_value (obs0 st s u) (map (f st s u) r)) (obs0 st s u)). split.
  - intros s u r Lr Fr. unfold energy_test_on. change (drawn ns dt n p X s) with (x s). change (drawn ns' dt' m p Y u) with (y u).
    rewrite (energy_test_stats E replay p _ e b _ None (EstEnum st) st) by (auto using replay_permuting; lra).
    cbn [random_state_init]. rewrite Htot, <- Lr, replay_draw by auto. cbn [fst snd]. eexists. reflexivity.
  - set (V := fun s u => energy e p n m (fun i => X (s i)) (fun j => Y (u j))).
    set (d := INR b * (M * (/ INR n + / INR m) / h)).
    assert (Hd : 0 <= d).
    { unfold d. assert (0 < / INR n) by (apply Rinv_0_lt_compat; lra). assert (0 < / INR m) by (apply Rinv_0_lt_compat; lra).
      apply Rmult_le_pos; [apply pos_INR|]. apply Rmult_le_pos; [apply Rmult_le_pos; lra|]. left. apply Rinv_0_lt_compat. lra. }
    pose proof (energy_probability e p K L w v X Y M Hw Hv HXY HX HY n m (pop / 2) ltac:(lia) ltac:(lia) ltac:(lra)) as Bd. cbv beta in Bd.
    fold pop in Bd. change (expect K w n (fun s => probability L v m (fun u => far (pop / 2) (V s u) pop))
      <= 32 * M ^ 2 * (INR K / INR n + INR L / INR m) / (pop / 2) ^ 2) in Bd.
    replace (32 * M ^ 2 * (INR K / INR n + INR L / INR m) / (pop / 2) ^ 2) with (128 * M ^ 2 * (INR K / INR n + INR L / INR m) / pop ^ 2) in Bd by (field; lra).
    enough (G : 1 <= expect K w n (fun s => expect L v m (fun u => share_of_runs N b (fun r => leb (pvalue (mkTest (p_value (obs0 st s u) (map (f st s u) r)) (obs0 st s u))) alpha)))
      + expect K w n (fun s => probability L v m (fun u => far (pop / 2) (V s u) pop) + d)).
    { rewrite expect_plus, (expect_const K w (proj2 Hw) n d) in G. unfold d in *. lra. }
    apply expect_cover; auto. intros s Hs. unfold probability. rewrite <- (expect_const L v (proj2 Hv) m d), <- expect_plus.
    apply expect_cover; auto. intros u Hu. cbn [pvalue]. rewrite share_not.
    match goal with |- 1 <= 1 - ?a + ?b => enough (a <= b) by lra end.
    unfold far. destruct (Rle_dec (pop / 2) (Rabs (V s u - pop))) as [F|F].
    + eapply Rle_trans; [apply share_range|]. lra.
    + assert (HV : pop / 2 <= V s u) by (apply Rnot_le_lt, Rabs_def2 in F; lra). rewrite Rplus_0_l.
      assert (HO : c * h <= obs0 st s u).
      { unfold obs0. rewrite (two_pairs E st e (x s) (y u) n m p) by auto. fold c. apply Rmult_le_compat_l; [lra|].
        eapply Rle_trans; [|apply (block_above st n m _ _ _ M)]; auto.
        - match goal with |- h <= ?a - _ => assert (EV : a = V s u) by (unfold V; rewrite <- (energy_drawn e p n m X Y ns dt ns' dt'); reflexivity); rewrite EV end.
          lra.
        - apply dmat_symmetric.
        - apply dmat_hollow.
        - apply dmat_symmetric.
        - apply dmat_hollow.
        - intros i j Hi' Hj. split; [apply rpow_nonneg|]. unfold x. rewrite drawn_rpow by auto. apply HX; auto.
        - intros i j Hi' Hj. split; [apply rpow_nonneg|]. unfold y. rewrite drawn_rpow by auto. apply HY; auto. }
      assert (Hfg : forall o, is_perm N o -> f st s u o <= f VStatistic s u o /\ 0 <= f VStatistic s u o).
      { intros o Ho. destruct (regroup_two (x s) (y u) n m p o (H2 s u) Ho) as (x' & y' & Er & Tw). unfold f. rewrite Er.
        rewrite !(two_pairs E _ e x' y' n m p) by auto. fold c. split.
        - apply Rmult_le_compat_l; [lra|]. apply block_below; auto using rpow_nonneg; try apply dmat_symmetric; try apply dmat_hollow; intros; apply rpow_nonneg.
        - apply Rmult_le_pos; [lra|]. apply (energy_nonneg e p n m (obs x') (obs y')); lra || lia. }
      eapply Rle_trans; [apply (miss_share N b (f st s u) (f VStatistic s u) (obs0 st s u) (c * h) alpha); auto|].
      * nra.
      * intros o Ho. apply Hfg; auto.
      * intros o Ho Hlt. pose proof (Hfg o Ho). lra.
      * assert (AV : perm_average N (f VStatistic s u) = mean_distinct N (dmat e p (pooled [x s; y u]))).
        { destruct (C70_energy_test E replay p [x s; y u] e 0 (RState []) (EstEnum VStatistic) VStatistic) as (v0 & Hv0 & Av);
            auto using replay_permuting; [lra|]. rewrite Htot in Hv0, Av. unfold pairs in Av. cbn [length] in Av.
          transitivity (average_over_orders N v0); [|rewrite Av; cbn; field].
          change (average_over_orders N) with (perm_average N). apply perm_average_ext. intros o Ho. destruct (Hv0 o Ho) as (t & g & Ht & <-).
          rewrite (energy_test_stats E replay p _ e 0 _ None (EstEnum VStatistic) VStatistic) in Ht.
          - injection Ht as <- _. reflexivity.
          - auto.
          - apply replay_permuting.
          - destruct (regroup_two (x s) (y u) n m p o (H2 s u) Ho) as (x' & y' & -> & Tw). destruct Tw as (Wx & Wy & Sx & Sy & Cx & Cy).
            split; [cbn; lia|]. repeat constructor; auto; cbn [to_estimation]; lia.
          - reflexivity.
          - lra. }
        rewrite AV. unfold d. apply Rmult_le_compat_l; [apply pos_INR|].
        replace (M * (/ INR n + / INR m) / h) with (M / (c * h)) by (unfold c; rewrite mult_INR, plus_INR; field; repeat split; nra).
        unfold Rdiv. apply Rmult_le_compat_r; [left; apply Rinv_0_lt_compat; nra|].
        apply mean_distinct_le; auto; [unfold N; lia|apply dmat_hollow|].
        intros i j Hi' Hj. apply (pooled_bound e p n m); auto.
        -- intros k l Hk Hl. unfold x. rewrite drawn_rpow by auto. apply HX; auto.
        -- intros k l Hk Hl. unfold y. rewrite drawn_rpow by auto. apply HY; auto.
        -- intros k l Hk Hl. unfold x, y. rewrite drawn_rpow by auto. apply HXY; auto.
Qed.

(** For two different distributions the energy test (V-statistic) rejects except with a probability of the order of 1/n + 1/m. *)
Theorem C75_energy_rate E K L w v X Y p ns dt ns' dt' n m M e b alpha : valid_env E -> distribution K w -> distribution L v ->
  (2 <= n)%nat -> (2 <= m)%nat -> 0 < e < 2 ->
  within e p K X M -> within e p L Y M -> (forall k l, (k < K)%nat -> (l < L)%nat -> rpow (dist p (X k) (Y l)) e <= M) ->
  ~ same_law p K L w v X Y -> 1 / (1 + INR b) <= alpha ->
  let pop := population_energy e p K L w v X Y in
  0 < pop /\
  exists t, (forall s u r, length r = b -> Forall (is_perm (n + m)) r ->
      exists g, energy_test_on E e None (EstEnum VStatistic) [drawn ns dt n p X s; drawn ns' dt' m p Y u] (Z.of_nat b) r = Ok (t s u r, g)) /\
  1 - 128 * M ^ 2 * (INR K / INR n + INR L / INR m) / pop ^ 2 - 2 * INR b * M * (/ INR n + / INR m) / pop
  <= expect K w n (fun s => expect L v m (fun u => share_of_runs (n + m) b (fun r => leb (pvalue (t s u r)) alpha))).
Proof.
  intros HE Hw Hv Hn Hm He HX HY HXY Hi Ha pop.
  assert (Hp : 0 < pop).
  { destruct (population_energy_nonneg e p K L w v X Y Hw Hv) as [|Z0]; [lra|auto|]. exfalso. apply Hi.
    apply (population_energy_zero_iff e p K L w v X Y Hw Hv He); auto. }
  split; auto.
  destruct (energy_run E K L w v X Y p ns dt ns' dt' n m M e b alpha VStatistic (pop / 2)) as (t & Ht & Hb); auto; try (fold pop; lra).
  exists t. split; auto. eapply Rle_trans; [|exact Hb]. right. fold pop.
  assert (2 <= INR n) by (apply (le_INR 2); auto). assert (2 <= INR m) by (apply (le_INR 2); auto). field. lra.
Qed.

(** With either estimator its power tends to 1. *)
Theorem C75_energy_power E K L w v X Y p ns dt ns' dt' e b alpha st : valid_env E -> distribution K w -> distribution L v -> 0 < e < 2 ->
  ~ same_law p K L w v X Y -> 1 / (1 + INR b) <= alpha ->
  exists t, (forall n m s u r, (2 <= n)%nat -> (2 <= m)%nat -> length r = b -> Forall (is_perm (n + m)) r ->
      exists g, energy_test_on E e None (EstEnum st) [drawn ns dt n p X s; drawn ns' dt' m p Y u] (Z.of_nat b) r = Ok (t n m s u r, g)) /\
  forall delta, 0 < delta -> exists N, forall n m, (N <= n)%nat -> (N <= m)%nat ->
    1 - delta <= expect K w n (fun s => expect L v m (fun u => share_of_runs (n + m) b (fun r => leb (pvalue (t n m s u r)) alpha))).
Proof.
  intros HE Hw Hv He Hi Ha.
  destruct (finite_bound (fun k l => rpow (dist p (X k) (Y l)) e) K L) as (M1 & P1 & B1).
  destruct (finite_bound (fun k l => rpow (dist p (X k) (X l)) e) K K) as (M2 & P2 & B2).
  destruct (finite_bound (fun k l => rpow (dist p (Y k) (Y l)) e) L L) as (M3 & P3 & B3).
  set (M := M1 + M2 + M3). assert (HM : 0 <= M) by (unfold M; lra).
  assert (HXY : forall k l, (k < K)%nat -> (l < L)%nat -> rpow (dist p (X k) (Y l)) e <= M) by (intros k l Hk Hl; specialize (B1 k l Hk Hl); unfold M; lra).
  assert (HX : within e p K X M) by (intros k l Hk Hl; specialize (B2 k l Hk Hl); unfold M; lra).
  assert (HY : within e p L Y M) by (intros k l Hk Hl; specialize (B3 k l Hk Hl); unfold M; lra).
  clearbody M. clear M1 M2 M3 P1 P2 P3 B1 B2 B3.
  set (pop := population_energy e p K L w v X Y).
  assert (Hp : 0 < pop).
  { destruct (population_energy_nonneg e p K L w v X Y Hw Hv) as [|Z0]; [lra|auto|]. exfalso. apply Hi.
    apply (population_energy_zero_iff e p K L w v X Y Hw Hv He); auto. }
  set (x := drawn ns dt). set (y := drawn ns' dt').
  set (t := fun n m s u r => match energy_test_on E e None (EstEnum st) [x n p X s; y m p Y u] (Z.of_nat b) r with Ok (t, _) => t | Err _ => mkTest 0 0 end).
  exists t. split.
  - intros n m s u r Hn Hm Lr Fr. unfold t.
    assert (Hs : several p (EstEnum st) [x n p X s; y m p Y u]).
    { split; [cbn; lia|]. destruct (drawn_two ns dt ns' dt' n m p X Y s u) as (Wx & Wy & Sx & Sy & Cx & Cy).
      repeat constructor; auto; unfold x, y; cbn [to_estimation]; destruct st; lia. }
    assert (Ht : total [x n p X s; y m p Y u] = (n + m)%nat).
    { unfold total, list_sum. cbn [map fold_right]. unfold x, y. rewrite !drawn_shape. lia. }
    fold x y. unfold energy_test_on. rewrite (energy_test_stats E replay p _ e b _ None (EstEnum st) st) by (auto using replay_permuting; lra).
    eexists. reflexivity.
  - intros delta Hd.
    destruct (eventually_small (128 * M ^ 2 * INR K / pop ^ 2) (delta / 4)) as (N1 & HN1 & H1); [lra|].
    destruct (eventually_small (128 * M ^ 2 * INR L / pop ^ 2) (delta / 4)) as (N2 & HN2 & H2); [lra|].
    destruct (eventually_small (INR b * (4 * M / pop)) (delta / 4)) as (N3 & HN3 & H3); [lra|].
    destruct (eventually_small (2 * M) (pop / 8)) as (N4 & HN4 & H4); [lra|].
    exists (2 + N1 + N2 + N3 + N4)%nat. intros n m Hn Hm.
    specialize (H1 n ltac:(lia)). specialize (H2 m ltac:(lia)). pose proof (H3 n ltac:(lia)) as H3n. pose proof (H3 m ltac:(lia)) as H3m.
    pose proof (H4 n ltac:(lia)) as H4n. pose proof (H4 m ltac:(lia)) as H4m.
    assert (2 <= INR n) by (apply (le_INR 2); lia). assert (2 <= INR m) by (apply (le_INR 2); lia).
    assert (G : forall k, 2 <= k -> M / (k - 1) <= 2 * M / k).
    { intros k Hk. apply Rmult_le_reg_r with (k * (k - 1)); [nra|]. replace (M / (k - 1) * (k * (k - 1))) with (M * k) by (field; lra).
      replace (2 * M / k * (k * (k - 1))) with (2 * M * (k - 1)) by (field; lra). nra. }
    pose proof (G (INR n) ltac:(auto)). pose proof (G (INR m) ltac:(auto)).
    destruct (energy_run E K L w v X Y p ns dt ns' dt' n m M e b alpha st (pop / 4)) as (t0 & Ht0 & Hb); auto; try lia; try lra.
    { fold pop. destruct st; lra. }
    fold pop in Hb. apply Rle_trans with (1 - 128 * M ^ 2 * (INR K / INR n + INR L / INR m) / pop ^ 2 - INR b * (M * (/ INR n + / INR m) / (pop / 4))).
    + replace (128 * M ^ 2 * (INR K / INR n + INR L / INR m) / pop ^ 2) with (128 * M ^ 2 * INR K / pop ^ 2 / INR n + 128 * M ^ 2 * INR L / pop ^ 2 / INR m) by (field; lra).
      replace (INR b * (M * (/ INR n + / INR m) / (pop / 4))) with (INR b * (4 * M / pop) / INR n + INR b * (4 * M / pop) / INR m) by (field; lra). lra.
    + eapply Rle_trans; [exact Hb|]. right. apply expect_eq; auto. intros s _. apply expect_eq; auto. intros u _.
      unfold share_of_runs. f_equal. f_equal. apply count_if_ext. intros r Hr. apply in_words in Hr. destruct Hr as [Lr Ir].
      destruct (Ht0 s u r Lr) as (g & Hg); [apply Forall_forall; intros o Ho; apply in_all_perms, Ir, Ho|]. unfold t, x, y. rewrite Hg. reflexivity.
Qed.

(** ** distance_correlation_t_test *)

Lemma t_of_large n r c T : 0 < c -> c <= r -> r < 1 -> (4 <= n)%nat -> 2 * (Rabs T + 1) / c <= INR n - 3 -> T < t_of n r.
Proof.
  intros Hc Hr H1 Hn HT. pose proof (pairs_v_large n Hn) as Hv. assert (4 <= INR n) by (apply INR_ge4; auto).
  assert (HT' : 2 * (Rabs T + 1) <= c * (INR n - 3)).
  { apply Rmult_le_compat_l with (r := c) in HT; [|lra]. replace (c * (2 * (Rabs T + 1) / c)) with (2 * (Rabs T + 1)) in HT by (field; lra). exact HT. }
  assert (Hs : (INR n - 3) / 2 <= sqrt (pairs_v n - 1)).
  { rewrite <- (sqrt_Rsqr ((INR n - 3) / 2)) by lra. apply sqrt_le_1_alt. unfold Rsqr, pairs_v. nra. }
  assert (Hq : 0 < sqrt (1 - r * r) <= 1).
  { split; [apply sqrt_lt_R0; nra|]. apply Rle_trans with (sqrt 1); [apply sqrt_le_1_alt; nra|rewrite sqrt_1; lra]. }
  unfold t_of. apply Rlt_le_trans with (sqrt (pairs_v n - 1) * r).
  - pose proof (Rle_abs T). apply Rlt_le_trans with ((INR n - 3) / 2 * c); [nra|]. apply Rmult_le_compat; lra.
  - unfold Rdiv. rewrite <- (Rmult_1_r (sqrt (pairs_v n - 1) * r)) at 1. apply Rmult_le_compat_l; [apply Rmult_le_pos; [apply sqrt_pos|lra]|].
    apply Rle_trans with (/ 1); [rewrite Rinv_1; lra|]. apply Rinv_le_contravar; lra.
Qed.

(** For dependent variables the statistic of the t-test exceeds any threshold with a probability that tends to 1. [r n s]: the
    bias-corrected correlation; where it is 1 the statistic is plus infinity (C33_infinite), elsewhere it is [t n s]. *)
Theorem C75_t_statistic E K w X Y p q ns dt ns' dt' : valid_env E -> distribution K w -> ~ independent K w p q X Y ->
  exists r t, (forall n s, (4 <= n)%nat -> bcdcor E (drawn ns dt n p X s) (drawn ns' dt' n q Y s) = Ok (r n s) /\ r n s <= 1 /\
      (-1 < r n s < 1 -> outcome (distance_correlation_t_statistic E (drawn ns dt n p X s) (drawn ns' dt' n q Y s)) = Ok (t n s))) /\
  forall T delta, 0 < delta -> exists N, forall n, (N <= n)%nat ->
    1 - delta <= probability K w n (fun s => if Rle_dec 1 (r n s) then true else if Rlt_dec (-1) (r n s) then negb (leb (t n s) T) else false).
Proof.
  intros HE HD Hi.
  destruct (C74_consistent UDcorSqr E K w X Y p q ns dt ns' dt' 1 MAuto CAuto) as (r & Hr & Hc); auto using auto_accepts; [lra|].
  set (rho := population UDcorSqr K w (dmat 1 p X) (dmat 1 q Y)) in *.
  assert (Hrho : 0 < rho).
  { destruct (C74_population UDcorSqr K w X Y p q 1 HD) as [[|Z0] Hz]; [lra|auto|]. exfalso. apply Hi. apply Hz. auto. }
  exists r, (fun n s => t_of n (r n s)). split.
  - intros n s Hn. split; [apply (Hr n s Hn)|].
    destruct (C33_statistic E (drawn ns dt n p X s) (drawn ns' dt' n q Y s) n) as (r' & Hr' & Hb & Ht); auto; [apply drawn_paired; lia|].
    assert (r' = r n s) as ->
      by (pose proof (Hr n s Hn : bcdcor E (drawn ns dt n p X s) (drawn ns' dt' n q Y s) = Ok (r n s)); congruence). split; [lra|exact Ht].
  - intros T delta Hd. destruct (Hc (rho / 2) delta) as (N1 & H1); [lra|auto|].
    set (z := 3 + 2 * (Rabs T + 1) / (rho / 2)).
    assert (H2 : z < INR (Z.to_nat (up z))).
    { pose proof (archimed z) as [Hz _]. rewrite INR_IZR_INZ, Z2Nat.id; auto. apply le_IZR. pose proof (Rabs_pos T).
      assert (0 <= z); [|lra]. unfold z. assert (0 < / (rho / 2)) by (apply Rinv_0_lt_compat; lra). unfold Rdiv at 1.
      assert (0 <= 2 * (Rabs T + 1) * / (rho / 2)) by (apply Rmult_le_pos; lra). lra. }
    set (N2 := Z.to_nat (up z)) in *.
    exists (4 + N1 + N2)%nat. intros n Hn. specialize (H1 n ltac:(lia)).
    enough (G : 1 <= probability K w n (fun s => if Rle_dec 1 (r n s) then true else if Rlt_dec (-1) (r n s) then negb (leb (t_of n (r n s)) T) else false)
      + probability K w n (fun s => far (rho / 2) (r n s) rho)) by lra.
    unfold probability at 1 2. apply expect_cover; auto. intros s Hs. unfold far.
    destruct (Rle_dec (rho / 2) (Rabs (r n s - rho))) as [F|F]; [destruct (Rle_dec 1 (r n s)), (Rlt_dec (-1) (r n s)), (leb (t_of n (r n s)) T); cbn [negb]; lra|].
    assert (rho / 2 <= r n s) by (apply Rnot_le_lt, Rabs_def2 in F; lra).
    destruct (Rle_dec 1 (r n s)); [lra|]. destruct (Rlt_dec (-1) (r n s)); [|lra]. unfold leb.
    destruct (Rle_dec (t_of n (r n s)) T) as [Ht|]; cbn [negb]; [|lra]. exfalso.
    assert (INR N2 <= INR n) by (apply le_INR; lia). pose proof (t_of_large n (r n s) (rho / 2) T ltac:(lra) ltac:(lra) ltac:(lra) ltac:(lia) ltac:(unfold z in H2; lra)). lra.
Qed.

(** At a level below 1/(b+1) the test never rejects, however many observations there are. *)
Theorem C75_level_bound {S} (E : Env R) (G : Rng S) x y n e b rs alpha : valid_env E -> permuting G -> paired n x y -> 0 < e ->
  alpha < 1 / (1 + INR b) ->
  exists t g, outcome (distance_covariance_test E G x y (Z.of_nat b) e rs) = Ok (t, g) /\ alpha < pvalue t.
Proof.
  intros HE HG Hp He Ha. rewrite (dcov_test_eval E G x y n) by auto. eexists _, _. split; [reflexivity|]. cbn [pvalue]. unfold p_value.
  rewrite map_length, draw_length. pose proof (pos_INR b). eapply Rlt_le_trans; [exact Ha|].
  unfold Rdiv. apply Rmult_le_compat_r; [left; apply Rinv_0_lt_compat; lra|]. match goal with |- 1 <= 1 + INR ?k => pose proof (pos_INR k) end. lra.
Qed.

(** A fair coin with itself, 19 resamples, level 5 %; a fair coin and one that shows 1 three times out of four. *)
Example C75_meets : exists t,
  (forall n s r, (2 <= n)%nat -> length r = 19%nat -> Forall (is_perm n) r ->
    exists st, dcov_test_on (env_R true) (drawn Numpy F64 n 1 coin s) 1 (drawn Numpy F64 n 1 coin s) (Z.of_nat 19) r = Ok (t n s r, st)) /\
  exists N, forall n, (N <= n)%nat ->
    99 / 100 <= expect 2 (fun _ => 1 / 2) n (fun s => share_of_runs n 19 (fun r => leb (pvalue (t n s r)) (1 / 20))).
Proof.
  destruct (C75_dcov_power (env_R true) 2 (fun _ => 1 / 2) coin coin 1 1 Numpy F64 Numpy F64 1 19 (1 / 20)) as (t & Ht & Hb);
    auto using env_R_valid, coin_dependent; try lra.
  - split; [intros; lra|cbn; lra].
  - right. cbn. lra.
  - exists t. split; auto. destruct (Hb (1 / 100)) as (N & HN); [lra|]. exists N. intros n Hn. specialize (HN n Hn). lra.
Qed.
Example C75_energy_meets : exists t,
  (forall n m s u r, (2 <= n)%nat -> (2 <= m)%nat -> length r = 19%nat -> Forall (is_perm (n + m)) r ->
    exists g, energy_test_on (env_R true) 1 None (EstEnum UStatistic) [drawn Numpy F64 n 1 coin s; drawn Numpy F64 m 1 coin u] (Z.of_nat 19) r = Ok (t n m s u r, g)) /\
  exists N, forall n m, (N <= n)%nat -> (N <= m)%nat ->
    99 / 100 <= expect 2 (fun _ => 1 / 2) n (fun s => expect 2 (fun k => if Nat.eqb k 0 then 1 / 4 else 3 / 4) m (fun u =>
      share_of_runs (n + m) 19 (fun r => leb (pvalue (t n m s u r)) (1 / 20)))).
Proof.
  destruct (C75_energy_power (env_R true) 2 2 (fun _ => 1 / 2) (fun k => if Nat.eqb k 0 then 1 / 4 else 3 / 4) coin coin 1 Numpy F64 Numpy F64 1 19 (1 / 20) UStatistic)
    as (t & Ht & Hb); auto using env_R_valid; try lra.
  - split; [intros; lra|cbn; lra].
  - split; [intros k _; destruct (Nat.eqb k 0); lra|cbn; lra].
  - intros H. specialize (H (fun _ => 0)). unfold prob_at, coin, same_pointb in H. cbn in H. destruct (Req_EM_T 0 0), (Req_EM_T 1 0); cbn in H; lra.
  - right. cbn. lra.
  - exists t. split; auto. destruct (Hb (1 / 100)) as (N & HN); [lra|]. exists N. intros n m Hn Hm. specialize (HN n m Hn Hm). lra.
Qed.
