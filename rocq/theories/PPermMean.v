(** Averages of the statistics over all the orders of the observations: C70.

    [all_perms n]: all permutations of 0, ..., n-1 (Exchange.v); [permute_sample q x]: the observations of [x] in the order [q];
    [regroup p q samples]: the pooled observations in the order [q], cut into samples of the original sizes. *)
From Coq Require Import Reals Lra Lia List Arith Bool ZArith Permutation.
From Verif Require Import Num Numpy MUtils MDistances MMergesort MInternals MDcor MPartial MEnergy MHypothesis MHomogeneity MIndependence
  Sums Spec Centering Tab Samples Api RefDist RefDcor RefCenter RefApi SpecFacts Invariance RefEnergy RefTests RefHomogeneity Exchange PermMean
  Witness PEnergy PPartial PTests PValidity PTTest.
Import List ListNotations.
Local Open Scope R_scope.

(** The average of [v] over all the orders of [n] observations. *)
Definition average_over_orders (n : nat) (v : list nat -> R) : R := lsum (map v (all_perms n)) / INR (length (all_perms n)).

(** The mean of the distances (to the power [e]) over all the pairs of observations, and over the pairs of different ones. *)
Definition mean_distance (n : nat) (d : nat -> nat -> R) : R := rsum2 n n d / INR n ^ 2.
Definition mean_distinct (n : nat) (d : nat -> nat -> R) : R := rsum2 n n d / (INR n * (INR n - 1)).

(** ** The two centrings *)

Lemma trace_dcenter n d : (1 <= n)%nat -> symmetric n d -> hollow n d -> trace n (dcenter n d) = - (INR n * mean_distance n d).
Proof.
  intros Hn Hs Hh. pose proof (INR_pos n Hn). unfold trace, dcenter, mean_distance.
  rewrite rsum_plus, !rsum_minus, rsum_const. rewrite (rsum_zero n (fun i => d i i)) by (intros; apply Hh; auto).
  unfold mean. rewrite !rsum_div. rewrite (rsum_swap n n (fun i k => d k i)). change (rsum n (fun i => rsum n (fun j => d i j))) with (rsum2 n n d).
  field. lra.
Qed.

Lemma total_dcenter n d : (1 <= n)%nat -> rsum2 n n (dcenter n d) = 0.
Proof. intros Hn. apply rsum_zero. intros. apply dcenter_row_sum; auto. Qed.

Lemma off_of_zero n b : rsum2 n n b = 0 -> off_total n b = - trace n b.
Proof. intros H. rewrite total_split in H. lra. Qed.

Lemma trace_ucenter n d : trace n (ucenter n d) = 0.
Proof. apply rsum_zero. intros. apply ucenter_diag. Qed.
Lemma total_ucenter n d : (3 <= n)%nat -> symmetric n d -> hollow n d -> rsum2 n n (ucenter n d) = 0.
Proof. intros. apply rsum_zero. intros. apply ucenter_row_sum; auto. Qed.

Lemma average_dcov2 n a b : (2 <= n)%nat -> symmetric n a -> hollow n a -> symmetric n b -> hollow n b ->
  perm_average n (fun q => dcov2 n (relabel (ith q) a) b) = mean_distance n a * mean_distance n b / (INR n - 1).
Proof.
  intros Hn Sa Ha Sb Hb. assert (2 <= INR n) by (change 2 with (INR 2); apply le_INR; auto).
  rewrite (perm_average_ext n _ (fun q => / INR n ^ 2 * rsum2 n n (fun i j => relabel (ith q) (dcenter n a) i j * dcenter n b i j))).
  - rewrite perm_average_scal, average_product by auto. rewrite !off_of_zero by (apply total_dcenter; lia).
    rewrite !trace_dcenter by (auto; lia). field. lra.
  - intros q Hq. unfold dcov2. f_equal. apply rsum2_ext. intros i j Hi Hj. rewrite (dcenter_relabel n (ith q)) by (apply perm_ith; auto). reflexivity.
Qed.

Lemma average_uprod n a c : (4 <= n)%nat -> symmetric n a -> hollow n a ->
  perm_average n (fun q => uprod n (ucenter n (relabel (ith q) a)) c) = 0.
Proof.
  intros Hn Sa Ha. assert (4 <= INR n) by (apply INR_ge4; auto).
  rewrite (perm_average_ext n _ (fun q => / (INR n * (INR n - 3)) * rsum2 n n (fun i j => relabel (ith q) (ucenter n a) i j * c i j))).
  - rewrite perm_average_scal, average_product by lia. rewrite (off_of_zero n (ucenter n a)) by (apply total_ucenter; auto; lia).
    rewrite trace_ucenter. field. lra.
  - intros q Hq. unfold uprod. f_equal. apply rsum2_ext. intros i j Hi Hj. rewrite (ucenter_relabel n (ith q)) by (auto; apply perm_ith; auto). reflexivity.
Qed.

Lemma corr_linear c vx vy : corr c vx vy = corr 1 vx vy * c.
Proof. unfold corr. destruct (Req_EM_T (vx * vy) 0); unfold Rdiv; ring. Qed.

(** ** The dependence measures *)

(** The expected value over all the pairings. *)
Definition chance (f : api) (n : nat) (a b : nat -> nat -> R) : R :=
  let excess := mean_distance n a * mean_distance n b / (INR n - 1) in
  match f with
  | DcovSqr => excess
  | DcorSqr => corr excess (dcov2 n a a) (dcov2 n b b)
  | _ => 0
  end.

Definition squared (f : api) : Prop := match f with Dcov | Dcor => False | _ => True end.

Lemma permuted_pair n q x y m cm e : paired n x y -> accepts m cm x y e -> is_perm n q ->
  paired n (permute_sample q x) y /\ accepts m cm (permute_sample q x) y e /\
  (forall i j, (i < n)%nat -> (j < n)%nat -> distances e (permute_sample q x) i j = relabel (ith q) (distances e x) i j).
Proof.
  intros (Wx & Wy & Sx & Sy & Hn) Ha Hq. rewrite <- Sx in Hq. pose proof (permute_reordered q x Wx Hq) as Hr. pose proof Hr as [Hf _].
  split; [destruct Hf as (_ & _ & _ & Hsh & Hwf); unfold paired; rewrite Hsh; auto 8|]. split.
  - apply (accepts_form m cm x y); auto. repeat split; auto.
  - intros i j Hi Hj. apply (reordered_distances (fun i => nth i q 0%nat)); auto; lia.
Qed.

Lemma dist_sym_hollow n e x : symmetric n (distances e x) /\ hollow n (distances e x).
Proof. split; [apply dmat_symmetric|apply dmat_hollow]. Qed.

(** Over all the orders of the observations of x the bias-corrected covariance and correlation average to exactly 0; the squared
    distance covariance averages to the product of the two mean distances divided by n-1, and the squared correlation to that value
    divided by the standard deviations. *)
Theorem C70_dependence f E x y n e m cm : valid_env E -> paired n x y -> 0 < e -> accepts m cm x y e ->
  squared f -> (2 <= n)%nat -> (min_size f <= n)%nat ->
  exists v, (forall q, is_perm n q -> call f E (permute_sample q x) y e m cm = Ok (v q)) /\
  average_over_orders n v = chance f n (distances e x) (distances e y).
Proof.
  intros HE Hp He Ha Hf H2 Hm. exists (fun q => value f n (relabel (ith q) (distances e x)) (distances e y)). split.
  - intros q Hq. destruct (permuted_pair n q x y m cm e Hp Ha Hq) as (P1 & P2 & P3). rewrite (call_ok f _ _ _ n) by auto. f_equal.
    apply value_ext; auto.
  - change (average_over_orders n) with (perm_average n). destruct (dist_sym_hollow n e x) as [Sx Zx], (dist_sym_hollow n e y) as [Sy Zy].
    set (a := distances e x) in *. set (b := distances e y) in *. destruct f; cbn [value chance]; try (exfalso; exact Hf).
    + apply average_dcov2; auto.
    + rewrite (corr_linear (_ / _)). rewrite <- average_dcov2, <- perm_average_scal by auto. apply perm_average_ext. intros q Hq. unfold dcor2.
      rewrite (dcov2_relabel n (ith q)) by (apply perm_ith; auto). apply corr_linear.
    + apply average_uprod; auto.
    + rewrite (perm_average_ext n _ (fun q => corr 1 (udcov2 n a a) (udcov2 n b b) * udcov2 n (relabel (ith q) a) b)).
      * rewrite perm_average_scal. unfold udcov2 at 3. rewrite (average_uprod n a (ucenter n b)) by auto. ring.
      * intros q Hq. unfold udcor2. rewrite (udcov2_relabel n (ith q)) by (apply perm_ith; auto). apply corr_linear.
Qed.

(** The squared distance covariance of an independent pairing is not 0 on average unless one of the samples is constant. *)
Theorem C70_biased E x y n e m cm : valid_env E -> paired n x y -> 0 < e -> accepts m cm x y e -> ~ constant x -> ~ constant y ->
  exists v, (forall q, is_perm n q -> call DcovSqr E (permute_sample q x) y e m cm = Ok (v q)) /\ 0 < average_over_orders n v.
Proof.
  intros HE Hp He Ha Cx Cy. pose proof Hp as (Wx & Wy & Sx & Sy & Hn).
  assert (H2 : (2 <= n)%nat).
  { destruct n as [|[|n]]; try lia. exfalso. apply Cx. intros i j Hi Hj. assert (i = j) as -> by lia. intros k _. reflexivity. }
  destruct (C70_dependence DcovSqr E x y n e m cm HE Hp He Ha I H2 Hn) as (v & Hv & Av). exists v. split; auto. rewrite Av. cbn [chance].
  assert (2 <= INR n) by (change 2 with (INR 2); apply le_INR; auto).
  assert (Pos : forall z, shape0 z = n -> ~ constant z -> 0 < mean_distance n (distances e z)).
  { intros z Sz Cz. unfold mean_distance. apply Rdiv_lt_0_compat; [|nra].
    assert (N0 : forall i j, 0 <= distances e z i j) by (intros; unfold distances, dmat, rpow; destruct (Rle_dec _ 0); [lra|left; apply exp_pos]).
    destruct (rsum2_nonneg n n (distances e z)) as [P|Z0]; auto. exfalso. apply Cz. symmetry in Z0.
    intros i j Hi Hj. apply dmat_zero_iff with (e := e). apply (rsum2_zero_all n n (distances e z)); auto; lia. }
  apply Rdiv_lt_0_compat; [|lra]. apply Rmult_lt_0_compat; auto.
Qed.

(** The statistic of distance_covariance_test. *)
Theorem C70_dcov_test {S} (E : Env R) (G : Rng S) x y n e b rs : valid_env E -> permuting G -> paired n x y -> 0 < e -> (2 <= n)%nat ->
  exists v, (forall q, is_perm n q -> exists t s,
      outcome (distance_covariance_test E G (permute_sample q x) y (Z.of_nat b) e rs) = Ok (t, s) /\ statistic t = v q) /\
  average_over_orders n v = INR n * mean_distance n (distances e x) * mean_distance n (distances e y) / (INR n - 1).
Proof.
  intros HE HG Hp He H2. exists (fun q => INR n * dcov2 n (relabel (ith q) (distances e x)) (distances e y)). split.
  - intros q Hq. destruct (permuted_pair n q x y MNaive CNoCompile e Hp (naive_accepts _ _ _) Hq) as (P1 & P2 & P3).
    eexists _, _. split; [apply (dcov_test_eval E G _ y n); auto|]. cbn [statistic]. f_equal. apply dcov2_ext; auto.
  - change (average_over_orders n) with (perm_average n). destruct (dist_sym_hollow n e x) as [Sx Zx], (dist_sym_hollow n e y) as [Sy Zy].
    rewrite perm_average_scal, average_dcov2 by auto. unfold Rdiv. ring.
Qed.

(** The partial distance covariance given z averages to 0 over all the orders of x. *)
Theorem C70_partial_covariance E x y z n : valid_env E -> triple n x y z ->
  exists v, (forall q, is_perm n q -> outcome (partial_distance_covariance E (permute_sample q x) y z) = Ok (v q)) /\
  average_over_orders n v = 0.
Proof.
  intros HE Ht. pose proof Ht as (Wx & Wy & Wz & Sx & Sy & Sz & Hn). exists (fun q => pcov n (permute_sample q x) y z). split.
  - intros q Hq. apply C22_value; auto. assert (Hp : paired n x y) by (repeat split; auto; lia).
    destruct (permuted_pair n q x y MNaive CNoCompile 1 Hp (naive_accepts _ _ _) Hq) as ((W & _ & Sh & _) & _). repeat split; auto.
  - change (average_over_orders n) with (perm_average n).
    assert (Hip : forall w, perm_average n (fun q => ip n (permute_sample q x) w) = 0).
    { intros w. destruct (dist_sym_hollow n 1 x) as [S0 Z0]. rewrite <- (average_uprod n (distances 1 x) (ucenter n (distances 1 w))) by auto.
      apply perm_average_ext. intros q Hq. assert (Hp : paired n x x) by (repeat split; auto; lia).
      destruct (permuted_pair n q x x MNaive CNoCompile 1 Hp (naive_accepts _ _ _) Hq) as (_ & _ & Hd). apply (udcov2_ext n); auto. }
    unfold pcov. destruct (Req_EM_T (ip n z z) 0); [apply Hip|].
    rewrite (perm_average_ext n _ (fun q => ip n (permute_sample q x) y - (ip n y z / ip n z z) * ip n (permute_sample q x) z)) by (intros; unfold Rdiv; ring).
    rewrite perm_average_minus, perm_average_scal, !Hip. ring.
Qed.

(** ** The energy test *)

Section Blocks.
  Variables (N : nat) (d : nat -> nat -> R).
  Hypothesis Hh : hollow N d.

  Lemma hollow_trace : trace N d = 0.
  Proof. apply rsum_zero. auto. Qed.
  Lemma entry_average i j : (i < N)%nat -> (j < N)%nat ->
    perm_average N (fun q => d (ith q i) (ith q j)) = if (i =? j)%nat then 0 else mean_distinct N d.
  Proof.
    intros Hi Hj. destruct (Nat.eqb_spec i j) as [<-|Hij].
    - rewrite average_diag by auto. rewrite hollow_trace. unfold Rdiv. ring.
    - rewrite average_off by auto. unfold mean_distinct. rewrite total_split, hollow_trace. f_equal. ring.
  Qed.

  Lemma average_cross s n t m : (s + n <= t)%nat -> (t + m <= N)%nat ->
    perm_average N (fun q => rsum2 n m (fun i j => d (ith q (s + i)) (ith q (t + j)))) = INR n * INR m * mean_distinct N d.
  Proof.
    intros H1 H2. rewrite perm_average_rsum2, <- rsum2_const. apply rsum2_ext. intros i j Hi Hj. rewrite entry_average by lia.
    destruct (Nat.eqb_spec (s + i) (t + j)); [lia|reflexivity].
  Qed.

  Lemma average_within s n : (s + n <= N)%nat ->
    perm_average N (fun q => rsum2 n n (fun i j => d (ith q (s + i)) (ith q (s + j)))) = INR n * (INR n - 1) * mean_distinct N d.
  Proof.
    intros H. rewrite perm_average_rsum2.
    transitivity (rsum2 n n (fun i j => mean_distinct N d - (if (j =? i)%nat then mean_distinct N d else 0))).
    - apply rsum2_ext. intros i j Hi Hj. rewrite entry_average by lia.
      destruct (Nat.eqb_spec (s + i) (s + j)), (Nat.eqb_spec j i); try lia; lra.
    - rewrite rsum2_minus, rsum2_const. unfold rsum2.
      rewrite (rsum_ext n _ (fun _ => mean_distinct N d)) by (intros i Hi; apply (rsum_delta n i (fun _ => mean_distinct N d)); auto).
      rewrite rsum_const. ring.
  Qed.

  Lemma average_upper s n : (s + n <= N)%nat ->
    perm_average N (fun q => rsum2 n n (fun i j => if Nat.ltb i j then d (ith q (s + i)) (ith q (s + j)) else 0))
    = INR n * (INR n - 1) / 2 * mean_distinct N d.
  Proof.
    intros H. rewrite perm_average_rsum2, <- count_upper, <- rsum2_scal_r. apply rsum2_ext. intros i j Hi Hj.
    destruct (Nat.ltb_spec i j); [|rewrite perm_average_zero; ring]. rewrite entry_average by lia.
    destruct (Nat.eqb_spec (s + i) (s + j)); [lia|ring].
  Qed.
End Blocks.

Definition block_energy (st : estimation_stat) (n m : nat) (a b c : nat -> nat -> R) : R :=
  match st with
  | VStatistic => 2 * (rsum2 n m c / (INR n * INR m)) - rsum2 n n a / (INR n * INR n) - rsum2 m m b / (INR m * INR m)
  | UStatistic => 2 * (rsum2 n m c / (INR n * INR m)) - upper_mean n a - upper_mean m b
  end.

Lemma pair_value_mean E st n m a b c : valid_env E ->
  pair_value E None st n m a b c = INR (n * m) / INR (n + m) * block_energy st n m a b c.
Proof.
  intros [EN _ _]. unfold pair_value, block_energy. cbn [apply_average]. rewrite EN, np_mean_tab2. destruct st; cbn [flat_of].
  - rewrite !np_mean_flat. reflexivity.
  - rewrite !np_mean_tab2. reflexivity.
Qed.

(** The average contribution of a pair of samples. *)
Definition pair_chance (st : estimation_stat) (N : nat) (d : nat -> nat -> R) : R :=
  match st with VStatistic => mean_distinct N d | UStatistic => 0 end.

Lemma average_block st N d s n t m : hollow N d -> (s + n <= t)%nat -> (t + m <= N)%nat -> (match st with UStatistic => 2 | VStatistic => 1 end <= n)%nat ->
  (match st with UStatistic => 2 | VStatistic => 1 end <= m)%nat ->
  perm_average N (fun q => block_energy st n m (fun i j => d (ith q (s + i)) (ith q (s + j))) (fun i j => d (ith q (t + i)) (ith q (t + j)))
    (fun i j => d (ith q (s + i)) (ith q (t + j)))) = match st with VStatistic => (/ INR n + / INR m) * mean_distinct N d | UStatistic => 0 end.
Proof.
  intros Hh H1 H2 Hn Hm.
  assert (1 <= INR n) by (change 1 with (INR 1); apply le_INR; destruct st; lia).
  assert (1 <= INR m) by (change 1 with (INR 1); apply le_INR; destruct st; lia).
  destruct st; unfold block_energy.
  - assert (2 <= INR n) by (change 2 with (INR 2); apply le_INR; lia). assert (2 <= INR m) by (change 2 with (INR 2); apply le_INR; lia).
    unfold upper_mean. rewrite !perm_average_minus. unfold Rdiv.
    rewrite (perm_average_ext N (fun q => 2 * _) (fun q => (2 * / (INR n * INR m)) * rsum2 n m (fun i j => d (ith q (s + i)) (ith q (t + j))))) by (intros; ring).
    rewrite (perm_average_ext N (fun q => rsum2 n n _ * _) (fun q => / (INR n * (INR n - 1) * / 2) * rsum2 n n (fun i j => if Nat.ltb i j then d (ith q (s + i)) (ith q (s + j)) else 0))) by (intros; ring).
    rewrite (perm_average_ext N (fun q => rsum2 m m _ * _) (fun q => / (INR m * (INR m - 1) * / 2) * rsum2 m m (fun i j => if Nat.ltb i j then d (ith q (t + i)) (ith q (t + j)) else 0))) by (intros; ring).
    rewrite !perm_average_scal, average_cross, !average_upper by (auto; lia). field. lra.
  - rewrite !perm_average_minus. unfold Rdiv.
    rewrite (perm_average_ext N (fun q => 2 * _) (fun q => (2 * / (INR n * INR m)) * rsum2 n m (fun i j => d (ith q (s + i)) (ith q (t + j))))) by (intros; ring).
    rewrite (perm_average_ext N (fun q => rsum2 n n _ * _) (fun q => / (INR n * INR n) * rsum2 n n (fun i j => d (ith q (s + i)) (ith q (s + j))))) by (intros; ring).
    rewrite (perm_average_ext N (fun q => rsum2 m m _ * _) (fun q => / (INR m * INR m) * rsum2 m m (fun i j => d (ith q (t + i)) (ith q (t + j))))) by (intros; ring).
    rewrite !perm_average_scal, average_cross, !average_within by (auto; lia). field. lra.
Qed.

Lemma block_energy_ext st n m a b c a' b' c' :
  (forall i j, (i < n)%nat -> (j < n)%nat -> a i j = a' i j) -> (forall i j, (i < m)%nat -> (j < m)%nat -> b i j = b' i j) ->
  (forall i j, (i < n)%nat -> (j < m)%nat -> c i j = c' i j) -> block_energy st n m a b c = block_energy st n m a' b' c'.
Proof.
  intros Ha Hb Hc. unfold block_energy, upper_mean. rewrite (rsum2_ext n m c c') by auto. destruct st.
  - f_equal; [f_equal|]; f_equal; apply rsum2_ext; intros i j Hi Hj; destruct (Nat.ltb i j); auto.
  - f_equal; [f_equal|]; f_equal; apply rsum2_ext; auto.
Qed.

Lemma off_next samples d i j : (i < j < length samples)%nat -> (off samples i + shape0 (nth i samples d) <= off samples j)%nat.
Proof.
  revert i j. induction samples as [|s l IH]; intros i j H; [cbn in H; lia|]. destruct j as [|j]; [lia|].
  change (off (s :: l) (S j)) with (shape0 s + off l j)%nat. destruct i as [|i].
  - change (off (s :: l) 0) with 0%nat. cbn [nth]. lia.
  - change (off (s :: l) (S i)) with (shape0 s + off l i)%nat. cbn [nth]. cbn [length] in H. specialize (IH i j ltac:(lia)). lia.
Qed.

(** The blocks of the regrouped samples. *)
Lemma regroup_blocks p q samples e : well_formed p samples -> is_perm (total samples) q ->
  length (regroup p q samples) = length samples /\
  (forall i, (i < length samples)%nat -> shape0 (sample (regroup p q samples) i) = shape0 (sample samples i)) /\
  forall i j r s, (i < length samples)%nat -> (j < length samples)%nat -> (r < shape0 (sample samples i))%nat -> (s < shape0 (sample samples j))%nat ->
    rpow (dist p (obs (sample (regroup p q samples) i) r) (obs (sample (regroup p q samples) j) s)) e
    = dmat e p (pooled samples) (ith q (off samples i + r)) (ith q (off samples j + s)).
Proof.
  intros Hw Hq. destruct (regroup_props p q samples Hw Hq) as (R1 & R2 & R3). set (rs := regroup p q samples) in *.
  assert (L : length rs = length samples) by (rewrite <- (map_length shape0 rs), R1, map_length; reflexivity).
  assert (Sh : forall i, (i < length samples)%nat -> shape0 (sample rs i) = shape0 (sample samples i)).
  { intros i Hi. unfold sample. rewrite <- !(map_nth shape0 _ none), R1. reflexivity. }
  assert (Of : forall i, off rs i = off samples i) by (intros i; unfold off, total; rewrite <- !firstn_map, R1; reflexivity).
  assert (Ob : forall i r k, (i < length samples)%nat -> (r < shape0 (sample samples i))%nat -> (k < p)%nat ->
    obs (sample rs i) r k = pooled samples (ith q (off samples i + r)) k).
  { intros i r k Hi Hr Hk. unfold sample. rewrite <- (pooled_off rs none i r k) by (try lia; fold (sample rs i); rewrite Sh; auto). rewrite Of.
    pose proof (off_le samples none i Hi). fold (sample samples i) in *. apply R3; auto. lia. }
  repeat split; auto. intros i j r s Hi Hj Hr Hs. unfold dmat. f_equal. apply dist_ext; intros k Hk; apply Ob; auto.
Qed.

(** The number of pairs of samples. *)
Definition pairs (k : nat) : R := INR k * (INR k - 1) / 2.

(** Over all the ways of dividing the pooled observations into samples of the given sizes the U-statistic of the energy test averages
    to exactly 0, and the V-statistic to the number of pairs of samples times the mean distance of two different observations. *)
Theorem C70_energy_test {S} (E : Env R) (G : Rng S) p samples e b rs es st : valid_env E -> permuting G -> several p es samples ->
  to_estimation es = Ok st -> 0 < e ->
  let N := total samples in
  exists v, (forall q, is_perm N q -> exists t s,
      outcome (energy_test E G (regroup p q samples) (Z.of_nat b) e rs None es) = Ok (t, s) /\ statistic t = v q) /\
  average_over_orders N v = match st with
    | VStatistic => pairs (length samples) * mean_distinct N (dmat e p (pooled samples))
    | UStatistic => 0 end.
Proof.
  intros HE HG H Hst He N. pose proof (several_wf _ _ _ H) as Hw.
  exists (fun q => sum_of_pairs E e None st (regroup p q samples)). split.
  - intros q Hq. destruct (regroup_props p q samples Hw Hq) as (R1 & R2 & R3).
    eexists _, _. split; [apply (energy_test_stats E G p _ e b rs None es st); auto; eapply several_shapes; eauto|]. reflexivity.
  - change (average_over_orders N) with (perm_average N).
    set (d := dmat e p (pooled samples)). assert (Hh : hollow N d) by apply dmat_hollow.
    set (sz := fun i => shape0 (sample samples i)). set (o := off samples).
    transitivity (perm_average N (fun q => rsum2 (length samples) (length samples) (fun i j => if Nat.ltb i j then
      INR (sz i * sz j) / INR (sz i + sz j) * block_energy st (sz i) (sz j) (fun r s => d (ith q (o i + r)) (ith q (o i + s)))
        (fun r s => d (ith q (o j + r)) (ith q (o j + s))) (fun r s => d (ith q (o i + r)) (ith q (o j + s))) else 0))).
    + apply perm_average_ext. intros q Hq. destruct (regroup_blocks p q samples e Hw Hq) as (L & Sh & Bl).
      destruct (regroup_props p q samples Hw Hq) as (_ & R2 & _).
      assert (Nc : forall i, (i < length samples)%nat -> ncols (sample (regroup p q samples) i) = p).
      { intros i Hi. unfold well_formed in R2. rewrite Forall_forall in R2. apply R2, nth_In. lia. }
      unfold sum_of_pairs. rewrite L. apply rsum2_ext. intros i j Hi Hj. destruct (Nat.ltb i j); [|reflexivity].
      rewrite pair_value_mean, !Sh by auto. fold (sz i) (sz j). f_equal.
      apply block_energy_ext; intros r s Hr Hs; unfold distances, cross, dmat; rewrite Nc by auto; apply Bl; auto.
    + rewrite perm_average_rsum2.
      assert (Z2 : forall i, (i < length samples)%nat -> (match st with UStatistic => 2 | VStatistic => 1 end <= sz i)%nat).
      { intros i Hi. destruct H as [_ H]. rewrite Forall_forall in H. destruct (H (sample samples i)) as (_ & _ & P); [apply nth_In; auto|].
        rewrite Hst in P. unfold sz. destruct st; exact P. }
      rewrite (rsum2_ext _ _ _ (fun i j => (if Nat.ltb i j then 1 else 0) * pair_chance st N d)).
      * rewrite rsum2_scal_r, count_upper. destruct st; cbn [pair_chance]; unfold pairs; ring.
      * intros i j Hi Hj. destruct (Nat.ltb_spec i j); [|rewrite perm_average_zero; ring]. rewrite perm_average_scal, average_block; auto.
        -- pose proof (Z2 i Hi). pose proof (Z2 j Hj).
           assert (1 <= INR (sz i)) by (change 1 with (INR 1); apply le_INR; destruct st; lia).
           assert (1 <= INR (sz j)) by (change 1 with (INR 1); apply le_INR; destruct st; lia).
           rewrite mult_INR, plus_INR. destruct st; cbn [pair_chance]; [ring|]. field. lra.
        -- apply (off_next samples none i j); lia.
        -- apply (off_le samples none j); auto.
Qed.

(** The energy distance itself: the samples [x] and [y] are mixed and divided again. *)
Theorem C70_energy_distance E x y n m p e st : valid_env E -> two_samples n m p x y -> 0 < e ->
  (match st with UStatistic => 2 | VStatistic => 1 end <= n)%nat -> (match st with UStatistic => 2 | VStatistic => 1 end <= m)%nat ->
  let N := (n + m)%nat in
  exists v, (forall q, is_perm N q -> exists x' y', regroup p q [x; y] = [x'; y'] /\
      outcome (energy_distance E x' y' e None (EstEnum st)) = Ok (v q)) /\
  average_over_orders N v = match st with
    | VStatistic => (/ INR n + / INR m) * mean_distinct N (dmat e p (pooled [x; y]))
    | UStatistic => 0 end.
Proof.
  intros HE H He Hn Hm N. pose proof H as (Wx & Wy & Sx & Sy & Cx & Cy).
  assert (Hw : well_formed p [x; y]) by (repeat constructor; auto).
  assert (Ht : total [x; y] = N) by (unfold total, N; cbn; lia).
  set (d := dmat e p (pooled [x; y])).
  exists (fun q => block_energy st n m (fun r s => d (ith q (0 + r)) (ith q (0 + s))) (fun r s => d (ith q (n + r)) (ith q (n + s)))
                     (fun r s => d (ith q (0 + r)) (ith q (n + s)))). split.
  - intros q Hq. rewrite <- Ht in Hq. destruct (regroup_blocks p q [x; y] e Hw Hq) as (L & Sh & Bl).
    destruct (regroup_props p q [x; y] Hw Hq) as (_ & R2 & _).
    destruct (regroup p q [x; y]) as [|x' [|y' [|]]]; try discriminate L. exists x', y'. split; [reflexivity|].
    pose proof (Sh 0%nat ltac:(cbn; lia)) as S0. pose proof (Sh 1%nat ltac:(cbn; lia)) as S1. cbn in S0, S1.
    unfold well_formed in R2. apply Forall_cons_iff in R2 as [[W0 C0] R2]. apply Forall_cons_iff in R2 as [[W1 C1] _]. subst n m.
    assert (Htw : two_samples (shape0 x) (shape0 y) p x' y') by (unfold two_samples; repeat split; auto; congruence).
    assert (Bl0 : forall r s, (r < shape0 x)%nat -> (s < shape0 x)%nat -> rpow (dist p (obs x' r) (obs x' s)) e = d (ith q (0 + r)) (ith q (0 + s)))
      by (intros; apply (Bl 0 0)%nat; cbn; auto; lia).
    assert (Of : off [x; y] 1 = shape0 x) by (unfold off, total; cbn; lia).
    assert (Bl1 : forall r s, (r < shape0 y)%nat -> (s < shape0 y)%nat -> rpow (dist p (obs y' r) (obs y' s)) e = d (ith q (shape0 x + r)) (ith q (shape0 x + s)))
      by (intros; rewrite <- Of; apply (Bl 1 1)%nat; cbn; auto; lia).
    assert (Bl2 : forall r s, (r < shape0 x)%nat -> (s < shape0 y)%nat -> rpow (dist p (obs x' r) (obs y' s)) e = d (ith q (0 + r)) (ith q (shape0 x + s)))
      by (intros; rewrite <- Of; apply (Bl 0 1)%nat; cbn; auto; lia).
    transitivity (Ok (block_energy st (shape0 x) (shape0 y) (fun r s => rpow (dist p (obs x' r) (obs x' s)) e)
       (fun r s => rpow (dist p (obs y' r) (obs y' s)) e) (fun r s => rpow (dist p (obs x' r) (obs y' s)) e))).
    + destruct st; [rewrite (energy_U E HE x' y' _ _ _ e Htw He)|rewrite (energy_V E HE x' y' _ _ _ e Htw He)]; reflexivity.
    + f_equal. apply block_energy_ext; auto.
  - change (average_over_orders N) with (perm_average N). apply (average_block st N d 0 n n m); auto; try lia. apply dmat_hollow.
Qed.

(** The 120 orders of the sample xs: the squared distance covariance with ys is 128/125 for the given order and 24/25 on average;
    the bias-corrected one is 8/15 for the given order and 0 on average. *)
Lemma mean_xs_ys : mean_distance 5 (distances 1 xs) = 8 / 5 /\ mean_distance 5 (distances 1 ys) = 12 / 5.
Proof.
  unfold mean_distance. rewrite (rsum2_ext 5 5 (distances 1 xs) dx), (rsum2_ext 5 5 (distances 1 ys) dy) by (intros; apply xs_dist || apply ys_dist; auto).
  unfold rsum2, dx, dy. cbn [rsum nth INR]. split; field.
Qed.

Example C70_meets :
  (exists v, (forall q, is_perm 5 q -> call DcovSqr (env_R true) (permute_sample q xs) ys 1 MAvl CAuto = Ok (v q)) /\ average_over_orders 5 v = 24 / 25) /\
  (exists v, (forall q, is_perm 5 q -> call UDcovSqr (env_R true) (permute_sample q xs) ys 1 MMergesort CCompileCpu = Ok (v q)) /\ v (seq 0 5) = 8 / 15 /\ average_over_orders 5 v = 0) /\
  (exists v, (forall q, is_perm 5 q -> exists t s,
     outcome (distance_covariance_test (env_R true) reversing (permute_sample q xs) ys 9 1 (RSeed 0)) = Ok (t, s) /\ statistic t = v q) /\ average_over_orders 5 v = 24 / 5) /\
  (exists v, (forall q, is_perm 5 q -> outcome (partial_distance_covariance (env_R true) (permute_sample q xs) ys zs) = Ok (v q)) /\ average_over_orders 5 v = 0) /\
  ~ constant xs /\ ~ constant ys /\ several 1 U [xs; us; ys] /\ two_samples 5 5 1 xs ys.
Proof.
  destruct mean_xs_ys as [Mx My]. split; [|split; [|split; [|split; [|split; [|split; [|split]]]]]].
  - destruct (C70_dependence DcovSqr (env_R true) xs ys 5 1 MAvl CAuto) as (v & H & A); auto using env_R_valid, xs_ys, xs_ys_avl; try lra; try exact I; try (cbn; lia).
    exists v. split; auto. rewrite A. cbn [chance]. rewrite Mx, My. cbn [INR]. field.
  - destruct (C70_dependence UDcovSqr (env_R true) xs ys 5 1 MMergesort CCompileCpu) as (v & H & A); auto using env_R_valid, xs_ys, xs_ys_mergesort; try lra; try exact I; try (cbn; lia).
    exists v. split; auto. split; auto. assert (Hi : is_perm 5 (seq 0 5)) by (unfold is_perm; auto). specialize (H _ Hi).
    change (permute_sample (seq 0 5) xs) with xs in H. rewrite (call_ok UDcovSqr _ _ _ 5) in H by (auto using env_R_valid, xs_ys, xs_ys_mergesort; (lra || (cbn; lia))).
    injection H as H. transitivity (value UDcovSqr 5 (distances 1 xs) (distances 1 ys)); [symmetry; exact H|]. rewrite (value_ext UDcovSqr 5 _ _ dx dy) by (intros; apply xs_dist || apply ys_dist; auto). apply xs_ys_cov.
  - destruct (C70_dcov_test (env_R true) reversing xs ys 5 1 9 (RSeed 0)) as (v & H & A); auto using env_R_valid, xs_ys, reversing_permuting; try lra; try lia.
    exists v. split; auto. rewrite A, Mx, My. cbn [INR]. field.
  - apply C70_partial_covariance; [apply env_R_valid|]. destruct xs_ys as (A1 & A2 & A3 & A4 & A5), xs_zs as (_ & B2 & _ & B4 & _). repeat split; auto.
  - intros C. specialize (C 0 1 ltac:(cbn; lia) ltac:(cbn; lia) 0 ltac:(cbn; lia))%nat. cbn in C. lra.
  - intros C. specialize (C 0 1 ltac:(cbn; lia) ltac:(cbn; lia) 0 ltac:(cbn; lia))%nat. cbn in C. lra.
  - apply C28_meets.
  - repeat split; cbn; auto.
Qed.
