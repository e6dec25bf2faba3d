(** C80: the power of the test of homogeneity with any number of samples.

    Two of the samples are drawn from different distributions; the others are arbitrary data. *)
From Coq Require Import Reals Lra Lia List Arith Bool ZArith Permutation.
From Verif Require Import Num Numpy MUtils MDistances MMergesort MInternals MDcor MEnergy MHypothesis MHomogeneity MIndependence
  Sums Spec Centering Tab Samples Api RefDist RefDcor RefCenter RefApi SpecFacts Invariance RefEnergy RefTests RefHomogeneity Exchange PermMean
  Empirical PEmpirical Expect Consist PopMath PopIndep Nonneg EnergyMath Witness PEnergy PTests PValidity PPermMean PUnbiased PConsist PPower.
Import List ListNotations.
Local Open Scope R_scope.

(** No two observations of the samples are further apart than [M] (to the power [e]). *)
Definition near (M e : R) (p : nat) (samples : list (array R)) : Prop :=
  forall a c r s, In a samples -> In c samples -> (r < shape0 a)%nat -> (s < shape0 c)%nat -> rpow (dist p (obs a r) (obs c s)) e <= M.

(** Samples of two or more observations with [p] columns. *)
Definition usable (p : nat) (samples : list (array R)) : Prop := Forall (fun a => wf a /\ ncols a = p /\ (2 <= shape0 a)%nat) samples.

Lemma usable_several p es samples : (2 <= length samples)%nat -> usable p samples -> several p es samples.
Proof.
  intros H2 H. split; auto. eapply Forall_impl; [|exact H]. cbn. intros a (W & C & P). repeat split; auto.
  destruct (to_estimation es) as [[]|]; lia.
Qed.

Lemma pooled_in samples : forall i, (i < total samples)%nat -> exists a r, In a samples /\ (r < shape0 a)%nat /\ forall k, pooled samples i k = obs a r k.
Proof.
  induction samples as [|a l IH]; intros i Hi; [cbn in Hi; lia|]. change (total (a :: l)) with (shape0 a + total l)%nat in Hi.
  destruct (Nat.ltb_spec i (shape0 a)) as [H|H].
  - exists a, i. split; [left; auto|]. split; auto. intros k. cbn [pooled]. destruct (Nat.ltb_spec i (shape0 a)); [reflexivity|lia].
  - destruct (IH (i - shape0 a)%nat) as (c & r & Hc & Hr & He); [lia|]. exists c, r. split; [right; auto|]. split; auto.
    intros k. cbn [pooled]. destruct (Nat.ltb_spec i (shape0 a)); [lia|]. apply He.
Qed.

Lemma pooled_near M e p samples i j : near M e p samples -> (i < total samples)%nat -> (j < total samples)%nat ->
  0 <= dmat e p (pooled samples) i j <= M.
Proof.
  intros H Hi Hj. split; [apply rpow_nonneg|]. unfold dmat.
  destruct (pooled_in samples i Hi) as (a & r & Ha & Hr & Ea). destruct (pooled_in samples j Hj) as (c & s & Hc & Hs & Ec).
  rewrite (dist_ext p _ _ (obs a r) (obs c s)) by auto. apply H; auto.
Qed.

(** What the V-statistic of a pair may exceed the U-statistic by, and that for all pairs. *)
Definition slack (st : estimation_stat) (M : R) (k : nat) : R := match st with UStatistic => 4 * M * pairs k | VStatistic => 0 end.

Section Fixed.
  Variable (E : Env R) (p : nat) (samples : list (array R)) (e : R).
  Hypothesis (HE : valid_env E) (H2 : (2 <= length samples)%nat) (HU : usable p samples) (He : 0 < e < 2).
  Let k := length samples.
  Let N := total samples.
  Let size i := shape0 (sample samples i).
  Let c i j := INR (size i * size j) / INR (size i + size j).
  Let V i j := energy e p (size i) (size j) (obs (sample samples i)) (obs (sample samples j)).

  Lemma usable_at l i : usable p l -> (i < length l)%nat -> wf (sample l i) /\ ncols (sample l i) = p /\ (2 <= shape0 (sample l i))%nat.
  Proof. intros H Hi. unfold usable in H. rewrite Forall_forall in H. apply H, nth_In, Hi. Qed.

  Lemma pair_terms l st i j : usable p l -> (i < length l)%nat -> (j < length l)%nat ->
    let n := shape0 (sample l i) in let m := shape0 (sample l j) in
    pair_value E None st n m (distances e (sample l i)) (distances e (sample l j)) (cross e (sample l i) (sample l j))
    = INR (n * m) / INR (n + m) * block_energy st n m (dmat e p (obs (sample l i))) (dmat e p (obs (sample l j)))
        (fun r s => rpow (dist p (obs (sample l i) r) (obs (sample l j) s)) e).
  Proof.
    intros H Hi Hj n m. destruct (usable_at l i H Hi) as (_ & C1 & _). destruct (usable_at l j H Hj) as (_ & C2 & _).
    rewrite pair_value_mean by auto. unfold distances, cross. rewrite C1, C2. reflexivity.
  Qed.

  Lemma coefficient_bounds n m : (2 <= n)%nat -> (2 <= m)%nat -> 0 < INR (n * m) / INR (n + m) /\
    INR (n * m) / INR (n + m) * (/ (INR n - 1) + / (INR m - 1)) <= 4.
  Proof.
    intros Hn Hm. assert (2 <= INR n) by (apply (le_INR 2); auto). assert (2 <= INR m) by (apply (le_INR 2); auto).
    rewrite mult_INR, plus_INR. split; [apply Rdiv_lt_0_compat; nra|].
    assert (G : forall a d, 2 <= a -> 2 <= d -> a * d / (a + d) * / (a - 1) <= 2).
    { intros a d Ha Hd. apply Rmult_le_reg_r with ((a + d) * (a - 1)); [nra|].
      replace (a * d / (a + d) * / (a - 1) * ((a + d) * (a - 1))) with (a * d) by (field; lra). nra. }
    pose proof (G (INR n) (INR m) ltac:(auto) ltac:(auto)). pose proof (G (INR m) (INR n) ltac:(auto) ltac:(auto)) as G2.
    rewrite (Rmult_comm (INR m)), (Rplus_comm (INR m)) in G2. lra.
  Qed.

  (** Resampled statistics are at most the V-statistics, which are not negative. *)
  Lemma regrouped_below l st : usable p l -> sum_of_pairs E e None st l <= sum_of_pairs E e None VStatistic l /\ 0 <= sum_of_pairs E e None VStatistic l.
  Proof.
    intros H. unfold sum_of_pairs. split.
    - apply rsum_le. intros i Hi. apply rsum_le. intros j Hj. destruct (Nat.ltb i j); [|lra]. rewrite !pair_terms by auto.
      destruct (usable_at l i H Hi) as (_ & _ & P1). destruct (usable_at l j H Hj) as (_ & _ & P2).
      apply Rmult_le_compat_l; [left; apply coefficient_bounds; auto|].
      apply block_below; auto; try apply dmat_symmetric; try apply dmat_hollow; intros; apply rpow_nonneg.
    - apply rsum_nonneg. intros i Hi. apply rsum_nonneg. intros j Hj. destruct (Nat.ltb i j); [|lra]. rewrite !pair_terms by auto.
      destruct (usable_at l i H Hi) as (_ & _ & P1). destruct (usable_at l j H Hj) as (_ & _ & P2).
      apply Rmult_le_pos; [left; apply coefficient_bounds; auto|]. apply (energy_nonneg e p _ _ (obs (sample l i)) (obs (sample l j))); lra || lia.
  Qed.

  (** The observed statistic is at least that of one pair. *)
  Lemma observed_above st M a d : near M e p samples -> (a < d < k)%nat -> c a d * V a d - slack st M k <= sum_of_pairs E e None st samples.
  Proof.
    intros HM Had.
    assert (M0 : 0 <= M).
    { destruct (usable_at samples a HU) as (_ & _ & P); [unfold k in *; lia|]. eapply Rle_trans; [|apply (HM (sample samples a) (sample samples a) 0%nat 0%nat); try (apply nth_In; unfold k in *; lia); lia].
      apply rpow_nonneg. }
    set (cut := match st with UStatistic => 4 * M | VStatistic => 0 end).
    assert (C0 : 0 <= cut) by (unfold cut; destruct st; lra).
    assert (B : forall i j, (i < k)%nat -> (j < k)%nat -> c i j * V i j - cut <= pair_value E None st (size i) (size j) (distances e (sample samples i)) (distances e (sample samples j)) (cross e (sample samples i) (sample samples j))).
    { intros i j Hi Hj. unfold size. rewrite pair_terms by auto. fold (size i) (size j) (c i j).
      destruct (usable_at samples i HU Hi) as (_ & _ & P1). destruct (usable_at samples j HU Hj) as (_ & _ & P2).
      destruct (coefficient_bounds (size i) (size j) P1 P2) as [G1 G2]. fold (c i j) in G1, G2.
      pose proof (block_above st (size i) (size j) (dmat e p (obs (sample samples i))) (dmat e p (obs (sample samples j)))
        (fun r s => rpow (dist p (obs (sample samples i) r) (obs (sample samples j) s)) e) M P1 P2) as G.
      assert (G' : V i j - match st with UStatistic => M / (INR (size i) - 1) + M / (INR (size j) - 1) | VStatistic => 0 end
        <= block_energy st (size i) (size j) (dmat e p (obs (sample samples i))) (dmat e p (obs (sample samples j)))
        (fun r s => rpow (dist p (obs (sample samples i) r) (obs (sample samples j) s)) e)).
      { apply G; auto; try apply dmat_symmetric; try apply dmat_hollow; intros r s Hr Hs; (split; [apply rpow_nonneg|]); apply HM; auto; apply nth_In; auto. }
      apply (Rmult_le_compat_l (c i j)) in G'; [|lra]. eapply Rle_trans; [|exact G']. unfold cut. destruct st; [|lra].
      replace (c i j * (V i j - (M / (INR (size i) - 1) + M / (INR (size j) - 1)))) with (c i j * V i j - M * (c i j * (/ (INR (size i) - 1) + / (INR (size j) - 1)))) by (unfold Rdiv; ring).
      assert (M * (c i j * (/ (INR (size i) - 1) + / (INR (size j) - 1))) <= M * 4) by (apply Rmult_le_compat_l; auto). lra. }
    assert (B0 : forall i j, (i < k)%nat -> (j < k)%nat -> 0 <= c i j * V i j).
    { intros i j Hi Hj. destruct (usable_at samples i HU Hi) as (_ & _ & P1). destruct (usable_at samples j HU Hj) as (_ & _ & P2).
      apply Rmult_le_pos; [left; apply coefficient_bounds; auto|]. apply energy_nonneg; unfold size; lra || lia. }
    unfold sum_of_pairs. fold k.
    apply Rle_trans with (rsum2 k k (fun i j => (if Nat.eqb i a then if Nat.eqb j d then c a d * V a d else 0 else 0) - (if Nat.ltb i j then 1 else 0) * cut)).
    - rewrite rsum2_minus, rsum2_scal_r, count_upper. right. f_equal.
      + unfold rsum2. rewrite (rsum_ext k _ (fun i => if Nat.eqb i a then c a d * V a d else 0)).
        * rewrite (rsum_delta k a (fun _ => c a d * V a d)) by lia. reflexivity.
        * intros i Hi. destruct (Nat.eqb i a); [apply (rsum_delta k d (fun _ => c a d * V a d)); lia|rewrite rsum_const; ring].
      + unfold slack, cut, pairs. destruct st; field.
    - apply rsum_le. intros i Hi. apply rsum_le. intros j Hj. fold (size i) (size j). pose proof (B i j Hi Hj). pose proof (B0 i j Hi Hj).
      destruct (Nat.eqb_spec i a), (Nat.eqb_spec j d), (Nat.ltb_spec i j); subst; try lia; lra.
  Qed.

  Lemma many_miss b alpha st M a d h : near M e p samples -> (a < d < k)%nat -> 1 / (1 + INR b) <= alpha -> 0 < h -> h <= c a d * V a d - slack st M k ->
    share_of_runs N b (fun r => negb (leb (p_value (sum_of_pairs E e None st samples) (map (fun q => sum_of_pairs E e None st (regroup p q samples)) r)) alpha))
    <= INR b * (pairs k * M / h).
  Proof.
    intros HM Had Ha Hh Hc. pose proof (observed_above st M a d HM Had) as HO.
    assert (Hw : well_formed p samples) by (eapply Forall_impl; [|exact HU]; cbn; tauto).
    assert (Hr : forall q, is_perm N q -> usable p (regroup p q samples)).
    { intros q Hq. destruct (regroup_props p q samples Hw Hq) as (R1 & R2 & _). apply Forall_forall. intros x Hx.
      unfold well_formed in R2. rewrite Forall_forall in R2. destruct (R2 x Hx). repeat split; auto.
      assert (In (shape0 x) (map shape0 samples)) as Hin by (rewrite <- R1; apply in_map; auto). apply in_map_iff in Hin as (y & <- & Hy).
      unfold usable in HU. rewrite Forall_forall in HU. apply HU; auto. }
    eapply Rle_trans; [apply (miss_share N b _ (fun q => sum_of_pairs E e None VStatistic (regroup p q samples)) _ h alpha); auto|].
    - intros q Hq. apply (regrouped_below _ st). auto.
    - intros q Hq Hlt. destruct (regrouped_below (regroup p q samples) st (Hr q Hq)). lra.
    - apply Rmult_le_compat_l; [apply pos_INR|]. unfold Rdiv. apply Rmult_le_compat_r; [left; apply Rinv_0_lt_compat; auto|].
      destruct (C70_energy_test E replay p samples e 0 (RState []) (EstEnum VStatistic) VStatistic) as (v0 & Hv0 & Av);
        auto using replay_permuting, usable_several; [lra|].
      fold N k in Hv0, Av. apply Rle_trans with (average_over_orders N v0).
      + right. change (average_over_orders N) with (perm_average N). apply perm_average_ext. intros q Hq. destruct (Hv0 q Hq) as (t & g & Ht & <-).
        destruct (regroup_props p q samples Hw Hq) as (R1 & _).
        assert (L : length (regroup p q samples) = length samples) by (rewrite <- (map_length shape0 (regroup p q samples)), R1; apply map_length).
        rewrite (energy_test_stats E replay p _ e 0 _ None (EstEnum VStatistic) VStatistic) in Ht; auto using replay_permuting; [|apply usable_several; auto; lia|lra].
        injection Ht as <- _. reflexivity.
      + rewrite Av. unfold pairs. fold k. assert (2 <= INR k) by (apply (le_INR 2); auto).
        apply Rmult_le_compat_l; [nra|].
        assert (HN : (2 <= N)%nat).
        { unfold N. destruct samples as [|x l]; [cbn in H2; lia|]. change (total (x :: l)) with (shape0 x + total l)%nat.
          unfold usable in HU. inversion HU as [|? ? (_ & _ & P) _]; subst. lia. }
        apply mean_distinct_le; auto; [|apply dmat_hollow|].
        * apply (pooled_near M e p samples 0 0) in HM; unfold N in *; try lia. lra.
        * intros i j Hi Hj. apply pooled_near; auto.
  Qed.
End Fixed.

(** ** Draws *)

(** The sample that contains every possible point once. *)
Definition possible (K p : nat) (X : nat -> nat -> R) : array R := drawn Numpy F64 K p X (fun k => k).

Lemma near_drawn M e p l1 l2 l3 K L X Y ns dt ns' dt' n m s u : near M e p (l1 ++ possible K p X :: l2 ++ possible L p Y :: l3) ->
  (forall i, (s i < K)%nat) -> (forall j, (u j < L)%nat) -> near M e p (l1 ++ drawn ns dt n p X s :: l2 ++ drawn ns' dt' m p Y u :: l3).
Proof.
  intros H Hs Hu.
  assert (G : forall a r, In a (l1 ++ drawn ns dt n p X s :: l2 ++ drawn ns' dt' m p Y u :: l3) -> (r < shape0 a)%nat ->
    exists a' r', In a' (l1 ++ possible K p X :: l2 ++ possible L p Y :: l3) /\ (r' < shape0 a')%nat /\ forall k, (k < p)%nat -> obs a r k = obs a' r' k).
  { intros a r Ha Hr. rewrite !in_app_iff in *. cbn [In] in *. rewrite !in_app_iff in *. cbn [In] in *.
    destruct Ha as [Ha|[Ha|[Ha|[Ha|Ha]]]].
    - exists a, r. rewrite in_app_iff. auto.
    - subst a. rewrite drawn_shape in Hr. exists (possible K p X), (s r). rewrite in_app_iff. cbn [In]. split; [auto|]. unfold possible. rewrite drawn_shape. split; [apply Hs|].
      intros k Hk. rewrite !drawn_obs by auto. reflexivity.
    - exists a, r. rewrite in_app_iff. cbn [In]. rewrite in_app_iff. auto 6.
    - subst a. rewrite drawn_shape in Hr. exists (possible L p Y), (u r). rewrite in_app_iff. cbn [In]. rewrite in_app_iff. cbn [In]. split; [auto 8|]. unfold possible. rewrite drawn_shape. split; [apply Hu|].
      intros k Hk. rewrite !drawn_obs by auto. reflexivity.
    - exists a, r. rewrite in_app_iff. cbn [In]. rewrite in_app_iff. cbn [In]. auto 8. }
  intros a c r q Ha Hc Hr Hq. destruct (G a r Ha Hr) as (a' & r' & Ha' & Hr' & Ea). destruct (G c q Hc Hq) as (c' & q' & Hc' & Hq' & Ec).
  rewrite (dist_ext p _ _ (obs a' r') (obs c' q')) by auto. apply H; auto.
Qed.

(** Among any other samples of bounded data ([l1] before, [l2] between, [l3] after) there are two that are drawn from different
    distributions: the test rejects except with a probability of the order of 1/n + 1/m. *)
Theorem C80_rate E K L w v X Y p ns dt ns' dt' n m l1 l2 l3 M e b alpha st : valid_env E -> distribution K w -> distribution L v ->
  (2 <= n)%nat -> (2 <= m)%nat -> 0 < e < 2 -> ~ same_law p K L w v X Y -> 1 / (1 + INR b) <= alpha ->
  usable p (l1 ++ l2 ++ l3) -> near M e p (l1 ++ possible K p X :: l2 ++ possible L p Y :: l3) ->
  let samples s u := l1 ++ drawn ns dt n p X s :: l2 ++ drawn ns' dt' m p Y u :: l3 in
  let N := (n + m + total (l1 ++ l2 ++ l3))%nat in
  let k := (2 + length (l1 ++ l2 ++ l3))%nat in
  let pop := population_energy e p K L w v X Y in
  let h := INR (n * m) / INR (n + m) * (pop / 2) - slack st M k in
  0 < pop /\
  exists t, (forall s u r, length r = b -> Forall (is_perm N) r -> exists g, energy_test_on E e None (EstEnum st) (samples s u) (Z.of_nat b) r = Ok (t s u r, g)) /\
  (0 < h -> 1 - 128 * M ^ 2 * (INR K / INR n + INR L / INR m) / pop ^ 2 - INR b * (pairs k * M / h)
  <= expect K w n (fun s => expect L v m (fun u => share_of_runs N b (fun r => leb (pvalue (t s u r)) alpha)))).
Proof.
  intros HE Hw Hv Hn Hm He Hi Ha HU HM samples N k pop h.
  pose proof (atoms_pos K w Hw) as HK. pose proof (atoms_pos L v Hv) as HL.
  assert (Hp : 0 < pop).
  { destruct (population_energy_nonneg e p K L w v X Y Hw Hv) as [|Z0]; [lra|auto|]. exfalso. apply Hi.
    apply (population_energy_zero_iff e p K L w v X Y Hw Hv He); auto. }
  split; auto.
  assert (HU' : forall s u, usable p (samples s u)).
  { intros s u. unfold usable in *. rewrite !Forall_app in HU. destruct HU as (U1 & U2 & U3). unfold samples. rewrite Forall_app. split; auto.
    constructor; [repeat split; auto using drawn_wf; rewrite drawn_shape; auto|]. rewrite Forall_app. split; auto.
    constructor; [repeat split; auto using drawn_wf; rewrite drawn_shape; auto|auto]. }
  assert (Hlen : forall s u, length (samples s u) = k).
  { intros s u. unfold samples, k. rewrite !app_length. cbn [length]. rewrite !app_length. cbn [length]. lia. }
  assert (Htot : forall s u, total (samples s u) = N).
  { intros s u. unfold samples, N, total. rewrite !map_app, !list_sum_app. cbn [map list_sum fold_right]. change (fold_right Nat.add 0%nat) with list_sum.
    rewrite !map_app, !list_sum_app. cbn [map list_sum fold_right]. change (fold_right Nat.add 0%nat) with list_sum. rewrite !drawn_shape. lia. }
  assert (Hsev : forall s u es, several p es (samples s u)) by (intros; apply usable_several; auto; rewrite Hlen; unfold k; lia).
  set (obs0 := fun s u => sum_of_pairs E e None st (samples s u)).
  set (f := fun s u q => sum_of_pairs E e None st (regroup p q (samples s u))).
  exists (fun s u r => mkTest (p_value (obs0 s u) (map (f s u) r)) (obs0 s u)). split.
  - intros s u r Lr Fr. unfold energy_test_on. rewrite (energy_test_stats E replay p _ e b _ None (EstEnum st) st) by (auto using replay_permuting; lra).
    cbn [random_state_init]. rewrite Htot, <- Lr, replay_draw by auto. cbn [fst snd]. eexists. reflexivity.
  - intros Hh. set (V := fun s u => energy e p n m (fun i => X (s i)) (fun j => Y (u j))).
    assert (HXY : forall a c, (a < K)%nat -> (c < L)%nat -> rpow (dist p (X a) (Y c)) e <= M).
    { intros a c Ha' Hc. rewrite <- (drawn_rpow e p K L X Y Numpy F64 Numpy F64 (fun k => k) (fun k => k)) by auto.
      apply HM; try (rewrite drawn_shape; auto); rewrite in_app_iff; cbn [In]; rewrite in_app_iff; cbn [In]; unfold possible; auto 8. }
    assert (HX : within e p K X M).
    { intros a c Ha' Hc. rewrite <- (drawn_rpow e p K K X X Numpy F64 Numpy F64 (fun k => k) (fun k => k)) by auto.
      apply HM; try (rewrite drawn_shape; auto); rewrite in_app_iff; cbn [In]; unfold possible; auto 8. }
    assert (HY : within e p L Y M).
    { intros a c Ha' Hc. rewrite <- (drawn_rpow e p L L Y Y Numpy F64 Numpy F64 (fun k => k) (fun k => k)) by auto.
      apply HM; try (rewrite drawn_shape; auto); rewrite in_app_iff; cbn [In]; rewrite in_app_iff; cbn [In]; unfold possible; auto 8. }
    assert (HM0 : 0 <= M) by (eapply Rle_trans; [apply (rpow_nonneg (dist p (X O) (X O)) e)|apply HX; auto]).
    assert (Hk2 : 2 <= INR k) by (apply (le_INR 2); unfold k; lia).
    set (d := INR b * (pairs k * M / h)).
    assert (Hd : 0 <= d).
    { unfold d, pairs. apply Rmult_le_pos; [apply pos_INR|]. apply Rmult_le_pos; [|left; apply Rinv_0_lt_compat; auto]. apply Rmult_le_pos; [nra|auto]. }
    pose proof (energy_probability e p K L w v X Y M Hw Hv HXY HX HY n m (pop / 2) ltac:(lia) ltac:(lia) ltac:(lra)) as Bd. cbv beta in Bd.
    fold pop in Bd. change (expect K w n (fun s => probability L v m (fun u => far (pop / 2) (V s u) pop))
      <= 32 * M ^ 2 * (INR K / INR n + INR L / INR m) / (pop / 2) ^ 2) in Bd.
    assert (2 <= INR n) by (apply (le_INR 2); auto). assert (2 <= INR m) by (apply (le_INR 2); auto).
    replace (32 * M ^ 2 * (INR K / INR n + INR L / INR m) / (pop / 2) ^ 2) with (128 * M ^ 2 * (INR K / INR n + INR L / INR m) / pop ^ 2) in Bd by (field; lra).
    enough (G : 1 <= expect K w n (fun s => expect L v m (fun u => share_of_runs N b (fun r => leb (pvalue (mkTest (p_value (obs0 s u) (map (f s u) r)) (obs0 s u))) alpha)))
      + expect K w n (fun s => probability L v m (fun u => far (pop / 2) (V s u) pop) + d)).
    { rewrite expect_plus, (expect_const K w (proj2 Hw) n d) in G. unfold d in *. lra. }
    apply expect_cover; auto. intros s Hs. unfold probability. rewrite <- (expect_const L v (proj2 Hv) m d), <- expect_plus.
    apply expect_cover; auto. intros u Hu. cbn [pvalue]. rewrite share_not.
    match goal with |- 1 <= 1 - ?a + ?b => enough (a <= b) by lra end.
    unfold far. destruct (Rle_dec (pop / 2) (Rabs (V s u - pop))) as [F|F].
    + eapply Rle_trans; [apply share_range|]. lra.
    + assert (HV : pop / 2 <= V s u) by (apply Rnot_le_lt, Rabs_def2 in F; lra). rewrite Rplus_0_l. rewrite <- (Htot s u). unfold d, obs0, f. rewrite <- (Hlen s u).
      assert (S1 : sample (samples s u) (length l1) = drawn ns dt n p X s) by (unfold sample, samples; apply nth_middle).
      assert (S2 : sample (samples s u) (length l1 + S (length l2)) = drawn ns' dt' m p Y u).
      { unfold sample, samples. rewrite app_nth2 by lia. replace (length l1 + S (length l2) - length l1)%nat with (S (length l2)) by lia. cbn [nth]. apply nth_middle. }
      apply (many_miss E p (samples s u) e HE ltac:(rewrite Hlen; unfold k; lia) (HU' s u) He b alpha st M (length l1) (length l1 + S (length l2))); auto.
      * apply (near_drawn M e p l1 l2 l3 K L X Y); auto.
      * rewrite Hlen. unfold k. rewrite !app_length. lia.
      * rewrite S1, S2, !drawn_shape, Hlen, energy_drawn. fold (V s u). unfold h.
        assert (0 < INR (n * m) / INR (n + m)) as Hc by (apply coefficient_bounds; auto). nra.
Qed.

(** The power tends to 1 when the sizes of the two samples grow, uniformly in the data of the other samples. *)
Theorem C80_power E K L w v X Y p ns dt ns' dt' e b alpha st M others : valid_env E -> distribution K w -> distribution L v -> 0 < e < 2 ->
  ~ same_law p K L w v X Y -> 1 / (1 + INR b) <= alpha ->
  forall delta, 0 < delta -> exists N0, forall n m l1 l2 l3, (N0 <= n)%nat -> (N0 <= m)%nat -> length (l1 ++ l2 ++ l3) = others ->
    usable p (l1 ++ l2 ++ l3) -> near M e p (l1 ++ possible K p X :: l2 ++ possible L p Y :: l3) ->
    let samples s u := l1 ++ drawn ns dt n p X s :: l2 ++ drawn ns' dt' m p Y u :: l3 in
    let N := (n + m + total (l1 ++ l2 ++ l3))%nat in
    exists t, (forall s u r, length r = b -> Forall (is_perm N) r -> exists g, energy_test_on E e None (EstEnum st) (samples s u) (Z.of_nat b) r = Ok (t s u r, g)) /\
    1 - delta <= expect K w n (fun s => expect L v m (fun u => share_of_runs N b (fun r => leb (pvalue (t s u r)) alpha))).
Proof.
  intros HE Hw Hv He Hi Ha delta Hd.
  set (pop := population_energy e p K L w v X Y).
  assert (Hp : 0 < pop).
  { destruct (population_energy_nonneg e p K L w v X Y Hw Hv) as [|Z0]; [lra|auto|]. exfalso. apply Hi.
    apply (population_energy_zero_iff e p K L w v X Y Hw Hv He); auto. }
  set (k := (2 + others)%nat). set (sl := slack st M k).
  destruct (eventually_small (128 * M ^ 2 * INR K / pop ^ 2) (delta / 4)) as (N1 & HN1 & H1); [lra|].
  destruct (eventually_small (128 * M ^ 2 * INR L / pop ^ 2) (delta / 4)) as (N2 & HN2 & H2); [lra|].
  destruct (eventually_small (INR b * (pairs k * M) * (8 / pop)) (delta / 4)) as (N3 & HN3 & H3); [lra|].
  destruct (eventually_small (sl * (8 / pop)) 1) as (N4 & HN4 & H4); [lra|].
  exists (2 + N1 + N2 + N3 + N4)%nat. intros n m l1 l2 l3 Hn Hm Hl HU HM samples N.
  destruct (C80_rate E K L w v X Y p ns dt ns' dt' n m l1 l2 l3 M e b alpha st) as (_ & t & Ht & Hb); auto; try lia.
  exists t. split; [exact Ht|]. fold pop N in Hb. rewrite Hl in Hb. fold k sl in Hb.
  assert (2 <= INR n) by (apply (le_INR 2); lia). assert (2 <= INR m) by (apply (le_INR 2); lia).
  assert (M0 : 0 <= M).
  { pose proof (atoms_pos K w Hw) as HK. eapply Rle_trans; [apply (rpow_nonneg (dist p (obs (possible K p X) 0) (obs (possible K p X) 0)) e)|].
    apply HM; unfold possible; rewrite ?drawn_shape; auto; rewrite in_app_iff; cbn [In]; auto. }
  assert (Hk2 : 2 <= INR k) by (apply (le_INR 2); unfold k; lia).
  set (q := Nat.min n m). specialize (H1 n ltac:(lia)). specialize (H2 m ltac:(lia)). specialize (H3 q ltac:(lia)). specialize (H4 q ltac:(lia)).
  assert (Q2 : 2 <= INR q) by (apply (le_INR 2); lia).
  assert (Hc : INR q / 2 <= INR (n * m) / INR (n + m)).
  { rewrite mult_INR, plus_INR. assert (INR q <= INR n) by (apply le_INR; lia). assert (INR q <= INR m) by (apply le_INR; lia).
    apply Rmult_le_reg_r with (INR n + INR m); [lra|]. replace (INR n * INR m / (INR n + INR m) * (INR n + INR m)) with (INR n * INR m) by (field; lra). nra. }
  assert (Sl : sl <= INR q * (pop / 8)).
  { apply Rmult_le_reg_r with (8 / pop / INR q); [apply Rdiv_lt_0_compat; [apply Rdiv_lt_0_compat|]; lra|].
    replace (INR q * (pop / 8) * (8 / pop / INR q)) with 1 by (field; lra).
    replace (sl * (8 / pop / INR q)) with (sl * (8 / pop) / INR q) by (field; lra). lra. }
  set (h := INR (n * m) / INR (n + m) * (pop / 2) - sl) in *.
  assert (Hh : INR q * (pop / 8) <= h) by (unfold h; nra).
  assert (Hq : 0 < INR q * (pop / 8)) by nra.
  assert (Hh0 : 0 < h) by lra. specialize (Hb Hh0). eapply Rle_trans; [|exact Hb].
  assert (Bq : INR b * (pairs k * M / h) <= INR b * (pairs k * M) * (8 / pop) / INR q).
  { replace (INR b * (pairs k * M) * (8 / pop) / INR q) with (INR b * (pairs k * M / (INR q * (pop / 8)))) by (field; lra).
    apply Rmult_le_compat_l; [apply pos_INR|]. unfold Rdiv. apply Rmult_le_compat_l; [apply Rmult_le_pos; auto; unfold pairs; nra|].
    apply Rinv_le_contravar; auto. }
  replace (128 * M ^ 2 * (INR K / INR n + INR L / INR m) / pop ^ 2) with (128 * M ^ 2 * INR K / pop ^ 2 / INR n + 128 * M ^ 2 * INR L / pop ^ 2 / INR m) by (field; lra).
  lra.
Qed.

(** A fair coin and one that shows 1 three times out of four, beside the fixed sample 0, 1, 0: 19 resamples, level 5 %. *)
Definition bits_sample : array R := mkArr Numpy F64 (Mat 1 [[0]; [1]; [0]]).
Example C80_meets : exists N0, forall n m, (N0 <= n)%nat -> (N0 <= m)%nat ->
  let samples s u := [drawn Numpy F64 n 1 coin s; bits_sample; drawn Numpy F64 m 1 coin u] in
  exists t, (forall s u r, length r = 19%nat -> Forall (is_perm (n + m + 3)) r ->
    exists g, energy_test_on (env_R true) 1 None (EstEnum UStatistic) (samples s u) (Z.of_nat 19) r = Ok (t s u r, g)) /\
  99 / 100 <= expect 2 (fun _ => 1 / 2) n (fun s => expect 2 (fun k => if Nat.eqb k 0 then 1 / 4 else 3 / 4) m (fun u =>
      share_of_runs (n + m + 3) 19 (fun r => leb (pvalue (t s u r)) (1 / 20)))).
Proof.
  destruct (C80_power (env_R true) 2 2 (fun _ => 1 / 2) (fun k => if Nat.eqb k 0 then 1 / 4 else 3 / 4) coin coin 1 Numpy F64 Numpy F64 1 19 (1 / 20) UStatistic 1 1)
    with (delta := 1 / 100) as (N0 & HN); auto using env_R_valid; try lra.
  - split; [intros; lra|cbn; lra].
  - split; [intros k _; destruct (Nat.eqb k 0); lra|cbn; lra].
  - intros H. specialize (H (fun _ => 0)). unfold prob_at, coin, same_pointb in H. cbn in H. destruct (Req_EM_T 0 0), (Req_EM_T 1 0); cbn in H; lra.
  - right. cbn. lra.
  - exists N0. intros n m Hn Hm. destruct (HN n m [] [bits_sample] []) as (t & Ht & Hb); auto.
    + repeat constructor.
    + assert (B : forall a r, In a [possible 2 1 coin; bits_sample; possible 2 1 coin] -> (r < shape0 a)%nat -> obs a r 0%nat = 0 \/ obs a r 0%nat = 1).
      { intros a r [<-|[<-|[<-|[]]]] Hr; cbn in Hr; destruct r as [|[|[|r]]]; try lia; cbn; auto. }
      intros a c r s Ha Hc Hr Hs. rewrite dist_1, rpow_1 by apply Rabs_pos.
      destruct (B a r Ha Hr) as [-> | ->], (B c s Hc Hs) as [-> | ->]; rewrite ?Rminus_eq_0, ?Rabs_R0, ?Rminus_0_l, ?Rminus_0_r, ?Rabs_Ropp, ?Rabs_R1; lra.
    + exists t. split; [exact Ht|]. replace (99 / 100) with (1 - 1 / 100) by lra. exact Hb.
Qed.
