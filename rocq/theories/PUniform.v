(** C79: without ties the p-values of the permutation tests are exactly uniform.

    [count_if f l]: how many members of [l] satisfy [f]; [words k l]: the sequences of [k] members of [l]; [all_perms n]: the orders
    of [n] observations (Exchange.v, PermMean.v); [run_stats], [run_p]: the statistics and the p-value of a run (PValidity.v);
    [share_of_runs n b good]: the share of the sequences of [b] orders that are [good] (PPower.v); [expect K w n f]: the mean
    of [f] over [n] independent draws of a variable with the probabilities [w] (Expect.v). *)
From Coq Require Import Reals Lra Lia List Arith Bool ZArith Permutation FunctionalExtensionality.
From Flocq Require Import Core IEEE754.BinarySingleNaN.
From Verif Require Import Num Numpy MUtils MDistances MMergesort MInternals MDcor MEnergy MHypothesis MHomogeneity MIndependence
  Sums Spec Centering Tab Samples Api RefDist RefDcor RefCenter RefApi SpecFacts Invariance RefEnergy RefTests RefHomogeneity Exchange PermMean
  Empirical PEmpirical Expect Consist PopMath PopIndep Nonneg EnergyMath Witness PEnergy PTests PValidity PPermMean PUnbiased PConsist PPower PLevel
  MFloat RefFloat FloatApi FloatEnv FloatTStat PNaiveFloat PFloatTests PFloatLevel.
Import List ListNotations.
Local Open Scope R_scope.

(** ** Ranks *)

(** In a vector without ties the ranks 1, ..., n each occur once. *)
Lemma ranks_all w : NoDup w -> Permutation (map (fun k => S (above (nth k w 0) w)) (seq 0 (length w))) (seq 1 (length w)).
Proof.
  intros Hn. apply NoDup_Permutation_bis.
  - apply NoDup_map_in; [apply seq_NoDup|]. intros k k' Hk Hk' He. apply in_seq in Hk, Hk'. injection He as He.
    destruct (Rtotal_order (nth k w 0) (nth k' w 0)) as [H|[H|H]].
    + apply (above_lt w) in H; [lia|apply nth_In; lia].
    + rewrite (NoDup_nth w 0) in Hn. apply Hn in H; auto; lia.
    + apply (above_lt w) in H; [lia|apply nth_In; lia].
  - rewrite map_length, !seq_length. lia.
  - intros a Ha. apply in_map_iff in Ha as (k & <- & Hk). apply in_seq in Hk. apply in_seq. split; [lia|].
    assert (above (nth k w 0%R) w < length w)%nat; [|lia].
    assert (Hin : In (nth k w 0) w) by (apply nth_In; lia). revert Hin. generalize (nth k w 0). intros v Hv. clear Hn Hk.
    unfold above, count_if. induction w as [|c w IH]; [destruct Hv|]. cbn [filter length].
    assert (L : (length (filter (fun b => if Rlt_dec v b then true else false) w) <= length w)%nat)
      by (clear; induction w as [|c w IH]; cbn [filter length]; auto; destruct (Rlt_dec v c); cbn [length]; lia).
    destruct Hv as [->|Hv].
    + destruct (Rlt_dec v v); [exfalso; lra|lia].
    + specialize (IH Hv). destruct (Rlt_dec v c); cbn [length]; lia.
Qed.

Lemma rank_exact w j : NoDup w -> (j <= length w)%nat ->
  count_if (fun k => Nat.leb (S (above (nth k w 0) w)) j) (seq 0 (length w)) = j.
Proof.
  intros Hn Hj. rewrite <- (count_if_map (fun k => S (above (nth k w 0) w)) (fun a => Nat.leb a j)).
  rewrite (count_if_perm _ _ _ (ranks_all w Hn)). revert Hj. generalize (length w). intros n Hj.
  replace n with (j + (n - j))%nat by lia. rewrite seq_app. unfold count_if. rewrite filter_app, app_length.
  assert (A : forall c k, (c + k <= S j)%nat -> length (filter (fun a => Nat.leb a j) (seq c k)) = k).
  { intros c k. revert c. induction k as [|k IH]; intros c Hc; cbn [seq filter]; auto.
    destruct (Nat.leb_spec c j); [|lia]. cbn [length]. rewrite IH; lia. }
  assert (B : forall c k, (j < c)%nat -> length (filter (fun a => Nat.leb a j) (seq c k)) = 0%nat).
  { intros c k. revert c. induction k as [|k IH]; intros c Hc; cbn [seq filter]; auto.
    destruct (Nat.leb_spec c j); [lia|]. apply IH. lia. }
  rewrite A, B by lia. lia.
Qed.

Lemma rank_leb a b j : leb (INR (1 + a) / INR (S b)) (INR j / INR (S b)) = Nat.leb (S a) j.
Proof.
  assert (0 < INR (S b)) as Hb by apply lt_0_INR, Nat.lt_0_succ.
  unfold leb. destruct (Rle_dec _ _) as [H|H], (Nat.leb_spec (S a) j) as [H'|H']; auto; exfalso.
  - assert (INR (1 + a) <= INR j) as G.
    { apply Rmult_le_reg_r with (/ INR (S b)); [apply Rinv_0_lt_compat; auto|exact H]. }
    apply INR_le in G. lia.
  - apply H. apply Rmult_le_compat_r; [left; apply Rinv_0_lt_compat; auto|]. apply le_INR. exact H'.
Qed.

(** ** Exchangeable vectors *)

Lemma exchangeable_exact b (W : list (list R)) j : (j <= S b)%nat ->
  (forall w, In w W -> length w = S b) -> (forall k, (k <= b)%nat -> Permutation (map (swap0 0 k) W) W) ->
  (S b * count_if (fun w => tie_free w && leb (vector_p w) (INR j / INR (S b))) W = j * count_if tie_free W)%nat.
Proof.
  intros Hj Hl Hex. set (bad := fun w => tie_free w && leb (vector_p w) (INR j / INR (S b))).
  assert (forall k, (k <= b)%nat -> count_if bad W = count_if (fun w => bad (swap0 0 k w)) W) as Hk.
  { intros k Hk. rewrite <- (count_if_map (swap0 0 k)). apply count_if_perm. symmetry. auto. }
  assert (S b * count_if bad W = list_sum (map (fun w => count_if (fun k => bad (swap0 0%R k w)) (seq 0 (S b))) W))%nat as ->.
  { rewrite (count_swap (fun w k => bad (swap0 0 k w)) W (seq 0 (S b))).
    rewrite (map_ext_in _ (fun _ => count_if bad W)) by (intros k Hin; apply in_seq in Hin; symmetry; apply Hk; lia).
    rewrite <- (seq_length (S b) 0) at 1. clear. induction (seq 0 (S b)) as [|a l IH]; cbn; auto. }
  clear Hk Hex. induction W as [|w W IH]; [cbn; lia|]. cbn [map list_sum fold_right].
  change (fold_right Nat.add 0%nat) with list_sum. rewrite IH by (intros; apply Hl; right; auto). clear IH.
  assert (length w = S b) as Hw by (apply Hl; left; auto).
  assert (count_if tie_free (w :: W) = (if tie_free w then 1 else 0) + count_if tie_free W)%nat as ->
    by (unfold count_if; cbn [filter]; destruct (tie_free w); reflexivity).
  enough (count_if (fun k => bad (swap0 0%R k w)) (seq 0 (S b)) = if tie_free w then j else 0%nat) as -> by (destruct (tie_free w); lia).
  destruct (tie_free w) eqn:Htf.
  - etransitivity; [|apply (rank_exact w j)].
    + rewrite Hw. apply count_if_ext. intros k Hin. apply in_seq in Hin. unfold bad.
      rewrite (tie_free_perm _ w) by (apply swap0_perm; lia). rewrite Htf. cbn [andb].
      rewrite vector_p_swap by lia. rewrite Hw. apply rank_leb.
    + unfold tie_free in Htf. destruct (ListDec.NoDup_dec Req_EM_T w); [auto|discriminate].
    + lia.
  - unfold count_if. rewrite (filter_ext_in _ (fun _ => false)).
    + clear. induction (seq 0 (S b)); cbn; auto.
    + intros k Hin. apply in_seq in Hin. unfold bad. rewrite (tie_free_perm _ w) by (apply swap0_perm; lia). rewrite Htf. reflexivity.
Qed.

Lemma rearrangements_exact n b (f : list nat -> R) j : (j <= S b)%nat ->
  let stats l := map f (relative l) in
  let runs := words (S b) (all_perms n) in
  (S b * count_if (fun l => tie_free (stats l) && leb (vector_p (stats l)) (INR j / INR (S b))) runs = j * count_if (fun l => tie_free (stats l)) runs)%nat.
Proof.
  intros Hj stats runs. set (W := map (map f) runs).
  assert (forall g : list R -> bool, count_if (fun l => g (stats l)) runs = count_if g W) as HW.
  { intros g. unfold W. rewrite count_if_map. unfold stats.
    rewrite <- (count_if_map relative (fun l => g (map f l)) runs). apply count_if_perm, relative_perm. }
  rewrite (HW (fun w => tie_free w && leb (vector_p w) (INR j / INR (S b)))), (HW tie_free). apply exchangeable_exact; auto.
  - intros w Hw. unfold W in Hw. apply in_map_iff in Hw as (l & <- & H). apply in_words in H as [L _]. rewrite map_length. auto.
  - intros k Hk. unfold W. set (d := @nil nat).
    assert (map (swap0 0 k) (map (map f) runs) = map (map f) (map (swap0 d k) runs)) as ->.
    { rewrite !map_map. apply map_ext_in. intros l Hin. rewrite swap0_map. apply in_words in Hin as [L _].
      destruct k as [|k]; [reflexivity|]. destruct (map f l) as [|a r] eqn:Hm; [reflexivity|]. cbn. f_equal.
      apply nth_indep. apply (f_equal (@length R)) in Hm. rewrite map_length in Hm. cbn in Hm. lia. }
    apply Permutation_map, swap_words; auto. apply NoDup_all_perms.
Qed.

(** ** Runs on fixed data *)

Section UniformRuns.
  Context {D St : Type}.
  Variable (rearrange : list nat -> D -> D) (test : D -> Z -> list (list nat) -> res (HypothesisTest R * St)).

  (** Among all equally likely runs without ties a proportion of exactly [j / (1 + b)] has a p-value of at most [j / (1 + b)]. *)
  Definition uniform_test (n b : nat) (d : D) : Prop :=
    let runs := words (1 + b) (all_perms n) in
    forall j, (j <= 1 + b)%nat ->
    INR (count_if (fun l => tie_free (run_stats rearrange test d l) && leb (run_p rearrange test d b l) (INR j / INR (1 + b))) runs)
    = INR j / INR (1 + b) * INR (count_if (fun l => tie_free (run_stats rearrange test d l)) runs).

  Lemma uniform_generic n b d f : runs_from rearrange test n d f -> uniform_test n b d.
  Proof.
    intros HF. unfold uniform_test. cbn [plus]. intros j Hj. pose proof (runs_from_vectors rearrange test n b d f HF) as H.
    rewrite (count_if_ext _ (fun l => tie_free (map f (relative l)) && leb (vector_p (map f (relative l))) (INR j / INR (S b))))
      by (intros l Hl; destruct (H l Hl) as [-> ->]; reflexivity).
    rewrite (count_if_ext (fun l => tie_free (run_stats rearrange test d l)) (fun l => tie_free (map f (relative l))))
      by (intros l Hl; destruct (H l Hl) as [-> _]; reflexivity).
    pose proof (rearrangements_exact n b f j Hj) as G. cbv zeta in G. apply (f_equal INR) in G. rewrite !mult_INR in G.
    assert (0 < INR (S b)) as Hb by apply lt_0_INR, Nat.lt_0_succ.
    apply Rmult_eq_reg_l with (INR (S b)); [|lra]. rewrite G. field. lra.
  Qed.

  Lemma level_exact K w n b j (d : (nat -> nat) -> D) : distribution K w -> (j <= 1 + b)%nat ->
    (forall s s', (forall i, (i < n)%nat -> s i = s' i) -> d s = d s') ->
    (forall s q, is_perm n q -> rearrange q (d s) = d (fun i => s (nth i q 0%nat))) ->
    (forall s, uniform_test n b (d s)) ->
    expect K w n (fun s => share_of_runs n b (fun r => tie_free (statistics rearrange test (d s) r) && leb (p_of test (d s) r) (INR j / INR (1 + b))))
    = INR j / INR (1 + b) * expect K w n (fun s => share_of_runs n b (fun r => tie_free (statistics rearrange test (d s) r))).
  Proof.
    intros HD Hj Hext Hre Hv. set (alpha := INR j / INR (1 + b)).
    assert (G : forall g : D -> list (list nat) -> bool, expect K w n (fun s => share_of_runs n b (g (d s)))
      = expect K w n (fun s => share_of_runs n (S b) (fun l => match l with [] => false | q :: r => g (rearrange q (d s)) r end))).
    { intros g. rewrite expect_orders; auto; [|intros s s' H; rewrite (Hext s s' H); reflexivity].
      apply expect_ext. intros s. rewrite share_step. apply perm_average_ext. intros q Hq. rewrite Hre by auto. reflexivity. }
    rewrite (G (fun d r => tie_free (statistics rearrange test d r) && leb (p_of test d r) alpha)), (G (fun d r => tie_free (statistics rearrange test d r))).
    rewrite <- expect_scal. apply expect_ext. intros s. specialize (Hv s j Hj). fold alpha in Hv. cbn [plus] in Hv.
    unfold share_of_runs. unfold Rdiv. rewrite <- Rmult_assoc. f_equal.
    rewrite (count_if_ext (fun l => match l with [] => false | q :: r => tie_free (statistics rearrange test (rearrange q (d s)) r) && leb (p_of test (rearrange q (d s)) r) alpha end)
      (fun l => tie_free (run_stats rearrange test (d s) l) && leb (run_p rearrange test (d s) b l) alpha)).
    - rewrite (count_if_ext (fun l => match l with [] => false | q :: r => tie_free (statistics rearrange test (rearrange q (d s)) r) end)
        (fun l => tie_free (run_stats rearrange test (d s) l))); [exact Hv|].
      intros l Hl. apply in_words in Hl. destruct l as [|q r]; [destruct Hl; discriminate|reflexivity].
    - intros l Hl. apply in_words in Hl. destruct l as [|q r]; [destruct Hl; discriminate|]. destruct Hl as [L _]. cbn in L.
      unfold p_of, run_p. replace (length r) with b by lia. reflexivity.
  Qed.
End UniformRuns.

Theorem C79_dcov_uniform E x y n e b : valid_env E -> paired n x y -> 0 < e -> uniform_test permute_sample (dcov_test_on E y e) n b x.
Proof. intros HE Hp He. destruct (dcov_runs_from E x y n e HE Hp He) as (f & Hf). eapply uniform_generic; eauto. Qed.

Theorem C79_energy_uniform E p samples e av es st b : valid_env E -> several p es samples -> to_estimation es = Ok st -> 0 < e ->
  uniform_test (regroup p) (energy_test_on E e av es) (total samples) b samples.
Proof. intros HE H Hst He. destruct (energy_runs_from E p samples e av es st HE H Hst He) as (f & Hf). eapply uniform_generic; eauto. Qed.

(** ** Independent draws *)

Theorem C79_dcov_draws E K w X Y p q ns dt ns' dt' n e b : valid_env E -> distribution K w -> (1 <= n)%nat -> 0 < e ->
  independent K w p q X Y ->
  let x s := drawn ns dt n p X s in let y s := drawn ns' dt' n q Y s in
  let tie_free_run s r := tie_free (statistics permute_sample (dcov_test_on E (y s) e) (x s) r) in
  exists t, (forall s r, length r = b -> Forall (is_perm n) r ->
      exists st, dcov_test_on E (y s) e (x s) (Z.of_nat b) r = Ok (t s r, st)) /\
  forall j, (j <= 1 + b)%nat ->
  expect K w n (fun s => share_of_runs n b (fun r => tie_free_run s r && leb (pvalue (t s r)) (INR j / INR (1 + b))))
  = INR j / INR (1 + b) * expect K w n (fun s => share_of_runs n b (tie_free_run s)).
Proof.
  intros HE HD Hn He HI x y tf.
  exists (fun s r => match dcov_test_on E (y s) e (x s) (Z.of_nat (length r)) r with Ok (t, _) => t | Err _ => mkTest 0 0 end).
  split.
  { intros s r Lr Fr. rewrite Lr. unfold dcov_test_on, x, y. rewrite <- Lr. rewrite (dcov_test_eval E replay _ _ n) by (auto using replay_permuting; apply drawn_paired; lia).
    eexists. reflexivity. }
  intros j Hj. set (alpha := INR j / INR (1 + b)).
  assert (P : forall s r, pvalue (match dcov_test_on E (y s) e (x s) (Z.of_nat (length r)) r with Ok (t, _) => t | Err _ => mkTest 0 0 end) = p_of (dcov_test_on E (y s) e) (x s) r).
  { intros s r. unfold p_of. destruct (dcov_test_on _ _ _ _ _ _) as [[t st]|]; reflexivity. }
  set (rows := fun (p : nat) (ns : nspace) (dt : dtype) (f : nat -> list R) => mkArr ns dt (Mat p (tab n f))).
  assert (D : forall g : array R -> array R -> R, expect K w n (fun s => g (x s) (y s)) = expect K w n (fun u => expect K w n (fun s => g (x s) (y u)))).
  { intros g. apply (decouple K p q w X Y HD HI n (fun f f' => g (rows p ns dt f) (rows q ns' dt' f'))). }
  set (yes := fun (xa ya : array R) => share_of_runs n b (fun r => tie_free (statistics permute_sample (dcov_test_on E ya e) xa r) && leb (p_of (dcov_test_on E ya e) xa r) alpha)).
  set (free := fun (xa ya : array R) => share_of_runs n b (fun r => tie_free (statistics permute_sample (dcov_test_on E ya e) xa r))).
  rewrite (expect_ext K w n _ (fun s => yes (x s) (y s))) by (intros s; unfold yes, share_of_runs; do 2 f_equal; apply count_if_ext; intros r _; rewrite P; reflexivity).
  change (expect K w n (fun s => yes (x s) (y s)) = alpha * expect K w n (fun s => free (x s) (y s))).
  rewrite (D yes), (D free), <- expect_scal. apply expect_ext. intros u.
  apply (level_exact permute_sample (dcov_test_on E (y u) e) K w n b j x); auto.
  - intros s s' H. apply drawn_ext. auto.
  - intros s o Ho. apply permute_drawn. auto.
  - intros s. apply C79_dcov_uniform; auto. unfold paired, x, y. auto 8 using drawn_wf, drawn_shape.
Qed.

Theorem C79_energy_draws E K w X p kinds e av es st b : valid_env E -> distribution K w -> 0 < e -> to_estimation es = Ok st ->
  (2 <= length kinds)%nat -> Forall (fun n => match st with UStatistic => 2 | VStatistic => 1 end <= n)%nat (sizes kinds) ->
  let n := size kinds in let d s := groups p X kinds s in
  let tie_free_run s r := tie_free (statistics (regroup p) (energy_test_on E e av es) (d s) r) in
  exists t, (forall s r, length r = b -> Forall (is_perm n) r -> exists g, energy_test_on E e av es (d s) (Z.of_nat b) r = Ok (t s r, g)) /\
  forall j, (j <= 1 + b)%nat ->
  expect K w n (fun s => share_of_runs n b (fun r => tie_free_run s r && leb (pvalue (t s r)) (INR j / INR (1 + b))))
  = INR j / INR (1 + b) * expect K w n (fun s => share_of_runs n b (tie_free_run s)).
Proof.
  intros HE HD He Hst H2 HF n d tf.
  assert (HS : forall s, several p es (d s)).
  { intros s. apply groups_several; auto. rewrite Hst. exact HF. }
  exists (fun s r => match energy_test_on E e av es (d s) (Z.of_nat (length r)) r with Ok (t, _) => t | Err _ => mkTest 0 0 end). split.
  { intros s r Lr Fr. rewrite Lr. unfold energy_test_on. rewrite (energy_test_stats E replay p _ e b _ av es st) by (auto using replay_permuting; apply HS).
    eexists. reflexivity. }
  intros j Hj.
  assert (P : forall s r, pvalue (match energy_test_on E e av es (d s) (Z.of_nat (length r)) r with Ok (t, _) => t | Err _ => mkTest 0 0 end) = p_of (energy_test_on E e av es) (d s) r).
  { intros s r. unfold p_of. destruct (energy_test_on _ _ _ _ _ _ _) as [[t g]|]; reflexivity. }
  etransitivity; [|apply (level_exact (regroup p) (energy_test_on E e av es) K w n b j d); auto].
  - apply expect_ext. intros s. unfold share_of_runs. do 2 f_equal. apply count_if_ext. intros r _. rewrite P. reflexivity.
  - intros s s' H. apply groups_ext. auto.
  - intros s o Ho. apply groups_regroup. auto.
  - intros s. pose proof (C79_energy_uniform E p (d s) e av es st b HE (HS s) Hst He) as V. unfold d in V at 1. rewrite groups_total in V. exact V.
Qed.

(** ** In double precision *)

Lemma doubles_exact n b (f : list nat -> b64) j : (j <= S b)%nat ->
  let stats l := map f (relative l) in
  let runs := words (S b) (all_perms n) in
  INR (count_if (fun l => distinct (stats l) && leb (vector_p (map ext (stats l))) (INR j / INR (S b))) runs)
  = INR j / INR (S b) * INR (count_if (fun l => distinct (stats l)) runs).
Proof.
  intros Hj stats runs. destruct (doubles_exchangeable n b f) as (W & HL & HX & HC). fold runs in HC. unfold stats.
  rewrite (HC (fun w => leb (vector_p w) (INR j / INR (S b)))).
  rewrite (count_if_ext (fun l => distinct (map f (relative l))) (fun l => distinct (map f (relative l)) && true)) by (intros; rewrite andb_true_r; reflexivity).
  rewrite (HC (fun _ => true)), (count_if_ext (fun w => tie_free w && true) tie_free W) by (intros; apply andb_true_r).
  pose proof (exchangeable_exact b W j Hj HL HX) as G. apply (f_equal INR) in G. rewrite !mult_INR in G.
  assert (0 < INR (S b)) as Hb by apply lt_0_INR, Nat.lt_0_succ.
  apply Rmult_eq_reg_l with (INR (S b)); [|lra]. rewrite G. field. lra.
Qed.

(** Samples of double precision numbers, any exponent, average and estimator: among all equally likely assignments of the
    observations to the samples and orders of the resamples, in the runs in which no two of the computed statistics are equal
    the computed p-value is at most the computed [j / (1 + b)] in a proportion of exactly [j / (1 + b)]. *)
Theorem C79_energy_doubles lib E p samples e av es st b : valid_fenv lib E -> several_doubles p samples -> to_estimation es = Ok st ->
  ((Z.of_nat b + 1) * (Z.of_nat b + 1) <= 2 ^ 52)%Z ->
  let n := count_rows samples in
  let free s r := distinct (double_statistics E e av es p (regroup_doubles p s samples) r) in
  let share (good : list nat -> list (list nat) -> bool) := share_of_runs n (1 + b) (fun l => match l with [] => false | s :: r => good s r end) in
  exists t, (forall s r, is_perm n s -> length r = b -> Forall (is_perm n) r ->
      exists g, double_test_on E e av es (regroup_doubles p s samples) (Z.of_nat b) r = Ok (t s r, g)) /\
  forall j, (1 <= j <= 1 + b)%nat ->
  share (fun s r => free s r && Bleb (pvalue (t s r)) (b64_div (b64_ofZ (Z.of_nat j)) (b64_ofZ (Z.of_nat (1 + b))))) = INR j / INR (1 + b) * share free.
Proof.
  intros HE H Hst Hd n free share.
  set (t := fun s r => match double_test_on E e av es (regroup_doubles p s samples) (Z.of_nat b) r with Ok (t, _) => t | Err _ => mkTest B754_nan B754_nan end).
  assert (F : forall j, (1 <= j <= 1 + b)%nat -> exists f : list nat -> b64, forall s r, is_perm n s -> length r = b -> Forall (is_perm n) r ->
    double_statistics E e av es p (regroup_doubles p s samples) r = map f (relative (s :: r)) /\
    exists t g, double_test_on E e av es (regroup_doubles p s samples) (Z.of_nat b) r = Ok (t, g) /\
      (distinct (map f (relative (s :: r))) = true -> Bleb (pvalue t) (b64_div (b64_ofZ (Z.of_nat j)) (b64_ofZ (Z.of_nat (1 + b))))
        = leb (vector_p (map ext (map f (relative (s :: r))))) (INR j / INR (1 + b)))).
  { intros j Hj. destruct (double_statistics_orders lib E p samples e av es st b (Z.of_nat j) (Z.of_nat (1 + b)) HE H Hst) as (f & Hf); [lia|lia|].
    exists f. intros s r Hs Lr Hr. destruct (Hf s r Hs Lr Hr) as (A & t' & g & B & C). split; [exact A|]. exists t', g. split; [exact B|].
    rewrite !INR_IZR_INZ. exact C. }
  exists t. split.
  - intros s r Hs Lr Hr. destruct (F 1%nat) as (f & Hf); [lia|]. destruct (Hf s r Hs Lr Hr) as (_ & t' & g & E' & _). unfold t. rewrite E'. eexists. reflexivity.
  - intros j Hj. destruct (F j Hj) as (f & Hf). unfold share, share_of_runs. cbn [plus]. unfold Rdiv at 1 3. rewrite <- Rmult_assoc. f_equal.
    pose proof (doubles_exact n b f j) as V. cbv zeta in V.
    assert (S1 : forall l, In l (words (S b) (all_perms n)) -> exists s r, l = s :: r /\ is_perm n s /\ length r = b /\ Forall (is_perm n) r).
    { intros l Hl. apply in_words in Hl as [Ll Hin]. destruct l as [|s r]; [discriminate|]. exists s, r. split; [reflexivity|]. split; [apply in_all_perms, Hin; left; auto|].
      split; [cbn in Ll; lia|]. apply Forall_forall. intros q Hq. apply in_all_perms, Hin. right. auto. }
    rewrite (count_if_ext (fun l => match l with [] => false | s :: r => free s r end) (fun l => distinct (map f (relative l)))).
    + etransitivity; [|apply V; lia]. f_equal. apply count_if_ext. intros l Hl. destruct (S1 l Hl) as (s & r & -> & Hs & Lr & Hr).
      destruct (Hf s r Hs Lr Hr) as (E1 & t' & g & E' & D'). unfold free, t. rewrite E1, E'.
      destruct (distinct (map f (relative (s :: r)))) eqn:DD; [|reflexivity]. cbn [andb]. apply D'. reflexivity.
    + intros l Hl. destruct (S1 l Hl) as (s & r & -> & Hs & Lr & Hr). destruct (Hf s r Hs Lr Hr) as (E1 & _). unfold free. rewrite E1. reflexivity.
Qed.

(** ** Concrete cases *)

(** Two coins thrown independently four times, one resample: the runs without ties have a positive probability, and the p-value
    of half of them is 1/2. *)
Example C79_meets : exists t,
  (forall s r, length r = 1%nat -> Forall (is_perm 4) r ->
    exists st, dcov_test_on (env_R true) (drawn Numpy F64 4 1 other s) 1 (drawn Numpy F64 4 1 coin s) 1 r = Ok (t s r, st)) /\
  let free s := share_of_runs 4 1 (fun r => tie_free (statistics permute_sample (dcov_test_on (env_R true) (drawn Numpy F64 4 1 other s) 1) (drawn Numpy F64 4 1 coin s) r)) in
  0 < expect 4 (fun _ => 1 / 4) 4 free /\
  expect 4 (fun _ => 1 / 4) 4 (fun s => share_of_runs 4 1 (fun r =>
    tie_free (statistics permute_sample (dcov_test_on (env_R true) (drawn Numpy F64 4 1 other s) 1) (drawn Numpy F64 4 1 coin s) r) && leb (pvalue (t s r)) (INR 1 / INR 2)))
  = INR 1 / INR 2 * expect 4 (fun _ => 1 / 4) 4 free.
Proof.
  assert (HD : distribution 4 (fun _ => 1 / 4)) by (split; [intros; lra|cbn; lra]).
  destruct (C79_dcov_draws (env_R true) 4 (fun _ => 1 / 4) coin other 1 1 Numpy F64 Numpy F64 4 1 1) as (t & Ht & H1);
    auto using env_R_valid, coins_independent; try lra; try lia.
  destruct C76_meets as (_ & _ & H0 & _).
  exists t. split; [exact Ht|]. cbv zeta. split; [exact H0|]. apply (H1 1%nat). lia.
Qed.

Example C79_tests : uniform_test permute_sample (dcov_test_on (env_R true) ys 1) 5 99 xs /\
  uniform_test (regroup 1) (energy_test_on (env_R true) 1 None U) (total [xs; us; ys]) 99 [xs; us; ys].
Proof.
  split; [apply C79_dcov_uniform|apply (C79_energy_uniform _ 1 _ 1 None U UStatistic)]; auto using env_R_valid, xs_ys; try lra. apply C28_meets.
Qed.

(** The samples 0, 1 and 3, 10 in double precision, one resample: there are runs without ties, and the computed p-value of half
    of them is 1/2. *)
Example C79_doubles_meet : exists t,
  let samples := double_groups 1 four two_pairs_of_doubles (fun i => i) in
  let free s r := distinct (double_statistics env_F (b64_ofZ 1) None (EstEnum VStatistic) 1 (regroup_doubles 1 s samples) r) in
  let share (good : list nat -> list (list nat) -> bool) := share_of_runs 4 2 (fun l => match l with [] => false | s :: r => good s r end) in
  (forall s r, is_perm 4 s -> length r = 1%nat -> Forall (is_perm 4) r ->
      exists g, double_test_on env_F (b64_ofZ 1) None (EstEnum VStatistic) (regroup_doubles 1 s samples) 1 r = Ok (t s r, g)) /\
  0 < share free /\ share (fun s r => free s r && Bleb (pvalue (t s r)) (b64_div (b64_ofZ 1) (b64_ofZ 2))) = INR 1 / INR 2 * share free.
Proof.
  destruct (C79_energy_doubles plain env_F 1 (double_groups 1 four two_pairs_of_doubles (fun i => i)) (b64_ofZ 1) None (EstEnum VStatistic) VStatistic 1 env_F_valid)
    as (t & Ht & H1); [split; [cbn; lia|repeat constructor]|reflexivity|cbn; lia|].
  exists t. cbv zeta. split; [exact Ht|]. split; [|exact (H1 1%nat ltac:(lia))].
  assert (Hq : is_perm 4 [0; 2; 1; 3]%nat) by (apply perm_skip, perm_swap).
  assert (Hi : is_perm 4 [0; 1; 2; 3]%nat) by (unfold is_perm; auto).
  apply (share_positive 4 2 _ [[0; 1; 2; 3]; [0; 2; 1; 3]]%nat); [reflexivity|auto|].
  vm_compute. reflexivity.
Qed.
