(** Validity of the permutation p-values: C32.

    [words k l]: all lists of [k] elements of [l]; [all_perms n]: all permutations of 0, ..., n-1 (Exchange.v). *)
From Coq Require Import Reals Lra Lia List Arith Bool ZArith Permutation.
From Verif Require Import Num Numpy MUtils MDistances MMergesort MInternals MDcor MPartial MEnergy MHypothesis MHomogeneity MIndependence
  Sums Spec Centering Tab Samples Api RefDist RefDcor RefCenter RefApi SpecFacts Invariance RefEnergy RefTests RefHomogeneity Exchange
  Witness PEnergy PTests.
Import List ListNotations.
Local Open Scope R_scope.

(** A generator that returns the permutations it was given, one after the other. *)
Definition replay : Rng (list (list nat)) :=
  mkRng (list (list nat)) (fun _ => [])
    (fun n s => match s with [] => (seq 0 n, []) | q :: s' => (if is_permb n q then q else seq 0 n, s') end).

Lemma replay_permuting : permuting replay.
Proof.
  intros n [|q s]; cbn; [unfold is_perm; reflexivity|]. destruct (is_permb n q) eqn:H; cbn; [apply is_permb_spec; auto|unfold is_perm; reflexivity].
Qed.

Lemma replay_draw n l : Forall (is_perm n) l -> draw_permutations replay (length l) n l = (l, []).
Proof.
  induction 1 as [|q l Hq Hl IH]; cbn [length draw_permutations]; [reflexivity|]. cbn.
  apply is_permb_spec in Hq. rewrite Hq, IH. reflexivity.
Qed.

(** A run of a test: the data are rearranged by the first permutation of [l], the others are the resampled ones.
    [test d b r]: the test on the data [d] with [b] resamples and the permutations [r]. *)
Section Runs.
  Context {D St : Type}.
  Variable (rearrange : list nat -> D -> D) (test : D -> Z -> list (list nat) -> res (HypothesisTest R * St)).

  (** Its p-value (0, the worst case, if the test fails). *)
  Definition run_p (d : D) (b : nat) (l : list (list nat)) : R :=
    match l with [] => 0 | s :: r =>
      match test (rearrange s d) (Z.of_nat b) r with Ok (t, _) => pvalue t | Err _ => 0 end end.

  (** The observed and the resampled statistics: those of the rearranged data. *)
  Definition stat_of (d : D) : R := match test d 0 [] with Ok (t, _) => statistic t | Err _ => 0 end.
  Definition run_stats (d : D) (l : list (list nat)) : list R :=
    match l with [] => [] | s :: r =>
      stat_of (rearrange s d) :: map (fun q => stat_of (rearrange q (rearrange s d))) r end.

  (** Among all equally likely runs without ties a proportion of at most [t] has a p-value of at most [t]. *)
  Definition valid_test (n b : nat) (d : D) (t : R) : Prop :=
    let runs := words (1 + b) (all_perms n) in
    INR (count_if (fun l => tie_free (run_stats d l) && leb (run_p d b l) t) runs)
    <= t * INR (count_if (fun l => tie_free (run_stats d l)) runs).

  (** The statistics and the p-values of the runs are those of the vectors [f s, f (s q1), f (s q2), ...]. *)
  Definition runs_from (n : nat) (d : D) (f : list nat -> R) : Prop :=
    (forall s r, is_perm n s -> Forall (is_perm n) r -> exists s', test (rearrange s d) (Z.of_nat (length r)) r
       = Ok (mkTest (p_value (f s) (map (fun q => f (compose s q)) r)) (f s), s')) /\
    (forall s q, is_perm n s -> is_perm n q -> stat_of (rearrange q (rearrange s d)) = f (compose s q)).

  Lemma runs_from_vectors n b d f : runs_from n d f -> forall l, In l (words (S b) (all_perms n)) ->
    run_stats d l = map f (relative l) /\ run_p d b l = vector_p (map f (relative l)).
  Proof.
    intros [H1 H2] l Hl. apply in_words in Hl as [L I]. destruct l as [|s r]; [discriminate|]. cbn in L.
    assert (is_perm n s) as Hs by (apply in_all_perms, I; left; auto).
    assert (Forall (is_perm n) r) as Hr by (apply Forall_forall; intros; apply in_all_perms, I; right; auto).
    unfold run_stats, run_p, vector_p. cbn [relative map nth tl]. rewrite map_map. split.
    - f_equal.
      + unfold stat_of. destruct (H1 s [] Hs (Forall_nil _)) as (s' & He). cbn in He. rewrite He. reflexivity.
      + apply map_ext_in. intros q Hq. apply H2; auto. rewrite Forall_forall in Hr. auto.
    - destruct (H1 s r Hs Hr) as (s' & He). replace b with (length r) by lia. rewrite He. reflexivity.
  Qed.

  Lemma valid_generic n b d t (f : list nat -> R) : 0 <= t -> runs_from n d f -> valid_test n b d t.
  Proof.
    intros Ht HF. unfold valid_test. cbn [plus]. pose proof (runs_from_vectors n b d f HF) as H.
    rewrite (count_if_ext _ (fun l => tie_free (map f (relative l)) && leb (vector_p (map f (relative l))) t))
      by (intros l Hl; destruct (H l Hl) as [-> ->]; reflexivity).
    rewrite (count_if_ext (fun l => tie_free (run_stats d l)) (fun l => tie_free (map f (relative l))))
      by (intros l Hl; destruct (H l Hl) as [-> _]; reflexivity).
    apply rearrangements_valid; auto.
  Qed.

  (** Without the restriction to tie-free runs the proportion of ties has to be added. *)
  Lemma valid_with_ties n b d t : 0 <= t -> valid_test n b d t ->
    let runs := words (1 + b) (all_perms n) in
    INR (count_if (fun l => leb (run_p d b l) t) runs)
    <= t * INR (length runs) + INR (count_if (fun l => negb (tie_free (run_stats d l))) runs).
  Proof.
    intros Ht Hv runs. unfold valid_test in Hv. fold runs in Hv.
    set (A := count_if (fun l => tie_free (run_stats d l) && leb (run_p d b l) t) runs) in *.
    set (B := count_if (fun l => tie_free (run_stats d l)) runs) in *.
    assert (count_if (fun l => leb (run_p d b l) t) runs <= A + count_if (fun l => negb (tie_free (run_stats d l))) runs)%nat as H1.
    { unfold A, count_if. clear. induction runs as [|l k IH]; cbn; auto.
      destruct (leb (run_p d b l) t), (tie_free (run_stats d l)); cbn; lia. }
    assert (B <= length runs)%nat as H2.
    { unfold B, count_if. clear. induction runs as [|l k IH]; cbn; auto. destruct (tie_free (run_stats d l)); cbn; lia. }
    apply le_INR in H1, H2. rewrite plus_INR in H1. nra.
  Qed.
End Runs.

Definition dcov_test_on (E : Env R) (y : array R) (e : R) (x : array R) (B : Z) (r : list (list nat)) :=
  outcome (distance_covariance_test E replay x y B e (RState r)).

Lemma dcov_runs_from E x y n e : valid_env E -> paired n x y -> 0 < e ->
  exists f, runs_from permute_sample (dcov_test_on E y e) n x f.
Proof.
  intros HE Hp He. pose proof Hp as (Wx & Wy & Sx & Sy & Hn).
  set (f := fun q => INR n * dcov2 n (relabel (fun i => nth i q 0%nat) (distances e x)) (distances e y)).
  assert (forall s, is_perm n s -> paired n (permute_sample s x) y /\
            forall i j, (i < n)%nat -> (j < n)%nat -> distances e (permute_sample s x) i j = distances e x (nth i s 0%nat) (nth j s 0%nat)) as Hs.
  { intros s Hs. rewrite <- Sx in Hs. pose proof (permute_reordered s x Wx Hs) as Hr.
    split; [destruct Hr as [(_ & _ & _ & Hsh & Hwf) _]; unfold paired; rewrite Hsh; auto 8|].
    intros i j Hi Hj. apply (reordered_distances (fun i => nth i s 0%nat)); auto; lia. }
  assert (forall s r, is_perm n s -> Forall (is_perm n) r -> exists s', dcov_test_on E y e (permute_sample s x) (Z.of_nat (length r)) r
       = Ok (mkTest (p_value (f s) (map (fun q => f (compose s q)) r)) (f s), s')) as H1.
  { intros s r Hps Hr. destruct (Hs s Hps) as [Hp' Hd]. unfold dcov_test_on.
    rewrite (dcov_test_eval E replay (permute_sample s x) y n) by auto using replay_permuting. cbn [random_state_init].
    rewrite replay_draw by auto. cbn [fst snd]. eexists. do 2 f_equal.
    assert (INR n * dcov2 n (distances e (permute_sample s x)) (distances e y) = f s) as ->
      by (unfold f; f_equal; apply dcov2_ext; auto; intros; apply Hd; auto).
    f_equal. f_equal. apply map_ext_in. intros q Hq. unfold f. f_equal. rewrite Forall_forall in Hr. specialize (Hr q Hq).
    apply dcov2_ext; auto. intros i j Hi Hj. unfold relabel. rewrite Hd by (apply is_perm_lt; auto). unfold compose.
    pose proof (is_perm_length n q Hr) as L.
    rewrite !(nth_indep (map _ q) 0%nat (nth 0 s 0%nat)) by (rewrite map_length; lia).
    rewrite !(map_nth (fun i => nth i s 0%nat)). reflexivity. }
  exists f. split; auto.
  intros s q Hps Hq. destruct (Hs s Hps) as [Hp' Hd].
  destruct Hp' as (Wx' & _ & Sx' & _ & _).
  assert (is_perm (shape0 (permute_sample s x)) q) as Hq' by (rewrite Sx'; auto).
  pose proof (permute_reordered q _ Wx' Hq') as Hr.
  assert (paired n (permute_sample q (permute_sample s x)) y) as Hp2
    by (destruct Hr as [(_ & _ & _ & Hsh & Hwf) _]; unfold paired; rewrite Hsh; auto 8).
  unfold stat_of, dcov_test_on. change 0%Z with (Z.of_nat 0).
  rewrite (dcov_test_eval E replay _ y n) by auto using replay_permuting. cbn [statistic]. unfold f. f_equal.
  apply dcov2_ext; auto. intros i j Hi Hj.
  rewrite (reordered_distances (fun i => nth i q 0%nat) e (permute_sample s x)) by (auto; lia).
  unfold relabel at 1. rewrite Hd by (apply is_perm_lt; auto). unfold relabel, compose. pose proof (is_perm_length n q Hq) as L.
  rewrite !(nth_indep (map _ q) 0%nat (nth 0 s 0%nat)) by (rewrite map_length; lia).
  rewrite !(map_nth (fun i => nth i s 0%nat)). reflexivity.
Qed.

Theorem C32_dcov_test E x y n e b t : valid_env E -> paired n x y -> 0 < e -> 0 <= t ->
  valid_test permute_sample (dcov_test_on E y e) n b x t.
Proof. intros HE Hp He Ht. destruct (dcov_runs_from E x y n e HE Hp He) as (f & Hf). eapply valid_generic; eauto. Qed.

Definition energy_test_on (E : Env R) (e : R) (av : average_fn (T:=R)) (es : estimation_like) (samples : list (array R)) (B : Z)
    (r : list (list nat)) := outcome (energy_test E replay samples B e (RState r) av es).

Lemma regroup_compose E p es e av st samples s q : valid_env E -> several p es samples -> to_estimation es = Ok st ->
  is_perm (total samples) s -> is_perm (total samples) q ->
  sum_of_pairs E e av st (regroup p q (regroup p s samples)) = sum_of_pairs E e av st (regroup p (compose s q) samples).
Proof.
  intros HE H Hst Hs Hq. pose proof (several_wf _ _ _ H) as Hw.
  destruct (regroup_props p s samples Hw Hs) as (R1 & R2 & R3).
  assert (total (regroup p s samples) = total samples) as Rt by (unfold total; rewrite R1; reflexivity).
  rewrite <- Rt in Hq. destruct (regroup_props p q _ R2 Hq) as (Q1 & Q2 & Q3). rewrite Rt in Hq, Q3.
  pose proof (compose_perm _ s q Hs Hq) as Hc. destruct (regroup_props p _ samples Hw Hc) as (C1 & C2 & C3).
  assert (several p es (regroup p q (regroup p s samples))) as S1 by (apply (several_shapes p es samples); auto; congruence).
  assert (several p es (regroup p (compose s q) samples)) as S2 by (eapply several_shapes; eauto).
  pose proof (multivariate_value E HE p _ e av es st S1 Hst) as M1. pose proof (multivariate_value E HE p _ e av es st S2 Hst) as M2.
  assert (total (regroup p q (regroup p s samples)) = total samples) as T1 by (unfold total; rewrite Q1, R1; reflexivity).
  assert (total (regroup p (compose s q) samples) = total samples) as T2 by (unfold total; rewrite C1; reflexivity).
  rewrite T1, Q1, R1 in M1. rewrite T2, C1 in M2.
  rewrite (tab2_ext (total samples) (total samples) _ (dmat e p (pooled (regroup p (compose s q) samples)))) in M1.
  - rewrite M2 in M1. injection M1 as M1. symmetry. exact M1.
  - intros i j Hi Hj.
    assert (forall i k, (i < total samples)%nat -> (k < p)%nat ->
              pooled (regroup p q (regroup p s samples)) i k = pooled (regroup p (compose s q) samples) i k) as He.
    { intros i' k Hi' Hk. rewrite Q3, C3 by auto. rewrite R3 by (auto; apply is_perm_lt; auto). f_equal. unfold compose.
      rewrite (nth_indep (map _ q) 0%nat (nth 0 s 0%nat)) by (rewrite map_length, (is_perm_length _ _ Hq); lia).
      rewrite (map_nth (fun i => nth i s 0%nat)). reflexivity. }
    apply dmat_ext; intros k Hk; apply He; auto.
Qed.

Lemma energy_runs_from E p samples e av es st : valid_env E -> several p es samples -> to_estimation es = Ok st -> 0 < e ->
  exists f, runs_from (regroup p) (energy_test_on E e av es) (total samples) samples f.
Proof.
  intros HE H Hst He. pose proof (several_wf _ _ _ H) as Hw.
  set (f := fun q => sum_of_pairs E e av st (regroup p q samples)).
  assert (forall s, is_perm (total samples) s -> several p es (regroup p s samples) /\ total (regroup p s samples) = total samples) as Hs.
  { intros s Hs. destruct (regroup_props p s samples Hw Hs) as (R1 & R2 & R3).
    split; [eapply several_shapes; eauto|]. unfold total; rewrite R1; reflexivity. }
  exists f. split.
  - intros s r Hps Hr. destruct (Hs s Hps) as [Hs' Htot]. unfold energy_test_on.
    rewrite (energy_test_stats E replay p _ e _ _ av es st) by auto using replay_permuting. cbn [random_state_init].
    rewrite Htot, replay_draw by auto. cbn [fst snd]. eexists. do 4 f_equal. apply map_ext_in. intros q Hq.
    rewrite Forall_forall in Hr. apply (regroup_compose E p es); auto.
  - intros s q Hps Hq. destruct (Hs s Hps) as [Hs' Htot]. unfold stat_of, energy_test_on. change 0%Z with (Z.of_nat 0).
    rewrite <- Htot in Hq. destruct (regroup_props p q _ (several_wf _ _ _ Hs') Hq) as (Q1 & Q2 & _).
    assert (several p es (regroup p q (regroup p s samples))) as S1 by (eapply several_shapes; eauto).
    rewrite (energy_test_stats E replay p _ e _ _ av es st) by auto using replay_permuting. cbn [statistic].
    rewrite Htot in Hq. apply (regroup_compose E p es); auto.
Qed.

Theorem C32_energy_test E p samples e av es st b t : valid_env E -> several p es samples -> to_estimation es = Ok st -> 0 < e -> 0 <= t ->
  valid_test (regroup p) (energy_test_on E e av es) (total samples) b samples t.
Proof. intros HE H Hst He Ht. destruct (energy_runs_from E p samples e av es st HE H Hst He) as (f & Hf). eapply valid_generic; eauto. Qed.

(** With ties: at most [t] plus the proportion of runs with ties. *)
Theorem C32_dcov_test_ties E x y n e b t : valid_env E -> paired n x y -> 0 < e -> 0 <= t ->
  let runs := words (1 + b) (all_perms n) in
  INR (count_if (fun l => leb (run_p permute_sample (dcov_test_on E y e) x b l) t) runs)
  <= t * INR (length runs) + INR (count_if (fun l => negb (tie_free (run_stats permute_sample (dcov_test_on E y e) x l))) runs).
Proof. intros. apply valid_with_ties; auto. apply C32_dcov_test; auto. Qed.

(** The strict comparison makes tied statistics count as evidence: for a constant sample every run has the smallest
    possible p-value, whatever the other sample, the generator and the number of resamples. *)
Theorem C32_constant_refuted {S} (E : Env R) (G : Rng S) x y n e b rs : valid_env E -> permuting G -> paired n x y -> 0 < e ->
  constant x -> exists t s, outcome (distance_covariance_test E G x y (Z.of_nat b) e rs) = Ok (t, s) /\
  statistic t = 0 /\ pvalue t = 1 / INR (1 + b).
Proof.
  intros HE HG Hp He Hc. pose proof Hp as (Wx & Wy & Sx & Sy & Hn). rewrite (dcov_test_eval E G x y n) by auto.
  eexists _, _. split; [reflexivity|]. cbn [statistic pvalue].
  assert (forall a, (forall i j, (i < n)%nat -> (j < n)%nat -> a i j = 0) -> dcov2 n a (distances e y) = 0) as H0.
  { intros a Ha. rewrite (dcov2_ext n a (distances e y) (fun i j => 0 * 0) (fun i j => 1 * distances e y i j))
      by (intros; rewrite ?Ha by auto; ring). rewrite (dcov2_scal n 0 1 (fun _ _ => 0) (distances e y)). ring. }
  assert (forall i j, (i < n)%nat -> (j < n)%nat -> distances e x i j = 0) as Hd.
  { intros i j Hi Hj. apply dmat_zero_iff. apply Hc; rewrite Sx; auto. }
  rewrite (H0 _ Hd), Rmult_0_r. split; [reflexivity|]. unfold p_value.
  pose proof (draw_length G b n (random_state_init G rs)) as Hl. rewrite map_length, Hl.
  set (l := filter _ _). assert (l = []) as ->.
  { unfold l. assert (forall qs, (forall q, In q qs -> is_perm n q) -> filter (fun b => if Rlt_dec 0 b then true else false)
      (map (fun q => INR n * dcov2 n (relabel (fun i => nth i q 0%nat) (distances e x)) (distances e y)) qs) = []) as H.
    { induction qs as [|q qs IH]; intros Hq; cbn [map filter]; [reflexivity|].
      rewrite (H0 (relabel _ _)) by (intros i j Hi Hj; unfold relabel; apply Hd; apply is_perm_lt; auto; apply Hq; left; auto).
      rewrite Rmult_0_r. destruct (Rlt_dec 0 0); [exfalso; lra|]. apply IH. intros. apply Hq. right; auto. }
    apply H. intros q Hq. eapply draw_perm; eauto. }
  cbn [length INR]. rewrite plus_INR. cbn [INR]. f_equal. ring.
Qed.

Definition ks : array R := mkArr Numpy F64 (Vec [7; 7; 7; 7; 7]).
Example C32_meets : valid_test permute_sample (dcov_test_on (env_R true) ys 1) 5 99 xs (1 / 20) /\
  valid_test (regroup 1) (energy_test_on (env_R true) 1 None U) (total [xs; us; ys]) 99 [xs; us; ys] (1 / 20) /\
  exists t s, outcome (distance_covariance_test (env_R true) reversing ks ys 99 1 (RSeed 0)) = Ok (t, s) /\ pvalue t = 1 / 100.
Proof.
  split; [|split].
  - apply C32_dcov_test; auto using env_R_valid, xs_ys; lra.
  - apply (C32_energy_test _ 1 _ 1 None U UStatistic); auto using env_R_valid; try lra. apply C28_meets.
  - destruct (C32_constant_refuted (env_R true) reversing ks ys 5 1 99 (RSeed 0)) as (t & s & H & _ & Hp);
      auto using env_R_valid, reversing_permuting; try lra.
    + repeat split; auto; cbn; lia.
    + intros i j Hi Hj k Hk. cbn in *. destruct i as [|[|[|[|[|i]]]]], j as [|[|[|[|[|j]]]]]; try lia; reflexivity.
    + exists t, s. split; [exact H|]. rewrite Hp. f_equal. cbn. lra.
Qed.
