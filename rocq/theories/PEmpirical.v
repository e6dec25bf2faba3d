(** The V-statistics are functions of the empirical distribution: C71. *)
From Coq Require Import Reals Lra Lia List Arith Bool ZArith Permutation.
From Verif Require Import Num Numpy MUtils MDistances MMergesort MInternals MDcor MPartial MEnergy MHypothesis MHomogeneity MIndependence
  Sums Spec Centering Tab Samples Api RefDist RefDcor RefCenter RefApi Psd SpecFacts Empirical EnergyMath Invariance RefEnergy RefTests RefHomogeneity
  Witness PEnergy PTests PTTest.
Import List ListNotations.
Local Open Scope R_scope.

(** Every pair of points has the same relative frequency in the paired samples (X, Y) of size [n] and (X', Y') of size [n']. *)
Definition same_joint_distribution (p q n n' : nat) (X Y X' Y' : nat -> nat -> R) : Prop :=
  forall z w : nat -> R,
  count n (fun k => same_pointb p (X k) z && same_pointb q (Y k) w) / INR n
  = count n' (fun k => same_pointb p (X' k) z && same_pointb q (Y' k) w) / INR n'.

Definition glue (p : nat) (X Y : nat -> nat -> R) (k c : nat) : R := if Nat.ltb c p then X k c else Y k (c - p)%nat.

Lemma glue_l p X Y k : same_point p (glue p X Y k) (X k).
Proof. intros c Hc. unfold glue. destruct (Nat.ltb_spec c p); [reflexivity|lia]. Qed.
Lemma glue_r p X Y k c : glue p X Y k (p + c) = Y k c.
Proof. unfold glue. destruct (Nat.ltb_spec (p + c) p); [lia|]. f_equal. lia. Qed.
Lemma glue_same p q X Y k z : same_pointb (p + q) (glue p X Y k) z = same_pointb p (X k) z && same_pointb q (Y k) (fun c => z (p + c)%nat).
Proof.
  apply eq_true_iff_eq. rewrite andb_true_iff, !same_pointb_true. split.
  - intros H. split; intros c Hc; [rewrite <- (glue_l p X Y k c Hc); apply H; lia|]. rewrite <- (glue_r p X Y k c). apply H. lia.
  - intros [H1 H2] c Hc. unfold glue. destruct (Nat.ltb_spec c p); [auto|]. rewrite H2 by lia. f_equal. lia.
Qed.

Section Joint.
  Variables (p q n n' : nat) (X Y X' Y' : nat -> nat -> R).
  Hypothesis (Hn : (1 <= n)%nat) (Hn' : (1 <= n')%nat).
  Hypothesis HD : same_joint_distribution p q n n' X Y X' Y'.

  Lemma joint_avg (G : (nat -> R) -> (nat -> R) -> R) :
    (forall u u' v v', same_point p u u' -> same_point q v v' -> G u v = G u' v') ->
    rsum n (fun i => G (X i) (Y i)) / INR n = rsum n' (fun i => G (X' i) (Y' i)) / INR n'.
  Proof.
    intros HG. set (F := fun w : nat -> R => G w (fun c => w (p + c)%nat)).
    assert (Hg : forall A B i, G (A i) (B i) = F (glue p A B i)).
    { intros A B i. unfold F. apply HG; [apply same_point_sym, glue_l|]. intros c Hc. symmetry. apply glue_r. }
    rewrite (rsum_ext n _ (fun i => F (glue p X Y i))), (rsum_ext n' _ (fun i => F (glue p X' Y' i))) by (intros; apply Hg).
    apply (same_distribution_avg (p + q) n n' (glue p X Y) (glue p X' Y') F); auto.
    - intros z. specialize (HD z (fun c => z (p + c)%nat)). unfold count in *.
      rewrite (rsum_ext n _ (fun k => if same_pointb p (X k) z && same_pointb q (Y k) (fun c => z (p + c)%nat) then 1 else 0)) by (intros; rewrite glue_same; reflexivity).
      rewrite (rsum_ext n' _ (fun k => if same_pointb p (X' k) z && same_pointb q (Y' k) (fun c => z (p + c)%nat) then 1 else 0)) by (intros; rewrite glue_same; reflexivity).
      exact HD.
    - intros u v H. unfold F. apply HG; intros c Hc; apply H; lia.
  Qed.

  Lemma kernel_same e r u u' v v' : same_point r u u' -> same_point r v v' -> rpow (dist r u v) e = rpow (dist r u' v') e.
  Proof. intros H1 H2. f_equal. apply dist_ext; auto. Qed.

  Lemma joint_dcov2 e f : dcov2 n (dmat e p X) (dmat f q Y) = dcov2 n' (dmat e p X') (dmat f q Y').
  Proof.
    pose proof (INR_pos n Hn). pose proof (INR_pos n' Hn').
    rewrite !dcov2_from_terms by (auto using dmat_symmetric). unfold dcov2_terms.
    set (ka := fun u v => rpow (dist p u v) e). set (kb := fun u v => rpow (dist q u v) f).
    change (dmat e p X) with (fun i j => ka (X i) (X j)). change (dmat e p X') with (fun i j => ka (X' i) (X' j)).
    change (dmat f q Y) with (fun i j => kb (Y i) (Y j)). change (dmat f q Y') with (fun i j => kb (Y' i) (Y' j)). cbv beta.
    assert (Ka : forall u u' v v', same_point p u u' -> same_point p v v' -> ka u v = ka u' v') by (intros; apply kernel_same; auto).
    assert (Kb : forall u u' v v', same_point q u u' -> same_point q v v' -> kb u v = kb u' v') by (intros; apply kernel_same; auto).
    assert (RA : forall u, rsum n (fun j => ka u (X j)) / INR n = rsum n' (fun j => ka u (X' j)) / INR n').
    { intros u. apply (joint_avg (fun v _ => ka u v)). intros; apply Ka; auto; apply same_point_refl. }
    assert (RB : forall u, rsum n (fun j => kb u (Y j)) / INR n = rsum n' (fun j => kb u (Y' j)) / INR n').
    { intros u. apply (joint_avg (fun _ v => kb u v)). intros; apply Kb; auto; apply same_point_refl. }
    assert (RAB : forall u v, rsum n (fun j => ka u (X j) * kb v (Y j)) / INR n = rsum n' (fun j => ka u (X' j) * kb v (Y' j)) / INR n').
    { intros u v. apply (joint_avg (fun z w => ka u z * kb v w)). intros; f_equal; [apply Ka|apply Kb]; auto; apply same_point_refl. }
    assert (TA : rsum n (fun i => rsum n (fun j => ka (X i) (X j)) / INR n) / INR n = rsum n' (fun i => rsum n' (fun j => ka (X' i) (X' j)) / INR n') / INR n').
    { rewrite (rsum_ext n _ (fun i => rsum n' (fun j => ka (X i) (X' j)) / INR n')) by (intros; apply RA).
      apply (joint_avg (fun u _ => rsum n' (fun j => ka u (X' j)) / INR n')). intros. f_equal. apply rsum_ext. intros. apply Ka; auto; apply same_point_refl. }
    assert (TB : rsum n (fun i => rsum n (fun j => kb (Y i) (Y j)) / INR n) / INR n = rsum n' (fun i => rsum n' (fun j => kb (Y' i) (Y' j)) / INR n') / INR n').
    { rewrite (rsum_ext n _ (fun i => rsum n' (fun j => kb (Y i) (Y' j)) / INR n')) by (intros; apply RB).
      apply (joint_avg (fun _ v => rsum n' (fun j => kb v (Y' j)) / INR n')). intros. f_equal. apply rsum_ext. intros. apply Kb; auto; apply same_point_refl. }
    assert (T1 : rsum n (fun i => rsum n (fun j => ka (X i) (X j) * kb (Y i) (Y j)) / INR n) / INR n
               = rsum n' (fun i => rsum n' (fun j => ka (X' i) (X' j) * kb (Y' i) (Y' j)) / INR n') / INR n').
    { rewrite (rsum_ext n _ (fun i => rsum n' (fun j => ka (X i) (X' j) * kb (Y i) (Y' j)) / INR n')) by (intros; apply RAB).
      apply (joint_avg (fun u v => rsum n' (fun j => ka u (X' j) * kb v (Y' j)) / INR n')). intros. f_equal. apply rsum_ext. intros.
      f_equal; [apply Ka|apply Kb]; auto; apply same_point_refl. }
    assert (T2 : rsum n (fun i => (rsum n (fun j => ka (X i) (X j)) / INR n) * (rsum n (fun j => kb (Y i) (Y j)) / INR n)) / INR n
               = rsum n' (fun i => (rsum n' (fun j => ka (X' i) (X' j)) / INR n') * (rsum n' (fun j => kb (Y' i) (Y' j)) / INR n')) / INR n').
    { rewrite (rsum_ext n _ (fun i => (rsum n' (fun j => ka (X i) (X' j)) / INR n') * (rsum n' (fun j => kb (Y i) (Y' j)) / INR n')))
        by (intros; rewrite RA, RB; reflexivity).
      apply (joint_avg (fun u v => (rsum n' (fun j => ka u (X' j)) / INR n') * (rsum n' (fun j => kb v (Y' j)) / INR n'))). intros.
      f_equal; f_equal; apply rsum_ext; intros; [apply Ka|apply Kb]; auto; apply same_point_refl. }
    rewrite !rsum_div in TA, TB, T1.
    rewrite (rsum_ext n _ (fun i => (rsum n (fun j => ka (X i) (X j)) * rsum n (fun j => kb (Y i) (Y j))) * (/ INR n * / INR n))) in T2 by (intros; unfold Rdiv; ring).
    rewrite (rsum_ext n' _ (fun i => (rsum n' (fun j => ka (X' i) (X' j)) * rsum n' (fun j => kb (Y' i) (Y' j))) * (/ INR n' * / INR n'))) in T2 by (intros; unfold Rdiv; ring).
    rewrite !rsum_scal_r in T2.
    rewrite (rsum_ext n _ (fun i => (rsum n (fun j => ka (X i) (X j)) * rsum n (fun j => kb (Y i) (Y j))) * (/ INR n))) by (intros; unfold Rdiv; ring).
    rewrite (rsum_ext n' _ (fun i => (rsum n' (fun j => ka (X' i) (X' j)) * rsum n' (fun j => kb (Y' i) (Y' j))) * (/ INR n'))) by (intros; unfold Rdiv; ring).
    rewrite !rsum_scal_r.
    unfold rsum2.
    set (A := rsum n (fun i => rsum n (fun j => ka (X i) (X j)))) in *. set (A' := rsum n' (fun i => rsum n' (fun j => ka (X' i) (X' j)))) in *.
    set (B := rsum n (fun i => rsum n (fun j => kb (Y i) (Y j)))) in *. set (B' := rsum n' (fun i => rsum n' (fun j => kb (Y' i) (Y' j)))) in *.
    set (C := rsum n (fun i => rsum n (fun j => ka (X i) (X j)) * rsum n (fun j => kb (Y i) (Y j)))) in *.
    set (C' := rsum n' (fun i => rsum n' (fun j => ka (X' i) (X' j)) * rsum n' (fun j => kb (Y' i) (Y' j)))) in *.
    set (P := rsum n (fun i => rsum n (fun j => ka (X i) (X j) * kb (Y i) (Y j)))) in *.
    set (P' := rsum n' (fun i => rsum n' (fun j => ka (X' i) (X' j) * kb (Y' i) (Y' j)))) in *.
    transitivity (P / INR n / INR n - 2 * (C * (/ INR n * / INR n) / INR n) + (A / INR n / INR n) * (B / INR n / INR n)); [field; lra|].
    rewrite T1, T2, TA, TB. field. lra.
  Qed.
End Joint.

Lemma joint_x p q n n' X Y X' Y' : same_joint_distribution p q n n' X Y X' Y' -> (1 <= n)%nat -> (1 <= n')%nat -> same_joint_distribution p p n n' X X X' X'.
Proof.
  intros H Hn Hn' z w. unfold count.
  apply (joint_avg p q n n' X Y X' Y' Hn Hn' H (fun u _ => if same_pointb p u z && same_pointb p u w then 1 else 0)).
  intros u u' v v' Hu _. assert (E : forall z, same_pointb p u z = same_pointb p u' z); [|rewrite !E; reflexivity].
  intros z'. apply eq_true_iff_eq. rewrite !same_pointb_true. split; intros S; eapply same_point_trans; eauto; apply same_point_sym; auto.
Qed.
Lemma joint_swap p q n n' X Y X' Y' : same_joint_distribution p q n n' X Y X' Y' -> same_joint_distribution q p n n' Y X Y' X'.
Proof.
  intros H z w. specialize (H w z). unfold count in *.
  rewrite (rsum_ext n _ (fun k => if same_pointb p (X k) w && same_pointb q (Y k) z then 1 else 0)) by (intros; rewrite andb_comm; reflexivity).
  rewrite (rsum_ext n' _ (fun k => if same_pointb p (X' k) w && same_pointb q (Y' k) z then 1 else 0)) by (intros; rewrite andb_comm; reflexivity). exact H.
Qed.

(** ** The dependence measures *)

Definition v_statistic (f : api) : Prop := match f with UDcovSqr | UDcorSqr => False | _ => True end.

(** Paired samples, possibly of different sizes, with the same joint empirical distribution have the same distance covariance and
    correlation, whatever the methods used for the two. *)
Theorem C71_dependence f E x y x' y' n n' p q e m cm m' cm' : valid_env E -> paired n x y -> paired n' x' y' -> 0 < e -> accepts m cm x y e -> accepts m' cm' x' y' e ->
  v_statistic f -> ncols x = p -> ncols x' = p -> ncols y = q -> ncols y' = q -> same_joint_distribution p q n n' (obs x) (obs y) (obs x') (obs y') ->
  exists v, call f E x y e m cm = Ok v /\ call f E x' y' e m' cm' = Ok v.
Proof.
  intros HE Hp Hp' He Ha Ha' Hf Cx Cx' Cy Cy' HD. exists (value f n (distances e x) (distances e y)).
  pose proof Hp as (_ & _ & _ & _ & Hn). pose proof Hp' as (_ & _ & _ & _ & Hn').
  assert (min_size f = 1)%nat as Hm by (destruct f; auto; contradiction).
  split; [apply call_ok; auto; lia|]. rewrite (call_ok f _ _ _ n') by (auto; lia). f_equal. symmetry.
  assert (Cxy : dcov2 n (distances e x) (distances e y) = dcov2 n' (distances e x') (distances e y')).
  { unfold distances. rewrite Cx, Cx', Cy, Cy'. apply joint_dcov2; auto. }
  assert (Cxx : dcov2 n (distances e x) (distances e x) = dcov2 n' (distances e x') (distances e x')).
  { unfold distances. rewrite Cx, Cx'. apply joint_dcov2; auto. apply (joint_x p q n n' (obs x) (obs y) (obs x') (obs y')); auto. }
  assert (Cyy : dcov2 n (distances e y) (distances e y) = dcov2 n' (distances e y') (distances e y')).
  { unfold distances. rewrite Cy, Cy'. apply joint_dcov2; auto. apply (joint_x q p n n' (obs y) (obs x) (obs y') (obs x')); auto. apply joint_swap; auto. }
  destruct f; try contradiction; cbn [value]; unfold dcor2; rewrite ?Cxy, ?Cxx, ?Cyy; reflexivity.
Qed.

(** [x'] consists of the observations of [x], each [k] times; [g] says which. *)
Definition repetition (k n : nat) (g : nat -> nat) : Prop :=
  (forall i, (i < k * n)%nat -> (g i < n)%nat) /\ forall j, (j < n)%nat -> count (k * n) (fun i => Nat.eqb (g i) j) = INR k.
Definition repeated (k : nat) (g : nat -> nat) (x x' : array R) : Prop :=
  ncols x' = ncols x /\ wf x' /\ shape0 x' = (k * shape0 x)%nat /\ forall i c, (i < k * shape0 x)%nat -> (c < ncols x)%nat -> obs x' i c = obs x (g i) c.

Lemma repetition_sum k n g (F : nat -> R) : repetition k n g -> rsum (k * n) (fun i => F (g i)) = INR k * rsum n F.
Proof.
  intros [Hg Hc]. rewrite <- rsum_scal_l.
  rewrite (rsum_ext n (fun i => INR k * F i) (fun j => rsum (k * n) (fun i => if Nat.eqb j (g i) then F j else 0))).
  - rewrite rsum_swap. apply rsum_ext. intros i Hi. symmetry. apply (rsum_delta n (g i) F); auto.
  - intros j Hj. rewrite <- (Hc j Hj). unfold count. rewrite <- rsum_scal_r. apply rsum_ext. intros i Hi. destruct (Nat.eqb_spec (g i) j), (Nat.eqb_spec j (g i)); try congruence; ring.
Qed.

Lemma repeated_joint k g x y x' y' n : (1 <= k)%nat -> (1 <= n)%nat -> shape0 x = n -> shape0 y = n -> repetition k n g -> repeated k g x x' -> repeated k g y y' ->
  same_joint_distribution (ncols x) (ncols y) n (k * n) (obs x) (obs y) (obs x') (obs y').
Proof.
  intros Hk Hn Sx Sy Hg (_ & _ & _ & Ox) (_ & _ & _ & Oy) z w. subst n. unfold count.
  assert (1 <= INR k) by (change 1 with (INR 1); apply le_INR; auto). pose proof (INR_pos _ Hn).
  set (F := fun i => if same_pointb (ncols x) (obs x i) z && same_pointb (ncols y) (obs y i) w then 1 else 0).
  rewrite (rsum_ext (k * shape0 x) _ (fun i => F (g i))).
  - rewrite (repetition_sum k (shape0 x) g F Hg), mult_INR. fold F. field. lra.
  - intros i Hi. unfold F. assert (E1 : same_pointb (ncols x) (obs x' i) z = same_pointb (ncols x) (obs x (g i)) z).
    { apply eq_true_iff_eq. rewrite !same_pointb_true. unfold same_point. split; intros S c Hc; [rewrite <- Ox by auto|rewrite Ox by auto]; auto. }
    assert (E2 : same_pointb (ncols y) (obs y' i) w = same_pointb (ncols y) (obs y (g i)) w).
    { apply eq_true_iff_eq. rewrite !same_pointb_true. unfold same_point. split; intros S c Hc; [rewrite <- Oy by (auto; lia)|rewrite Oy by (auto; lia)]; auto. }
    rewrite E1, E2. reflexivity.
Qed.

(** Repeating every pair of observations k times changes neither the distance covariance nor the correlation; the statistic of
    distance_covariance_test becomes k times as large. *)
Theorem C71_repeated f E x y x' y' n k g e m cm m' cm' : valid_env E -> paired n x y -> (1 <= k)%nat -> repetition k n g -> repeated k g x x' -> repeated k g y y' ->
  0 < e -> accepts m cm x y e -> accepts m' cm' x' y' e -> v_statistic f ->
  exists v, call f E x y e m cm = Ok v /\ call f E x' y' e m' cm' = Ok v.
Proof.
  intros HE Hp Hk Hg Hx Hy He Ha Ha' Hf. pose proof Hp as (Wx & Wy & Sx & Sy & Hn). pose proof Hx as (Cx & Wx' & Sx' & _). pose proof Hy as (Cy & Wy' & Sy' & _).
  assert (paired (k * n) x' y') by (repeat split; auto; [congruence|congruence|nia]).
  apply (C71_dependence f E x y x' y' n (k * n) (ncols x) (ncols y)); auto. apply (repeated_joint k g); auto.
Qed.

Theorem C71_test_statistic {S} (E : Env R) (G : Rng S) x y x' y' n k g e b rs b' rs' t s t' s' : valid_env E -> permuting G -> paired n x y -> (1 <= k)%nat ->
  repetition k n g -> repeated k g x x' -> repeated k g y y' -> 0 < e ->
  outcome (distance_covariance_test E G x y (Z.of_nat b) e rs) = Ok (t, s) ->
  outcome (distance_covariance_test E G x' y' (Z.of_nat b') e rs') = Ok (t', s') -> statistic t' = INR k * statistic t.
Proof.
  intros HE HG Hp Hk Hg Hx Hy He Ht Ht'. pose proof Hp as (Wx & Wy & Sx & Sy & Hn). pose proof Hx as (Cx & Wx' & Sx' & _). pose proof Hy as (Cy & Wy' & Sy' & _).
  assert (Hp' : paired (k * n) x' y') by (repeat split; auto; [congruence|congruence|nia]).
  rewrite (dcov_test_eval E G x y n) in Ht by auto. rewrite (dcov_test_eval E G x' y' (k * n)) in Ht' by auto.
  injection Ht as <- _. injection Ht' as <- _. cbn [statistic]. rewrite mult_INR, Rmult_assoc. f_equal. f_equal.
  unfold distances. rewrite Cx, Cy. symmetry. apply joint_dcov2; auto; [nia|]. apply (repeated_joint k g); auto.
Qed.

(** ** The energy distance *)

Lemma energy_same e p n m n' m' X Y X' Y' : (1 <= n)%nat -> (1 <= m)%nat -> (1 <= n')%nat -> (1 <= m')%nat ->
  same_distribution p n n' X X' -> same_distribution p m m' Y Y' -> energy e p n m X Y = energy e p n' m' X' Y'.
Proof.
  intros Hn Hm Hn' Hm' DX DY. pose proof (INR_pos n Hn). pose proof (INR_pos m Hm). pose proof (INR_pos n' Hn'). pose proof (INR_pos m' Hm').
  set (k := fun u v => rpow (dist p u v) e).
  assert (K : forall u u' v v', same_point p u u' -> same_point p v v' -> k u v = k u' v') by (intros; apply kernel_same; auto).
  assert (M : forall a b a' b' U V U' V', (1 <= a)%nat -> (1 <= b)%nat -> (1 <= a')%nat -> (1 <= b')%nat -> same_distribution p a a' U U' -> same_distribution p b b' V V' ->
    rsum2 a b (fun i j => k (U i) (V j)) / (INR a * INR b) = rsum2 a' b' (fun i j => k (U' i) (V' j)) / (INR a' * INR b')).
  { intros a b a' b' U V U' V' Ha Hb Ha' Hb' DU DV. pose proof (INR_pos a Ha). pose proof (INR_pos b Hb). pose proof (INR_pos a' Ha'). pose proof (INR_pos b' Hb').
    transitivity (rsum a (fun i => rsum b (fun j => k (U i) (V j)) / INR b) / INR a); [rewrite rsum_div; unfold rsum2; field; lra|].
    transitivity (rsum a' (fun i => rsum b' (fun j => k (U' i) (V' j)) / INR b') / INR a'); [|rewrite rsum_div; unfold rsum2; field; lra].
    rewrite (rsum_ext a _ (fun i => rsum b' (fun j => k (U i) (V' j)) / INR b')).
    - apply (same_distribution_avg p a a' U U' (fun u => rsum b' (fun j => k u (V' j)) / INR b')); auto.
      intros u v Huv. f_equal. apply rsum_ext. intros. apply K; auto. apply same_point_refl.
    - intros i Hi. apply (same_distribution_avg p b b' V V' (k (U i))); auto. intros u v Huv. apply K; auto. apply same_point_refl. }
  unfold energy. change (fun i j => rpow (dist p (X i) (Y j)) e) with (fun i j => k (X i) (Y j)). change (fun i j => rpow (dist p (X' i) (Y' j)) e) with (fun i j => k (X' i) (Y' j)).
  change (fun i j => rpow (dist p (X i) (X j)) e) with (fun i j => k (X i) (X j)). change (fun i j => rpow (dist p (X' i) (X' j)) e) with (fun i j => k (X' i) (X' j)).
  change (fun i j => rpow (dist p (Y i) (Y j)) e) with (fun i j => k (Y i) (Y j)). change (fun i j => rpow (dist p (Y' i) (Y' j)) e) with (fun i j => k (Y' i) (Y' j)).
  rewrite (M n m n' m' X Y X' Y'), (M n n n' n' X X X' X'), (M m m m' m' Y Y Y' Y') by auto. reflexivity.
Qed.

(** The V-statistic energy distance depends on the empirical distribution of each sample only. *)
Theorem C71_energy E x y x' y' n m n' m' p e : valid_env E -> two_samples n m p x y -> two_samples n' m' p x' y' ->
  (1 <= n)%nat -> (1 <= m)%nat -> (1 <= n')%nat -> (1 <= m')%nat -> 0 < e ->
  same_distribution p n n' (obs x) (obs x') -> same_distribution p m m' (obs y) (obs y') ->
  exists v, outcome (energy_distance E x y e None V) = Ok v /\ outcome (energy_distance E x' y' e None V) = Ok v.
Proof.
  intros HE H H' Hn Hm Hn' Hm' He DX DY. eexists. split; [apply (energy_V E HE x y n m p e H He)|].
  unfold V. rewrite (energy_V E HE x' y' n' m' p e H' He). f_equal. symmetry. apply energy_same; auto.
Qed.

(** The bias-corrected statistics do change: 0 for the sample (0, 0, 0, 1) with itself, 1/7 when every observation is repeated. *)
Definition x4 : array R := mkArr Numpy F64 (Vec [0; 0; 0; 1]).
Definition x8 : array R := mkArr Numpy F64 (Vec [0; 0; 0; 0; 0; 0; 1; 1]).
Definition half (i : nat) : nat := Nat.div2 i.

Definition d4 (i j : nat) : R := if Nat.eqb (i / 3) (j / 3) then 0 else 1.
Definition d8 (i j : nat) : R := if Nat.eqb (i / 6) (j / 6) then 0 else 1.
Lemma x4_dist i j : (i < 4)%nat -> (j < 4)%nat -> distances 1 x4 i j = d4 i j.
Proof.
  intros Hi Hj. rewrite distances_1 by reflexivity. unfold obs; cbn [adata x4 nth].
  destruct i as [|[|[|[|i]]]]; try lia; destruct j as [|[|[|[|j]]]]; try lia; cbn;
    match goal with |- Rabs ?a = _ => (rewrite (Rabs_right a) by lra) || (rewrite (Rabs_left a) by lra) end; lra.
Qed.
Lemma x8_dist i j : (i < 8)%nat -> (j < 8)%nat -> distances 1 x8 i j = d8 i j.
Proof.
  intros Hi Hj. rewrite distances_1 by reflexivity. unfold obs; cbn [adata x8 nth].
  destruct i as [|[|[|[|[|[|[|[|i]]]]]]]]; try lia; destruct j as [|[|[|[|[|[|[|[|j]]]]]]]]; try lia; cbn;
    match goal with |- Rabs ?a = _ => (rewrite (Rabs_right a) by lra) || (rewrite (Rabs_left a) by lra) end; lra.
Qed.

Lemma x4_x8_repeated : repetition 2 4 half /\ repeated 2 half x4 x8.
Proof.
  split; [split|].
  - intros i Hi. do 8 (destruct i as [|i]; [cbn; lia|]). lia.
  - intros j Hj. unfold count. do 4 (destruct j as [|j]; [cbn; lra|]). lia.
  - split; [reflexivity|]. split; [exact I|]. split; [reflexivity|]. intros i c Hi Hc. cbn in Hi, Hc.
    do 8 (destruct i as [|i]; [reflexivity|]). lia.
Qed.

Lemma square_4 : dcov2 4 d4 d4 = 9 / 64 /\ udcov2 4 d4 d4 = 0 /\ udcov2 8 d8 d8 = 1 / 7.
Proof.
  assert (S4 : symmetric 4 d4) by (intros i j _ _; unfold d4; rewrite Nat.eqb_sym; reflexivity).
  assert (S8 : symmetric 8 d8) by (intros i j _ _; unfold d8; rewrite Nat.eqb_sym; reflexivity).
  assert (H4 : hollow 4 d4) by (intros i _; unfold d4; rewrite Nat.eqb_refl; reflexivity).
  assert (H8 : hollow 8 d8) by (intros i _; unfold d8; rewrite Nat.eqb_refl; reflexivity).
  rewrite dcov2_from_terms, !udcov2_from_terms by (auto; lia). unfold dcov2_terms, udcov2_terms, rsum2. cbn [rsum]. unfold d4, d8. cbn [Nat.eqb Nat.div Nat.divmod fst INR].
  repeat split; field.
Qed.

Theorem C71_u_refuted : exists E x x' g, valid_env E /\ paired 4 x x /\ repetition 2 4 g /\ repeated 2 g x x' /\
  call UDcovSqr E x x 1 MAuto CAuto = Ok 0 /\ call UDcovSqr E x' x' 1 MAuto CAuto = Ok (1 / 7).
Proof.
  exists (env_R true), x4, x8, half. destruct x4_x8_repeated as [Hg Hr]. destruct square_4 as (_ & U4 & U8).
  assert (P4 : paired 4 x4 x4) by (repeat split; auto; cbn; lia). assert (P8 : paired 8 x8 x8) by (repeat split; auto; cbn; lia).
  split; [apply env_R_valid|]. split; [auto|]. split; [auto|]. split; [auto|]. split.
  - rewrite (call_ok UDcovSqr _ _ _ 4) by (auto using env_R_valid, auto_accepts; lra). cbn [value]. f_equal. rewrite <- U4. apply udcov2_ext; apply x4_dist.
  - rewrite (call_ok UDcovSqr _ _ _ 8) by (auto using env_R_valid, auto_accepts; lra || (cbn; lia)). cbn [value]. f_equal. rewrite <- U8. apply udcov2_ext; apply x8_dist.
Qed.

Example C71_meets : call DcovSqr (env_R true) x4 x4 1 MAvl CAuto = Ok (9 / 64) /\ call DcovSqr (env_R true) x8 x8 1 MNaive CNoCompile = Ok (9 / 64) /\
  exists v, v <> 0 /\ outcome (energy_distance (env_R true) us1 us 1 None V) = Ok v /\ outcome (energy_distance (env_R true) us2 us 1 None V) = Ok v.
Proof.
  destruct x4_x8_repeated as [Hg Hr]. destruct square_4 as (V4 & _).
  assert (P4 : paired 4 x4 x4) by (repeat split; auto; cbn; lia).
  assert (A4 : accepts MAvl CAuto x4 x4 1) by (cbn; unfold accepts_avl, univariate, some_numpy, not_forced; cbn; repeat split; auto; (left; split; discriminate) || (left; discriminate)).
  assert (Hv : call DcovSqr (env_R true) x4 x4 1 MAvl CAuto = Ok (9 / 64)).
  { rewrite (call_ok DcovSqr _ _ _ 4) by (auto using env_R_valid; lra || (cbn; lia)). cbn [value]. f_equal. rewrite <- V4. apply dcov2_ext; apply x4_dist. }
  split; [exact Hv|]. split.
  - destruct (C71_repeated DcovSqr (env_R true) x4 x4 x8 x8 4 2 half 1 MAvl CAuto MNaive CNoCompile) as (v & H1 & H2); auto using env_R_valid, naive_accepts; try lra; try exact I.
    rewrite H2, <- H1. exact Hv.
  - destruct (C71_energy (env_R true) us1 us us2 us 2 3 4 3 1 1) as (v & H1 & H2); auto using env_R_valid; try lra; try (now repeat split).
    + intros z. unfold count, same_pointb. cbn. destruct (Req_EM_T 4 (z 0%nat)), (Req_EM_T 0 (z 0%nat)); cbn; lra.
    + exists v. split; [|auto]. intros ->. destruct C25_meets as [_ N]. contradiction.
Qed.
