(** Population quantities as functions of the probabilities of the atoms, and their values at relative frequencies. *)
From Coq Require Import Reals Lra Lia List Arith Bool.
From Verif Require Import Sums Spec Centering SpecFacts RefDist Expect PUnbiased Consist.
Local Open Scope R_scope.

(** Population squared distance covariance through conditional means. *)
Lemma population_rows K w a b : population_dcov2 K w a b =
  rsum2 K K (fun k l => w k * w l * (a k l * b k l))
  + rsum2 K K (fun k l => w k * w l * a k l) * rsum2 K K (fun k l => w k * w l * b k l)
  - 2 * rsum K (fun k => w k * (rsum K (fun l => w l * a k l) * rsum K (fun l => w l * b k l))).
Proof.
  unfold population_dcov2. do 2 f_equal. apply rsum_ext. intros k Hk. unfold rsum2. rewrite <- rsum_scal_r, <- rsum_scal_l.
  apply rsum_ext. intros l Hl. rewrite <- !rsum_scal_l. apply rsum_ext. intros. ring.
Qed.

(** The V-statistic is the population quantity of the relative frequencies. *)
Lemma dcov2_freq K n s a b : (1 <= n)%nat -> (forall i, (s i < K)%nat) -> (forall k l, a k l = a l k) -> (forall k l, b k l = b l k) ->
  dcov2 n (fun i j => a (s i) (s j)) (fun i j => b (s i) (s j)) = population_dcov2 K (freq n s) a b.
Proof.
  intros Hn Hs Sa Sb. pose proof (INR_pos n Hn).
  rewrite dcov2_from_terms by (auto; intros i j _ _; auto). rewrite population_rows, !rsum2_form. unfold dcov2_terms, rsum2.
  set (f := freq n s).
  assert (R1 : forall (c : nat -> nat -> R) k, rsum n (fun j => c k (s j)) = INR n * rsum K (fun l => f l * c k l)).
  { intros. apply (freq_sum K n s (c k)); auto. }
  assert (R2 : forall c : nat -> nat -> R, rsum n (fun i => rsum n (fun j => c (s i) (s j))) = INR n * INR n * rsum K (fun k => f k * rsum K (fun l => f l * c k l))).
  { intros c. rewrite (rsum_ext n _ (fun i => INR n * rsum K (fun l => f l * c (s i) l))) by (intros; apply R1).
    rewrite rsum_scal_l, (freq_sum K n s (fun k => rsum K (fun l => f l * c k l)) Hn Hs). fold f. ring. }
  rewrite (R2 (fun k l => a k l * b k l)), (R2 a), (R2 b).
  rewrite (rsum_ext n (fun i => rsum n (fun j => a (s i) (s j)) / INR n * rsum n (fun j => b (s i) (s j)))
    (fun i => INR n * (rsum K (fun l => f l * a (s i) l) * rsum K (fun l => f l * b (s i) l)))).
  - rewrite rsum_scal_l, (freq_sum K n s (fun k => rsum K (fun l => f l * a k l) * rsum K (fun l => f l * b k l)) Hn Hs). fold f. field. lra.
  - intros i Hi. rewrite (R1 a), (R1 b). field. lra.
Qed.

Lemma product_moved x y x' y' A B dx dy : 0 <= x <= A -> 0 <= y <= B -> 0 <= x' <= A -> 0 <= y' <= B -> Rabs (x - x') <= dx -> Rabs (y - y') <= dy ->
  Rabs (x * y - x' * y') <= dx * B + A * dy.
Proof.
  intros Hx Hy Hx' Hy' Dx Dy. replace (x * y - x' * y') with ((x - x') * y + x' * (y - y')) by ring.
  eapply Rle_trans; [apply Rabs_triang|]. rewrite !Rabs_mult, (Rabs_pos_eq y), (Rabs_pos_eq x') by lra.
  apply Rplus_le_compat; apply Rmult_le_compat; try apply Rabs_pos; lra.
Qed.

Definition kernel_below (K : nat) (a : nat -> nat -> R) (A : R) : Prop := forall k l, (k < K)%nat -> (l < K)%nat -> 0 <= a k l <= A.

Lemma population_moved K f w a b A B : distribution K f -> distribution K w -> kernel_below K a A -> kernel_below K b B -> 0 <= A -> 0 <= B ->
  Rabs (population_dcov2 K f a b - population_dcov2 K w a b) <= 12 * A * B * rsum K (fun k => Rabs (f k - w k)).
Proof.
  intros Hf Hw Ha Hb HA HB. set (D := rsum K (fun k => Rabs (f k - w k))).
  assert (HD : 0 <= D) by (apply rsum_nonneg; intros; apply Rabs_pos).
  rewrite !population_rows.
  assert (Hab : kernel_below K (fun k l => a k l * b k l) (A * B)).
  { intros k l Hk Hl. specialize (Ha k l Hk Hl). specialize (Hb k l Hk Hl). split; [apply Rmult_le_pos; lra|apply Rmult_le_compat; lra]. }
  pose proof (quadratic_moved K f w _ _ Hf Hw Hab) as M1. pose proof (quadratic_moved K f w _ _ Hf Hw Ha) as MA. pose proof (quadratic_moved K f w _ _ Hf Hw Hb) as MB.
  fold D in M1, MA, MB.
  pose proof (product_moved _ _ _ _ A B _ _ (quadratic_bound K f a A Hf Ha) (quadratic_bound K f b B Hf Hb) (quadratic_bound K w a A Hw Ha) (quadratic_bound K w b B Hw Hb) MA MB) as M3.
  set (fa := fun k => rsum K (fun l => f l * a k l)). set (fb := fun k => rsum K (fun l => f l * b k l)).
  set (wa := fun k => rsum K (fun l => w l * a k l)). set (wb := fun k => rsum K (fun l => w l * b k l)).
  assert (M2 : Rabs (rsum K (fun k => f k * (fa k * fb k)) - rsum K (fun k => w k * (wa k * wb k))) <= 3 * A * B * D).
  { assert (Bfa : forall k, (k < K)%nat -> 0 <= fa k <= A) by (intros; apply linear_bound; auto).
    assert (Bfb : forall k, (k < K)%nat -> 0 <= fb k <= B) by (intros; apply linear_bound; auto).
    assert (Bwa : forall k, (k < K)%nat -> 0 <= wa k <= A) by (intros; apply linear_bound; auto).
    assert (Bwb : forall k, (k < K)%nat -> 0 <= wb k <= B) by (intros; apply linear_bound; auto).
    replace (rsum K (fun k => f k * (fa k * fb k)) - rsum K (fun k => w k * (wa k * wb k)))
      with ((rsum K (fun k => f k * (fa k * fb k)) - rsum K (fun k => w k * (fa k * fb k))) + rsum K (fun k => w k * (fa k * fb k - wa k * wb k))).
    2:{ rewrite (rsum_ext K (fun k => w k * (fa k * fb k - wa k * wb k)) (fun k => w k * (fa k * fb k) - w k * (wa k * wb k))) by (intros; ring). rewrite rsum_minus. ring. }
    eapply Rle_trans; [apply Rabs_triang|]. replace (3 * A * B * D) with (A * B * D + 2 * A * B * D) by ring. apply Rplus_le_compat.
    - apply (linear_moved K f w (fun k => fa k * fb k) (A * B)). intros k Hk. specialize (Bfa k Hk). specialize (Bfb k Hk).
      apply in_abs. split; [apply Rmult_le_pos; lra|apply Rmult_le_compat; lra].
    - eapply Rle_trans; [apply rsum_Rabs_le|]. destruct Hw as [Pw Sw]. rewrite <- (Rmult_1_l (2 * A * B * D)), <- Sw, <- rsum_scal_r. apply rsum_le.
      intros k Hk. rewrite Rabs_mult, (Rabs_pos_eq (w k)) by auto. apply Rmult_le_compat_l; auto.
      replace (2 * A * B * D) with ((A * D) * B + A * (B * D)) by ring. apply product_moved; auto.
      + apply linear_moved. intros; apply in_abs; auto.
      + apply linear_moved. intros; apply in_abs; auto. }
  match goal with |- Rabs (?p + ?q - 2 * ?r - (?p' + ?q' - 2 * ?r')) <= _ =>
    assert (T : Rabs (p + q - 2 * r - (p' + q' - 2 * r')) <= Rabs (p - p') + Rabs (q - q') + 2 * Rabs (r - r')) end.
  { match goal with |- Rabs (?p + ?q - 2 * ?r - (?p' + ?q' - 2 * ?r')) <= _ =>
      replace (p + q - 2 * r - (p' + q' - 2 * r')) with ((p - p') + (q - q') + (- 2) * (r - r')) by ring end.
    eapply Rle_trans; [apply Rabs_triang|]. eapply Rle_trans; [apply Rplus_le_compat_r, Rabs_triang|]. rewrite (Rabs_mult (-2)).
    replace (Rabs (-2)) with 2 by (rewrite Rabs_left; lra). lra. }
  eapply Rle_trans; [exact T|]. fold fa fb wa wb in M2 |- *.
  assert (M2' : 2 * Rabs (rsum K (fun k => f k * (fa k * fb k)) - rsum K (fun k => w k * (wa k * wb k))) <= 2 * (3 * A * B * D)) by lra.
  unfold fa, fb, wa, wb in M2'. eapply Rle_trans; [apply Rplus_le_compat; [apply Rplus_le_compat; [exact M1|exact M3]|exact M2']|]. nra.
Qed.

(** The bias-corrected statistic is close to the plain one. *)
Lemma bias_gap n a b A B : (4 <= n)%nat -> symmetric n a -> symmetric n b -> hollow n a -> hollow n b -> kernel_below n a A -> kernel_below n b B ->
  0 <= A -> 0 <= B -> Rabs (udcov2 n a b - dcov2 n a b) <= 27 * A * B / (INR n - 3).
Proof.
  intros Hn Sa Sb Ha Hb Ka Kb HA HB. pose proof (INR_ge4 n Hn) as HN.
  rewrite udcov2_from_terms, dcov2_from_terms by (auto; lia). unfold udcov2_terms, dcov2_terms.
  set (N := INR n) in *. set (t1 := rsum2 n n (fun i j => a i j * b i j) / (N * N)). set (ta := rsum2 n n a / (N * N)). set (tb := rsum2 n n b / (N * N)).
  set (t2 := rsum n (fun i => rsum n (a i) / N * rsum n (b i)) / (N * N)).
  assert (Av : forall c C, kernel_below n c C -> 0 <= rsum2 n n c / (N * N) <= C).
  { intros c C Hc. split.
    - apply Rmult_le_pos; [apply rsum_nonneg; intros; apply rsum_nonneg; intros; apply Hc; auto|]. left. apply Rinv_0_lt_compat. nra.
    - apply Rmult_le_reg_r with (N * N); [nra|]. replace (rsum2 n n c / (N * N) * (N * N)) with (rsum2 n n c) by (field; lra).
      replace (C * (N * N)) with (rsum2 n n (fun _ _ => C)) by (rewrite rsum2_const; unfold N; ring).
      apply rsum_le. intros i Hi. apply rsum_le. intros j Hj. apply Hc; auto. }
  assert (B1 : 0 <= t1 <= A * B).
  { apply Av. intros i j Hi Hj. specialize (Ka i j Hi Hj). specialize (Kb i j Hi Hj). split; [apply Rmult_le_pos; lra|apply Rmult_le_compat; lra]. }
  assert (BA : 0 <= ta <= A) by (apply Av; auto). assert (BB : 0 <= tb <= B) by (apply Av; auto).
  assert (B2 : 0 <= t2 <= A * B).
  { assert (Rw : forall c C i, kernel_below n c C -> (i < n)%nat -> 0 <= rsum n (c i) <= N * C).
    { intros c C i Hc Hi. split; [apply rsum_nonneg; intros; apply Hc; auto|]. unfold N. rewrite <- rsum_const. apply rsum_le. intros; apply Hc; auto. }
    unfold t2. split.
    - apply Rmult_le_pos; [|left; apply Rinv_0_lt_compat; nra]. apply rsum_nonneg. intros i Hi. pose proof (Rw a A i Ka Hi). pose proof (Rw b B i Kb Hi).
      apply Rmult_le_pos; [apply Rmult_le_pos; [lra|left; apply Rinv_0_lt_compat; lra]|lra].
    - apply Rmult_le_reg_r with (N * N); [nra|].
      replace (rsum n (fun i => rsum n (a i) / N * rsum n (b i)) / (N * N) * (N * N)) with (rsum n (fun i => rsum n (a i) / N * rsum n (b i))) by (field; lra).
      replace (A * B * (N * N)) with (rsum n (fun _ => A * (N * B))) by (rewrite rsum_const; unfold N; ring). apply rsum_le. intros i Hi.
      pose proof (Rw a A i Ka Hi) as Ra. pose proof (Rw b B i Kb Hi) as Rb.
      assert (0 <= rsum n (a i) / N <= A).
      { split; [apply Rmult_le_pos; [lra|left; apply Rinv_0_lt_compat; lra]|]. apply Rmult_le_reg_r with N; [lra|].
        replace (rsum n (a i) / N * N) with (rsum n (a i)) by (field; lra). lra. }
      apply Rmult_le_compat; lra. }
  replace (rsum2 n n (fun i j => a i j * b i j)) with (t1 * (N * N)) by (unfold t1; field; lra).
  replace (rsum2 n n a) with (ta * (N * N)) by (unfold ta; field; lra). replace (rsum2 n n b) with (tb * (N * N)) by (unfold tb; field; lra).
  replace (rsum n (fun i => rsum n (a i) / N * rsum n (b i))) with (t2 * (N * N)) by (unfold t2; field; lra).
  set (t3 := ta * tb). assert (B3 : 0 <= t3 <= A * B) by (unfold t3; split; [apply Rmult_le_pos; lra|apply Rmult_le_compat; lra]).
  set (c2 := (5 * N - 6) / (N - 2)). set (c3 := (6 * N * N - 11 * N + 6) / ((N - 1) * (N - 2))).
  assert (C2 : 0 <= c2 <= 7).
  { unfold c2. split; [apply Rmult_le_pos; [lra|left; apply Rinv_0_lt_compat; lra]|]. apply Rmult_le_reg_r with (N - 2); [lra|].
    replace ((5 * N - 6) / (N - 2) * (N - 2)) with (5 * N - 6) by (field; lra). lra. }
  assert (C3 : 0 <= c3 <= 10).
  { assert (0 < (N - 1) * (N - 2)) by (apply Rmult_lt_0_compat; lra). assert (4 * 4 <= N * N) by (apply Rmult_le_compat; lra). assert (4 * N <= N * N) by (apply Rmult_le_compat_r; lra).
    unfold c3. split; [apply Rmult_le_pos; [lra|left; apply Rinv_0_lt_compat; lra]|]. apply Rmult_le_reg_r with ((N - 1) * (N - 2)); [lra|].
    replace ((6 * N * N - 11 * N + 6) / ((N - 1) * (N - 2)) * ((N - 1) * (N - 2))) with (6 * N * N - 11 * N + 6) by (field; lra). nra. }
  match goal with |- Rabs ?x <= _ => replace x with ((3 * t1 - 2 * (c2 * t2) + c3 * t3) / (N - 3)) end.
  2:{ unfold c2, c3, t3. field. lra. }
  unfold Rdiv. rewrite Rabs_mult, (Rabs_pos_eq (/ (N - 3))) by (left; apply Rinv_0_lt_compat; lra).
  apply Rmult_le_compat_r; [left; apply Rinv_0_lt_compat; lra|].
  assert (0 <= c2 * t2 <= 7 * (A * B)) by (split; [apply Rmult_le_pos; lra|apply Rmult_le_compat; lra]).
  assert (0 <= c3 * t3 <= 10 * (A * B)) by (split; [apply Rmult_le_pos; lra|apply Rmult_le_compat; lra]).
  apply Rabs_le. lra.
Qed.

(** ** Energy distance *)

Lemma energy_freq e p K L n m s t X Y : (1 <= n)%nat -> (1 <= m)%nat -> (forall i, (s i < K)%nat) -> (forall i, (t i < L)%nat) ->
  energy e p n m (fun i => X (s i)) (fun j => Y (t j)) = population_energy e p K L (freq n s) (freq m t) X Y.
Proof.
  intros Hn Hm Hs Ht. pose proof (INR_pos n Hn). pose proof (INR_pos m Hm). unfold energy, population_energy.
  assert (Q : forall K L n m s t (c : nat -> nat -> R), (1 <= n)%nat -> (1 <= m)%nat -> (forall i, (s i < K)%nat) -> (forall i, (t i < L)%nat) ->
    rsum2 n m (fun i j => c (s i) (t j)) / (INR n * INR m) = rsum2 K L (fun k l => freq n s k * freq m t l * c k l)).
  { intros K' L' n' m' s' t' c Hn' Hm' Hs' Ht'. pose proof (INR_pos n' Hn'). pose proof (INR_pos m' Hm'). unfold rsum2.
    rewrite (rsum_ext n' _ (fun i => INR m' * rsum L' (fun l => freq m' t' l * c (s' i) l))) by (intros; apply (freq_sum L' m' t' (c (s' i))); auto).
    rewrite rsum_scal_l, (freq_sum K' n' s' (fun k => rsum L' (fun l => freq m' t' l * c k l)) Hn' Hs').
    rewrite (rsum_ext K' (fun k => rsum L' (fun l => freq n' s' k * freq m' t' l * c k l)) (fun k => freq n' s' k * rsum L' (fun l => freq m' t' l * c k l))).
    - field. lra.
    - intros. rewrite <- rsum_scal_l. apply rsum_ext. intros. ring. }
  rewrite <- (Q K L n m s t (fun k l => rpow (dist p (X k) (Y l)) e)), <- (Q K K n n s s (fun k l => rpow (dist p (X k) (X l)) e)),
    <- (Q L L m m t t (fun k l => rpow (dist p (Y k) (Y l)) e)) by auto. reflexivity.
Qed.

Lemma energy_moved e p K L f w g v X Y M : distribution K f -> distribution K w -> distribution L g -> distribution L v ->
  (forall k l, (k < K)%nat -> (l < L)%nat -> rpow (dist p (X k) (Y l)) e <= M) -> kernel_below K (dmat e p X) M -> kernel_below L (dmat e p Y) M ->
  Rabs (population_energy e p K L f g X Y - population_energy e p K L w v X Y)
  <= 4 * M * (rsum K (fun k => Rabs (f k - w k)) + rsum L (fun l => Rabs (g l - v l))).
Proof.
  intros Hf Hw Hg Hv HM HX HY. unfold population_energy.
  assert (HM' : forall k l, (k < K)%nat -> (l < L)%nat -> 0 <= rpow (dist p (X k) (Y l)) e <= M) by (intros; split; [apply rpow_nonneg|]; auto).
  pose proof (bilinear_moved K L f w g v _ M Hf Hw Hg Hv HM') as M1. pose proof (quadratic_moved K f w _ M Hf Hw HX) as M2.
  pose proof (quadratic_moved L g v _ M Hg Hv HY) as M3. unfold dmat in M2, M3.
  match goal with |- Rabs (2 * ?x - ?y - ?z - (2 * ?x' - ?y' - ?z')) <= _ =>
    replace (2 * x - y - z - (2 * x' - y' - z')) with (2 * (x - x') - (y - y') - (z - z')) by ring;
    set (dx := x - x') in *; set (dy := y - y') in *; set (dz := z - z') in * end.
  revert M1 M2 M3. unfold Rabs. destruct (Rcase_abs dx), (Rcase_abs dy), (Rcase_abs dz), (Rcase_abs _); lra.
Qed.
