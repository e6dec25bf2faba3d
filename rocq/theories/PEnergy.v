(** The energy distance: C24-C27, C47, C50.

    [energy] and [uenergy] are the textbook V- and U-statistics (Spec.v); [two_samples n m p x y]: samples of [n]
    and [m] observations with [p] coordinates (RefEnergy.v). *)
From Coq Require Import Reals Lra Lia List Arith Bool ZArith Permutation String.
From Verif Require Import Num Numpy MUtils MDistances MInternals MDcor MEnergy Sums Spec Centering Tab Samples Api RefDist RefDcor
  RefApi EnergyMath SpecFacts RefEnergy Witness PShapes.
Import List ListNotations.
Local Open Scope R_scope.

Definition V := EstEnum VStatistic.
Definition U := EstEnum UStatistic.

(** Enough observations for every mean to be over a non-empty list. *)
Definition enough (es : estimation_like) (n m : nat) : Prop :=
  match to_estimation es with Ok UStatistic => (2 <= n)%nat /\ (2 <= m)%nat | _ => (1 <= n)%nat /\ (1 <= m)%nat end.

(** ** C24 *)

Theorem C24_value E x y n m p e : valid_env E -> two_samples n m p x y -> (1 <= n)%nat -> (1 <= m)%nat -> 0 < e ->
  outcome (energy_distance E x y e None V)
  = Ok (2 * (rsum2 n m (fun i j => rpow (dist p (obs x i) (obs y j)) e) / (INR n * INR m))
        - rsum2 n n (fun i j => rpow (dist p (obs x i) (obs x j)) e) / (INR n * INR n)
        - rsum2 m m (fun i j => rpow (dist p (obs y i) (obs y j)) e) / (INR m * INR m)).
Proof. intros. apply energy_V; auto. Qed.

Theorem C24_nonneg E x y n m p e : valid_env E -> two_samples n m p x y -> (1 <= n)%nat -> (1 <= m)%nat -> 0 < e <= 2 ->
  exists v, outcome (energy_distance E x y e None V) = Ok v /\ 0 <= v.
Proof. intros. eexists. split; [apply energy_V; eauto; lra|]. apply energy_nonneg; auto. Qed.

(** Symmetric, for both estimators and every average that does not depend on the order of its arguments. *)
Definition order_invariant (av : average_fn (T:=R)) : Prop :=
  match av with None => True | Some f => forall l l', Permutation l l' -> f l = f l' end.

Lemma two_samples_sym n m p x y : two_samples n m p x y -> two_samples m n p y x.
Proof. unfold two_samples. tauto. Qed.

Lemma average_perm E av l l' : valid_env E -> order_invariant av -> Permutation l l' -> apply_average E av l = apply_average E av l'.
Proof. intros [EN _ _] Ha Hp. destruct av as [f|]; cbn; [apply Ha; auto|]. rewrite EN. apply np_mean_perm; auto. Qed.

Theorem C24_symmetric E x y n m p e av es : valid_env E -> two_samples n m p x y -> enough es n m -> 0 < e -> order_invariant av ->
  outcome (energy_distance E x y e av es) = outcome (energy_distance E y x e av es).
Proof.
  intros HE H _ He Ha. pose proof (two_samples_sym _ _ _ _ _ H) as H'. destruct (to_estimation es) as [st|ex] eqn:Hs.
  - destruct (energy_distance_eval E HE x y n m p e av es st H He Hs) as (l & Hl & ->).
    destruct (energy_distance_eval E HE y x m n p e av es st H' He Hs) as (l' & Hl' & ->).
    rewrite (average_perm E av l l'); auto; [f_equal; ring|].
    rewrite Hl, Hl', concat_transpose. destruct H as (_ & _ & _ & _ & Cx & Cy).
    rewrite (tab2_ext m n (fun j i => cross e x y i j) (cross e y x)); [reflexivity|].
    intros i j _ _. unfold cross. rewrite Cx, Cy, dist_sym. reflexivity.
  - rewrite !(energy_distance_bad E HE _ _ n m p e av es ex), (energy_distance_bad E HE y x m n p e av es ex) by auto.
    reflexivity.
Qed.

Theorem C24_same E x n p e : valid_env E -> wf x -> shape0 x = n -> ncols x = p -> (1 <= n)%nat -> 0 < e ->
  outcome (energy_distance E x x e None V) = Ok 0.
Proof.
  intros HE Wx Sx Cx Hn He. rewrite (energy_V E HE x x n n p) by (unfold two_samples; auto 8). f_equal.
  unfold energy. ring.
Qed.

(** The warning is emitted exactly when the exponent is outside (0, 2). *)
Theorem C24_warning E x y n m p e av es : valid_env E -> two_samples n m p x y -> 0 < e ->
  fst (energy_distance E x y e av es) = if Rlt_dec e 2 then [] else [WEnergyExponent].
Proof.
  intros HE H He. pose proof HE as [EN _ _]. destruct (cross_ok E HE x y n m p e H He) as (d & Hd & _).
  destruct H as (Wx & Wy & Sx & Sy & Cx & Cy).
  unfold energy_distance, check_valid_energy_exponent, exponent_in_range. rewrite EN. cbn [nltb nzero nofZ RNum].
  rewrite (pairwise_distances_one E EN x e), (pairwise_distances_one E EN y e), Hd by auto.
  destruct (Rltb_spec 0 e); [|contradiction]. cbn [andb].
  destruct (Rltb_spec e 2), (Rlt_dec e 2); try contradiction; cbn; auto.
Qed.

Definition us : array R := mkArr Numpy F64 (Vec [4; 0; 2]).
Lemma xs_us : two_samples 5 3 1 xs us.
Proof. repeat split. Qed.

Example C24_meets : exists v, outcome (energy_distance (env_R true) xs us 1 None V) = Ok v /\ 0 <= v.
Proof. apply (C24_nonneg _ xs us 5 3 1); auto using env_R_valid, xs_us; try lia; lra. Qed.

(** ** C25 *)

Theorem C25_zero_iff E x y n m p e : valid_env E -> two_samples n m p x y -> (1 <= n)%nat -> (1 <= m)%nat -> 0 < e < 2 ->
  outcome (energy_distance E x y e None V) = Ok 0 <-> same_distribution p n m (obs x) (obs y).
Proof.
  intros HE H Hn Hm He. rewrite (energy_V E HE x y n m p) by (auto; lra). split.
  - intros H0. injection H0 as H0. eapply energy_zero_same; eauto.
  - intros HD. f_equal. apply same_energy_zero; auto.
Qed.

(** Two different samples with the same relative frequencies. *)
Definition us1 : array R := mkArr Numpy F64 (Vec [4; 0]).
Definition us2 : array R := mkArr Numpy F64 (Vec [0; 4; 0; 4]).
Example C25_meets : outcome (energy_distance (env_R true) us1 us2 1 None V) = Ok 0 /\
  outcome (energy_distance (env_R true) us1 us 1 None V) <> Ok 0.
Proof.
  split.
  - apply (C25_zero_iff _ us1 us2 2 4 1); auto using env_R_valid; try lra; try lia; [repeat split|].
    intros z. unfold count, same_pointb. cbn.
    destruct (Req_EM_T 4 (z 0%nat)), (Req_EM_T 0 (z 0%nat)); cbn; lra.
  - rewrite (C25_zero_iff _ us1 us 2 3 1); auto using env_R_valid; try lra; try lia; [|repeat split].
    intros H. specialize (H (fun _ => 2)). unfold count, same_pointb in H. cbn in H.
    destruct (Req_EM_T 4 2), (Req_EM_T 0 2), (Req_EM_T 2 2); cbn in H; lra.
Qed.

(** ** C26 *)

(** [x'], [y'] have [k] times the distances of [x], [y]: within and between the samples. *)
Definition similar (e k : R) (x y x' y' : array R) : Prop :=
  shape0 x' = shape0 x /\ shape0 y' = shape0 y /\ wf x' /\ wf y' /\ ncols x' = ncols y' /\
  (forall i j, (i < shape0 x)%nat -> (j < shape0 x)%nat -> distances e x' i j = k * distances e x i j) /\
  (forall i j, (i < shape0 y)%nat -> (j < shape0 y)%nat -> distances e y' i j = k * distances e y i j) /\
  (forall i j, (i < shape0 x)%nat -> (j < shape0 y)%nat -> cross e x' y' i j = k * cross e x y i j).

Lemma upper_mean_scal n k a a' : (forall i j, (i < n)%nat -> (j < n)%nat -> a' i j = k * a i j) ->
  upper_mean n a' = k * upper_mean n a.
Proof.
  intros H. unfold upper_mean, Rdiv. rewrite <- Rmult_assoc, <- rsum2_scal_l. f_equal. apply rsum2_ext. intros.
  destruct (Nat.ltb i j); [apply H; auto|ring].
Qed.

Theorem C26_similar E x y x' y' n m p e k es v : valid_env E -> two_samples n m p x y -> enough es n m -> similar e k x y x' y' -> 0 < e ->
  outcome (energy_distance E x y e None es) = Ok v ->
  outcome (energy_distance E x' y' e None es) = Ok (k * v).
Proof.
  intros HE H _ (Sx' & Sy' & Wx' & Wy' & Cxy & H1 & H2 & H3) He Hv.
  pose proof H as (Wx & Wy & Sx & Sy & Cx & Cy). rewrite Sx, Sy in *.
  assert (two_samples n m (ncols y') x' y') as H' by (unfold two_samples; auto 8).
  assert (forall st, outcome (energy_distance E x y e None (EstEnum st)) = Ok v ->
                     outcome (energy_distance E x' y' e None (EstEnum st)) = Ok (k * v)) as Hst.
  { intros st Hw. destruct st.
    - rewrite (energy_U E HE x y n m p) in Hw by auto. injection Hw as <-.
      rewrite (energy_U E HE x' y' n m (ncols y')) by auto. f_equal. unfold uenergy.
      rewrite (rsum2_ext n m _ (fun i j => k * cross e x y i j)) by (intros; rewrite <- H3, <- Cxy by auto; reflexivity).
      rewrite (upper_mean_scal n k (distances e x)) by (intros; rewrite <- H1, <- Cxy by auto; reflexivity).
      rewrite (upper_mean_scal m k (distances e y)) by (intros; rewrite <- H2 by auto; reflexivity).
      rewrite rsum2_scal_l. unfold cross, distances, dmat. rewrite Cx, Cy. unfold Rdiv. ring.
    - rewrite (energy_V E HE x y n m p) in Hw by auto. injection Hw as <-.
      rewrite (energy_V E HE x' y' n m (ncols y')) by auto. f_equal. unfold energy.
      rewrite (rsum2_ext n m _ (fun i j => k * cross e x y i j)) by (intros; rewrite <- H3, <- Cxy by auto; reflexivity).
      rewrite (rsum2_ext n n (fun i j => rpow (dist (ncols y') _ _) e) (fun i j => k * distances e x i j))
        by (intros; rewrite <- H1, <- Cxy by auto; reflexivity).
      rewrite (rsum2_ext m m (fun i j => rpow (dist (ncols y') _ _) e) (fun i j => k * distances e y i j))
        by (intros; rewrite <- H2 by auto; reflexivity).
      rewrite !rsum2_scal_l. unfold cross, distances, dmat. rewrite Cx, Cy. unfold Rdiv. ring. }
  destruct (to_estimation es) as [st|ex] eqn:Hs.
  - destruct es as [st'|s]; cbn in Hs; [apply Hst; auto|].
    assert (forall a b, outcome (energy_distance E a b e None (EstStr s)) = outcome (energy_distance E a b e None (EstEnum st))) as Hq.
    { intros a b. unfold energy_distance, energy_distance_from_distance_matrices. cbn [to_estimation]. rewrite Hs. reflexivity. }
    rewrite Hq in *. auto.
  - rewrite (energy_distance_bad E HE x y n m p e None es ex) in Hv by auto. discriminate.
Qed.

Lemma rpow_ext_1 a b e : a = b -> rpow a e = 1 * rpow b e.
Proof. intros ->. ring. Qed.

(** A common translation, rotation or scaling of the two samples. *)
Theorem C26_translated E x y x' y' n m p e es c v : valid_env E -> two_samples n m p x y -> enough es n m -> 0 < e ->
  translated c x x' -> translated c y y' ->
  outcome (energy_distance E x y e None es) = Ok v -> outcome (energy_distance E x' y' e None es) = Ok v.
Proof.
  intros HE H Hm He [(_ & _ & Cx' & Sx' & Wx') Tx] [(_ & _ & Cy' & Sy' & Wy') Ty] Hv.
  pose proof H as (Wx & Wy & Sx & Sy & Cx & Cy).
  replace v with (1 * v) by ring. apply (C26_similar E x y x' y' n m p); auto.
  unfold similar. rewrite Sx', Sy'.
  assert (forall a b i j u w, (forall k, (k < p)%nat -> u k = obs a i k + c k) -> (forall k, (k < p)%nat -> w k = obs b j k + c k) ->
            dist p u w = dist p (obs a i) (obs b j)) as Hd.
  { intros a b i j u w Hu Hw. unfold dist. f_equal. apply rsum_ext. intros k Hk. rewrite Hu, Hw by auto. ring. }
  split; [auto|]. split; [auto|]. split; [auto|]. split; [auto|]. split; [congruence|].
  unfold distances, dmat, cross. rewrite Cx', Cy', Cx, Cy.
  split; [|split]; intros i j Hi Hj; apply rpow_ext_1, Hd; intros k Hk; (apply Tx || apply Ty); auto; congruence.
Qed.

Theorem C26_scaled E x y x' y' n m p e es s v : valid_env E -> two_samples n m p x y -> enough es n m -> 0 < e ->
  scaled s x x' -> scaled s y y' ->
  outcome (energy_distance E x y e None es) = Ok v ->
  outcome (energy_distance E x' y' e None es) = Ok (rpow (Rabs s) e * v).
Proof.
  intros HE H Hm He Hx Hy Hv. pose proof Hx as [(_ & _ & Cx' & Sx' & Wx') Tx]. pose proof Hy as [(_ & _ & Cy' & Sy' & Wy') Ty].
  pose proof H as (Wx & Wy & Sx & Sy & Cx & Cy).
  apply (C26_similar E x y x' y' n m p); auto. unfold similar. rewrite Sx', Sy'.
  split; [auto|]. split; [auto|]. split; [auto|]. split; [auto|]. split; [congruence|]. split; [|split].
  - intros. apply (scaled_distances s); auto.
  - intros. apply (scaled_distances s); auto.
  - intros i j Hi Hj. unfold cross. rewrite <- rpow_mult by (auto using Rabs_pos, RefDist.dist_nonneg).
    rewrite <- dist_scal, Cx'. f_equal. apply dist_ext; intros k Hk; [apply Tx|apply Ty]; auto; congruence.
Qed.

Lemma dist_rotated p Q u w : orthogonal p Q ->
  dist p (fun k => rsum p (fun l => Q k l * u l)) (fun k => rsum p (fun l => Q k l * w l)) = dist p u w.
Proof.
  intros HQ. unfold dist. f_equal. set (d := fun l => u l - w l).
  rewrite (rsum_ext p _ (fun r => rsum2 p p (fun k l => d k * d l * (Q r k * Q r l)))).
  - unfold rsum2. rewrite rsum_swap. apply rsum_ext. intros k Hk. rewrite rsum_swap.
    rewrite (rsum_ext p _ (fun l => d k * d l * (if Nat.eqb k l then 1 else 0))).
    + rewrite (rsum_ext p _ (fun l => if Nat.eqb l k then d k * d k else 0)).
      * rewrite (rsum_delta p k (fun _ => d k * d k)) by auto. unfold d. ring.
      * intros l Hl. rewrite (Nat.eqb_sym k l). destruct (Nat.eqb_spec l k); [subst; ring|ring].
    + intros l Hl. rewrite rsum_scal_l. rewrite HQ by auto. reflexivity.
  - intros r Hr. rewrite <- rsum_minus.
    rewrite (rsum_ext p _ (fun l => Q r l * d l)) by (intros; unfold d; ring).
    replace (rsum p (fun l => Q r l * d l) ^ 2)
      with (rsum p (fun l => Q r l * d l) * rsum p (fun l => Q r l * d l)) by ring.
    rewrite rsum_mult. apply rsum2_ext. intros. ring.
Qed.

Theorem C26_rotated E x y x' y' n m p e es Q v : valid_env E -> two_samples n m p x y -> enough es n m -> 0 < e ->
  rotated Q x x' -> rotated Q y y' ->
  outcome (energy_distance E x y e None es) = Ok v -> outcome (energy_distance E x' y' e None es) = Ok v.
Proof.
  intros HE H Hm He (HQ & (_ & _ & Cx' & Sx' & Wx') & Tx) (_ & (_ & _ & Cy' & Sy' & Wy') & Ty) Hv.
  pose proof H as (Wx & Wy & Sx & Sy & Cx & Cy). rewrite Cx in *. rewrite Cy in *.
  replace v with (1 * v) by ring. apply (C26_similar E x y x' y' n m p); auto.
  unfold similar. rewrite Sx', Sy'.
  split; [auto|]. split; [auto|]. split; [auto|]. split; [auto|]. split; [congruence|].
  unfold distances, dmat, cross. rewrite Cx', Cy', Cx, Cy.
  split; [|split]; intros i j Hi Hj; apply rpow_ext_1; (etransitivity; [|apply (dist_rotated p Q); auto]); apply dist_ext; intros k Hk;
    (apply Tx || apply Ty); auto.
Qed.

(** Reordering either sample. *)
Lemma upper_mean_total n a : (2 <= n)%nat -> symmetric n a -> hollow n a ->
  upper_mean n a = rsum2 n n a / (INR n * (INR n - 1)).
Proof.
  intros Hn Hs Hh. unfold upper_mean.
  assert (rsum2 n n a = 2 * rsum2 n n (fun i j => if Nat.ltb i j then a i j else 0)) as ->.
  { assert (rsum2 n n (fun i j => if Nat.ltb i j then a i j else 0)
            = rsum2 n n (fun i j => if Nat.ltb j i then a i j else 0)) as Hsw.
    { rewrite rsum2_swap. apply rsum2_ext. intros i j Hi Hj. destruct (Nat.ltb j i); auto. }
    rewrite double. rewrite Hsw at 1. rewrite <- rsum2_plus. apply rsum2_ext. intros i j Hi Hj.
    destruct (Nat.ltb_spec j i), (Nat.ltb_spec i j); try lia; try ring.
    assert (i = j) as -> by lia. rewrite Hh by auto. ring. }
  assert (2 <= INR n) by (replace 2 with (INR 2) by reflexivity; apply le_INR; auto). field. lra.
Qed.

Lemma upper_mean_perm n q a : (2 <= n)%nat -> symmetric n a -> hollow n a -> perm_on n q ->
  upper_mean n (fun i j => a (q i) (q j)) = upper_mean n a.
Proof.
  intros Hn Hs Hh Hq. pose proof Hq as [Hr _]. rewrite !upper_mean_total; auto.
  - rewrite (rsum2_perm n q a Hq). reflexivity.
  - intros i j Hi Hj. apply Hs; auto.
  - intros i Hi. apply Hh; auto.
Qed.

Theorem C26_reordered E x y x' y' n m p e es q r v : valid_env E -> two_samples n m p x y -> enough es n m -> 0 < e ->
  perm_on n q -> perm_on m r -> reordered q x x' -> reordered r y y' ->
  outcome (energy_distance E x y e None es) = Ok v -> outcome (energy_distance E x' y' e None es) = Ok v.
Proof.
  intros HE H Hnm He Hq Hr [(_ & _ & Cx' & Sx' & Wx') Tx] [(_ & _ & Cy' & Sy' & Wy') Ty] Hv.
  pose proof H as (Wx & Wy & Sx & Sy & Cx & Cy). rewrite Cx, Sx in *. rewrite Cy, Sy in *.
  assert (two_samples n m p x' y') as H' by (unfold two_samples; auto 8).
  assert (forall i j, (i < n)%nat -> (j < n)%nat -> rpow (dist p (obs x' i) (obs x' j)) e = distances e x (q i) (q j)) as D1.
  { intros i j Hi Hj. unfold distances, dmat. rewrite Cx. f_equal. apply dist_ext; intros; apply Tx; auto. }
  assert (forall i j, (i < m)%nat -> (j < m)%nat -> rpow (dist p (obs y' i) (obs y' j)) e = distances e y (r i) (r j)) as D2.
  { intros i j Hi Hj. unfold distances, dmat. rewrite Cy. f_equal. apply dist_ext; intros; apply Ty; auto. }
  assert (rsum2 n m (fun i j => rpow (dist p (obs x' i) (obs y' j)) e)
          = rsum2 n m (fun i j => rpow (dist p (obs x i) (obs y j)) e)) as D3.
  { rewrite (rsum2_ext n m _ (fun i j => rpow (dist p (obs x (q i)) (obs y (r j))) e)).
    - unfold rsum2. rewrite (rsum_perm n q (fun i => rsum m (fun j => rpow (dist p (obs x i) (obs y (r j))) e)) Hq).
      apply rsum_ext. intros i Hi. apply (rsum_perm m r (fun j => rpow (dist p (obs x i) (obs y j)) e) Hr).
    - intros i j Hi Hj. f_equal. apply dist_ext; intros; [apply Tx|apply Ty]; auto. }
  assert (forall st, to_estimation es = Ok st ->
    outcome (energy_distance E x' y' e None (EstEnum st)) = outcome (energy_distance E x y e None (EstEnum st))) as Hst.
  { intros st Hst. unfold enough in Hnm. rewrite Hst in Hnm. destruct st.
    - destruct Hnm as [Hn Hm]. rewrite (energy_U E HE x y n m p), (energy_U E HE x' y' n m p) by auto. f_equal. unfold uenergy. rewrite D3. f_equal; [f_equal|].
      + transitivity (upper_mean n (fun i j => distances e x (q i) (q j))).
        * unfold upper_mean. f_equal. apply rsum2_ext. intros. destruct (Nat.ltb i j); auto.
        * rewrite (upper_mean_perm n q (distances e x)); auto using distances_sym, distances_hollow.
          unfold distances, dmat. rewrite Cx. reflexivity.
      + transitivity (upper_mean m (fun i j => distances e y (r i) (r j))).
        * unfold upper_mean. f_equal. apply rsum2_ext. intros. destruct (Nat.ltb i j); auto.
        * rewrite (upper_mean_perm m r (distances e y)); auto using distances_sym, distances_hollow.
          unfold distances, dmat. rewrite Cy. reflexivity.
    - rewrite (energy_V E HE x y n m p), (energy_V E HE x' y' n m p) by auto. f_equal. unfold energy. rewrite D3. f_equal; [f_equal|].
      + rewrite (rsum2_ext n n _ _ D1), (rsum2_perm n q (distances e x) Hq). unfold distances, dmat. rewrite Cx. reflexivity.
      + rewrite (rsum2_ext m m _ _ D2), (rsum2_perm m r (distances e y) Hr). unfold distances, dmat. rewrite Cy. reflexivity. }
  destruct (to_estimation es) as [st|ex] eqn:Hs.
  - destruct es as [st'|s]; [cbn in Hs; injection Hs as <-; rewrite Hst by reflexivity; exact Hv|]. cbn in Hs.
    assert (forall a b, outcome (energy_distance E a b e None (EstStr s)) = outcome (energy_distance E a b e None (EstEnum st))) as Hq'.
    { intros a b. unfold energy_distance, energy_distance_from_distance_matrices. cbn [to_estimation]. rewrite Hs. reflexivity. }
    rewrite Hq' in Hv. rewrite Hq', Hst by reflexivity. exact Hv.
  - rewrite (energy_distance_bad E HE x y n m p e None es ex) in Hv by auto. discriminate.
Qed.

Example C26_meets : exists x' y', translated (fun _ => 1) xs x' /\ translated (fun _ => 1) us y' /\
  outcome (energy_distance (env_R true) x' y' 1 None U) = outcome (energy_distance (env_R true) xs us 1 None U).
Proof.
  exists (mkArr Numpy F64 (Vec [4; 2; 3; 2; 6])), (mkArr Numpy F64 (Vec [5; 1; 3])).
  assert (translated (fun _ => 1) xs (mkArr Numpy F64 (Vec [4; 2; 3; 2; 6]))) as H1.
  { split; [repeat split|]. intros i k Hi Hk. cbn in *. destruct i as [|[|[|[|[|i]]]]]; try lia; cbn; lra. }
  assert (translated (fun _ => 1) us (mkArr Numpy F64 (Vec [5; 1; 3]))) as H2.
  { split; [repeat split|]. intros i k Hi Hk. cbn in *. destruct i as [|[|[|i]]]; try lia; cbn; lra. }
  split; auto. split; auto.
  pose proof (energy_U (env_R true) (env_R_valid true) xs us 5 3 1 1 xs_us Rlt_0_1) as Hv.
  unfold U. rewrite Hv. apply (C26_translated _ xs us _ _ 5 3 1 1 U _ _ (env_R_valid true) xs_us ltac:(cbn; lia) Rlt_0_1 H1 H2 Hv).
Qed.

(** ** C27 *)

(** The U-statistic averages the distances within a sample over the pairs [i < j] ([upper_mean], Spec.v) ... *)
Theorem C27_u_statistic E x y n m p e : valid_env E -> two_samples n m p x y -> 0 < e -> (2 <= n)%nat -> (2 <= m)%nat ->
  outcome (energy_distance E x y e None U)
  = Ok (2 * (rsum2 n m (fun i j => rpow (dist p (obs x i) (obs y j)) e) / (INR n * INR m))
        - upper_mean n (fun i j => rpow (dist p (obs x i) (obs x j)) e)
        - upper_mean m (fun i j => rpow (dist p (obs y i) (obs y j)) e)).
Proof. intros. apply energy_U; auto. Qed.

(** ... which is the average over the ordered pairs of different observations. *)
Theorem C27_u_ordered E x y n m p e : valid_env E -> two_samples n m p x y -> 0 < e -> (2 <= n)%nat -> (2 <= m)%nat ->
  outcome (energy_distance E x y e None U)
  = Ok (2 * (rsum2 n m (fun i j => rpow (dist p (obs x i) (obs y j)) e) / (INR n * INR m))
        - rsum2 n n (fun i j => rpow (dist p (obs x i) (obs x j)) e) / (INR n * (INR n - 1))
        - rsum2 m m (fun i j => rpow (dist p (obs y i) (obs y j)) e) / (INR m * (INR m - 1))).
Proof.
  intros HE H He Hn Hm. rewrite (C27_u_statistic E x y n m p) by auto. f_equal.
  rewrite (upper_mean_total n), (upper_mean_total m); auto; apply dmat_symmetric || apply dmat_hollow.
Qed.

(** The U-statistic never exceeds the V-statistic. *)
Theorem C27_u_below_v E x y n m p e u v : valid_env E -> two_samples n m p x y -> 0 < e -> (2 <= n)%nat -> (2 <= m)%nat ->
  outcome (energy_distance E x y e None U) = Ok u -> outcome (energy_distance E x y e None V) = Ok v -> u <= v.
Proof.
  intros HE H He Hn Hm. rewrite (C27_u_ordered E x y n m p), (C24_value E x y n m p) by (auto; lia).
  intros Hu Hv. injection Hu as <-. injection Hv as <-.
  assert (forall k a, (2 <= k)%nat -> (forall i j, 0 <= a i j) -> rsum2 k k a / (INR k * INR k) <= rsum2 k k a / (INR k * (INR k - 1))) as Hle.
  { intros k a Hk Ha. assert (2 <= INR k) by (replace 2 with (INR 2) by reflexivity; apply le_INR; auto).
    unfold Rdiv. apply Rmult_le_compat_l; [apply rsum2_nonneg; auto|]. apply Rinv_le_contravar; nra. }
  pose proof (Hle n (fun i j => rpow (dist p (obs x i) (obs x j)) e) Hn ltac:(intros; apply rpow_nonneg)).
  pose proof (Hle m (fun i j => rpow (dist p (obs y i) (obs y j)) e) Hm ltac:(intros; apply rpow_nonneg)). lra.
Qed.

(** The strings accepted for [estimation_stat], in any letter case. *)
Definition stat_names (st : estimation_stat) : list string :=
  match st with UStatistic => ["u"; "u_statistic"]%string | VStatistic => ["v"; "v_statistic"]%string end.

Lemma eqb_upper s t : String.eqb (upper s) (upper t) = String.eqb (lower s) (lower t).
Proof.
  destruct (String.eqb_spec (upper s) (upper t)) as [H|H], (String.eqb_spec (lower s) (lower t)) as [H'|H']; auto.
  - exfalso. apply H'. rewrite <- (lower_upper s), <- (lower_upper t), H. reflexivity.
  - exfalso. apply H. rewrite <- (upper_lower s), <- (upper_lower t), H'. reflexivity.
Qed.

Theorem C27_names s st : to_estimation (EstStr s) = Ok st <-> In (lower s) (stat_names st).
Proof.
  cbn [to_estimation]. unfold estimation_from_string. cbv zeta.
  change "U"%string with (upper "u"). change "V"%string with (upper "v").
  change "U_STATISTIC"%string with (upper "u_statistic"). change "V_STATISTIC"%string with (upper "v_statistic").
  rewrite !eqb_upper. change (lower "u") with "u"%string. change (lower "v") with "v"%string.
  change (lower "u_statistic") with "u_statistic"%string. change (lower "v_statistic") with "v_statistic"%string.
  destruct (String.eqb_spec (lower s) "u") as [->|N1]; [destruct st; cbn; intuition congruence|].
  destruct (String.eqb_spec (lower s) "v") as [->|N2]; [destruct st; cbn; intuition congruence|].
  destruct (String.eqb_spec (lower s) "u_statistic") as [->|N3]; [destruct st; cbn; intuition congruence|].
  destruct (String.eqb_spec (lower s) "v_statistic") as [->|N4]; [destruct st; cbn; intuition congruence|].
  destruct st; cbn; intuition congruence.
Qed.

Theorem C27_strings E x y n m p e av s : valid_env E -> two_samples n m p x y -> 0 < e ->
  (forall st, In (lower s) (stat_names st) ->
     energy_distance E x y e av (EstStr s) = energy_distance E x y e av (EstEnum st)) /\
  ((forall st, ~ In (lower s) (stat_names st)) -> outcome (energy_distance E x y e av (EstStr s)) = Err KeyError).
Proof.
  intros HE H He. split.
  - intros st Hs. apply C27_names in Hs. cbn [to_estimation] in Hs.
    unfold energy_distance, energy_distance_from_distance_matrices. cbn [to_estimation]. rewrite Hs. reflexivity.
  - intros Hs. apply (energy_distance_bad E HE x y n m p); auto.
    destruct (to_estimation (EstStr s)) as [st|ex] eqn:Ht; [apply C27_names in Ht; exfalso; eapply Hs; eauto|].
    cbn in Ht. unfold estimation_from_string in Ht. repeat (destruct (_ =? _)%string in Ht; [discriminate|]). congruence.
Qed.

Example C27_meets : In (lower "V_Statistic") (stat_names VStatistic) /\ (forall st, ~ In (lower "w") (stat_names st)).
Proof. split; [cbn; auto|]. intros []; cbn; intuition discriminate. Qed.

(** ** C47: energy distance and distance covariance with the group label *)

(** [w] is [x] followed by [y]; [l] is 0 on [x] and 1 on [y]. *)
Definition stacked (x y w : array R) : Prop :=
  wf w /\ shape0 w = (shape0 x + shape0 y)%nat /\ ncols w = ncols x /\
  (forall i k, (i < shape0 x)%nat -> (k < ncols x)%nat -> obs w i k = obs x i k) /\
  (forall i k, (i < shape0 y)%nat -> (k < ncols x)%nat -> obs w (shape0 x + i) k = obs y i k).
Definition group_label (x y l : array R) : Prop :=
  wf l /\ shape0 l = (shape0 x + shape0 y)%nat /\ ncols l = 1%nat /\
  (forall i, (i < shape0 x)%nat -> obs l i 0 = 0) /\
  (forall i, (i < shape0 y)%nat -> obs l (shape0 x + i) 0 = 1).

Theorem C47_energy_label E x y w l n m p e mt cm : valid_env E -> two_samples n m p x y -> (1 <= n)%nat -> (1 <= m)%nat ->
  0 < e -> stacked x y w -> group_label x y l -> accepts mt cm w l e ->
  exists v, outcome (energy_distance E x y e None V) = Ok v /\
  outcome (distance_covariance_sqr E w l e (MethodEnum mt) cm) = Ok (2 * (INR n * INR m) ^ 2 / INR (n + m) ^ 4 * v).
Proof.
  intros HE H Hn Hm He (Ww & Sw & Cw & Hw1 & Hw2) (Wl & Sl & Cl & Hl1 & Hl2) Ha.
  eexists. split; [apply energy_V; eauto|]. pose proof H as (Wx & Wy & Sx & Sy & Cx & Cy). rewrite Cx, Sx, Sy in *.
  etransitivity; [apply (call_ok DcovSqr E w l (n + m)); auto|].
  - unfold paired. repeat split; auto; lia.
  - cbn. lia.
  - cbn [value]. f_equal. rewrite plus_INR, <- (energy_dcov_label e e p n m) by auto. apply dcov2_ext.
    + assert (forall i k, (i < n + m)%nat -> (k < p)%nat -> obs w i k = pool n (obs x) (obs y) i k) as Hp.
      { intros i k Hi Hk. destruct (Nat.lt_ge_cases i n) as [L|L].
        - rewrite pool_l by auto. auto.
        - replace i with (n + (i - n))%nat by lia. rewrite pool_r. apply Hw2; auto. lia. }
      intros i j Hi Hj. unfold distances. rewrite Cw. apply dmat_ext; intros; apply Hp; auto.
    + intros i j Hi Hj. unfold distances. rewrite Cl.
      assert (forall i k, (i < n + m)%nat -> (k < 1)%nat -> obs l i k = label n i k) as Hp.
      { intros i' k Hi' Hk. replace k with 0%nat by lia. unfold label. destruct (Nat.ltb_spec i' n) as [L|L]; auto.
        replace i' with (n + (i' - n))%nat by lia. apply Hl2. lia. }
      apply dmat_ext; intros; apply Hp; auto.
Qed.

Example C47_meets : exists w l, stacked xs us w /\ group_label xs us l /\ accepts MAvl CAuto w l 1.
Proof.
  exists (mkArr Numpy F64 (Vec [3; 1; 2; 1; 5; 4; 0; 2])), (mkArr Numpy F64 (Vec [0; 0; 0; 0; 0; 1; 1; 1])).
  split; [|split].
  - unfold stacked. split; [exact I|]. do 2 (split; [reflexivity|]). split; cbn; intros i k Hi Hk.
    + destruct i as [|[|[|[|[|i]]]]]; try lia; reflexivity.
    + destruct i as [|[|[|i]]]; try lia; reflexivity.
  - unfold group_label. split; [exact I|]. do 2 (split; [reflexivity|]). split; cbn; intros i Hi.
    + destruct i as [|[|[|[|[|i]]]]]; try lia; reflexivity.
    + destruct i as [|[|[|i]]]; try lia; reflexivity.
  - unfold accepts, accepts_avl, univariate, not_forced, shape0; cbn. repeat split; auto; lia.
Qed.

(** ** C50: samples of different dimension *)

(** Number of columns as the code sees it. *)
Lemma cols_2d {T} (x : array T) : fst (transform_to_2d (adata x)) = ncols x.
Proof. unfold ncols. destruct (adata x); reflexivity. Qed.

Lemma pdist_square {T} (E : Env T) x e : exists d, pairwise_distances E x None e = Ok d.
Proof.
  unfold pairwise_distances. destruct (transform_to_2d (adata x)) as [c r]. unfold pdist.
  destruct (can_be_numpy_double _ _ _); unfold cdist_scipy, cdist_naive; rewrite Nat.eqb_refl; cbn [orb]; eexists; reflexivity.
Qed.

(** ValueError, unless the naive distance code is used and one of the samples has a single column. *)
Theorem C50_rejected {T} (E : Env T) x y e av es : ncols x <> ncols y ->
  (can_be_numpy_double E (ans x) (adt x) = true /\ can_be_numpy_double E (ans y) (adt y) = true) \/
  (ncols x <> 1%nat /\ ncols y <> 1%nat) ->
  outcome (energy_distance E x y e av es) = Err ValueError.
Proof.
  intros Hc Hd.
  assert (pairwise_distances E x (Some y) e = Err ValueError) as Hp.
  { pose proof (cols_2d x) as Cx. pose proof (cols_2d y) as Cy. unfold pairwise_distances.
    destruct (transform_to_2d (adata x)) as [cx rx], (transform_to_2d (adata y)) as [cy ry]. cbn [fst] in *. subst cx cy.
    unfold cdist. apply Nat.eqb_neq in Hc.
    destruct Hd as [[-> ->]|[H1 H2]]; [unfold cdist_scipy; cbn [andb]; rewrite Hc; reflexivity|].
    apply Nat.eqb_neq in H1, H2. destruct (_ && _); [unfold cdist_scipy|unfold cdist_naive]; rewrite Hc, ?H1, ?H2; reflexivity. }
  destruct (pdist_square E x e) as (d & Hx). destruct (pdist_square E y e) as (d' & Hy).
  unfold energy_distance. rewrite outcome_bind.
  assert (outcome (check_valid_energy_exponent E e) = Ok tt) as ->
    by (unfold check_valid_energy_exponent; destruct (exponent_in_range E e); reflexivity).
  rewrite !outcome_bind. cbn [outcome lift snd]. rewrite Hx, !outcome_bind. cbn [outcome lift snd]. rewrite Hy, !outcome_bind.
  cbn [outcome lift snd]. rewrite Hp. reflexivity.
Qed.

(** On the naive code path (here: an array library that is not numpy) a sample with one column is broadcast against
    one with two, and a number is returned. *)
Definition w1 : array R := mkArr OtherLib F64 (Vec [0; 1]).
Definition w2 : array R := mkArr OtherLib F64 (Mat 2 [[0; 0]; [3; 4]]).
Theorem C50_broadcast_refuted : ncols w1 <> ncols w2 /\
  exists v, outcome (energy_distance (env_R true) w1 w2 2 None V) = Ok v.
Proof.
  split; [discriminate|]. unfold energy_distance. rewrite outcome_bind.
  rewrite (check_energy_ok (env_R true)). rewrite outcome_bind. cbn [outcome lift snd].
  rewrite (pairwise_distances_one (env_R true) eq_refl w1 2) by (cbn; auto; lra). rewrite outcome_bind. cbn [outcome lift snd].
  rewrite (pairwise_distances_one (env_R true) eq_refl w2 2) by (cbn; auto; try lra; repeat constructor). rewrite outcome_bind. cbn [outcome lift snd].
  unfold pairwise_distances, w1, w2. cbn [adata transform_to_2d ans adt can_be_numpy_double]. unfold cdist, cdist_naive.
  cbn [can_be_numpy_double andb Nat.eqb orb]. eexists. reflexivity.
Qed.

Example C50_meets : outcome (energy_distance (env_R true) xs zs 1 None V) = Err ValueError.
Proof. apply C50_rejected; [discriminate|]. left. split; reflexivity. Qed.
