(** The energy distance of the model is the textbook energy distance. *)
From Coq Require Import Reals Lra Lia List Arith Bool ZArith Permutation.
From Verif Require Import Num Numpy MUtils MDistances MInternals MDcor MEnergy Sums Spec Centering Tab Samples Api RefDist RefDcor.
Import ListNotations.
Local Open Scope R_scope.

(** Two samples with the same number [p] of coordinates. *)
Definition two_samples (n m p : nat) (x y : array R) : Prop :=
  wf x /\ wf y /\ shape0 x = n /\ shape0 y = m /\ ncols x = p /\ ncols y = p.

(** Distances between the observations of two samples. *)
Definition cross (e : R) (x y : array R) (i j : nat) : R := rpow (dist (ncols x) (obs x i) (obs y j)) e.

(** ** Flattened matrices *)

Lemma concat_snoc_perm {A} n (f : nat -> list A) (g : nat -> A) :
  Permutation (concat (tab n (fun i => f i ++ [g i]))) (concat (tab n f) ++ tab n g).
Proof.
  induction n as [|n IH]; [reflexivity|]. rewrite !tab_snoc, !concat_app. cbn [concat]. rewrite !app_nil_r.
  rewrite IH. rewrite <- !app_assoc. apply Permutation_app_head.
  rewrite !app_assoc. apply Permutation_app_tail. apply Permutation_app_comm.
Qed.

Lemma concat_transpose {A} n m (f : nat -> nat -> A) :
  Permutation (concat (tab2 n m f)) (concat (tab2 m n (fun j i => f i j))).
Proof.
  unfold tab2. induction m as [|m IH].
  - cbn. induction n; [reflexivity|]. rewrite tab_snoc, concat_app, IHn. reflexivity.
  - rewrite (tab_snoc m), concat_app. cbn [concat]. rewrite app_nil_r, <- IH.
    rewrite <- (concat_snoc_perm n (fun i => tab m (f i)) (fun i => f i m)).
    erewrite tab_ext; [reflexivity|]. intros i Hi. apply tab_snoc.
Qed.

Lemma np_mean_perm l l' : Permutation l l' -> np_mean RNum l = np_mean RNum l'.
Proof. intros H. unfold np_mean. rewrite !np_sum_lsum, (lsum_perm _ _ H), (Permutation_length H). reflexivity. Qed.

Lemma np_mean_tab2 n m f : np_mean RNum (concat (tab2 n m f)) = rsum2 n m f / (INR n * INR m).
Proof. unfold np_mean. rewrite np_sum_concat_tab2, concat_length_tab2, nofnat_INR, mult_INR. reflexivity. Qed.

(** ** Upper triangles *)

Lemma skipn_tab {A} k n (f : nat -> A) : skipn k (tab n f) = tab (n - k) (fun j => f (k + j)%nat).
Proof.
  revert n f. induction k as [|k IH]; intros n f; [cbn; rewrite Nat.sub_0_r; reflexivity|].
  destruct n; [reflexivity|]. rewrite tab_S. cbn [skipn]. rewrite IH. reflexivity.
Qed.

Lemma rsum_skip k n f : rsum (n - k) (fun j => f (k + j)%nat) = rsum n (fun j => if Nat.ltb j k then 0 else f j).
Proof.
  destruct (Nat.le_gt_cases k n) as [H|H].
  - replace n with (k + (n - k))%nat at 2 by lia. rewrite rsum_app.
    rewrite (rsum_zero k) by (intros j Hj; apply Nat.ltb_lt in Hj; rewrite Hj; reflexivity). rewrite Rplus_0_l.
    apply rsum_ext. intros j Hj. replace (Nat.ltb (k + j) k) with false by (symmetry; apply Nat.ltb_ge; lia). reflexivity.
  - replace (n - k)%nat with 0%nat by lia. cbn [rsum]. symmetry. apply rsum_zero. intros j Hj.
    replace (Nat.ltb j k) with true by (symmetry; apply Nat.ltb_lt; lia). reflexivity.
Qed.

Lemma flat_tab2 {A} n (f : nat -> nat -> A) : get_flat_upper_matrix (tab2 n n f) 1
  = concat (tab n (fun i => tab (n - (i + 1)) (fun j => f i (i + 1 + j)%nat))).
Proof.
  unfold get_flat_upper_matrix. rewrite (tab_length n (fun i => tab n (f i)) : length (tab2 n n f) = n), seq_tab.
  unfold tab2. rewrite tab_map2. f_equal. apply tab_ext. intros i Hi. apply skipn_tab.
Qed.

Lemma lsum_flat n (f : nat -> nat -> R) : lsum (get_flat_upper_matrix (tab2 n n f) 1)
  = rsum2 n n (fun i j => if Nat.ltb i j then f i j else 0).
Proof.
  rewrite flat_tab2, lsum_concat, tab_map, <- np_sum_lsum, np_sum_tab. unfold rsum2. apply rsum_ext. intros i Hi.
  rewrite <- np_sum_lsum, np_sum_tab, (rsum_skip (i + 1) n (f i)). apply rsum_ext. intros j Hj.
  destruct (Nat.ltb_spec j (i + 1)), (Nat.ltb_spec i j); try lia; reflexivity.
Qed.

Lemma count_upper n : rsum2 n n (fun i j => if Nat.ltb i j then 1 else 0) = INR n * (INR n - 1) / 2.
Proof.
  induction n as [|n IH]; [cbn; unfold rsum2; cbn; lra|].
  unfold rsum2 in *. cbn [rsum].
  rewrite (rsum_ext n _ (fun i => rsum n (fun j => if Nat.ltb i j then 1 else 0) + 1)).
  - rewrite rsum_plus, IH, rsum_const, Nat.ltb_irrefl.
    rewrite (rsum_zero n).
    + rewrite S_INR. lra.
    + intros j Hj. replace (Nat.ltb n j) with false by (symmetry; apply Nat.ltb_ge; lia). reflexivity.
  - intros i Hi. cbn [rsum]. replace (Nat.ltb i n) with true by (symmetry; apply Nat.ltb_lt; lia). reflexivity.
Qed.

Lemma flat_length n (f : nat -> nat -> R) :
  INR (length (get_flat_upper_matrix (tab2 n n f) 1)) = INR n * (INR n - 1) / 2.
Proof.
  rewrite <- count_upper, <- (lsum_flat n (fun _ _ => 1)).
  assert (forall l : list R, INR (length l) = lsum (map (fun _ => 1) l)) as H.
  { induction l as [|a l IHl]; [reflexivity|]. cbn [length map]. rewrite S_INR, IHl. unfold lsum. cbn [fold_right]. apply Rplus_comm. }
  rewrite H. f_equal. rewrite !flat_tab2, concat_map, tab_map. f_equal. apply tab_ext. intros. apply (tab_map _ _ (fun _ => 1)).
Qed.

Lemma np_mean_flat n f : np_mean RNum (get_flat_upper_matrix (tab2 n n f) 1) = upper_mean n f.
Proof. unfold np_mean, upper_mean. rewrite np_sum_lsum, lsum_flat, nofnat_INR, flat_length. reflexivity. Qed.

(** ** The functions *)

Section Energy.
  Variable E : Env R.
  Hypothesis HE : valid_env E.

  Lemma check_energy_ok e : outcome (check_valid_energy_exponent E e) = Ok tt.
  Proof. unfold check_valid_energy_exponent. destruct (exponent_in_range E e); reflexivity. Qed.

  (** The flattened matrix of the distances between the samples, up to order. *)
  Lemma cross_ok x y n m p e : two_samples n m p x y -> 0 < e ->
    exists d, pairwise_distances E x (Some y) e = Ok d /\ Permutation (concat d) (concat (tab2 n m (cross e x y))).
  Proof.
    intros (Wx & Wy & Sx & Sy & Cx & Cy) He. pose proof HE as [EN _ _].
    destruct (can_be_numpy_double E (ans x) (adt x) && can_be_numpy_double E (ans y) (adt y)) eqn:Hc.
    - apply andb_prop in Hc. destruct Hc as [H1 H2].
      eexists. split; [apply pairwise_distances_two; auto; congruence|]. rewrite Sx, Sy. reflexivity.
    - eexists. split; [apply pairwise_distances_two_naive; auto; congruence|]. rewrite Sx, Sy. symmetry.
      apply (concat_transpose n m (cross e x y)).
  Qed.

  Definition flat_of (es : estimation_stat) (m : list (list R)) : list R :=
    match es with UStatistic => get_flat_upper_matrix m 1 | VStatistic => concat m end.

  Lemma energy_distance_eval x y n m p e av es st : two_samples n m p x y -> 0 < e -> to_estimation es = Ok st ->
    exists l, Permutation l (concat (tab2 n m (cross e x y))) /\
    outcome (energy_distance E x y e av es)
    = Ok (2 * apply_average E av l - apply_average E av (flat_of st (tab2 n n (distances e x)))
          - apply_average E av (flat_of st (tab2 m m (distances e y)))).
  Proof.
    intros H He Hs. destruct (cross_ok x y n m p e H He) as (d & Hd & Hp). exists (concat d). split; [exact Hp|].
    destruct H as (Wx & Wy & Sx & Sy & Cx & Cy). pose proof HE as [EN _ _].
    unfold energy_distance. rewrite outcome_bind, check_energy_ok. rewrite outcome_bind. cbn [outcome lift snd].
    rewrite (pairwise_distances_one E EN x e) by auto. rewrite outcome_bind. cbn [outcome lift snd].
    rewrite (pairwise_distances_one E EN y e) by auto. rewrite outcome_bind. cbn [outcome lift snd].
    rewrite Hd, Sx, Sy. unfold energy_distance_from_distance_matrices. rewrite Hs. cbn [rbind outcome lift snd].
    rewrite EN. destruct st; reflexivity.
  Qed.

  Lemma energy_distance_bad x y n m p e av es ex : two_samples n m p x y -> 0 < e -> to_estimation es = Err ex ->
    outcome (energy_distance E x y e av es) = Err ex.
  Proof.
    intros H He Hs. destruct (cross_ok x y n m p e H He) as (d & Hd & Hp).
    destruct H as (Wx & Wy & Sx & Sy & Cx & Cy). pose proof HE as [EN _ _].
    unfold energy_distance. rewrite outcome_bind, check_energy_ok. rewrite outcome_bind. cbn [outcome lift snd].
    rewrite (pairwise_distances_one E EN x e) by auto. rewrite outcome_bind. cbn [outcome lift snd].
    rewrite (pairwise_distances_one E EN y e) by auto. rewrite outcome_bind. cbn [outcome lift snd].
    rewrite Hd. unfold energy_distance_from_distance_matrices. rewrite Hs. reflexivity.
  Qed.

  Lemma energy_V x y n m p e : two_samples n m p x y -> 0 < e ->
    outcome (energy_distance E x y e None (EstEnum VStatistic)) = Ok (energy e p n m (obs x) (obs y)).
  Proof.
    intros H He. destruct (energy_distance_eval x y n m p e None (EstEnum VStatistic) VStatistic H He eq_refl) as (l & Hl & ->).
    destruct H as (Wx & Wy & Sx & Sy & Cx & Cy). pose proof HE as [EN _ _].
    cbn [apply_average flat_of]. rewrite EN, (np_mean_perm _ _ Hl), !np_mean_tab2.
    unfold energy, cross, distances, dmat. rewrite Cx, Cy. reflexivity.
  Qed.

  Lemma energy_U x y n m p e : two_samples n m p x y -> 0 < e ->
    outcome (energy_distance E x y e None (EstEnum UStatistic)) = Ok (uenergy e p n m (obs x) (obs y)).
  Proof.
    intros H He. destruct (energy_distance_eval x y n m p e None (EstEnum UStatistic) UStatistic H He eq_refl) as (l & Hl & ->).
    destruct H as (Wx & Wy & Sx & Sy & Cx & Cy). pose proof HE as [EN _ _].
    cbn [apply_average flat_of]. rewrite EN, (np_mean_perm _ _ Hl), np_mean_tab2, !np_mean_flat.
    unfold uenergy, cross, distances, dmat. rewrite Cx, Cy. reflexivity.
  Qed.
End Energy.
