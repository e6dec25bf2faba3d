(** Refinement: distances, naive terms, and the estimators from terms. *)
From Coq Require Import Reals Lra Lia List Arith Bool ZArith Permutation.
From Verif Require Import Num Numpy MUtils MDistances MInternals Sums Spec Tab Samples Centering.
Import ListNotations.
Local Open Scope R_scope.

(** ** Powers *)

Lemma rsum_sq_nonneg p (u v : nat -> R) : 0 <= rsum p (fun k => (u k - v k) ^ 2).
Proof. apply rsum_nonneg; intros. apply pow2_ge_0. Qed.

Lemma sqrt_exp_half s : 0 < s -> sqrt s = exp (/ 2 * ln s).
Proof.
  intros Hs. apply sqrt_lem_1; [lra| |].
  - left; apply exp_pos.
  - rewrite <- exp_plus. replace (/ 2 * ln s + / 2 * ln s) with (ln s) by lra.
    apply exp_ln; auto.
Qed.

Lemma rpow_sqrt s e : 0 <= s -> 0 < e -> Rpow_py s (e / 2) = rpow (sqrt s) e.
Proof.
  intros Hs He. unfold Rpow_py, rpow.
  destruct (Req_EM_T (e / 2) 0); [lra|].
  destruct (Rle_dec s 0).
  - replace s with 0 by lra. rewrite sqrt_0. destruct (Rle_dec 0 0); lra.
  - assert (0 < s) by lra. pose proof (sqrt_lt_R0 s H).
    destruct (Rle_dec (sqrt s) 0); [lra|].
    unfold Rpower. rewrite (sqrt_exp_half s) by auto. rewrite ln_exp. f_equal. field.
Qed.

Lemma rpow_sqrt_obj s e : 0 <= s -> 0 < e ->
  sqrt_clamp RNum (Rpow_py s e) = rpow (sqrt s) e.
Proof.
  intros Hs He. rewrite <- rpow_sqrt by auto. unfold sqrt_clamp, Rpow_py. simpl.
  destruct (Req_EM_T e 0); [lra|]. destruct (Req_EM_T (e / 2) 0); [lra|].
  destruct (Rle_dec s 0).
  - destruct (Rltb_spec 0 0); [lra|]. apply sqrt_0.
  - destruct (Rltb_spec (Rpower s e) 0).
    + unfold Rpower in *. pose proof (exp_pos (e * ln s)). lra.
    + unfold Rpower. rewrite sqrt_exp_half by apply exp_pos. rewrite ln_exp. f_equal. field.
Qed.

Lemma rpow_1 x : 0 <= x -> rpow x 1 = x.
Proof.
  intros. unfold rpow. destruct (Rle_dec x 0); [lra|]. rewrite Rmult_1_l, exp_ln; lra.
Qed.

Lemma rpow_nonneg x e : 0 <= rpow x e.
Proof. unfold rpow. destruct (Rle_dec x 0); [lra|]. left; apply exp_pos. Qed.

Lemma rpow_0 e : rpow 0 e = 0.
Proof. unfold rpow. destruct (Rle_dec 0 0); lra. Qed.

Lemma dist_nonneg p u v : 0 <= dist p u v.
Proof. apply sqrt_pos. Qed.

Lemma dist_sym p u v : dist p u v = dist p v u.
Proof. unfold dist. f_equal. apply rsum_ext; intros. ring. Qed.

Lemma dist_refl p u : dist p u u = 0.
Proof.
  unfold dist. rewrite rsum_zero; [apply sqrt_0|]. intros. ring.
Qed.

Lemma dmat_symmetric e p X n : symmetric n (dmat e p X).
Proof. intros i j _ _. unfold dmat. rewrite dist_sym. reflexivity. Qed.

Lemma dmat_hollow e p X n : hollow n (dmat e p X).
Proof. intros i _. unfold dmat. rewrite dist_refl. apply rpow_0. Qed.

Lemma dist_1 u v : dist 1 u v = Rabs (u 0%nat - v 0%nat).
Proof.
  unfold dist. simpl. replace (0 + (u 0%nat - v 0%nat) * ((u 0%nat - v 0%nat) * 1))
    with ((u 0%nat - v 0%nat)²) by (unfold Rsqr; ring). apply sqrt_Rsqr_abs.
Qed.

(** ** Array arguments as tables *)

Lemma transform_to_2d_tab (x : array R) : wf x ->
  transform_to_2d (adata x) = (ncols x, tab2 (shape0 x) (ncols x) (obs x)).
Proof.
  destruct x as [s d [v|c rows]]; unfold wf, shape0, ncols, obs; simpl; intros H.
  - f_equal. unfold tab2. rewrite (tab_of_list 0 v) at 1. rewrite tab_map. reflexivity.
  - f_equal. rewrite Forall_forall in H. unfold tab2.
    rewrite (tab_of_list [] rows) at 1. apply tab_ext. intros i Hi.
    rewrite (tab_of_list_n 0 c (nth i rows [])) at 1 by (apply H, nth_In; auto).
    reflexivity.
Qed.

Lemma concat_singletons n (f : nat -> R) : concat (tab n (fun i => tab 1 (fun _ => f i))) = tab n f.
Proof. induction n; auto. rewrite !tab_snoc, concat_app, IHn. reflexivity. Qed.

Lemma transform_to_1d_tab (x : array R) : wf x -> ncols x = 1%nat ->
  transform_to_1d (adata x) = Ok (tab (shape0 x) (fun i => obs x i 0)).
Proof.
  destruct x as [s d [v|c rows]]; unfold wf, shape0, ncols, obs; simpl; intros H Hc.
  - f_equal. apply tab_of_list.
  - subst c. simpl. f_equal. rewrite Forall_forall in H.
    rewrite (tab_of_list [] rows) at 1.
    rewrite <- (concat_singletons (length rows)). f_equal. apply tab_ext. intros i Hi.
    assert (length (nth i rows []) = 1%nat) as Hl by (apply H, nth_In; auto).
    destruct (nth i rows []) as [|a [|]]; simpl in Hl; try lia. reflexivity.
Qed.

Lemma transform_to_1d_fail (x : array R) : ncols x <> 1%nat ->
  transform_to_1d (adata x) = Err AssertionError.
Proof.
  destruct x as [s d [v|c rows]]; unfold ncols; simpl; intros; [lia|].
  destruct (Nat.eqb_spec c 1); [lia|reflexivity].
Qed.

Section Env.
  Variable E : Env R.
  Hypothesis HN : e_num E = RNum.

  Lemma sq_norm_tab p u v : sq_norm E (tab p u) (tab p v) = rsum p (fun k => (u k - v k) ^ 2).
  Proof.
    unfold sq_norm. rewrite HN, tab_map2, np_sum_tab. simpl. apply rsum_ext; intros. ring.
  Qed.

  Lemma half_R e : half E e = e / 2.
  Proof. unfold half. rewrite HN. reflexivity. Qed.

  Lemma dist_power_R d p u v e : 0 < e ->
    dist_power E d (rsum p (fun k => (u k - v k) ^ 2)) e = rpow (dist p u v) e.
  Proof.
    intros He. unfold dist_power, dist. pose proof (rsum_sq_nonneg p u v) as Hs.
    rewrite half_R, HN.
    assert (npow RNum (rsum p (fun k => (u k - v k) ^ 2)) (e / 2)
            = rpow (sqrt (rsum p (fun k => (u k - v k) ^ 2))) e) as H
      by (apply rpow_sqrt; auto).
    destruct d as [| | | | |[]]; auto.
    apply rpow_sqrt_obj; auto.
  Qed.

  Lemma bcast_row_same p (u : nat -> R) : bcast_row p (tab p u) = tab p u.
  Proof. destruct p as [|[|p]]; reflexivity. Qed.

  Lemma cdist_naive_tab d p n m X Y e : 0 < e ->
    cdist_naive E d p (tab2 n p X) p (tab2 m p Y) e
    = Ok (tab2 m n (fun j i => rpow (dist p (X i) (Y j)) e)).
  Proof.
    intros He. unfold cdist_naive. rewrite Nat.eqb_refl. simpl. f_equal.
    replace (if p =? 1 then p else p)%nat with p by (destruct (p =? 1)%nat; auto).
    unfold tab2. rewrite tab_map. apply tab_ext; intros j _. rewrite tab_map.
    apply tab_ext; intros i _. rewrite !bcast_row_same, sq_norm_tab. apply dist_power_R; auto.
  Qed.

  Lemma cdist_scipy_tab p n m X Y e : 0 < e ->
    cdist_scipy E p (tab2 n p X) p (tab2 m p Y) e
    = Ok (tab2 n m (fun i j => rpow (dist p (X i) (Y j)) e)).
  Proof.
    intros He. unfold cdist_scipy. rewrite Nat.eqb_refl. simpl. f_equal.
    unfold tab2. rewrite tab_map. apply tab_ext; intros i _. rewrite tab_map.
    apply tab_ext; intros j _. rewrite sq_norm_tab, half_R, HN. simpl.
    destruct (Reqb_spec e 1) as [->|Hne].
    - rewrite rpow_1; [reflexivity|apply dist_nonneg].
    - apply rpow_sqrt; auto. apply rsum_sq_nonneg.
  Qed.

  Lemma pairwise_distances_one x e : wf x -> 0 < e ->
    pairwise_distances E x None e = Ok (tab2 (shape0 x) (shape0 x) (distances e x)).
  Proof.
    intros Hx He. unfold pairwise_distances. rewrite transform_to_2d_tab by auto.
    unfold pdist. destruct (can_be_numpy_double E (ans x) (adt x)).
    - rewrite cdist_scipy_tab by auto. reflexivity.
    - rewrite cdist_naive_tab by auto. f_equal. apply tab2_ext; intros.
      unfold distances, dmat. rewrite dist_sym. reflexivity.
  Qed.

  (** Two samples of the same dimension, scipy path. *)
  Lemma pairwise_distances_two x y e : wf x -> wf y -> ncols x = ncols y -> 0 < e ->
    can_be_numpy_double E (ans x) (adt x) = true ->
    can_be_numpy_double E (ans y) (adt y) = true ->
    pairwise_distances E x (Some y) e
    = Ok (tab2 (shape0 x) (shape0 y) (fun i j => rpow (dist (ncols x) (obs x i) (obs y j)) e)).
  Proof.
    intros Hx Hy Hc He Hdx Hdy. unfold pairwise_distances.
    rewrite !transform_to_2d_tab by auto. unfold cdist. rewrite Hdx, Hdy, <- Hc. simpl.
    apply cdist_scipy_tab; auto.
  Qed.

  (** Naive path: the transpose. *)
  Lemma pairwise_distances_two_naive x y e : wf x -> wf y -> ncols x = ncols y -> 0 < e ->
    can_be_numpy_double E (ans x) (adt x) && can_be_numpy_double E (ans y) (adt y) = false ->
    pairwise_distances E x (Some y) e
    = Ok (tab2 (shape0 y) (shape0 x) (fun j i => rpow (dist (ncols x) (obs x i) (obs y j)) e)).
  Proof.
    intros Hx Hy Hc He Hd. unfold pairwise_distances.
    rewrite !transform_to_2d_tab by auto. unfold cdist. rewrite Hd, <- Hc.
    apply cdist_naive_tab; auto.
  Qed.

  (** ** Terms and estimators *)

  (** The terms describe the distance matrices [a] and [b]. *)
  Definition terms_ok (n : nat) (a b : nat -> nat -> R) (rv : bool) (t : terms (T:=R)) : Prop :=
    t_mean_prod t = rsum2 n n (fun i j => a i j * b i j) /\
    t_a_axis t = tab n (fun i => rsum n (a i)) /\ t_a_total t = rsum2 n n a /\
    t_b_axis t = tab n (fun i => rsum n (b i)) /\ t_b_total t = rsum2 n n b /\
    (rv = true -> t_mp_a t = Some (rsum2 n n (fun i j => a i j * a i j)) /\
                  t_mp_b t = Some (rsum2 n n (fun i j => b i j * b i j))).

  Lemma check_exponent_ok e : outcome (check_valid_dcov_exponent E e) = Ok tt.
  Proof. unfold check_valid_dcov_exponent. destruct (exponent_in_range E e); reflexivity. Qed.

  Lemma outcome_bind {A B} (m : M A) (f : A -> M B) :
    outcome (bind m f) = match outcome m with Ok a => outcome (f a) | Err e => Err e end.
  Proof. destruct m as [w [a|]]; simpl; auto. destruct (f a); reflexivity. Qed.

  Lemma naive_terms x y e cm rv n : wf x -> wf y -> 0 < e ->
    shape0 x = n -> shape0 y = n -> (cm = CAuto \/ cm = CNoCompile) ->
    exists t, outcome (dcov_terms_naive E x y e cm rv) = Ok t /\
      t_kind t = AllNumpy /\ t_vkind t = AllNumpy /\
      terms_ok n (distances e x) (distances e y) rv t.
  Proof.
    intros Hx Hy He Hnx Hny Hcm.
    assert (outcome (dcov_terms_naive E x y e cm rv)
            = outcome (dcov_terms_naive E x y e CNoCompile rv)) as ->
      by (destruct Hcm; subst; reflexivity).
    unfold dcov_terms_naive, compute_distances.
    rewrite !outcome_bind, check_exponent_ok.
    rewrite !pairwise_distances_one by auto. rewrite Hnx, Hny, HN. simpl.
    unfold np_dot. rewrite !concat_length_tab2, Nat.eqb_refl. simpl.
    unfold symmetric_matrix_sums. rewrite HN.
    eexists. split; [reflexivity|]. simpl.
    split; [reflexivity|]. split; [reflexivity|].
    unfold terms_ok; simpl.
    rewrite !dot_R, !map2_concat_tab2, !np_sum_concat_tab2, !row_sums_tab2, !np_sum_tab.
    repeat split; auto; subst rv; auto.
  Qed.

  (** Division by zero raised by Python floats: not for these sizes. *)
  Lemma dcov_from_terms_V k n mp ra rb ta tb : (1 <= n)%nat ->
    dcov_from_terms E k mp (tab n ra) ta (tab n rb) tb n false
    = Ok (dcov2_terms n mp ra rb ta tb).
  Proof.
    intros Hn. unfold dcov_from_terms. rewrite HN.
    rewrite tab_map, np_dot_tab. cbn [rbind].
    replace (match k with
             | AllNumpy => false
             | MeanProdPy => (Z.of_nat n =? 0)%Z || (Z.of_nat n =? 0)%Z
             | AllPy => (Z.of_nat n =? 0)%Z || (Z.of_nat n =? 0)%Z || (Z.of_nat n ^ 3 =? 0)%Z
             end) with false.
    2:{ assert ((Z.of_nat n =? 0)%Z = false) as Hz by (apply Z.eqb_neq; lia).
        assert ((Z.of_nat n ^ 3 =? 0)%Z = false) as Hz3
          by (apply Z.eqb_neq, Z.pow_nonzero; lia).
        destruct k; rewrite ?Hz, ?Hz3; reflexivity. }
    f_equal. simpl. unfold dcov2_terms. rewrite !INR_IZR_INZ.
    rewrite !pow_IZR. simpl Z.of_nat. reflexivity.
  Qed.

  Lemma dcov_from_terms_U k n mp ra rb ta tb : (4 <= n)%nat ->
    dcov_from_terms E k mp (tab n ra) ta (tab n rb) tb n true
    = Ok (udcov2_terms n mp ra rb ta tb).
  Proof.
    intros Hn. unfold dcov_from_terms. rewrite HN.
    rewrite tab_map, np_dot_tab. cbn [rbind].
    set (z := Z.of_nat n). assert (4 <= z)%Z by (unfold z; lia).
    replace (match k with
             | AllNumpy => false
             | MeanProdPy => (z =? 0)%Z || (z - 3 =? 0)%Z
             | AllPy => (z =? 0)%Z || (z - 3 =? 0)%Z || ((z - 1) * (z - 2) * (z - 3) =? 0)%Z
             end) with false.
    2:{ assert ((z =? 0)%Z = false) as Hz by (apply Z.eqb_neq; lia).
        assert ((z - 3 =? 0)%Z = false) as Hz1 by (apply Z.eqb_neq; lia).
        assert (((z - 1) * (z - 2) * (z - 3) =? 0)%Z = false) as Hz3
          by (apply Z.eqb_neq; nia).
        destruct k; rewrite ?Hz, ?Hz1, ?Hz3; reflexivity. }
    f_equal. simpl. unfold udcov2_terms. rewrite !INR_IZR_INZ. fold z.
    rewrite !mult_IZR, !minus_IZR. reflexivity.
  Qed.

  Lemma terms_dcov_V k n a b rv t : (1 <= n)%nat -> symmetric n a -> symmetric n b ->
    terms_ok n a b rv t ->
    dcov_from_terms E k (t_mean_prod t) (t_a_axis t) (t_a_total t)
      (t_b_axis t) (t_b_total t) n false = Ok (dcov2 n a b).
  Proof.
    intros Hn Ha Hb (H1 & H2 & H3 & H4 & H5 & _). rewrite H1, H2, H3, H4, H5.
    rewrite dcov_from_terms_V by auto. f_equal. symmetry. apply dcov2_from_terms; auto.
  Qed.

  Lemma terms_dcov_U k n a b rv t : (4 <= n)%nat -> symmetric n a -> symmetric n b ->
    hollow n a -> hollow n b -> terms_ok n a b rv t ->
    dcov_from_terms E k (t_mean_prod t) (t_a_axis t) (t_a_total t)
      (t_b_axis t) (t_b_total t) n true = Ok (udcov2 n a b).
  Proof.
    intros Hn Ha Hb Ha0 Hb0 (H1 & H2 & H3 & H4 & H5 & _). rewrite H1, H2, H3, H4, H5.
    rewrite dcov_from_terms_U by auto. f_equal. symmetry. apply udcov2_from_terms; auto.
  Qed.

  (** The variances obtained from the same terms. *)
  Lemma terms_dvar_V k n a b t : (1 <= n)%nat -> symmetric n a -> symmetric n b ->
    terms_ok n a b true t -> exists mpa mpb, t_mp_a t = Some mpa /\ t_mp_b t = Some mpb /\
    dcov_from_terms E k mpa (t_a_axis t) (t_a_total t)
      (t_a_axis t) (t_a_total t) n false = Ok (dcov2 n a a) /\
    dcov_from_terms E k mpb (t_b_axis t) (t_b_total t)
      (t_b_axis t) (t_b_total t) n false = Ok (dcov2 n b b).
  Proof.
    intros Hn Ha Hb (H1 & H2 & H3 & H4 & H5 & H6). destruct (H6 eq_refl) as [Ha' Hb'].
    eexists _, _. split; [eassumption|]. split; [eassumption|].
    rewrite H2, H3, H4, H5. rewrite !dcov_from_terms_V by auto.
    split; f_equal; symmetry; apply dcov2_from_terms; auto.
  Qed.

  Lemma terms_dvar_U k n a b t : (4 <= n)%nat -> symmetric n a -> symmetric n b ->
    hollow n a -> hollow n b ->
    terms_ok n a b true t -> exists mpa mpb, t_mp_a t = Some mpa /\ t_mp_b t = Some mpb /\
    dcov_from_terms E k mpa (t_a_axis t) (t_a_total t)
      (t_a_axis t) (t_a_total t) n true = Ok (udcov2 n a a) /\
    dcov_from_terms E k mpb (t_b_axis t) (t_b_total t)
      (t_b_axis t) (t_b_total t) n true = Ok (udcov2 n b b).
  Proof.
    intros Hn Ha Hb Ha0 Hb0 (H1 & H2 & H3 & H4 & H5 & H6). destruct (H6 eq_refl) as [Ha' Hb'].
    eexists _, _. split; [eassumption|]. split; [eassumption|].
    rewrite H2, H3, H4, H5. rewrite !dcov_from_terms_U by auto.
    split; f_equal; symmetry; apply udcov2_from_terms; auto.
  Qed.
End Env.
