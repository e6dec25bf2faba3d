(** The hypothesis tests based on permutations: C28-C30.

    [p_value], [permute_sample], [permuting]: RefTests.v. *)
From Coq Require Import Reals Lra Lia List Arith Bool ZArith Permutation.
From Verif Require Import Num Numpy MUtils MDistances MMergesort MInternals MDcor MPartial MEnergy MHypothesis MHomogeneity MIndependence
  Sums Spec Centering Tab Samples Api RefDist RefDcor RefCenter RefApi SpecFacts Invariance RefEnergy RefTests RefHomogeneity Witness PPartial
  PEnergy.
Import List ListNotations.
Local Open Scope R_scope.

(** ** C28: the k-sample statistic *)

(** At least two samples, with [p] columns each and enough observations. *)
Definition several (p : nat) (es : estimation_like) (samples : list (array R)) : Prop :=
  (2 <= length samples)%nat /\
  Forall (fun s => wf s /\ ncols s = p /\
            (match to_estimation es with Ok UStatistic => 2 | _ => 1 end <= shape0 s)%nat) samples.

Definition none : array R := mkArr Numpy F64 (Vec []).
(** Sample number [i]. *)
Definition sample (samples : list (array R)) (i : nat) : array R := nth i samples none.

Lemma several_wf p es samples : several p es samples -> well_formed p samples.
Proof. intros [_ H]. eapply Forall_impl; [|exact H]. cbn. tauto. Qed.
Lemma several_pos p es samples : several p es samples -> Forall (fun s => 1 <= shape0 s)%nat samples.
Proof. intros [_ H]. eapply Forall_impl; [|exact H]. cbn. intros s. destruct (to_estimation es) as [[]|]; lia. Qed.

Section EnergyTest.
  Context {S : Type}.
  Variables (E : Env R) (G : Rng S).
  Hypothesis HE : valid_env E.

  Lemma energy_test_eval p samples B e rs av es : samples <> [] -> well_formed p samples -> 0 < e ->
    outcome (energy_test E G samples B e rs av es)
    = permutation_test_with_sym_matrix RNum G (tab2 (total samples) (total samples) (dmat e p (pooled samples)))
        (fun m => energy_statistic_multivariate E m (sample_indexes (map shape0 samples)) (map shape0 samples) av es) B rs.
  Proof.
    intros Hne Hw He. pose proof HE as [EN _ _]. unfold energy_test. cbv zeta.
    rewrite outcome_bind, check_energy_ok. rewrite outcome_bind. cbn [outcome lift snd].
    assert (map (fun s => length (snd s)) (map (fun a => transform_to_2d (adata a)) samples) = map shape0 samples) as ->.
    { rewrite map_map. apply map_ext_in. intros s Hs. unfold well_formed in Hw. rewrite Forall_forall in Hw.
      rewrite transform_to_2d_tab by (apply Hw; auto). cbn. apply tab2_length. }
    assert (pool (map (fun a => transform_to_2d (adata a)) samples) = Ok (p, tab2 (total samples) p (pooled samples))) as ->.
    { rewrite <- pooled_rows by auto. destruct samples as [|s l]; [congruence|]. unfold pool. cbn [map].
      pose proof Hw as Hw'. unfold well_formed in Hw'. inversion Hw' as [|? ? [Ws Cs] Hl]; subst. rewrite transform_to_2d_tab by auto.
      set (f := forallb _ _). assert (f = true) as ->.
      { unfold f. apply forallb_forall. intros t [<-|Ht]; [apply Nat.eqb_refl|]. apply in_map_iff in Ht as (a & <- & Ha).
        rewrite Forall_forall in Hl. destruct (Hl a Ha) as [Wa Ca]. rewrite transform_to_2d_tab by auto. cbn. apply Nat.eqb_eq; auto. }
      f_equal. f_equal. cbn [map snd concat]. rewrite (rows_tab s) by auto. f_equal. f_equal.
      rewrite map_map. reflexivity. }
    rewrite outcome_bind. cbn [outcome lift snd fst]. set (a0 := match samples with [] => _ | a :: _ => a end).
    rewrite (pairwise_distances_one E EN) by (auto; cbn; apply Forall_forall; intros r Hr; unfold tab2, tab in Hr;
      apply in_map_iff in Hr as (i & <- & _); apply tab_length).
    unfold shape0; cbn [adata]. rewrite tab2_length, EN. cbn [outcome lift snd]. f_equal.
    apply tab2_ext. intros i j Hi Hj. unfold distances, ncols, obs. cbn [adata]. apply dmat_ext; intros k Hk; apply entry_tab2; auto.
  Qed.

  Lemma pair_value_ext av st n m a b c a' b' c' :
    (forall i j, (i < n)%nat -> (j < n)%nat -> a i j = a' i j) -> (forall i j, (i < m)%nat -> (j < m)%nat -> b i j = b' i j) ->
    (forall i j, (i < n)%nat -> (j < m)%nat -> c i j = c' i j) ->
    pair_value E av st n m a b c = pair_value E av st n m a' b' c'.
  Proof. intros H1 H2 H3. unfold pair_value. rewrite (tab2_ext n n a a'), (tab2_ext m m b b'), (tab2_ext n m c c') by auto. reflexivity. Qed.

  Lemma energy_test_statistic_eval x y n m p e av es st : two_samples n m p x y -> (1 <= n)%nat -> 0 < e ->
    to_estimation es = Ok st -> order_invariant av ->
    outcome (energy_test_statistic E x y e av es) = Ok (pair_value E av st n m (distances e x) (distances e y) (cross e x y)).
  Proof.
    intros H Hn He Hs Ha. pose proof HE as [EN _ _]. pose proof H as (Wx & Wy & Sx & Sy & Cx & Cy).
    unfold energy_test_statistic. rewrite outcome_bind. cbn [outcome lift snd]. rewrite Sx, Sy, coefficient_ok by auto.
    rewrite outcome_bind. destruct (energy_distance_eval E HE x y n m p e av es st H He Hs) as (l & Hl & ->).
    cbn. rewrite EN. rewrite (average_perm E av l _ HE Ha Hl). reflexivity.
  Qed.

  Lemma several_two p es samples i j : several p es samples -> (i < length samples)%nat -> (j < length samples)%nat ->
    two_samples (shape0 (sample samples i)) (shape0 (sample samples j)) p (sample samples i) (sample samples j) /\
    (1 <= shape0 (sample samples i))%nat.
  Proof.
    intros [_ H] Hi Hj. rewrite Forall_forall in H.
    destruct (H (sample samples i)) as (W1 & C1 & P1); [apply nth_In; auto|].
    destruct (H (sample samples j)) as (W2 & C2 & P2); [apply nth_In; auto|].
    split; [unfold two_samples; auto 8|]. destruct (to_estimation es) as [[]|]; lia.
  Qed.

  (** The value of the k-sample statistic. *)
  Definition sum_of_pairs e av st samples :=
    rsum2 (length samples) (length samples) (fun i j => if Nat.ltb i j then
      pair_value E av st (shape0 (sample samples i)) (shape0 (sample samples j)) (distances e (sample samples i))
        (distances e (sample samples j)) (cross e (sample samples i) (sample samples j)) else 0).

  Lemma multivariate_value p samples e av es st : several p es samples -> to_estimation es = Ok st ->
    energy_statistic_multivariate E (tab2 (total samples) (total samples) (dmat e p (pooled samples)))
      (sample_indexes (map shape0 samples)) (map shape0 samples) av es = Ok (sum_of_pairs e av st samples).
  Proof.
    intros H Hs. pose proof HE as [EN _ _].
    rewrite (multivariate_tab E EN samples none _ _ av es st) by (eauto using several_pos; apply H). f_equal.
    apply rsum2_ext. intros i j Hi Hj. destruct (Nat.ltb i j); [|reflexivity]. cbv zeta.
    destruct (several_two p es samples i j H Hi Hj) as [(_ & _ & _ & _ & C1 & C2) _].
    apply pair_value_ext; intros r s Hr Hs'; unfold distances, cross, dmat; fold (sample samples i) (sample samples j) in *.
    - rewrite C1. f_equal. apply dist_ext; intros k _; apply pooled_off; auto.
    - rewrite C2. f_equal. apply dist_ext; intros k _; apply pooled_off; auto.
    - rewrite C1. f_equal. apply dist_ext; intros k _; apply pooled_off; auto.
  Qed.
End EnergyTest.

(** The statistic reported by energy_test is the sum over the pairs of samples of energy_test_statistic of the pair,
    for every average (not depending on the order of the distances), estimator and number of resamples. *)
Theorem C28_statistic {S} (E : Env R) (G : Rng S) p samples B e rs av es t s : valid_env E -> several p es samples -> 0 < e ->
  order_invariant av -> outcome (energy_test E G samples B e rs av es) = Ok (t, s) ->
  exists v, (forall i j, (i < j < length samples)%nat ->
               outcome (energy_test_statistic E (sample samples i) (sample samples j) e av es) = Ok (v i j)) /\
  statistic t = rsum2 (length samples) (length samples) (fun i j => if Nat.ltb i j then v i j else 0).
Proof.
  intros HE H He Ha Ht. assert (samples <> []) as Hne by (destruct H as [H _]; destruct samples; [cbn in H; lia|congruence]).
  rewrite (energy_test_eval E G HE p) in Ht by eauto using several_wf.
  destruct (to_estimation es) as [st|ex] eqn:Hs.
  - unfold permutation_test_with_sym_matrix in Ht. rewrite (multivariate_value E HE p samples e av es st) in Ht by auto.
    cbn [rbind] in Ht. destruct (draw_permutations _ _ _ _). destruct (mapM _ _); cbn [rbind] in Ht; [|discriminate].
    destruct (permutation_pvalue _ _ _ _); cbn [rbind] in Ht; [|discriminate]. injection Ht as <- _.
    exists (fun i j => pair_value E av st (shape0 (sample samples i)) (shape0 (sample samples j)) (distances e (sample samples i))
        (distances e (sample samples j)) (cross e (sample samples i) (sample samples j))). split; [|reflexivity].
    intros i j Hij. destruct (several_two p es samples i j H) as [Htw H1]; try lia.
    eapply energy_test_statistic_eval; eauto.
  - exfalso. unfold permutation_test_with_sym_matrix, energy_statistic_multivariate in Ht.
    pose proof H as [Hk _].
    assert (length (sample_indexes (map shape0 samples)) = length samples) as Hl by (rewrite sample_indexes_tab; apply tab_length).
    rewrite Hl in Ht. assert (In (0, 1)%nat (sample_pairs (length samples))) as Hin by (apply in_pairs; lia).
    destruct (sample_pairs (length samples)) as [|[i j] l]; [contradiction|]. cbn [accumulate pair_statistic] in Ht.
    unfold energy_test_statistic_from_distance_matrices, energy_distance_from_distance_matrices in Ht. rewrite Hs in Ht. discriminate.
Qed.

(** ... and energy_test_statistic is n m / (n + m) times the energy distance. *)
Theorem C28_two_sample E x y n m p e av es v : valid_env E -> two_samples n m p x y -> (1 <= n)%nat -> (1 <= m)%nat -> 0 < e ->
  outcome (energy_distance E x y e av es) = Ok v ->
  outcome (energy_test_statistic E x y e av es) = Ok (INR n * INR m / (INR n + INR m) * v).
Proof.
  intros HE H Hn Hm He Hv. pose proof HE as [EN _ _]. pose proof H as (Wx & Wy & Sx & Sy & Cx & Cy).
  unfold energy_test_statistic. rewrite outcome_bind. cbn [outcome lift snd]. rewrite Sx, Sy, coefficient_ok by auto.
  rewrite outcome_bind, Hv. cbn. rewrite EN, plus_INR, mult_INR. reflexivity.
Qed.

(** One sample: UnboundLocalError; none: ValueError; samples of different dimensions: ValueError. *)
Theorem C28_one_sample {S} (E : Env R) (G : Rng S) x B e rs av es : valid_env E -> wf x -> 0 < e ->
  outcome (energy_test E G [x] B e rs av es) = Err UnboundLocalError.
Proof.
  intros HE Wx He. rewrite (energy_test_eval E G HE (ncols x)) by (auto; try discriminate; repeat constructor; auto).
  reflexivity.
Qed.
Theorem C28_no_sample {S} (E : Env R) (G : Rng S) B e rs av es :
  outcome (energy_test E G [] B e rs av es) = Err ValueError.
Proof. unfold energy_test. rewrite outcome_bind, check_energy_ok. reflexivity. Qed.

Example C28_meets : several 1 (EstEnum UStatistic) [xs; us; ys] /\ order_invariant None.
Proof. split; [|exact I]. split; [cbn; lia|]. repeat constructor; cbn; auto; lia. Qed.

(** ** C29: the p-value *)

(** A call of one of the three permutation tests, without the number of resamples and the random state. *)
Inductive test_call {T : Type} :=
  | TDcov (x y : array T) (e : T)
  | TPartial (x y z : array T) (e : T)
  | TEnergy (samples : list (array T)) (e : T) (av : average_fn (T:=T)) (es : estimation_like).

Definition run_test {T S} (E : Env T) (G : Rng S) (c : test_call) (B : Z) (rs : random_like S) : res (HypothesisTest T * S) :=
  outcome match c with
  | TDcov x y e => distance_covariance_test E G x y B e rs
  | TPartial x y z e => partial_distance_covariance_test E G x y z B e rs
  | TEnergy l e av es => energy_test E G l B e rs av es
  end.

Lemma bind_ok {A B} (m : M A) (k : A -> M B) b : outcome (bind m k) = Ok b -> exists a, outcome m = Ok a /\ outcome (k a) = Ok b.
Proof. rewrite outcome_bind. destruct (outcome m) as [a|]; [|discriminate]. eauto. Qed.

(** The number of observations that a test permutes. (In the partial test a sample x of a single row is broadcast.) *)
Definition permuted_rows {T} (c : test_call (T:=T)) : nat :=
  match c with
  | TDcov x _ _ => shape0 x
  | TPartial x _ z _ => if (shape0 x =? 1)%nat then shape0 z else shape0 x
  | TEnergy l _ _ _ => list_sum (map shape0 l)
  end.

Section Squares.
  Context {T : Type} (E : Env T).

  Lemma rows_length (d : nd T) : length (snd (transform_to_2d d)) = match d with Vec v => length v | Mat _ r => length r end.
  Proof. destruct d; cbn; [apply map_length|reflexivity]. Qed.
  Lemma map_map_mat {A B} (f : A -> A -> B) x : mat (length x) (map (fun u => map (f u) x) x).
  Proof. split; [apply map_length|]. apply Forall_forall. intros r Hr. apply in_map_iff in Hr as (u & <- & _). apply map_length. Qed.
  Lemma pdist_mat s d c x e m : pdist E s d c x e = Ok m -> mat (length x) m.
  Proof.
    unfold pdist, cdist_scipy, cdist_naive. rewrite Nat.eqb_refl. cbn [orb].
    destruct (can_be_numpy_double E s d); intros H; injection H as <-; apply map_map_mat.
  Qed.
  Lemma pairwise_mat x e m : pairwise_distances E x None e = Ok m -> mat (shape0 x) m.
  Proof.
    unfold pairwise_distances, shape0. rewrite <- rows_length. destruct (transform_to_2d (adata x)) as [c r] eqn:H0.
    intros H. apply pdist_mat in H. exact H.
  Qed.

  Lemma map_mat n (f : T -> T) m : mat n m -> mat n (map (map f) m).
  Proof.
    intros [L F]. split; [rewrite map_length; exact L|]. apply Forall_forall. intros r Hr. apply in_map_iff in Hr as (u & <- & Hu).
    rewrite map_length. rewrite Forall_forall in F. auto.
  Qed.
  Lemma sub_cols_mat n v m : length v = n -> mat n m -> mat n (sub_cols E v m).
  Proof.
    intros Lv [L F]. split; [unfold sub_cols; rewrite map_length; exact L|]. apply Forall_forall. intros r Hr. apply in_map_iff in Hr as (u & <- & Hu).
    rewrite Forall_forall in F. rewrite map2_length, (F u Hu), Lv. lia.
  Qed.
  Lemma sub_rows_mat n v m : length v = n -> mat n m -> mat n (sub_rows E v m).
  Proof.
    intros Lv [L F]. split; [unfold sub_rows; rewrite map2_length; lia|].
    unfold sub_rows. clear L Lv. revert v. induction F as [|r m Hr F IH]; intros [|s v]; try constructor; [rewrite map_length; exact Hr|apply IH].
  Qed.
  Lemma zero_diag_mat n m : mat n m -> mat n (zero_diag E m).
  Proof.
    intros [L F]. split; [unfold zero_diag; rewrite map2_length, seq_length; lia|].
    unfold zero_diag. generalize 0%nat (length m). clear L. induction F as [|r m Hr F IH]; intros a [|k]; try constructor; [rewrite upd_length; exact Hr|apply IH].
  Qed.
  Lemma dc_mat n m : mat n m -> mat n (dc_pure E m m).
  Proof.
    intros Hm. unfold dc_pure, symmetric_matrix_sums, row_sums. cbv zeta. unfold add_all. apply map_mat.
    assert (length m = n) by apply Hm. apply sub_rows_mat; [rewrite !map_length; auto|]. apply sub_cols_mat; [rewrite !map_length; auto|]. exact Hm.
  Qed.
  Lemma uc_mat n m : mat n m -> mat n (uc_pure E m m).
  Proof.
    intros Hm. unfold uc_pure, symmetric_matrix_sums, row_sums. cbv zeta. apply zero_diag_mat. unfold add_all. apply map_mat.
    assert (length m = n) by apply Hm. apply sub_rows_mat; [rewrite !map_length; auto|]. apply sub_cols_mat; [rewrite !map_length; auto|]. exact Hm.
  Qed.
  Lemma dmg_double_mat x e m : outcome (distance_matrix_generic E (double_centered E) x e) = Ok m -> mat (shape0 x) m.
  Proof.
    unfold distance_matrix_generic. intros H. apply bind_ok in H as (? & _ & H). apply bind_ok in H as (a & Ha & H). cbn [outcome lift snd] in Ha, H.
    apply pairwise_mat in Ha. erewrite dc_run in H; [|eapply copy_self; reflexivity|reflexivity|reflexivity|apply (square_mat (shape0 x)); exact Ha].
    unfold deref in H. cbn [rbind upd nth_error of_option] in H. injection H as <-. apply dc_mat. exact Ha.
  Qed.
  Lemma dmg_u_mat x e m : outcome (u_distance_matrix E x e) = Ok m -> mat (shape0 x) m.
  Proof.
    unfold u_distance_matrix, distance_matrix_generic. intros H. apply bind_ok in H as (? & _ & H). apply bind_ok in H as (a & Ha & H). cbn [outcome lift snd] in Ha, H.
    apply pairwise_mat in Ha. erewrite uc_run in H; [|eapply copy_self; reflexivity|reflexivity|reflexivity|apply (square_mat (shape0 x)); exact Ha].
    unfold deref in H. cbn [rbind upd nth_error of_option] in H. injection H as <-. apply uc_mat. exact Ha.
  Qed.

  Lemma bcast_length {A B C} (f : A -> B -> res C) u v w : bcast_axis f u v = Ok w -> length w = if (length u =? 1)%nat then length v else length u.
  Proof.
    unfold bcast_axis. destruct (Nat.eqb_spec (length u) (length v)) as [L|L].
    - intros H. apply mapM_length in H. rewrite combine_length in H. destruct (Nat.eqb_spec (length u) 1); lia.
    - destruct u as [|a [|a' u]].
      + destruct v as [|b [|b' v]]; cbn; try discriminate. intros H. injection H as <-. reflexivity.
      + intros H. apply mapM_length in H. exact H.
      + destruct v as [|b [|b' v]]; cbn - [mapM]; try discriminate. intros H. apply mapM_length in H. exact H.
  Qed.
  Lemma mapM_forall {A B} (f : A -> res B) (P : B -> Prop) l l' : (forall a b, In a l -> f a = Ok b -> P b) -> mapM f l = Ok l' -> Forall P l'.
  Proof.
    revert l'. induction l as [|a l IH]; cbn; intros l' Hf H; [injection H as <-; constructor|].
    destruct (f a) eqn:Ha; cbn in H; [|discriminate]. destruct (mapM f l); cbn in H; [|discriminate]. injection H as <-. constructor; [eauto|]. apply IH; eauto.
  Qed.
  Lemma elt_op_mat (f : T -> T -> T) n m a b w : mat n a -> mat m b -> elt_op f a b = Ok w -> mat (if (n =? 1)%nat then m else n) w.
  Proof.
    intros [La Fa] [Lb Fb]. rewrite Forall_forall in Fa, Fb. unfold elt_op. destruct (same_shape a b) eqn:Hs.
    - unfold same_shape in Hs. apply andb_prop in Hs as [Hl Hr]. apply Nat.eqb_eq in Hl. intros H. injection H as <-.
      assert (m = n) as -> by lia. replace (if (n =? 1)%nat then n else n) with n by (destruct (n =? 1)%nat; auto).
      split; [rewrite map2_length; lia|]. clear Hl Hr La Lb. revert b Fb. induction a as [|r a IH]; intros [|s b] Fb; try constructor.
      + pose proof (Fa r (or_introl eq_refl)). pose proof (Fb s (or_introl eq_refl)). change (length (map2 f r s) = n). rewrite map2_length. lia.
      + apply IH; intros; [apply Fa|apply Fb]; right; auto.
    - intros H. split; [rewrite <- La, <- Lb; eapply bcast_length; eauto|].
      assert (HR : forall r s t, In r a -> In s b -> bcast_axis (fun x y => Ok (f x y)) r s = Ok t -> length t = if (n =? 1)%nat then m else n).
      { intros r s t Hr Hss Ht. apply bcast_length in Ht. rewrite (Fa r Hr), (Fb s Hss) in Ht. exact Ht. }
      unfold bcast_axis in H at 1. destruct (length a =? length b)%nat.
      + eapply mapM_forall; [|exact H]. cbn. intros [r s] t Hin. apply HR; [eapply in_combine_l|eapply in_combine_r]; eauto.
      + destruct a as [|r [|r' a]].
        * destruct b as [|s [|s' b]]; try discriminate. injection H as <-. constructor.
        * eapply mapM_forall; [|exact H]. intros s t Hss. apply HR; [left|]; auto.
        * destruct b as [|s [|s' b]]; try discriminate. eapply mapM_forall; [|exact H]. intros u t Hu. apply HR; [auto|left; auto].
  Qed.
  Lemma complementary_mat n m a c f w : mat n a -> mat m c -> u_complementary_projection E c = Ok f -> f a = Ok w -> mat (if (n =? 1)%nat then m else n) w.
  Proof.
    intros Ha Hc. unfold u_complementary_projection, u_projection. destruct (u_product E c c) as [d|]; cbn [rbind]; [|discriminate].
    intros H. injection H as <-. destruct (neqb (e_num E) d (nzero (e_num E))); cbn [rbind].
    - intros H. eapply elt_op_mat; [exact Ha| |exact H]. apply map_mat. exact Hc.
    - destruct (u_product E a c); cbn [rbind]; [|discriminate]. intros H. eapply elt_op_mat; [exact Ha| |exact H]. apply map_mat. exact Hc.
  Qed.

  Lemma take_seq {A} ex (l : list A) : take_chk ex l (seq 0 (length l)) = Ok l.
  Proof.
    assert (H : forall l' pre : list A, take_chk ex (pre ++ l') (seq (length pre) (length l')) = Ok l').
    { induction l' as [|v l' IH]; intros pre; cbn; auto. rewrite nth_error_app2, Nat.sub_diag by lia. cbn.
      replace (pre ++ v :: l') with ((pre ++ [v]) ++ l') by (rewrite <- app_assoc; reflexivity).
      replace (Datatypes.S (length pre)) with (length (pre ++ [v])) by (rewrite app_length; cbn; lia). rewrite IH. reflexivity. }
    apply (H l []).
  Qed.
  Lemma permuted_self n (m : list (list T)) stat : mat n m -> permuted_statistic m stat (seq 0 n) = stat m.
  Proof.
    intros [L F]. unfold permuted_statistic. rewrite <- L at 1. rewrite take_seq. cbn [rbind].
    replace (mapM (fun r => take_chk IndexError r (seq 0 n)) m) with (Ok m : res (list (list T))); [reflexivity|].
    symmetry. clear L. induction F as [|r m Hr F IH]; cbn [mapM]; auto. replace (take_chk IndexError r (seq 0 n)) with (Ok r : res (list T)) by (rewrite <- Hr; symmetry; apply take_seq). cbn [rbind]. rewrite IH. reflexivity.
  Qed.

  Lemma pool_length (l : list (array T)) p : pool (map (fun a => transform_to_2d (adata a)) l) = Ok p -> length (snd p) = list_sum (map shape0 l).
  Proof.
    assert (H : length (concat (map snd (map (fun a => transform_to_2d (adata a)) l))) = list_sum (map shape0 l)).
    { clear p. induction l as [|a l IH]; cbn; auto. rewrite app_length, IH. f_equal. unfold shape0. apply rows_length. }
    unfold pool. intros Hp. rewrite <- H. destruct (map (fun a => transform_to_2d (adata a)) l) as [|[c r] l']; [discriminate|].
    destruct (forallb _ _); [|discriminate]. injection Hp as <-. reflexivity.
  Qed.
End Squares.

(** Every successful test is a run of the common routine, on a matrix with one row and column per observation. *)
Lemma run_test_matrix {T} (E : Env T) (c : test_call (T:=T)) : exists m stat, mat (permuted_rows c) m /\
  forall S (G : Rng S) B rs r, run_test E G c B rs = Ok r -> permutation_test_with_sym_matrix (e_num E) G m stat B rs = Ok r.
Proof.
  assert (Absurd : exists m : list (list T), mat (permuted_rows c) m).
  { exists (repeat (repeat (nzero (e_num E)) (permuted_rows c)) (permuted_rows c)). split; [apply repeat_length|].
    apply Forall_forall. intros r Hr. apply repeat_spec in Hr as ->. apply repeat_length. }
  destruct Absurd as [m0 Hm0]. 
  destruct c as [x y e|x y z e|l e av es]; cbn [run_test permuted_rows] in *.
  - destruct (outcome (distance_matrix_generic E (double_centered E) x e)) as [u_x|] eqn:Hx.
    2: { exists m0, (fun _ => Err IndexError). split; auto. intros S G B rs r H. unfold distance_covariance_test in H.
         apply bind_ok in H as (? & _ & H). apply bind_ok in H as (? & H' & _). congruence. }
    destruct (outcome (distance_matrix_generic E (double_centered E) y e)) as [u_y|] eqn:Hy.
    2: { exists m0, (fun _ => Err IndexError). split; auto. intros S G B rs r H. unfold distance_covariance_test in H.
         apply bind_ok in H as (? & _ & H). apply bind_ok in H as (? & _ & H). apply bind_ok in H as (? & H' & _). congruence. }
    eexists u_x, _. split; [eapply dmg_double_mat; eauto|]. intros S G B rs r H. unfold distance_covariance_test in H.
    apply bind_ok in H as (? & _ & H). apply bind_ok in H as (? & Hx' & H). apply bind_ok in H as (? & Hy' & H).
    rewrite Hx in Hx'. rewrite Hy in Hy'. injection Hx' as <-. injection Hy' as <-. cbn [outcome lift snd] in H. exact H.
  - destruct (outcome (u_distance_matrix E x e)) as [u_x|] eqn:Hx.
    2: { exists m0, (fun _ => Err IndexError). split; auto. intros S G B rs r H. unfold partial_distance_covariance_test in H.
         apply bind_ok in H as (? & H' & H). congruence. }
    destruct (outcome (u_distance_matrix E y e)) as [u_y|] eqn:Hy.
    2: { exists m0, (fun _ => Err IndexError). split; auto. intros S G B rs r H. unfold partial_distance_covariance_test in H.
         apply bind_ok in H as (? & _ & H). apply bind_ok in H as (? & H' & _). congruence. }
    destruct (outcome (u_distance_matrix E z e)) as [u_z|] eqn:Hz.
    2: { exists m0, (fun _ => Err IndexError). split; auto. intros S G B rs r H. unfold partial_distance_covariance_test in H.
         apply bind_ok in H as (? & _ & H). apply bind_ok in H as (? & _ & H). apply bind_ok in H as (? & H' & _). congruence. }
    destruct (u_complementary_projection E u_z) as [f|] eqn:Hf.
    2: { exists m0, (fun _ => Err IndexError). split; auto. intros S G B rs r H. unfold partial_distance_covariance_test in H.
         apply bind_ok in H as (? & _ & H). apply bind_ok in H as (? & _ & H). apply bind_ok in H as (? & Hz' & H).
         rewrite Hz in Hz'. injection Hz' as <-. apply bind_ok in H as (? & H' & _). cbn [outcome lift snd] in H'. congruence. }
    destruct (f u_x) as [p_xz|] eqn:Hpx.
    2: { exists m0, (fun _ => Err IndexError). split; auto. intros S G B rs r H. unfold partial_distance_covariance_test in H.
         apply bind_ok in H as (? & Hx' & H). rewrite Hx in Hx'. injection Hx' as <-. apply bind_ok in H as (? & _ & H). apply bind_ok in H as (? & Hz' & H).
         rewrite Hz in Hz'. injection Hz' as <-. apply bind_ok in H as (? & H' & H). cbn [outcome lift snd] in H'. rewrite Hf in H'. injection H' as <-.
         apply bind_ok in H as (? & H' & _). cbn [outcome lift snd] in H'. congruence. }
    destruct (f u_y) as [p_yz|] eqn:Hpy.
    2: { exists m0, (fun _ => Err IndexError). split; auto. intros S G B rs r H. unfold partial_distance_covariance_test in H.
         apply bind_ok in H as (? & _ & H). apply bind_ok in H as (? & Hy' & H). rewrite Hy in Hy'. injection Hy' as <-. apply bind_ok in H as (? & Hz' & H).
         rewrite Hz in Hz'. injection Hz' as <-. apply bind_ok in H as (? & H' & H). cbn [outcome lift snd] in H'. rewrite Hf in H'. injection H' as <-.
         apply bind_ok in H as (? & _ & H). apply bind_ok in H as (? & H' & _). cbn [outcome lift snd] in H'. congruence. }
    eexists p_xz, _. split; [eapply complementary_mat; [eapply dmg_u_mat; exact Hx|eapply dmg_u_mat; exact Hz|exact Hf|exact Hpx]|].
    intros S G B rs r H. unfold partial_distance_covariance_test in H.
    apply bind_ok in H as (? & Hx' & H). apply bind_ok in H as (? & Hy' & H). apply bind_ok in H as (? & Hz' & H).
    rewrite Hx in Hx'. rewrite Hy in Hy'. rewrite Hz in Hz'. injection Hx' as <-. injection Hy' as <-. injection Hz' as <-.
    apply bind_ok in H as (? & Hf' & H). cbn [outcome lift snd] in Hf'. rewrite Hf in Hf'. injection Hf' as <-.
    apply bind_ok in H as (? & Ha & H). cbn [outcome lift snd] in Ha. rewrite Hpx in Ha. injection Ha as <-.
    apply bind_ok in H as (? & Ha & H). cbn [outcome lift snd] in Ha. rewrite Hpy in Ha. injection Ha as <-.
    cbn [outcome lift snd] in H. exact H.
  - destruct (pool (map (fun a => transform_to_2d (adata a)) l)) as [p|] eqn:Hp.
    2: { exists m0, (fun _ => Err IndexError). split; auto. intros S G B rs r H. unfold energy_test in H.
         apply bind_ok in H as (? & _ & H). apply bind_ok in H as (? & H' & _). cbn [outcome lift snd] in H'. congruence. }
    set (a0 := match l with a :: _ => a | [] => mkArr Numpy F64 (Vec []) end).
    destruct (pairwise_distances E (mkArr (ans a0) (adt a0) (Mat (fst p) (snd p))) None e) as [d|] eqn:Hd.
    2: { exists m0, (fun _ => Err IndexError). split; auto. intros S G B rs r H. unfold energy_test in H.
         apply bind_ok in H as (? & _ & H). apply bind_ok in H as (? & H' & H). cbn [outcome lift snd] in H'. rewrite Hp in H'. injection H' as <-.
         apply bind_ok in H as (? & H' & _). cbn [outcome lift snd] in H'. fold a0 in H'. congruence. }
    eexists d, _. split; [rewrite <- (pool_length l p Hp); apply (pairwise_mat E) in Hd; exact Hd|].
    intros S G B rs r H. unfold energy_test in H.
    apply bind_ok in H as (? & _ & H). apply bind_ok in H as (? & H' & H). cbn [outcome lift snd] in H'. rewrite Hp in H'. injection H' as <-.
    apply bind_ok in H as (? & H' & H). cbn [outcome lift snd] in H'. fold a0 in H'. rewrite Hd in H'. injection H' as <-.
    cbn [outcome lift snd] in H. exact H.
Qed.

(** The statistic of a resample is a function of the permutation alone, and the reported statistic is its value at the identity. *)
Lemma run_test_statistics {T} (E : Env T) (c : test_call (T:=T)) : exists f : list nat -> T,
  forall S (G : Rng S) B rs t s, run_test E G c B rs = Ok (t, s) ->
  let d := draw_permutations G (Z.to_nat B) (permuted_rows c) (random_state_init G rs) in
  statistic t = f (seq 0 (permuted_rows c)) /\ s = snd d /\
  permutation_pvalue (e_num E) (map f (fst d)) (statistic t) B = Ok (pvalue t).
Proof.
  destruct (run_test_matrix E c) as (m & stat & Hm & HR).
  exists (fun q => match permuted_statistic m stat q with Ok v => v | Err _ => nzero (e_num E) end).
  intros S G B rs t s H d. apply HR in H. unfold permutation_test_with_sym_matrix in H. rewrite (permuted_self (permuted_rows c)) by exact Hm.
  destruct (stat m) as [st|]; cbn [rbind] in H; [|discriminate]. replace (length m) with (permuted_rows c) in H by (symmetry; apply Hm).
  fold d in H. destruct d as [perms s'] eqn:Hd. destruct (mapM _ perms) as [boot|] eqn:Hb; cbn [rbind] in H; [|discriminate].
  destruct (permutation_pvalue _ _ _ _) as [p|] eqn:Hp; cbn [rbind] in H; [|discriminate]. injection H as <- <-. cbn [statistic pvalue fst snd].
  split; [reflexivity|]. split; [reflexivity|]. rewrite <- Hp. f_equal. clear - Hb. revert boot Hb. induction perms as [|q l IH]; intros boot Hb; cbn in Hb.
  - injection Hb as <-. reflexivity.
  - destruct (permuted_statistic m stat q) eqn:Hq; cbn in Hb; [|discriminate]. destruct (mapM _ l) eqn:Hl; cbn in Hb; [|discriminate].
    injection Hb as <-. cbn. rewrite Hq. f_equal. apply IH. reflexivity.
Qed.

Lemma run_test_routine {T S} (E : Env T) (G : Rng S) N c B rs r : e_num E = N -> run_test E G c B rs = Ok r ->
  exists m stat rs', permutation_test_with_sym_matrix N G m stat B rs' = Ok r.
Proof. intros <- H. destruct (run_test_matrix E c) as (m & stat & _ & HR). eauto. Qed.

(** The p-value counts the drawn permutations whose statistic exceeds the observed one; the statistic of a permutation depends on
    nothing else, and the observed one is that of the identity. *)
Theorem C29_count (E : Env R) c : valid_env E -> exists f : list nat -> R,
  forall S (G : Rng S) b rs t s, run_test E G c (Z.of_nat b) rs = Ok (t, s) ->
  statistic t = f (seq 0 (permuted_rows c)) /\
  pvalue t = p_value (statistic t) (map f (fst (draw_permutations G b (permuted_rows c) (random_state_init G rs)))).
Proof.
  intros [EN _ _]. destruct (run_test_statistics E c) as (f & Hf). exists f. intros S G b rs t s H.
  destruct (Hf S G _ rs t s H) as (Hs & _ & Hp). split; [exact Hs|]. rewrite Nat2Z.id, EN in Hp.
  rewrite pvalue_nat in Hp by (rewrite map_length; apply draw_length). injection Hp as Hp. auto.
Qed.

(** A multiple of 1/(B+1) between 1/(B+1) and 1. *)
Theorem C29_range {S} (E : Env R) (G : Rng S) c b rs t s : valid_env E -> run_test E G c (Z.of_nat b) rs = Ok (t, s) ->
  exists k, (1 <= k <= b + 1)%nat /\ pvalue t = INR k / INR (b + 1).
Proof.
  intros [EN _ _] H. apply (run_test_routine E G RNum) in H as (m & stat & rs' & H); auto.
  apply perm_test_pvalue in H as (boot & Hl & _ & ->). rewrite Nat2Z.id in Hl.
  set (k := length (filter _ boot)). exists (1 + k)%nat.
  assert (k <= length boot)%nat as Hk by (unfold k; clear; induction boot as [|u l IH]; cbn; [lia|destruct (Rlt_dec _ u); cbn; lia]).
  split; [lia|]. rewrite plus_INR. f_equal. rewrite INR_IZR_INZ, Nat2Z.inj_add. reflexivity.
Qed.

Theorem C29_bounds {S} (E : Env R) (G : Rng S) c b rs t s : valid_env E -> run_test E G c (Z.of_nat b) rs = Ok (t, s) ->
  1 / INR (b + 1) <= pvalue t <= 1.
Proof.
  intros HE H. destruct (C29_range E G c b rs t s HE H) as (k & Hk & ->).
  assert (1 <= INR k) by (replace 1 with (INR 1) by reflexivity; apply le_INR; lia).
  assert (INR k <= INR (b + 1)) by (apply le_INR; lia).
  split; unfold Rdiv.
  - apply Rmult_le_compat_r; [left; apply Rinv_0_lt_compat|]; lra.
  - apply Rmult_le_reg_r with (INR (b + 1)); [lra|]. rewrite Rmult_assoc, Rinv_l; lra.
Qed.

(** No resamples: 1. *)
Theorem C29_no_resamples {S} (E : Env R) (G : Rng S) c rs t s : valid_env E -> run_test E G c 0 rs = Ok (t, s) -> pvalue t = 1.
Proof. intros HE H. pose proof (C29_bounds E G c 0 rs t s HE H) as Hb. cbn in Hb. lra. Qed.

(** A negative number of resamples is not rejected: the p-value is negative, or (-1) a division by zero. *)
Theorem C29_negative {S} (E : Env R) (G : Rng S) c B rs t s : valid_env E -> (B < 0)%Z -> run_test E G c B rs = Ok (t, s) ->
  pvalue t = 1 / IZR (B + 1) /\ pvalue t < 0.
Proof.
  intros [EN _ _] HB H. apply (run_test_routine E G RNum) in H as (m & stat & rs' & H); auto.
  apply perm_test_pvalue in H as (boot & Hl & H1 & ->). destruct boot as [|u l]; [|cbn in Hl; lia]. cbn [filter length INR].
  assert (IZR (B + 1) < 0) by (apply IZR_lt; lia). split; [f_equal; ring|].
  unfold Rdiv. apply Rinv_lt_0_compat in H. lra.
Qed.

Theorem C29_negative_accepted {S} (E : Env R) (G : Rng S) x y n e B rs : valid_env E -> paired n x y -> 0 < e -> (B < 0)%Z ->
  if Z.eqb B (-1) then outcome (distance_covariance_test E G x y B e rs) = Err ZeroDivisionError
  else exists t s, outcome (distance_covariance_test E G x y B e rs) = Ok (t, s) /\ pvalue t = 1 / IZR (B + 1).
Proof.
  intros HE (Wx & Wy & Sx & Sy & Hn) He HB. pose proof HE as [EN _ _].
  assert (exists st s, outcome (distance_covariance_test E G x y B e rs)
            = if Z.eqb B (-1) then Err ZeroDivisionError else Ok (mkTest (1 / IZR (B + 1)) st, s)) as (st & s & ->).
  { unfold distance_covariance_test. rewrite outcome_bind. cbn [outcome lift snd].
    unfold check_same_n_elements. rewrite Sx, Sy, Nat.eqb_refl. rewrite outcome_bind, (dmg_double E x n e) by auto.
    rewrite outcome_bind, (dmg_double E y n e) by auto. cbn [outcome lift snd]. rewrite EN. eexists _, _.
    apply perm_test_negative; auto. rewrite mean_product_tab by auto. reflexivity. }
  destruct (Z.eqb B (-1)); [reflexivity|]. eexists _, _. split; reflexivity.
Qed.

(** ** C30: permuting the matrix is permuting the data *)

Lemma dcov_test_eval {S} (E : Env R) (G : Rng S) x y n e b rs : valid_env E -> permuting G -> paired n x y -> 0 < e ->
  let d := draw_permutations G b n (random_state_init G rs) in
  let f q := INR n * dcov2 n (relabel (fun i => nth i q 0%nat) (distances e x)) (distances e y) in
  let v := INR n * dcov2 n (distances e x) (distances e y) in
  outcome (distance_covariance_test E G x y (Z.of_nat b) e rs) = Ok (mkTest (p_value v (map f (fst d))) v, snd d).
Proof.
  intros HE HG (Wx & Wy & Sx & Sy & Hn) He d f v. pose proof HE as [EN _ _].
  unfold distance_covariance_test. rewrite outcome_bind. cbn [outcome lift snd].
  unfold check_same_n_elements. rewrite Sx, Sy, Nat.eqb_refl. rewrite outcome_bind, (dmg_double E x n e) by auto.
  rewrite outcome_bind, (dmg_double E y n e) by auto. cbn [outcome lift snd]. rewrite EN, tab2_length.
  rewrite (perm_test_eval G n _ _ v f); auto.
  - rewrite mean_product_tab by auto. cbn. rewrite <- INR_IZR_INZ. reflexivity.
  - intros q Hq. rewrite mean_product_tab by auto. cbn. rewrite <- INR_IZR_INZ. f_equal. unfold f, dcov2. f_equal. f_equal.
    apply rsum2_ext. intros i j Hi Hj. rewrite dcenter_relabel by (apply is_perm_on; auto). reflexivity.
Qed.

Theorem C30_dcov_test {S} (E : Env R) (G : Rng S) x y n e b rs mt cm : valid_env E -> permuting G -> paired n x y -> 0 < e ->
  accepts mt cm x y e ->
  let d := draw_permutations G b n (random_state_init G rs) in
  exists v resampled,
    outcome (distance_covariance_sqr E x y e (MethodEnum mt) cm) = Ok v /\
    Forall2 (fun q u => outcome (distance_covariance_sqr E (permute_sample q x) y e (MethodEnum mt) cm) = Ok u) (fst d) resampled /\
    outcome (distance_covariance_test E G x y (Z.of_nat b) e rs)
    = Ok (mkTest (p_value (INR n * v) (map (Rmult (INR n)) resampled)) (INR n * v), snd d).
Proof.
  intros HE HG Hp He Ha d. pose proof Hp as (Wx & Wy & Sx & Sy & Hn). pose proof HE as [EN _ _].
  set (f := fun q : list nat => dcov2 n (relabel (fun i => nth i q 0%nat) (distances e x)) (distances e y)).
  exists (dcov2 n (distances e x) (distances e y)), (map f (fst d)). split; [|split].
  - apply (call_ok DcovSqr E x y n); auto.
  - assert (forall q, In q (fst d) -> is_perm n q) as Hd by (intros; eapply draw_perm; eauto).
    induction (fst d) as [|q l IH]; cbn [map]; constructor; [|apply IH; intros; apply Hd; right; auto].
    assert (is_perm (shape0 x) q) as Hq by (rewrite Sx; apply Hd; left; auto).
    pose proof (permute_reordered q x Wx Hq) as Hr. pose proof Hr as [(Hns & Hdt & Hnc & Hsh & Hwf) _].
    etransitivity; [apply (call_ok DcovSqr E (permute_sample q x) y n); auto|].
    + unfold paired. rewrite Hsh. auto 8.
    + apply (accepts_form mt cm x y); auto; [apply Hr|]. unfold same_form; auto 8.
    + cbn [value]. f_equal. unfold f. apply dcov2_ext; auto. intros i j Hi Hj.
      apply (reordered_distances (fun i => nth i q 0%nat)); auto; rewrite Sx; auto.
  - rewrite (dcov_test_eval E G x y n) by auto. fold d. unfold f. rewrite map_map. reflexivity.
Qed.

(** The pooled observations in the order [q], cut into samples of the original sizes. *)
Fixpoint cut (p : nat) (samples : list (array R)) (rows : list (list R)) : list (array R) :=
  match samples with
  | [] => []
  | s :: l => mkArr (ans s) (adt s) (Mat p (firstn (shape0 s) rows)) :: cut p l (skipn (shape0 s) rows)
  end.
Definition regroup (p : nat) (q : list nat) (samples : list (array R)) : list (array R) :=
  cut p samples (map (fun i => nth i (concat (map rows_of samples)) []) q).

Lemma cut_props p samples : forall rows, length rows = total samples -> Forall (fun r => length r = p) rows ->
  map shape0 (cut p samples rows) = map shape0 samples /\ well_formed p (cut p samples rows) /\
  concat (map rows_of (cut p samples rows)) = rows.
Proof.
  induction samples as [|s l IH]; intros rows Hl Hr.
  - cbn in *. destruct rows; [|discriminate]. repeat split. constructor.
  - change (total (s :: l)) with (shape0 s + total l)%nat in Hl. cbn [cut map concat].
    assert (Forall (fun r => length r = p) (firstn (shape0 s) rows) /\ Forall (fun r => length r = p) (skipn (shape0 s) rows)) as [H1 H2].
    { rewrite <- (firstn_skipn (shape0 s) rows) in Hr. apply Forall_app in Hr. exact Hr. }
    destruct (IH (skipn (shape0 s) rows)) as (Hs & Hw & Hc); [rewrite skipn_length; lia|auto|].
    split; [|split].
    + rewrite Hs. f_equal. unfold shape0; cbn [adata]. apply firstn_length_le. fold (shape0 s). lia.
    + constructor; auto.
    + rewrite Hc. unfold rows_of at 1. cbn. apply firstn_skipn.
Qed.

Lemma regroup_props p q samples : well_formed p samples -> is_perm (total samples) q ->
  map shape0 (regroup p q samples) = map shape0 samples /\ well_formed p (regroup p q samples) /\
  forall i k, (i < total samples)%nat -> (k < p)%nat -> pooled (regroup p q samples) i k = pooled samples (nth i q 0%nat) k.
Proof.
  intros Hw Hq. pose proof (is_perm_length _ _ Hq) as Hl. unfold regroup. rewrite (pooled_rows p samples Hw).
  set (rows := map (fun i => nth i (tab2 (total samples) p (pooled samples)) []) q).
  assert (rows = tab2 (total samples) p (fun i => pooled samples (nth i q 0%nat))) as Hrows.
  { unfold rows. rewrite (tab_of_list_n 0%nat (total samples) q) at 1 by auto. rewrite tab_map. unfold tab2. apply tab_ext.
    intros i Hi. rewrite tab_nth; auto. apply is_perm_lt; auto. }
  destruct (cut_props p samples rows) as (H1 & H2 & H3).
  - unfold rows. rewrite map_length. auto.
  - rewrite Hrows. apply Forall_forall. intros r Hr. unfold tab2, tab in Hr. apply in_map_iff in Hr as (i & <- & _). apply tab_length.
  - split; auto. split; auto. intros i k Hi Hk.
    assert (total (cut p samples rows) = total samples) as Ht by (unfold total; rewrite H1; reflexivity).
    rewrite (pooled_rows p _ H2), Ht in H3. rewrite Hrows in H3 at 2.
    apply (f_equal (fun m => entry m i k)) in H3. rewrite !entry_tab2 in H3 by auto. exact H3.
Qed.

Lemma several_shapes p es samples samples' : map shape0 samples' = map shape0 samples -> well_formed p samples' ->
  several p es samples -> several p es samples'.
Proof.
  intros Hs Hw [Hk H]. split.
  - rewrite <- (map_length shape0), Hs, map_length. auto.
  - set (c := match to_estimation es with Ok UStatistic => 2%nat | _ => 1%nat end) in *.
    assert (Forall (fun k => (c <= k)%nat) (map shape0 samples')) as Hc.
    { rewrite Hs. apply Forall_map. eapply Forall_impl; [|exact H]. cbn. tauto. }
    rewrite Forall_map in Hc. unfold well_formed in Hw. rewrite Forall_forall in *. intros s Hin. destruct (Hw s Hin). auto.
Qed.

Lemma energy_test_stats {S} (E : Env R) (G : Rng S) p samples e b rs av es st : valid_env E -> permuting G ->
  several p es samples -> to_estimation es = Ok st -> 0 < e ->
  let d := draw_permutations G b (total samples) (random_state_init G rs) in
  let v := sum_of_pairs E e av st samples in
  outcome (energy_test E G samples (Z.of_nat b) e rs av es)
  = Ok (mkTest (p_value v (map (fun q => sum_of_pairs E e av st (regroup p q samples)) (fst d))) v, snd d).
Proof.
  intros HE HG H Hs He d v. pose proof HE as [EN _ _]. pose proof (several_wf _ _ _ H) as Hw.
  assert (samples <> []) as Hne by (destruct H as [H _]; destruct samples; [cbn in H; lia|congruence]).
  set (f := fun q => sum_of_pairs E e av st (regroup p q samples)).
  assert (forall q, is_perm (total samples) q ->
    energy_statistic_multivariate E (tab2 (total samples) (total samples) (relabel (fun i => nth i q 0%nat) (dmat e p (pooled samples))))
      (sample_indexes (map shape0 samples)) (map shape0 samples) av es = Ok (f q)) as Hf.
  { intros q Hq. destruct (regroup_props p q samples Hw Hq) as (R1 & R2 & R3).
    assert (total (regroup p q samples) = total samples) as Rt by (unfold total; rewrite R1; reflexivity).
    unfold f. rewrite <- (multivariate_value E HE p _ e av es st) by (auto; eapply several_shapes; eauto).
    rewrite R1, Rt. f_equal. apply tab2_ext. intros i j Hi Hj. unfold relabel, dmat. f_equal.
    apply dist_ext; intros k Hk; symmetry; apply R3; auto. }
  rewrite (energy_test_eval E G HE p) by auto.
  rewrite (perm_test_eval G (total samples) _ _ v f); auto.
  apply (multivariate_value E HE p _ e av es st); auto.
Qed.

Theorem C30_energy_test {S} (E : Env R) (G : Rng S) p samples e b rs av es st : valid_env E -> permuting G ->
  several p es samples -> to_estimation es = Ok st -> 0 < e ->
  let d := draw_permutations G b (total samples) (random_state_init G rs) in
  exists v resampled,
    Forall2 (fun q u => exists t s, outcome (energy_test E G (regroup p q samples) 0 e rs av es) = Ok (t, s) /\ statistic t = u)
      (fst d) resampled /\
    outcome (energy_test E G samples (Z.of_nat b) e rs av es) = Ok (mkTest (p_value v resampled) v, snd d).
Proof.
  intros HE HG H Hs He d. pose proof (several_wf _ _ _ H) as Hw.
  eexists _, _. split; [|eapply energy_test_stats; eauto]. fold d.
  assert (forall q, In q (fst d) -> is_perm (total samples) q) as Hd by (intros; eapply draw_perm; eauto).
  induction (fst d) as [|q l IH]; cbn [map]; constructor; [|apply IH; intros; apply Hd; right; auto].
  assert (is_perm (total samples) q) as Hq by (apply Hd; left; auto).
  destruct (regroup_props p q samples Hw Hq) as (R1 & R2 & R3).
  assert (several p es (regroup p q samples)) as H' by (eapply several_shapes; eauto).
  change 0%Z with (Z.of_nat 0). rewrite (energy_test_stats E G p _ e 0 rs av es st) by auto. eexists _, _. split; reflexivity.
Qed.

(** The partial test permutes the residual of [x] given [z]; [residual], [uprod]: RefCenter.v, Spec.v. *)
Theorem C30_partial_test {S} (E : Env R) (G : Rng S) x y z n e b rs : valid_env E -> permuting G -> triple n x y z -> 0 < e ->
  let d := draw_permutations G b n (random_state_init G rs) in
  let c w := ucenter n (distances e w) in
  let stat q := INR n * uprod n (fun i j => residual n (c z) (c x) (nth i q 0%nat) (nth j q 0%nat)) (residual n (c z) (c y)) in
  let v := INR n * uprod n (residual n (c z) (c x)) (residual n (c z) (c y)) in
  outcome (partial_distance_covariance_test E G x y z (Z.of_nat b) e rs)
  = Ok (mkTest (p_value v (map stat (fst d))) v, snd d).
Proof.
  intros HE HG (Wx & Wy & Wz & Sx & Sy & Sz & Hn) He d c stat v. pose proof HE as [EN _ _].
  unfold partial_distance_covariance_test.
  rewrite outcome_bind, (dmg_u E x n e) by (auto; lia). rewrite outcome_bind, (dmg_u E y n e) by (auto; lia).
  rewrite outcome_bind, (dmg_u E z n e) by (auto; lia). fold (c x) (c y) (c z).
  destruct (u_compl_tab E EN n (c z) Hn) as (proj & Hproj & Hv).
  rewrite outcome_bind. cbn [outcome lift snd]. rewrite Hproj. rewrite outcome_bind. cbn [outcome lift snd]. rewrite Hv.
  rewrite outcome_bind. cbn [outcome lift snd]. rewrite Hv. rewrite EN, tab2_length.
  rewrite (perm_test_eval G n _ _ v stat); auto.
  - rewrite u_product_tab by auto. cbn. rewrite <- INR_IZR_INZ. reflexivity.
  - intros q Hq. rewrite u_product_tab by auto. cbn. rewrite <- INR_IZR_INZ. reflexivity.
Qed.

(** Its statistic is n times the partial distance covariance. *)
Theorem C30_partial_statistic {S} (E : Env R) (G : Rng S) x y z n b rs : valid_env E -> permuting G -> triple n x y z ->
  exists v t s, outcome (partial_distance_covariance E x y z) = Ok v /\
  outcome (partial_distance_covariance_test E G x y z (Z.of_nat b) 1 rs) = Ok (t, s) /\ statistic t = INR n * v.
Proof.
  intros HE HG Ht. pose proof Ht as (_ & _ & _ & _ & _ & _ & Hn). exists (pcov n x y z). eexists _, _.
  split; [apply C22_value; auto|]. split; [apply (C30_partial_test E G x y z n 1 b rs HE HG Ht Rlt_0_1)|]. cbn [statistic].
  rewrite uprod_residual by auto. reflexivity.
Qed.

(** A generator that reverses the order. *)
Definition reversing : Rng unit := mkRng unit (fun _ => tt) (fun n s => (rev (seq 0 n), s)).
Lemma reversing_permuting : permuting reversing.
Proof. intros n s. unfold is_perm. symmetry. apply Permutation_rev. Qed.

Example C30_meets : exists v u, outcome (distance_covariance_test (env_R true) reversing xs ys 1 1 (RSeed 0))
  = Ok (mkTest (p_value v [u]) v, tt).
Proof.
  destruct (C30_dcov_test (env_R true) reversing xs ys 5 1 1 (RSeed 0) MNaive CNoCompile) as (v & l & Hv & Hl & H);
    auto using env_R_valid, reversing_permuting, xs_ys, naive_accepts; [lra|].
  cbn in Hl. inversion Hl as [|? u ? ? Hu Hn]; subst. inversion Hn; subst.
  exists (INR 5 * v), (INR 5 * u). exact H.
Qed.

Example C29_meets : exists t, run_test (env_R true) reversing (TDcov xs ys 1) 1 (RSeed 0) = Ok (t, tt) /\ 1 / 2 <= pvalue t <= 1.
Proof.
  destruct C30_meets as (v & u & H). eexists. split; [exact H|].
  pose proof (C29_bounds (env_R true) reversing (TDcov xs ys 1) 1 (RSeed 0) _ _ (env_R_valid true) H) as Hb. cbn in Hb. exact Hb.
Qed.
