(** Shapes of the arguments and names of the methods: C42, C43, C51. *)
From Coq Require Import Reals Lra Lia List Arith Bool ZArith String Ascii.
From Verif Require Import Num Numpy MUtils MDistances MInternals MMergesort MAvl MDcor MPartial MEnergy MHypothesis
  MHomogeneity MIndependence Sums Spec Tab Samples Api RefDist RefDcor MergeGeneric AvlGeneric Calls RefApi Witness PMethods.
Import List ListNotations.

(** ** C42: a 1-d array or a column *)

Definition as_column {T} (x : array T) : array T :=
  mkArr (ans x) (adt x) (match adata x with Vec v => Mat 1 (map (fun a => [a]) v) | m => m end).
(** The same array, or a 1-d array and the corresponding column. *)
Definition same_sample {T} (x x' : array T) : Prop := x' = x \/ x' = as_column x \/ x = as_column x'.

Section Column.
  Context {T : Type}.

  Lemma concat_singles (v : list T) : concat (map (fun a => [a]) v) = v.
  Proof. induction v; cbn; congruence. Qed.

  Lemma column_facts (x : array T) :
    ans (as_column x) = ans x /\ adt (as_column x) = adt x /\ shape0 (as_column x) = shape0 x /\
    transform_to_1d (adata (as_column x)) = transform_to_1d (adata x) /\
    transform_to_2d (adata (as_column x)) = transform_to_2d (adata x) /\
    is_random_variable (adata (as_column x)) = is_random_variable (adata x).
  Proof.
    destruct x as [s d [v|c rows]]; unfold shape0; cbn; rewrite ?map_length, ?concat_singles; auto 8.
  Qed.

  Lemma same_facts (x x' : array T) : same_sample x x' ->
    ans x = ans x' /\ adt x = adt x' /\ shape0 x = shape0 x' /\
    transform_to_1d (adata x) = transform_to_1d (adata x') /\
    transform_to_2d (adata x) = transform_to_2d (adata x') /\
    is_random_variable (adata x) = is_random_variable (adata x').
  Proof.
    intros [-> | [-> | ->]]; auto 8.
    - destruct (column_facts x) as (-> & -> & -> & -> & -> & ->). auto 8.
    - destruct (column_facts x') as (-> & -> & -> & -> & -> & ->). auto 8.
  Qed.

  Variable E : Env T.

  Lemma pw1_same x x' e : same_sample x x' -> pairwise_distances E x None e = pairwise_distances E x' None e.
  Proof. intros H. destruct (same_facts x x' H) as (A & D & _ & _ & H2 & _). unfold pairwise_distances. rewrite A, D, H2. reflexivity. Qed.

  Lemma pw2_same x x' y y' e : same_sample x x' -> same_sample y y' ->
    pairwise_distances E x (Some y) e = pairwise_distances E x' (Some y') e.
  Proof.
    intros Hx Hy. destruct (same_facts x x' Hx) as (A & D & _ & _ & H2 & _).
    destruct (same_facts y y' Hy) as (A' & D' & _ & _ & H2' & _).
    unfold pairwise_distances. rewrite A, D, H2, A', D', H2'. reflexivity.
  Qed.

  Lemma method_terms_same m x x' y y' e cm rv : same_sample x x' -> same_sample y y' ->
    method_terms E m x y e cm rv = method_terms E m x' y' e cm rv.
  Proof.
    intros Hx Hy. pose proof (pw1_same x x' e Hx) as Px. pose proof (pw1_same y y' e Hy) as Py.
    destruct (same_facts x x' Hx) as (A & D & S & H1 & H2 & R).
    destruct (same_facts y y' Hy) as (A' & D' & S' & H1' & H2' & R').
    destruct m; cbn [method_terms]; unfold terms_auto, can_use_fast_algorithm, terms_avl, terms_mergesort,
      dcov_terms_naive, compute_distances;
      rewrite ?(together_ans x y x' y' A A'), ?Px, ?Py, ?A, ?D, ?S, ?H1, ?R, ?A', ?D', ?S', ?H1', ?R'; reflexivity.
  Qed.

  Lemma dmg_same c x x' e : same_sample x x' -> distance_matrix_generic E c x e = distance_matrix_generic E c x' e.
  Proof. intros H. unfold distance_matrix_generic. rewrite (pw1_same x x' e H). reflexivity. Qed.
End Column.

Section C42.
  Context {T : Type} (E : Env T).
  Variables x x' y y' z z' : array T.
  Hypothesis Hx : same_sample x x'.
  Hypothesis Hy : same_sample y y'.
  Hypothesis Hz : same_sample z z'.

  (** Whole outcomes, warnings included. *)
  Theorem C42_dependence f e m cm : api_fn f E x y e m cm = api_fn f E x' y' e m cm.
  Proof.
    destruct (same_facts x x' Hx) as (_ & _ & S & _).
    destruct f; cbn [api_fn]; unfold distance_covariance, distance_covariance_sqr, u_distance_covariance_sqr,
      distance_correlation, distance_correlation_sqr, u_distance_correlation_sqr, algo_dcov_sqr, algo_stats_sqr;
      destruct (to_algorithm m); rewrite ?bind_ok, ?bind_err; auto;
      rewrite (method_terms_same E _ x x' y y') by auto; rewrite S; reflexivity.
  Qed.

  Theorem C42_stats e m cm :
    distance_stats_sqr E x y e m cm = distance_stats_sqr E x' y' e m cm /\
    u_distance_stats_sqr E x y e m cm = u_distance_stats_sqr E x' y' e m cm /\
    distance_stats E x y e m cm = distance_stats E x' y' e m cm.
  Proof.
    destruct (same_facts x x' Hx) as (_ & _ & S & _).
    unfold distance_stats, distance_stats_sqr, u_distance_stats_sqr, algo_stats_sqr;
      destruct (to_algorithm m); rewrite ?bind_ok, ?bind_err; auto;
      rewrite (method_terms_same E _ x x' y y') by auto; rewrite S; auto.
  Qed.

  Theorem C42_af_inv m cm :
    distance_correlation_af_inv_sqr E x y m cm = distance_correlation_af_inv_sqr E x' y' m cm /\
    distance_correlation_af_inv E x y m cm = distance_correlation_af_inv E x' y' m cm.
  Proof.
    destruct (same_facts x x' Hx) as (A & _ & _ & _ & H2 & _).
    destruct (same_facts y y' Hy) as (A' & _ & _ & _ & H2' & _).
    unfold distance_correlation_af_inv, distance_correlation_af_inv_sqr, af_inv_scaled. rewrite A, A', H2, H2'. auto.
  Qed.

  Theorem C42_distances e :
    pairwise_distances E x None e = pairwise_distances E x' None e /\
    pairwise_distances E x (Some y) e = pairwise_distances E x' (Some y') e /\
    u_distance_matrix E x e = u_distance_matrix E x' e.
  Proof. split; [|split]; [apply pw1_same|apply pw2_same|apply dmg_same]; auto. Qed.

  Theorem C42_partial_functions :
    partial_distance_covariance E x y z = partial_distance_covariance E x' y' z' /\
    partial_distance_correlation E x y z = partial_distance_correlation E x' y' z'.
  Proof.
    unfold partial_distance_covariance, partial_distance_correlation, u_distance_matrix.
    rewrite (dmg_same E _ x x'), (dmg_same E _ y y'), (dmg_same E _ z z') by auto. auto.
  Qed.

  Theorem C42_energy e av es :
    energy_distance E x y e av es = energy_distance E x' y' e av es /\
    energy_test_statistic E x y e av es = energy_test_statistic E x' y' e av es.
  Proof.
    destruct (same_facts x x' Hx) as (_ & _ & S & _). destruct (same_facts y y' Hy) as (_ & _ & S' & _).
    unfold energy_test_statistic, energy_distance.
    rewrite (pw1_same E x x'), (pw1_same E y y'), (pw2_same E x x' y y'), S, S' by auto. auto.
  Qed.

  Theorem C42_tests {St} (G : Rng St) B e rs :
    distance_covariance_test E G x y B e rs = distance_covariance_test E G x' y' B e rs /\
    partial_distance_covariance_test E G x y z B e rs = partial_distance_covariance_test E G x' y' z' B e rs /\
    distance_correlation_t_statistic E x y = distance_correlation_t_statistic E x' y' /\
    distance_correlation_t_test E x y = distance_correlation_t_test E x' y'.
  Proof.
    destruct (same_facts x x' Hx) as (_ & _ & S & _). destruct (same_facts y y' Hy) as (_ & _ & S' & _).
    unfold distance_covariance_test, partial_distance_covariance_test, u_distance_matrix,
      distance_correlation_t_test, distance_correlation_t_statistic.
    rewrite (dmg_same E _ x x'), (dmg_same E _ y y'), (dmg_same E _ z z'), S, S' by auto.
    rewrite (dmg_same E _ x x'), (dmg_same E _ y y') by auto.
    assert (u_distance_correlation_sqr E x y (nunit (e_num E)) (MethodEnum MAuto) CAuto
            = u_distance_correlation_sqr E x' y' (nunit (e_num E)) (MethodEnum MAuto) CAuto) as ->
      by (apply (C42_dependence UDcorSqr)). auto.
  Qed.
End C42.

Theorem C42_energy_test {T} (E : Env T) {St} (G : Rng St) samples samples' B e rs av es :
  Forall2 same_sample samples samples' ->
  energy_test E G samples B e rs av es = energy_test E G samples' B e rs av es.
Proof.
  intros H. unfold energy_test.
  assert (map (fun a => transform_to_2d (adata a)) samples = map (fun a => transform_to_2d (adata a)) samples') as ->.
  { induction H as [|a a' l l' Ha H IH]; cbn; auto.
    destruct (same_facts a a' Ha) as (_ & _ & _ & _ & -> & _). rewrite IH. reflexivity. }
  inversion H as [|a a' l l' Ha]; subst; auto.
  destruct (same_facts a a' Ha) as (-> & -> & _). reflexivity.
Qed.

Example C42_meets : same_sample xs (as_column xs) /\ as_column xs <> xs /\
  adata (as_column xs) = Mat 1 [[3]; [1]; [2]; [1]; [5]]%R.
Proof. repeat split; [right; left; auto|intros H; discriminate]. Qed.

(** ** C43: samples of different sizes *)

(** NAIVE, AVL and AUTO raise. *)
Theorem C43_rejected {T} (E : Env T) f x y e m cm : shape_env E ->
  wf x -> wf y -> shape0 x <> shape0 y -> m <> MMergesort ->
  exists ex, call f E x y e m cm = Err ex.
Proof.
  intros HE Wx Wy Hs Hm. rewrite call_terms.
  assert (exists ex, outcome (dcov_terms_naive E x y e cm (wants_var f)) = Err ex) as Hn.
  { destruct (naive_cases E x y e cm (wants_var f)) as [H|H]; [eauto|].
    destruct (Nat.eqb_spec (shape0 x) (shape0 y)); [congruence|eauto]. }
  assert (exists ex, outcome (terms_avl E x y e cm (wants_var f)) = Err ex) as Ha.
  { destruct (avl_cases E HE x y e cm (wants_var f) Wx Wy) as [(ex & H & _)|(_ & H & _)]; [eauto|congruence]. }
  destruct m; cbn [method_terms].
  - unfold terms_auto. destruct (_ && _); [destruct Ha as [ex ->]|destruct Hn as [ex ->]]; cbn; eauto.
  - destruct Hn as [ex ->]; cbn; eauto.
  - destruct Ha as [ex ->]; cbn; eauto.
  - congruence.
Qed.

(** MERGESORT does not: a longer [y] is silently cut to the size of [x]. *)
Definition first_observations {T} (n : nat) (y : array T) : array T :=
  mkArr (ans y) (adt y)
    (match adata y with Vec v => Vec (firstn n v) | Mat c rows => Mat c (firstn n rows) end).

Lemma nth_error_firstn_lt {A} n : forall (l : list A) i, i < n -> nth_error (firstn n l) i = nth_error l i.
Proof.
  induction n; intros l i Hi; [lia|]. destruct l; [destruct i; reflexivity|].
  destruct i; cbn; auto. apply IHn. lia.
Qed.

Lemma take_chk_firstn {A} o (l : list A) n idx : Forall (fun i => i < n) idx ->
  take_chk o (firstn n l) idx = take_chk o l idx.
Proof.
  intros H. induction H as [|i idx Hi H IH]; cbn; auto.
  rewrite IH.
  rewrite nth_error_firstn_lt by auto. reflexivity.
Qed.

Lemma concat_firstn_1 {T} n (rows : list (list T)) : Forall (fun r => List.length r = 1) rows ->
  concat (firstn n rows) = firstn n (concat rows).
Proof.
  intros H. revert n. induction H as [|r rows Hr H IH]; intros [|n]; cbn; auto.
  destruct r as [|a [|b r]]; try discriminate. cbn. rewrite IH. reflexivity.
Qed.

Theorem C43_mergesort_truncates {T} (E : Env T) f x y e cm : shape_env E ->
  wf x -> wf y -> shape0 x <= shape0 y ->
  api_fn f E x y e (MethodEnum MMergesort) cm
  = api_fn f E x (first_observations (shape0 x) y) e (MethodEnum MMergesort) cm.
Proof.
  intros HE Wx Wy Hs.
  assert (forall rv, terms_mergesort E x y e cm rv = terms_mergesort E x (first_observations (shape0 x) y) e cm rv) as Ht.
  { intros rv. unfold terms_mergesort.
    destruct (neqb (e_num E) e (nunit (e_num E))); cbn [negb]; [|reflexivity].
    destruct (to_1d_cases x) as [[v Hv]|Hv]; rewrite Hv, ?bind_ok, ?bind_err; [|reflexivity].
    assert (List.length v = shape0 x) as Lv by (eapply to_1d_length; eauto).
    assert (transform_to_1d (adata (first_observations (shape0 x) y))
            = rbind (transform_to_1d (adata y)) (fun w => Ok (firstn (shape0 x) w))) as ->.
    { destruct y as [s d [w|c rows]]; cbn; auto. unfold wf in Wy. cbn in Wy.
      destruct (Nat.eqb_spec c 1); auto. subst. cbn. rewrite concat_firstn_1 by auto. reflexivity. }
    destruct (to_1d_cases y) as [[w Hw]|Hw]; rewrite Hw; cbn [rbind]; rewrite ?bind_ok, ?bind_err; [|reflexivity].
    rewrite (together_ans x (first_observations (shape0 x) y) x y) by reflexivity.
    destruct (together x y); [|reflexivity]. cbn [first_observations adt].
    assert (forall c, mergesort_impl E c (adt x) (adt y) v w rv
                      = mergesort_impl E c (adt x) (adt y) v (firstn (shape0 x) w) rv) as Hi.
    { intros c. unfold mergesort_impl, terms_mergesort_impl. cbv zeta.
      destruct c.
      - destruct (is_f64 (adt x) && is_f64 (adt y)); [|reflexivity].
        rewrite (take_chk_firstn _ w); [reflexivity|change (e_argsort (seq_env E)) with (e_argsort E)]. rewrite <- Lv. apply argsort_below. apply se_argsort; auto.
      - destruct (is_obj (adt x) || is_obj (adt y)); [reflexivity|].
        rewrite (take_chk_firstn _ w); [reflexivity|]. rewrite <- Lv. apply argsort_below. apply se_argsort; auto. }
    destruct cm; cbn [impls is_auto try_impls]; rewrite ?Hi; reflexivity. }
  destruct f; cbn [api_fn]; unfold distance_covariance, distance_covariance_sqr, u_distance_covariance_sqr,
    distance_correlation, distance_correlation_sqr, u_distance_correlation_sqr, algo_dcov_sqr, algo_stats_sqr;
    cbn [to_algorithm]; rewrite ?bind_ok; cbn [method_terms]; rewrite Ht; reflexivity.
Qed.

(** A shorter [y] makes it read out of range: unchecked when compiled, IndexError otherwise. *)
Theorem C43_mergesort_overrun f E x y : valid_env E -> wf x -> wf y -> univariate x -> univariate y ->
  some_numpy x y -> is_float64 x -> is_float64 y -> shape0 y < shape0 x ->
  call f E x y 1%R MMergesort CCompileCpu = Err UndefinedBehaviour /\
  call f E x y 1%R MMergesort CNoCompile = Err IndexError.
Proof.
  intros HE Wx Wy Ux Uy Ax Fx Fy Hs. rewrite !call_terms. cbn [method_terms]. unfold terms_mergesort.
  pose proof HE as [HN _ _].
  assert (neqb (e_num E) 1%R (nunit (e_num E)) = true) as -> by (rewrite HN; apply Reqb_refl). cbn [negb].
  rewrite (transform_to_1d_tab x), (transform_to_1d_tab y) by auto. apply some_together in Ax. rewrite !bind_ok, Ax.
  unfold is_float64 in *. cbn [impls is_auto try_impls]. unfold mergesort_impl. rewrite (seq_env_R E HN).
  rewrite !Fx, !Fy. cbn [is_f64 andb is_obj orb weights_cast_ok].
  set (v := tab (shape0 x) (fun i => obs x i 0)). set (w := tab (shape0 y) (fun i => obs y i 0)).
  assert (List.length v = shape0 x) as Lv by apply tab_length.
  assert (List.length w = shape0 y) as Lw by apply tab_length.
  pose proof (se_argsort E (valid_shape_env E HE) v) as Hp.
  assert (forall o c k kv rv, terms_mergesort_impl E o c k kv v w rv = Err o) as Ht.
  { intros o c k kv rv. unfold terms_mergesort_impl. cbv zeta.
    rewrite (take_chk_any (nzero (e_num E)) v) by (apply argsort_below; apply (se_argsort E (valid_shape_env E HE))).
    cbn [rbind]. rewrite (take_chk_oob o w (e_argsort E v) (shape0 y)); [reflexivity| |lia].
    apply (Permutation.Permutation_in _ (Permutation.Permutation_sym Hp)). apply in_seq. lia. }
  rewrite !Ht. split; reflexivity.
Qed.

(** Hence the property fails for MERGESORT. *)
Definition yl : array R := mkArr Numpy F64 (Vec [0; 2; 2; 7; 1; 9; 9])%R.

Theorem C43_mergesort_refuted : shape0 xs <> shape0 yl /\
  exists v, call DcovSqr (env_R true) xs yl 1%R MMergesort CCompileCpu = Ok v /\
            call DcovSqr (env_R true) xs ys 1%R MMergesort CCompileCpu = Ok v.
Proof.
  split; [discriminate|].
  assert (call DcovSqr (env_R true) xs yl 1%R MMergesort CCompileCpu = call DcovSqr (env_R true) xs ys 1%R MMergesort CCompileCpu) as ->.
  { unfold call. rewrite C43_mergesort_truncates; [reflexivity|auto using valid_shape_env, env_R_valid|exact I|exact I|cbn; lia]. }
  assert (exists v, call DcovSqr (env_R true) xs ys 1%R MMergesort CCompileCpu = Ok v) as [v Hv]; [|eauto].
  eexists. apply (call_ok DcovSqr _ xs ys 5 1%R); auto using env_R_valid, xs_ys, xs_ys_mergesort; lra.
Qed.

Example C43_meets :
  (exists ex, call DcovSqr (env_R true) xs yl 1%R MAvl CAuto = Err ex) /\
  (exists ex, call DcovSqr (env_R true) xs yl 1%R MNaive CAuto = Err ex) /\
  call DcovSqr (env_R true) yl xs 1%R MMergesort CCompileCpu = Err UndefinedBehaviour.
Proof.
  split; [|split].
  - apply C43_rejected; auto using valid_shape_env, env_R_valid, R_00; try exact I; discriminate.
  - apply C43_rejected; auto using valid_shape_env, env_R_valid, R_00; try exact I; discriminate.
  - apply C43_mergesort_overrun; auto using env_R_valid; try exact I; try reflexivity; cbn; lia.
Qed.

(** ** C51: names of the methods *)

(** Lower case of an ASCII letter. *)
Definition lower_ascii (a : ascii) : ascii :=
  let n := nat_of_ascii a in
  if (65 <=? n)%nat && (n <=? 90)%nat then ascii_of_nat (n + 32) else a.
Fixpoint lower (s : string) : string :=
  match s with EmptyString => EmptyString | String a s' => String (lower_ascii a) (lower s') end.

Definition method_name (m : dcov_method) : string :=
  match m with MAuto => "auto" | MNaive => "naive" | MAvl => "avl" | MMergesort => "mergesort" end.

Lemma upper_lower_ascii a : upper_ascii (lower_ascii a) = upper_ascii a /\ lower_ascii (upper_ascii a) = lower_ascii a.
Proof. destruct a as [[] [] [] [] [] [] [] []]; split; reflexivity. Qed.

Lemma upper_lower s : upper (lower s) = upper s.
Proof. induction s; cbn; auto. rewrite (proj1 (upper_lower_ascii a)), IHs. reflexivity. Qed.
Lemma lower_upper s : lower (upper s) = lower s.
Proof. induction s; cbn; auto. rewrite (proj2 (upper_lower_ascii a)), IHs. reflexivity. Qed.

Lemma upper_name s m : String.eqb (upper s) (upper (method_name m)) = true <-> lower s = method_name m.
Proof.
  rewrite String.eqb_eq. split; intros H.
  - rewrite <- lower_upper, H. destruct m; reflexivity.
  - rewrite <- upper_lower, H. reflexivity.
Qed.

Theorem C51_method_names s m : to_algorithm (MethodStr s) = Ok m <-> lower s = method_name m.
Proof.
  pose proof (upper_name s MAuto) as H1. pose proof (upper_name s MNaive) as H2.
  pose proof (upper_name s MAvl) as H3. pose proof (upper_name s MMergesort) as H4.
  cbn [method_name] in *. change (upper "auto") with "AUTO"%string in H1. change (upper "naive") with "NAIVE"%string in H2.
  change (upper "avl") with "AVL"%string in H3. change (upper "mergesort") with "MERGESORT"%string in H4.
  cbn [to_algorithm]. cbv zeta.
  assert (forall b P, (b = true <-> P) -> (b = true /\ P) \/ (b = false /\ ~ P)) as Hb
    by (intros [] P [A B]; [left; auto|right; split; auto; intros HP; specialize (B HP); discriminate]).
  destruct (Hb _ _ H1) as [[-> L1]|[-> L1]]; [destruct m; cbn; split; intros; try congruence|].
  destruct (Hb _ _ H2) as [[-> L2]|[-> L2]]; [destruct m; cbn; split; intros; try congruence|].
  destruct (Hb _ _ H3) as [[-> L3]|[-> L3]]; [destruct m; cbn; split; intros; try congruence|].
  destruct (Hb _ _ H4) as [[-> L4]|[-> L4]]; [destruct m; cbn; split; intros; try congruence|].
  destruct m; cbn; split; intros; congruence.
Qed.

(** In every public function: the method of that name, or KeyError. *)
Theorem C51_calls {T} (E : Env T) f x y e s cm :
  (forall m, lower s = method_name m ->
     api_fn f E x y e (MethodStr s) cm = api_fn f E x y e (MethodEnum m) cm) /\
  ((forall m, lower s <> method_name m) -> outcome (api_fn f E x y e (MethodStr s) cm) = Err KeyError).
Proof.
  split.
  - intros m Hm. apply C51_method_names in Hm.
    destruct f; cbn [api_fn]; unfold distance_covariance, distance_covariance_sqr, u_distance_covariance_sqr,
      distance_correlation, distance_correlation_sqr, u_distance_correlation_sqr; rewrite Hm; reflexivity.
  - intros Hm.
    assert (to_algorithm (MethodStr s) = Err KeyError) as Hk.
    { destruct (to_algorithm (MethodStr s)) as [m|ex] eqn:Ha; [apply C51_method_names in Ha; exfalso; eapply Hm; eauto|].
      cbn in Ha. repeat (destruct (_ =? _)%string in Ha; [discriminate|]). congruence. }
    destruct f; cbn [api_fn]; unfold distance_covariance, distance_covariance_sqr, u_distance_covariance_sqr,
      distance_correlation, distance_correlation_sqr, u_distance_correlation_sqr; rewrite Hk; reflexivity.
Qed.

Example C51_meets : lower "MergeSort" = method_name MMergesort /\ (forall m, lower "merge" <> method_name m).
Proof. split; [reflexivity|]. intros []; discriminate. Qed.
