(** NaN and infinities in the data: C57.

    The generic part: NanGeneric.v, NanMore.v, NanTest.v; that the extended reals and the doubles qualify: NanInst.v. *)
From Coq Require Import Reals Lra Lia List Arith Bool ZArith.
From Flocq Require Import Core IEEE754.BinarySingleNaN.
From Verif Require Import Num Numpy MUtils MDistances MMergesort MInternals MDcor MPartial MEnergy MHypothesis MHomogeneity MIndependence
  MRowwise MFloat Sums Tab Samples Api RefDist AvlGeneric RefInteger Calls FloatSum FloatApi FloatEnv PFinite PFloat PTests
  NanGeneric NanMore NanTest NanInst.
Import ListNotations.

(** [x] holds a NaN or an infinity. *)
Definition special_x (x : array xR) : Prop := exists v, In v (entries x) /\ (v = NaN \/ v = PInf \/ v = NInf).
Definition special_f (x : array b64) : Prop := exists v, In v (entries x) /\ is_finite v = false.

Lemma special_x_tainted x : special_x x -> tainted x_bad x.
Proof. intros (v & Hv & H). apply Exists_exists. exists v. split; auto. destruct H as [->|[->| ->]]; exact I. Qed.
Lemma special_f_tainted x : special_f x -> tainted f_bad x.
Proof. intros (v & Hv & H). apply Exists_exists. exists v. split; auto. Qed.

(** NAIVE returns a value whatever the numbers are. *)
Lemma naive_returns {T} (E : Env T) f x y e cm : shape0 x = shape0 y -> not_forced cm -> exists v, call f E x y e MNaive cm = Ok v.
Proof.
  intros Hl Hcm. rewrite call_terms. cbn [method_terms].
  assert (exists t, outcome (dcov_terms_naive E x y e cm (wants_var f)) = Ok t /\ t_kind t = AllNumpy /\ t_vkind t = AllNumpy /\ length (t_a_axis t) = shape0 x /\ length (t_b_axis t) = shape0 x) as (t & -> & K1 & K2 & L1 & L2).
  { unfold dcov_terms_naive, compute_distances, check_valid_dcov_exponent, pairwise_distances.
    pose proof (rows_2d x) as Rx. pose proof (rows_2d y) as Ry.
    destruct (transform_to_2d (adata x)) as [cx rx]. destruct (transform_to_2d (adata y)) as [cy ry]. cbn [snd] in Rx, Ry.
    destruct (pdist_ok E (ans x) (adt x) cx rx e) as (a & -> & A1 & A2). destruct (pdist_ok E (ans y) (adt y) cy ry e) as (b & -> & B1 & B2).
    assert (D : np_dot (e_num E) (concat a) (concat b) = Ok (ndot (e_num E) (concat a) (concat b))).
    { unfold np_dot. rewrite (concat_square a (length rx) (length rx)), (concat_square b (length ry) (length ry)), Rx, Ry, Hl, Nat.eqb_refl by auto. reflexivity. }
    unfold outcome, bind, lift, ret, emit. destruct Hcm as [-> | ->]; (destruct (exponent_in_range E e); cbn [snd]; rewrite D; unfold symmetric_matrix_sums, row_sums;
      eexists; (split; [reflexivity|]); cbn [t_kind t_vkind t_a_axis t_b_axis]; rewrite !map_length; repeat split; congruence). }
  cbn [rbind]. unfold finish, dcov_from_terms, np_dot. rewrite K1, K2, !map_length, L1, L2, Nat.eqb_refl.
  destruct (wants_var f); cbn [rbind]; eauto.
Qed.

(** Extended reals: argsort may order the special values anyhow, eigh may return anything of the right size. *)
Definition ext_env (E : Env xR) : Prop := e_num E = XNum /\ shape_env E /\ (forall m, length (snd (e_eigh E m)) = length m).

Section Extended.
  Local Open Scope R_scope.
  Context (E : Env xR) (HE : ext_env E).
  Let EN : e_num E = XNum := proj1 HE.
  Lemma ext_special : special (e_num E) x_bad. Proof. rewrite EN. apply x_special. Qed.
  Lemma ext_special_pos : special_pos (e_num E) x_bad x_big x_nn. Proof. rewrite EN. apply x_special_pos. Qed.
  Lemma ext_nan v : nisnan (e_num E) v = true -> v = NaN.
  Proof. rewrite EN. destruct v; try discriminate. reflexivity. Qed.

  (** The six functions, for every method and mode, every positive exponent. *)
  Theorem C57_extended f x y e m cm v : wf x -> wf y -> shape0 x = shape0 y -> 0 < e -> special_x x \/ special_x y ->
    call f E x y (Fin e) m cm = Ok v -> v = NaN.
  Proof.
    intros Wx Wy Hl He H Hc. apply ext_nan.
    apply (call_nan E x_bad ext_special (proj1 (proj2 HE)) f x y (Fin e) m cm v); auto using x_dist_nan.
    destruct H; auto using special_x_tainted.
  Qed.

  Theorem C57_extended_naive f x y e cm : wf x -> wf y -> shape0 x = shape0 y -> 0 < e -> special_x x \/ special_x y -> not_forced cm ->
    call f E x y (Fin e) MNaive cm = Ok NaN.
  Proof.
    intros Wx Wy Hl He H Hcm. destruct (naive_returns E f x y (Fin e) cm Hl Hcm) as [v Hv]. rewrite Hv. f_equal. exact (C57_extended f x y e MNaive cm v Wx Wy Hl He H Hv).
  Qed.

  Theorem C57_extended_partial_functions x y z n v : wf x -> wf y -> wf z -> shape0 x = n -> shape0 y = n -> shape0 z = n -> (2 <= n)%nat ->
    special_x x \/ special_x y \/ special_x z ->
    (outcome (partial_distance_covariance E x y z) = Ok v -> v = NaN) /\
    (outcome (partial_distance_correlation E x y z) = Ok v -> v = NaN).
  Proof.
    intros Wx Wy Wz Lx Ly Lz Hn H.
    assert (H' : tainted x_bad x \/ tainted x_bad y \/ tainted x_bad z) by (destruct H as [H|[H|H]]; auto using special_x_tainted).
    assert (D : forall w, In w [x; y; z] -> dist_nan E (adt w) (nunit (e_num E))).
    { intros w _. rewrite EN. apply x_dist_nan; auto. lra. }
    split; intros Hc; apply ext_nan; revert Hc;
      [apply (partial_covariance_nan E x_bad ext_special x y z n)|apply (partial_correlation_nan E x_bad ext_special x y z n)]; auto.
  Qed.

  Theorem C57_extended_energy x y e es v : wf x -> wf y -> ncols x = ncols y -> (1 <= shape0 x)%nat -> (1 <= shape0 y)%nat -> 0 < e ->
    special_x x \/ special_x y ->
    (outcome (energy_distance E x y (Fin e) None es) = Ok v -> v = NaN) /\
    (outcome (energy_test_statistic E x y (Fin e) None es) = Ok v -> v = NaN).
  Proof.
    intros Wx Wy Hc Lx Ly He H.
    assert (H' : tainted x_bad x \/ tainted x_bad y) by (destruct H as [H|H]; auto using special_x_tainted).
    assert (C : fst (transform_to_2d (adata x)) = fst (transform_to_2d (adata y))).
    { revert Hc. unfold ncols, transform_to_2d. destruct (adata x), (adata y); cbn; auto. }
    split; intros K; apply ext_nan; revert K;
      [apply (energy_nan E x_bad x_big x_nn ext_special ext_special_pos x y (Fin e) es)
      |apply (energy_statistic_nan E x_bad x_big x_nn ext_special ext_special_pos x y (Fin e) es)]; auto using x_dist_pos.
  Qed.

  (** The permutation tests: the statistic is NaN, and the p-value is the smallest possible one, as if the null hypothesis
      had been refuted by every permutation. *)
  Definition silent (B : Z) (r : HypothesisTest xR) : Prop := statistic r = NaN /\ pvalue r = Fin (1 / IZR (B + 1)).
  Lemma smallest_x B : (0 <= B)%Z -> smallest E B = Fin (1 / IZR (B + 1)).
  Proof.
    intros H. unfold smallest. rewrite EN. cbn. assert (IZR (B + 1) <> 0) by (apply not_0_IZR; lia).
    unfold Reqb. destruct (Req_EM_T (IZR (B + 1)) 0); [contradiction|]. f_equal. f_equal. lra.
  Qed.

  Theorem C57_extended_tests {S} (G : Rng S) x y z n B e rs r s' : wf x -> wf y -> wf z -> shape0 x = n -> shape0 y = n -> shape0 z = n ->
    (2 <= n)%nat -> (0 <= B)%Z -> 0 < e ->
    (special_x x \/ special_x y -> outcome (distance_covariance_test E G x y B (Fin e) rs) = Ok (r, s') -> silent B r) /\
    (special_x x \/ special_x y \/ special_x z ->
       outcome (partial_distance_covariance_test E G x y z B (Fin e) rs) = Ok (r, s') -> silent B r).
  Proof.
    intros Wx Wy Wz Lx Ly Lz Hn HB He. split; intros H Hc.
    - destruct (dcov_test_nan E x_bad ext_special G x y n B (Fin e) rs r s') as [H1 H2]; auto using x_dist_nan; [lia| |].
      + destruct H; auto using special_x_tainted.
      + split; [apply ext_nan; auto|]. rewrite H2. apply smallest_x. auto.
    - destruct (partial_test_nan E x_bad ext_special G x y z n B (Fin e) rs r s') as [H1 H2]; auto using x_dist_nan.
      + destruct H as [H|[H|H]]; auto using special_x_tainted.
      + split; [apply ext_nan; auto|]. rewrite H2. apply smallest_x. auto.
  Qed.

  Theorem C57_extended_energy_test {S} (G : Rng S) samples B e es rs r s' : (2 <= length samples)%nat ->
    Forall (fun x => wf x /\ 1 <= shape0 x)%nat samples -> (0 <= B)%Z -> 0 < e -> Exists special_x samples ->
    outcome (energy_test E G samples B (Fin e) rs None es) = Ok (r, s') -> silent B r.
  Proof.
    intros H2 W HB He H Hc.
    destruct (energy_test_nan E x_bad x_big x_nn G ext_special ext_special_pos samples B (Fin e) es rs r s') as [H3 H4]; auto.
    - eapply Forall_impl; [|exact W]. cbn. tauto.
    - eapply Forall_impl; [|exact W]. cbn. tauto.
    - apply Forall_forall. intros. apply x_dist_pos; auto.
    - eapply Exists_impl; [|exact H]. apply special_x_tainted.
    - split; [apply ext_nan; auto|]. rewrite H4. apply smallest_x. auto.
  Qed.

  (** The affinely invariant correlations hide the NaN: they report exactly no dependence. *)
  Theorem C57_extended_af_inv x y m cm v : wf x -> wf y -> shape0 x = shape0 y -> special_x x \/ special_x y ->
    (outcome (distance_correlation_af_inv_sqr E x y (MethodEnum m) cm) = Ok v -> v = Fin 0) /\
    (outcome (distance_correlation_af_inv E x y (MethodEnum m) cm) = Ok v -> v = Fin 0).
  Proof.
    intros Wx Wy Hl H.
    assert (H' : tainted x_bad x \/ tainted x_bad y) by (destruct H as [H|H]; auto using special_x_tainted).
    assert (D : dist_nan E F64 (nunit (e_num E))) by (rewrite EN; apply x_dist_nan; auto; lra).
    pose proof (proj1 (proj2 HE)) as HS. pose proof (proj2 (proj2 HE)) as HG. split; intros Hc.
    - apply (af_inv_sqr_zero E x_bad ext_special HS HG) in Hc; auto. rewrite Hc, EN. reflexivity.
    - apply (af_inv_zero E x_bad ext_special HS HG) in Hc; auto. rewrite Hc, EN. unfold sqrt_clamp. cbn. unfold xltb, xleb, xeqb, Rleb, Reqb.
      destruct (Rle_dec 0 0), (Req_EM_T 0 0); try lra. cbn. unfold Rltb. destruct (Rlt_dec 0 0); [lra|]. f_equal. apply sqrt_0.
  Qed.
End Extended.

(** ** Doubles *)

(** Exponents and dtypes covered: any positive exponent if the C library's [pow] keeps NaN, plus infinity and the sign (C17,
    F.10.4.4), otherwise the exponent one; object arrays whose elements have no float power need [pow] also then. *)
Definition covered (lib : flib) (e : b64) (x : array b64) : Prop := f_exponent lib e /\ f_dtype lib (adt x) e.

Section Doubles.
  Context (lib : flib) (E : Env b64) (HE : valid_fenv lib E).
  Let EN : e_num E = B64Num lib := vf_num _ _ HE.
  Lemma dbl_shape : shape_env E. Proof. split; [apply (vf_perm _ _ HE)|apply (vf_empty _ _ HE)]. Qed.
  Lemma dbl_special : special (e_num E) f_bad. Proof. rewrite EN. apply f_special, (vf_lib _ _ HE). Qed.
  Lemma dbl_special_pos : special_pos (e_num E) f_bad f_big f_nn. Proof. rewrite EN. apply f_special_pos, (vf_lib _ _ HE). Qed.
  Lemma dbl_nan v : nisnan (e_num E) v = true -> v = B754_nan.
  Proof. rewrite EN. apply is_nan_eq. Qed.
  Lemma covered_nan e x : covered lib e x -> dist_nan E (adt x) e.
  Proof. intros [H1 H2]. apply (f_dist_nan lib E EN); auto. Qed.
  Lemma covered_pos e x : covered lib e x -> dist_pos E f_big f_nn (adt x) e.
  Proof. intros [H1 H2]. apply (f_dist_pos lib E EN); auto. Qed.

  Theorem C57_doubles f x y e m cm v : wf x -> wf y -> shape0 x = shape0 y -> covered lib e x -> covered lib e y -> special_f x \/ special_f y ->
    call f E x y e m cm = Ok v -> v = B754_nan.
  Proof.
    intros Wx Wy Hl Cx Cy H Hc. apply dbl_nan.
    apply (call_nan E f_bad dbl_special dbl_shape f x y e m cm v); auto using covered_nan.
    destruct H; auto using special_f_tainted.
  Qed.

  Theorem C57_doubles_naive f x y e cm : wf x -> wf y -> shape0 x = shape0 y -> covered lib e x -> covered lib e y ->
    special_f x \/ special_f y -> not_forced cm -> call f E x y e MNaive cm = Ok B754_nan.
  Proof.
    intros Wx Wy Hl Cx Cy H Hcm. destruct (naive_returns E f x y e cm Hl Hcm) as [v Hv]. rewrite Hv. f_equal. exact (C57_doubles f x y e MNaive cm v Wx Wy Hl Cx Cy H Hv).
  Qed.

  Theorem C57_doubles_partial_functions x y z n v : wf x -> wf y -> wf z -> shape0 x = n -> shape0 y = n -> shape0 z = n -> 2 <= n ->
    covered lib (b64_ofZ 1) x -> covered lib (b64_ofZ 1) y -> covered lib (b64_ofZ 1) z -> special_f x \/ special_f y \/ special_f z ->
    (outcome (partial_distance_covariance E x y z) = Ok v -> v = B754_nan) /\
    (outcome (partial_distance_correlation E x y z) = Ok v -> v = B754_nan).
  Proof.
    intros Wx Wy Wz Lx Ly Lz Hn Cx Cy Cz H.
    assert (H' : tainted f_bad x \/ tainted f_bad y \/ tainted f_bad z) by (destruct H as [H|[H|H]]; auto using special_f_tainted).
    assert (D : forall w, In w [x; y; z] -> dist_nan E (adt w) (nunit (e_num E))).
    { intros w Hw. rewrite EN. cbn [nunit B64Num]. apply covered_nan. destruct Hw as [<-|[<-|[<-|[]]]]; auto. }
    split; intros Hc; apply dbl_nan; revert Hc;
      [apply (partial_covariance_nan E f_bad dbl_special x y z n)|apply (partial_correlation_nan E f_bad dbl_special x y z n)]; auto.
  Qed.

  Theorem C57_doubles_energy x y e es v : wf x -> wf y -> ncols x = ncols y -> 1 <= shape0 x -> 1 <= shape0 y ->
    covered lib e x -> covered lib e y -> special_f x \/ special_f y ->
    (outcome (energy_distance E x y e None es) = Ok v -> v = B754_nan) /\
    (outcome (energy_test_statistic E x y e None es) = Ok v -> v = B754_nan).
  Proof.
    intros Wx Wy Hc Lx Ly Cx Cy H.
    assert (H' : tainted f_bad x \/ tainted f_bad y) by (destruct H as [H|H]; auto using special_f_tainted).
    assert (C : fst (transform_to_2d (adata x)) = fst (transform_to_2d (adata y))).
    { revert Hc. unfold ncols, transform_to_2d. destruct (adata x), (adata y); cbn; auto. }
    assert (Dxy : dist_pos E f_big f_nn (promote (adt x) (adt y)) e).
    { destruct Cx as [C1 C2], Cy as [_ C3]. apply (f_dist_pos lib E EN); auto. destruct C2 as [C2|C2]; [|right; auto].
      destruct C3 as [C3|C3]; [|right; auto]. left. destruct (adt x) as [| | | | |[]], (adt y) as [| | | | |[]]; cbn; congruence. }
    split; intros K; apply dbl_nan; revert K;
      [apply (energy_nan E f_bad f_big f_nn dbl_special dbl_special_pos x y e es)
      |apply (energy_statistic_nan E f_bad f_big f_nn dbl_special dbl_special_pos x y e es)]; auto using covered_pos.
  Qed.

  Definition silent_f (B : Z) (r : HypothesisTest b64) : Prop :=
    statistic r = B754_nan /\ pvalue r = b64_div (b64_ofZ 1) (b64_ofZ (B + 1)).
  Lemma smallest_f B : smallest E B = b64_div (b64_ofZ 1) (b64_ofZ (B + 1)).
  Proof. unfold smallest. rewrite EN. cbn [ndiv nadd nofZ nunit B64Num]. f_equal. Qed.

  Theorem C57_doubles_tests {S} (G : Rng S) x y z n B e rs r s' : wf x -> wf y -> wf z -> shape0 x = n -> shape0 y = n -> shape0 z = n ->
    2 <= n -> covered lib e x -> covered lib e y -> covered lib e z ->
    (special_f x \/ special_f y -> outcome (distance_covariance_test E G x y B e rs) = Ok (r, s') -> silent_f B r) /\
    (special_f x \/ special_f y \/ special_f z ->
       outcome (partial_distance_covariance_test E G x y z B e rs) = Ok (r, s') -> silent_f B r).
  Proof.
    intros Wx Wy Wz Lx Ly Lz Hn Cx Cy Cz. split; intros H Hc.
    - destruct (dcov_test_nan E f_bad dbl_special G x y n B e rs r s') as [H1 H2]; auto using covered_nan; [lia| |].
      + destruct H; auto using special_f_tainted.
      + split; [apply dbl_nan; auto|]. rewrite H2. apply smallest_f.
    - destruct (partial_test_nan E f_bad dbl_special G x y z n B e rs r s') as [H1 H2]; auto.
      + intros w Hw. apply covered_nan. destruct Hw as [<-|[<-|[<-|[]]]]; auto.
      + destruct H as [H|[H|H]]; auto using special_f_tainted.
      + split; [apply dbl_nan; auto|]. rewrite H2. apply smallest_f.
  Qed.

  Theorem C57_doubles_energy_test {S} (G : Rng S) samples B e es rs r s' : 2 <= length samples ->
    Forall (fun x => wf x /\ 1 <= shape0 x /\ covered lib e x) samples -> Exists special_f samples ->
    outcome (energy_test E G samples B e rs None es) = Ok (r, s') -> silent_f B r.
  Proof.
    intros H2 W H Hc.
    destruct (energy_test_nan E f_bad f_big f_nn G dbl_special dbl_special_pos samples B e es rs r s') as [H3 H4]; auto.
    - eapply Forall_impl; [|exact W]. cbn. tauto.
    - eapply Forall_impl; [|exact W]. cbn. tauto.
    - eapply Forall_impl; [|exact W]. cbn. intros a (_ & _ & C). apply covered_pos. auto.
    - eapply Exists_impl; [|exact H]. apply special_f_tainted.
    - split; [apply dbl_nan; auto|]. rewrite H4. apply smallest_f.
  Qed.

  Theorem C57_doubles_af_inv x y m cm v : (forall a, length (snd (e_eigh E a)) = length a) ->
    wf x -> wf y -> shape0 x = shape0 y -> special_f x \/ special_f y ->
    (outcome (distance_correlation_af_inv_sqr E x y (MethodEnum m) cm) = Ok v -> v = B754_zero false) /\
    (outcome (distance_correlation_af_inv E x y (MethodEnum m) cm) = Ok v -> v = B754_zero false).
  Proof.
    intros HG Wx Wy Hl H.
    assert (H' : tainted f_bad x \/ tainted f_bad y) by (destruct H as [H|H]; auto using special_f_tainted).
    assert (D : dist_nan E F64 (nunit (e_num E))).
    { rewrite EN. cbn [nunit B64Num]. apply (f_dist_nan lib E EN); [|left; discriminate].
      split; [reflexivity|]. split; [vm_compute; reflexivity|auto]. }
    split; intros Hc.
    - apply (af_inv_sqr_zero E f_bad dbl_special dbl_shape HG) in Hc; auto. rewrite Hc, EN. reflexivity.
    - apply (af_inv_zero E f_bad dbl_special dbl_shape HG) in Hc; auto. rewrite Hc, EN. reflexivity.
  Qed.

  (** In the optimised mode of rowwise the covariances are NaN but the correlations are exactly zero. *)
  Theorem C57_doubles_rowwise f (x y : list (array b64)) kw r i a b : length x = length y ->
    nth_error x i = Some a -> nth_error y i = Some b -> special_f a \/ special_f b ->
    outcome (rowwise E f x y RWOptimized kw) = Ok r ->
    nth_error r i = Some (match f with FDcovSqr | FUDcovSqr | FDcov | FOther _ => B754_nan | FDcorSqr | FUDcorSqr | FDcor => B754_zero false end).
  Proof.
    intros Hl Ha Hb Ht. assert (H' : tainted f_bad a \/ tainted f_bad b) by (destruct Ht; auto using special_f_tainted).
    unfold rowwise. rewrite outcome_bind, outcome_lift.
    destruct (rowwise_function E f x y kw) as [[l|]|] eqn:R; cbn [rbind]; try discriminate. rewrite outcome_ret. intros [= <-].
    assert (SQ : forall v, is_nan v = true -> sqrt_clamp (e_num E) v = B754_nan) by (intros v Hv; apply is_nan_eq in Hv; subst; rewrite EN; reflexivity).
    assert (K1 : forall ub, rowwise_dcov_sqr E ub x y kw = Ok (Some l) -> nth_error l i = Some B754_nan).
    { intros ub Hr. destruct (rowwise_cov_nan E f_bad dbl_special dbl_shape ub x y kw l Hl Hr) as [_ K].
      destruct (K i a b Ha Hb H') as (v & Hv & Nv). rewrite Hv. f_equal. apply dbl_nan. auto. }
    assert (K2 : forall ub l, rowwise_dcor_sqr E ub x y kw = Ok (Some l) -> nth_error l i = Some (B754_zero false)).
    { intros ub l' Hr. rewrite (rowwise_cor_zero E f_bad dbl_special dbl_shape ub x y kw l' i a b Hl Hr Ha Hb H'), EN. reflexivity. }
    destruct f; cbn [rowwise_function] in R; eauto.
    - unfold rowwise_dcov in R. destruct (rowwise_dcov_sqr E false x y kw) as [[l'|]|] eqn:Q; cbn in R; try discriminate. injection R as <-.
      rewrite nth_error_map. destruct (rowwise_cov_nan E f_bad dbl_special dbl_shape false x y kw l' Hl Q) as [_ K].
      destruct (K i a b Ha Hb H') as (v & Hv & Nv). rewrite Hv. cbn [option_map]. rewrite SQ; auto. rewrite EN in Nv. auto.
    - unfold rowwise_dcor in R. destruct (rowwise_dcor_sqr E false x y kw) as [[l'|]|] eqn:Q; cbn in R; try discriminate. injection R as <-.
      rewrite nth_error_map, (K2 false l' Q). cbn [option_map]. rewrite EN. reflexivity.
    - discriminate R.
  Qed.
End Doubles.

(** ** Witnesses *)

(** Doubles with pairwise sums and fused dot products; [eigh] returns its argument and unit eigenvalues. *)
Definition env_N : Env b64 :=
  mkEnv b64 (B64Num modern) fargsort (fun n => repeat B754_nan n) (fun m => (map (fun _ => b64_ofZ 1) m, m)) (fun _ _ => B754_nan) true.
Lemma env_N_valid : valid_fenv modern env_N.
Proof. destruct env_M_valid as [H1 H2 H3 H4 H5]. split; auto. Qed.

(** 1, inf, 3, 2, 5 and 2, 7, 1, 8, 2; 0, 1, NaN, 4, 3 *)
Definition x_inf : array b64 := mkArr Numpy F64 (Vec [b64_ofZ 1; B754_infinity false; b64_ofZ 3; b64_ofZ 2; b64_ofZ 5]).
Definition y_fin : array b64 := mkArr Numpy F64 (Vec [b64_ofZ 2; b64_ofZ 7; b64_ofZ 1; b64_ofZ 8; b64_ofZ 2]).
Definition z_nan : array b64 := mkArr Numpy F64 (Vec [b64_ofZ 0; b64_ofZ 1; B754_nan; b64_ofZ 4; b64_ofZ 3]).

Lemma one_exponent lib : f_exponent lib (b64_ofZ 1).
Proof. split; [reflexivity|]. split; [vm_compute; reflexivity|auto]. Qed.
Lemma covered_1 lib x : adt x = F64 -> covered lib (b64_ofZ 1) x.
Proof. intros H. split; [apply one_exponent|]. left. rewrite H. discriminate. Qed.
Lemma x_inf_special : special_f x_inf.
Proof. exists (B754_infinity false). split; [cbn; auto|reflexivity]. Qed.
Lemma z_nan_special : special_f z_nan.
Proof. exists B754_nan. split; [cbn; auto|reflexivity]. Qed.

Definition returns_nan (r : res b64) : bool := match r with Ok v => is_nan v | Err _ => false end.
Definition test_nan (r : res (HypothesisTest b64 * unit)) : bool :=
  match r with Ok (t, _) => is_nan (statistic t) && Beqb (pvalue t) (b64_div (b64_ofZ 1) (b64_ofZ 3)) | Err _ => false end.

Example C57_meets :
  (wf x_inf /\ wf y_fin /\ shape0 x_inf = shape0 y_fin /\ special_f x_inf /\ special_f z_nan /\ covered modern (b64_ofZ 1) x_inf) /\
  forallb (fun m => forallb (fun f => returns_nan (call f env_N x_inf y_fin (b64_ofZ 1) m CAuto) && returns_nan (call f env_N y_fin z_nan (b64_ofZ 1) m CCompileCpu))
    [DcovSqr; Dcov; DcorSqr; Dcor; UDcovSqr; UDcorSqr]) [MAvl; MMergesort] = true /\
  forallb (fun f => returns_nan (call f env_N x_inf y_fin (b64_ofZ 1) MNaive CAuto)) [DcovSqr; Dcov; DcorSqr; Dcor; UDcovSqr; UDcorSqr] = true /\
  returns_nan (outcome (partial_distance_covariance env_N y_fin x_inf z_nan)) = true /\
  returns_nan (outcome (partial_distance_correlation env_N y_fin y_fin z_nan)) = true /\
  returns_nan (outcome (energy_distance env_N x_inf y_fin (b64_ofZ 1) None (EstEnum UStatistic))) = true /\
  test_nan (outcome (distance_covariance_test env_N reversing x_inf y_fin 2 (b64_ofZ 1) (RSeed 0))) = true /\
  test_nan (outcome (partial_distance_covariance_test env_N reversing y_fin y_fin z_nan 2 (b64_ofZ 1) (RSeed 0))) = true /\
  test_nan (outcome (energy_test env_N reversing [y_fin; x_inf; y_fin] 2 (b64_ofZ 1) (RSeed 0) None (EstEnum VStatistic))) = true.
Proof.
  split; [repeat split; auto using x_inf_special, z_nan_special; apply covered_1; reflexivity|].
  repeat split; vm_compute; reflexivity.
Qed.

(** The extended reals: an environment, and a call. *)
Definition env_XE : Env xR :=
  mkEnv xR XNum (fun l => seq 0 (length l)) (fun n => repeat NaN n) (fun m => (map (fun _ => Fin 1) m, m)) (fun _ _ => NaN) true.
Lemma env_XE_valid : ext_env env_XE.
Proof. split; [reflexivity|]. split; [|reflexivity]. split; cbn; auto using repeat_length. intros l. apply Permutation.Permutation_refl. Qed.
Definition x_pinf : array xR := mkArr Numpy F64 (Vec [Fin 1; PInf]).
Definition y_xfin : array xR := mkArr Numpy F64 (Vec [Fin 0; Fin 3]).
Example C57_extended_meets : special_x x_pinf /\ call Dcor env_XE x_pinf y_xfin (Fin (3 / 2)) MNaive CAuto = Ok NaN.
Proof.
  split; [exists PInf; cbn; auto|].
  apply C57_extended_naive; cbn; auto; [apply env_XE_valid|lra|left; exists PInf; cbn; auto|left; reflexivity].
Qed.

(** The row-wise correlations depend on the mode of rowwise: zero if optimised, NaN otherwise; so does the affinely invariant
    correlation differ from the correlation of the scaled samples. *)
Definition kw1 : kwargs b64 := mkKw (b64_ofZ 1) (MethodEnum MAuto) CAuto.
Theorem C57_rowwise_refuted :
  outcome (rowwise env_N FDcor [x_inf] [y_fin] RWOptimized kw1) = Ok [B754_zero false] /\ outcome (rowwise env_N FDcor [x_inf] [y_fin] RWAuto kw1) = Ok [B754_zero false] /\ outcome (rowwise env_N FDcor [x_inf] [y_fin] RWNaive kw1) = Ok [B754_nan] /\ outcome (distance_correlation_af_inv env_N x_inf y_fin (MethodEnum MNaive) CAuto) = Ok (B754_zero false).
Proof. repeat split; vm_compute; reflexivity. Qed.
