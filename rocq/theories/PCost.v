(** C66: the number of steps of each method. *)
From Coq Require Import ZArith List Bool Arith Lia.
From Verif Require Import Num Numpy Tab MUtils MDistances MInternals MMergesort MAvl MDcor Samples Api AvlGeneric MergeGeneric Calls MCost CostFacts
  MFloat FloatEnv FloatApi PFloatCorr.
Import ListNotations.

(** The function [f] of the library, counting steps when sorting [n] numbers takes [sort n]. *)
Definition k_call (f : api) {T} (E : Env T) (sort : nat -> nat) : array T -> array T -> T -> dcov_method -> compile_mode -> K T :=
  match f with
  | DcovSqr => k_distance_covariance_sqr E sort
  | Dcov => k_distance_covariance E sort
  | DcorSqr => k_distance_correlation_sqr E sort
  | Dcor => k_distance_correlation E sort
  | UDcovSqr => k_u_distance_covariance_sqr E sort
  | UDcorSqr => k_u_distance_correlation_sqr E sort
  end.

Section Same.
  Lemma outcome_rbind {A B} (m : M A) (f : A -> M B) : outcome (bind m f) = rbind (outcome m) (fun a => outcome (f a)).
  Proof. destruct m as [w [a|]]; cbn; auto. destruct (f a); reflexivity. Qed.
  Context {T : Type} (E : Env T) (sort : nat -> nat).
  Lemma terms_naive_same x y e cm rv : result (k_terms_naive E x y e cm rv) = outcome (dcov_terms_naive E x y e cm rv).
  Proof.
    assert (P : forall x, result (k_pairwise E x e) = pairwise_distances E x None e)
      by (intros; unfold k_pairwise; destruct (transform_to_2d _); reflexivity).
    assert (H : result (k_terms_naive E x y e CAuto rv) = outcome (dcov_terms_naive E x y e CAuto rv)).
    { unfold k_terms_naive, dcov_terms_naive, compute_distances, check_valid_dcov_exponent, k_matrix_sums. kprims. k1.
      rewrite !outcome_rbind.
      destruct (exponent_in_range E e); cbn [outcome ret emit snd rbind]; k1; rewrite P.
      all: destruct (pairwise_distances E x None e) as [a|]; cbn [rbind]; [|reflexivity]; k1; rewrite P;
        destruct (pairwise_distances E y None e) as [b|]; cbn [rbind]; [|reflexivity]; k1;
        destruct (np_dot (e_num E) (concat a) (concat b)) eqn:D; cbn; rewrite ?D; cbn; auto; destruct rv; reflexivity. }
    destruct cm; auto.
  Qed.
  Lemma try_same w auto impl kimpl l : (forall c, result (kimpl c) = impl c) ->
    result (k_try_impls (T:=T) auto kimpl l) = outcome (try_impls w auto impl l).
  Proof.
    intros H. induction l as [|c l IH]; cbn [k_try_impls try_impls]; auto. rewrite <- (H c). destruct (kimpl c) as [s [t|ex]]; [reflexivity|].
    destruct ex; try reflexivity. cbn [result snd]. destruct auto; [|reflexivity]. rewrite result_bind. cbn [result kdo snd rbind]. rewrite IH.
    unfold outcome, bind, emit. cbn. destruct (try_impls w true impl l). reflexivity.
  Qed.
  Lemma terms_avl_same x y e cm rv : result (k_terms_avl E sort x y e cm rv) = outcome (terms_avl E x y e cm rv).
  Proof.
    unfold k_terms_avl, terms_avl. destruct (negb _); auto. k1. destruct (transform_to_1d (adata x)) as [v|]; rewrite ?bind_ok, ?bind_err; auto.
    cbn [rbind]. k1. destruct (transform_to_1d (adata y)) as [w|]; rewrite ?bind_ok, ?bind_err; auto. cbn [rbind]. k1.
    destruct (together x y); auto. destruct (impls cm); auto. apply try_same. intros c. unfold k_avl_impl, avl_impl.
    destruct c; [destruct (_ && _); auto|]; apply CostFacts.terms_avl_same.
  Qed.
  Lemma terms_mergesort_same x y e cm rv : result (k_terms_mergesort E sort x y e cm rv) = outcome (terms_mergesort E x y e cm rv).
  Proof.
    unfold k_terms_mergesort, terms_mergesort. destruct (negb _); auto. k1. destruct (transform_to_1d (adata x)) as [v|]; rewrite ?bind_ok, ?bind_err; auto.
    cbn [rbind]. k1. destruct (transform_to_1d (adata y)) as [w|]; rewrite ?bind_ok, ?bind_err; auto. cbn [rbind]. k1.
    destruct (together x y); auto. destruct (impls cm); auto. apply try_same. intros c. unfold k_mergesort_impl, mergesort_impl.
    destruct c; [destruct (_ && _); auto|destruct (_ || _); auto]; apply CostFacts.terms_mergesort_same.
  Qed.
  Lemma method_terms_same m x y e cm rv : result (k_method_terms E sort m x y e cm rv) = outcome (method_terms E m x y e cm rv).
  Proof.
    destruct m; cbn [k_method_terms method_terms].
    - unfold terms_auto. destruct (_ && _); [apply terms_avl_same|apply terms_naive_same].
    - apply terms_naive_same.
    - apply terms_avl_same.
    - apply terms_mergesort_same.
  Qed.
End Same.

(** The counting functions return what the functions of the library return. *)
Theorem C66_counts_the_library {T} (E : Env T) sort f x y e m cm :
  result (k_call f E sort x y e m cm) = call f E x y e m cm.
Proof.
  rewrite call_terms, <- (method_terms_same E sort).
  destruct f; cbn [k_call wants_var];
    unfold k_distance_covariance_sqr, k_distance_covariance, k_distance_correlation_sqr, k_distance_correlation,
      k_u_distance_covariance_sqr, k_u_distance_correlation_sqr, k_distance_covariance_sqr, k_distance_correlation_sqr, k_dcov_sqr, k_stats_sqr, k_from_terms, finish;
    k1; cbn [wants_var corrected];
    destruct (result (k_method_terms _ _ _ _ _ _ _ _)) as [t|]; cbn [rbind]; auto; k1;
    destruct (dcov_from_terms E (t_kind t) _ _ _ _ _ _ _); cbn [rbind]; auto; k1; auto;
    destruct (dcov_from_terms E (t_vkind t) _ (t_a_axis t) _ _ _ _ _); cbn [rbind]; auto; k1;
    destruct (dcov_from_terms E (t_vkind t) _ (t_b_axis t) _ _ _ _ _); cbn [rbind]; auto; k1; auto.
Qed.

Section Bounds.
  Context {T : Type} (E : Env T) (sort : nat -> nat) (HE : shape_env E).

  Lemma try_within impl B (P : terms (T:=T) -> Prop) cm l : (forall c, within (impl c) B P) ->
    (steps (impl true) = 0 \/ result (impl true) <> Err TypeError) -> impls cm = Some l ->
    within (k_try_impls (is_auto cm) impl l) B P.
  Proof.
    intros H H1. assert (One : forall c, within (match impl c with (s, Err TypeError) => (s, Err TypeError) | r => r end) B P).
    { intros c. specialize (H c). destruct (impl c) as [s [t|ex]]; auto. destruct ex; auto. }
    assert (Z : forall s, within (s, @Err (terms (T:=T)) TypeError) s P) by (split; [cbn; lia|discriminate]).
    destruct cm; intros [= <-]; cbn [is_auto k_try_impls].
    - destruct (impl true) as [s [t|ex]] eqn:I; [specialize (H true); rewrite I in H; exact H|].
      destruct ex; try (specialize (H true); rewrite I in H; exact H).
      assert (s = 0) as -> by (destruct H1 as [H1|H1]; [exact H1|cbn in H1; congruence]).
      change (within (kbind (kdo 0 tt) (fun _ => match impl false with (s, Err TypeError) => kbind (kdo s tt) (fun _ => kraise TypeError) | r => r end)) B P).
      apply (w_bind _ _ 0 B (fun _ => True)); [apply w_tick|]. intros _ _. specialize (H false). destruct (impl false) as [s [t|ex]]; auto.
      destruct ex; auto. destruct H as [H _]. cbn in H. split; [cbn; lia|discriminate].
    - exact (One false).
    - exact (One true).
  Qed.

  Lemma log_pow n : 4 <= n -> 2 ^ (Nat.log2_up n + 1) <= 4 * n.
  Proof.
    intros H. destruct (Nat.log2_up_spec n ltac:(lia)) as [A _]. assert (1 <= Nat.log2_up n) by (change 1 with (Nat.log2_up 2); apply Nat.log2_up_le_mono; lia).
    destruct (Nat.log2_up n) as [|L]; [lia|]. cbn [Nat.pred] in A. replace (S L + 1) with (S (S L)) by lia. cbn [Nat.pow]. lia.
  Qed.
  Lemma argsort_len (E0 : Env T) : shape_env E0 -> forall l, length (e_argsort E0 l) = length l.
  Proof. intros H l. apply is_perm_length. apply (se_argsort E0 H). Qed.
  Lemma seq_env_shape : shape_env (seq_env E).
  Proof. split; [exact (se_argsort E HE)|exact (se_empty E HE)]. Qed.

  Lemma avl_impl_within (E0 : Env T) n oob cp k kv v w rv : shape_env E0 -> length v = n -> length w = n ->
    within (k_terms_avl_impl E0 sort oob cp k kv v w rv) (3 * sort n + 146 * (n * (Nat.log2_up n + 1))) (ok_terms n).
  Proof.
    intros H Hv Hw. destruct (le_lt_dec 4 n) as [H4|H4].
    - eapply w_le; [apply avl_within; [exact (argsort_len E0 H)|exact (se_empty E0 H)|exact Hv|exact Hw]|].
      pose proof (log_pow n H4). generalize dependent (2 ^ (Nat.log2_up n + 1)). intros p Hp. generalize (Nat.log2_up n). intros L. nia.
    - unfold k_terms_avl_impl, k_get_impl_args. replace (3 <? length v) with false by (symmetry; apply Nat.ltb_ge; lia). cbn [negb].
      split; [cbn; lia|discriminate].
  Qed.
  Lemma avl_never_type oob cp k kv v w rv (E0 : Env T) : shape_env E0 -> terms_avl_impl E0 cp oob k kv v w rv <> Err TypeError.
  Proof.
    intros H. destruct (le_lt_dec 4 (length v)) as [H4|H4]; [destruct (Nat.eq_dec (length v) (length w)) as [Hl|Hl]|]; [|rewrite (avl_small E0) by lia; discriminate..].
    destruct (terms_avl_agree E0 H v w rv Hl H4) as (t & t' & _ & A). destruct (A oob k kv) as [A1 A2]. destruct cp; congruence.
  Qed.
  Lemma terms_avl_within n x y e cm rv : wf x -> wf y -> shape0 x = n -> shape0 y = n ->
    within (k_terms_avl E sort x y e cm rv) (3 * sort n + 146 * (n * (Nat.log2_up n + 1))) (ok_terms n).
  Proof.
    intros Wx Wy Hx Hy. unfold k_terms_avl. destruct (negb _); [apply w_raise|].
    apply w_bind with (c := 0) (P := fun v => length v = n); [apply w_res; intros v Hv; rewrite (to_1d_length x v Wx Hv); exact Hx|]. intros v Hv.
    apply w_bind with (c := 0) (P := fun v => length v = n); [apply w_res; intros w Hw; rewrite (to_1d_length y w Wy Hw); exact Hy|]. intros w Hw. cbn beta in *.
    destruct (together x y); [|apply w_raise]. destruct (impls cm) eqn:I; [|apply w_raise]. apply try_within; auto.
    - intros c. unfold k_avl_impl. destruct c; [destruct (_ && _); [|apply w_raise]|]; apply avl_impl_within; auto using seq_env_shape.
    - unfold k_avl_impl. destruct (_ && _); [right|left; reflexivity]. rewrite CostFacts.terms_avl_same. apply avl_never_type. apply seq_env_shape.
  Qed.

  Lemma mergesort_impl_within (E0 : Env T) n oob cast k kv v w rv : shape_env E0 -> length v = n -> length w = n ->
    within (k_terms_mergesort_impl E0 sort oob cast k kv v w rv) (2 * sort n + (2 + 46 * (n * (Nat.log2_up n + 1)))) (ok_terms n).
  Proof.
    intros H Hv Hw. eapply w_le; [apply mergesort_within; [exact (argsort_len E0 H)|exact (se_empty E0 H)|exact Hv|exact Hw]|].
    generalize (Nat.log2_up n). intros L. nia.
  Qed.
  Lemma terms_mergesort_within n x y e cm rv : wf x -> wf y -> shape0 x = n -> shape0 y = n -> 1 <= n ->
    within (k_terms_mergesort E sort x y e cm rv) (2 * sort n + (2 + 46 * (n * (Nat.log2_up n + 1)))) (ok_terms n).
  Proof.
    intros Wx Wy Hx Hy Hn. unfold k_terms_mergesort. destruct (negb _); [apply w_raise|].
    apply w_bind with (c := 0) (P := fun v => length v = n); [apply w_res; intros v Hv; rewrite (to_1d_length x v Wx Hv); exact Hx|]. intros v Hv.
    apply w_bind with (c := 0) (P := fun v => length v = n); [apply w_res; intros w Hw; rewrite (to_1d_length y w Wy Hw); exact Hy|]. intros w Hw. cbn beta in *.
    destruct (together x y); [|apply w_raise]. destruct (impls cm) eqn:I; [|apply w_raise]. apply try_within; auto.
    - intros c. unfold k_mergesort_impl. destruct c; [destruct (_ && _); [|apply w_raise]|destruct (_ || _); [apply w_raise|]]; apply mergesort_impl_within; auto using seq_env_shape.
    - unfold k_mergesort_impl. destruct (_ && _); [right|left; reflexivity]. rewrite CostFacts.terms_mergesort_same.
      destruct (terms_mergesort_agree (seq_env E) v w rv seq_env_shape) as [t Ht]; [lia|lia|].
      destruct (Ht UndefinedBehaviour true AllPy AllPy) as [->|[? _]]; discriminate.
  Qed.

  (** the naive method *)
  Lemma pairwise_within x e : within (k_pairwise E x e) (shape0 x * shape0 x * (1 + ncols x))
    (fun a => length a = shape0 x /\ length (concat a) = shape0 x * shape0 x).
  Proof.
    unfold k_pairwise, ncols. pose proof (rows_2d x) as R.
    destruct (transform_to_2d (adata x)) as [c rows] eqn:D. cbn [snd] in R.
    assert (c = match adata x with Vec _ => 1 | Mat c _ => c end) as -> by (destruct (adata x); cbn in D; congruence).
    rewrite R. apply w_res. intros a. unfold pairwise_distances. rewrite D. intros A.
    destruct (pdist_ok E (ans x) (adt x) (match adata x with Vec _ => 1 | Mat c _ => c end) rows e) as (m & M & L & F). rewrite M in A. injection A as <-.
    split; [lia|]. rewrite (concat_square m (length rows) (length rows)) by auto. congruence.
  Qed.
  Lemma row_sums_len (a : list (list T)) : length (row_sums (e_num E) a) = length a.
  Proof. unfold row_sums. apply map_length. Qed.
  Lemma terms_naive_within n x y e cm rv : shape0 x = n -> shape0 y = n ->
    within (k_terms_naive E x y e cm rv) (n * n * (11 + ncols x + ncols y)) (ok_terms n).
  Proof.
    intros Hx Hy. assert (H : within (k_terms_naive E x y e CAuto rv) (n * n * (11 + ncols x + ncols y)) (ok_terms n)); [|destruct cm; auto; apply w_raise].
    unfold k_terms_naive. eapply w_le.
    - wb; [apply w_any|]. intros _ _. wb; [apply pairwise_within|]. intros a [La Ca]. wb; [apply pairwise_within|]. intros b [Lb Cb]. rewrite Hx, Hy in *.
      wb; [eapply w_le with (d := n * n); [apply w_do with (P := fun r => length r = n * n); exact Ca|lia]|]. intros av Lav.
      wb; [eapply w_le with (d := n * n); [apply w_do with (P := fun r => length r = n * n); exact Cb|lia]|]. intros bv Lbv. cbn beta in *.
      wb; [apply w_dot with (n := n * n); lia|]. intros mp _.
      wb; [eapply w_le with (d := n * n + n); [apply w_do with (P := fun r => length (fst r) = n); cbn; rewrite row_sums_len; exact La|lia]|]. intros [aa at_] Haa.
      wb; [eapply w_le with (d := n * n + n); [apply w_do with (P := fun r => length (fst r) = n); cbn; rewrite row_sums_len; exact Lb|lia]|]. intros [ba bt] Hba.
      assert (V : forall v, length v = n * n -> within (if rv then kdo (length v) (Some (ndot (e_num E) v v)) else kret None) (n * n) (fun _ => True)).
      { intros v Hv. destruct rv; [rewrite Hv; apply w_tick|eapply w_le; [apply w_ret; exact I|lia]]. }
      wb; [apply V; exact Lav|]. intros va _. wb; [apply V; exact Lbv|]. intros vb _. apply w_ret. split; cbn in *; lia.
    - rewrite Hx, Hy. destruct n; [cbn; lia|]. nia.
  Qed.
  Lemma terms_naive_least x y e cm rv t : result (k_terms_naive E x y e cm rv) = Ok t ->
    2 * (shape0 x * shape0 x) <= steps (k_terms_naive E x y e cm rv).
  Proof.
    assert (S1 : forall A B (m : K A) (f : A -> K B) a, result m = Ok a -> steps (kbind m f) = steps m + steps (f a)).
    { intros A B [c [a'|]] f a; cbn; [intros [= ->]|discriminate]. destruct (f a). reflexivity. }
    assert (H : result (k_terms_naive E x y e CAuto rv) = Ok t -> 2 * (shape0 x * shape0 x) <= steps (k_terms_naive E x y e CAuto rv)); [|destruct cm; auto; discriminate].
    unfold k_terms_naive. intros R.
    assert (O : exists u, outcome (check_valid_dcov_exponent E e) = Ok u) by (unfold check_valid_dcov_exponent; destruct (exponent_in_range E e); eexists; reflexivity).
    destruct O as (u & O). rewrite (S1 _ _ (kres 0 _) _ u O). rewrite result_bind in R. cbn [kres result snd] in R. rewrite O in R. cbn [rbind] in R.
    pose proof (pairwise_within x e) as [_ Px]. rewrite result_bind in R.
    assert (SP : steps (k_pairwise E x e) = shape0 x * shape0 x * (1 + ncols x)).
    { unfold k_pairwise, ncols. pose proof (rows_2d x) as Rr. destruct (transform_to_2d (adata x)) as [c rows] eqn:D. cbn [snd] in Rr.
      cbn [kres steps fst]. rewrite Rr. destruct (adata x); cbn in D; congruence. }
    destruct (result (k_pairwise E x e)) as [a|] eqn:Ra; cbn [rbind] in R; [|discriminate]. destruct (Px a eq_refl) as [_ Ca].
    rewrite (S1 _ _ _ _ a Ra), SP. rewrite result_bind in R.
    destruct (result (k_pairwise E y e)) as [b|] eqn:Rb; cbn [rbind] in R; [|discriminate].
    rewrite (S1 _ _ _ _ b Rb). rewrite (S1 _ _ (kdo _ (concat a)) _ (concat a) eq_refl). cbn [kdo steps fst]. rewrite Ca. nia.
  Qed.

  (** from the terms to the result *)
  Lemma from_terms_within n k mp aa at_ ba bt ns bc : length aa <= n -> within (k_from_terms E k mp aa at_ ba bt ns bc) (2 * n) (fun _ => True).
  Proof. intros H. eapply w_le; [apply w_any|lia]. Qed.
  Lemma call_within n f x y e m cm B : (forall rv, within (k_method_terms E sort m x y e cm rv) B (ok_terms n)) ->
    steps (k_call f E sort x y e m cm) <= B + 6 * n.
  Proof.
    intros H.
    assert (D : forall bc, within (k_dcov_sqr E sort m x y e cm bc) (B + 6 * n) (fun _ => True)).
    { intros bc. eapply w_le; [unfold k_dcov_sqr; wb; [apply H|]; intros t [Ha Hb]; apply from_terms_within; exact Ha|lia]. }
    assert (S : forall bc, within (k_stats_sqr E sort m x y e cm bc) (B + 6 * n) (fun _ => True)).
    { intros bc. eapply w_le; [unfold k_stats_sqr; wb; [apply H|]; intros t [Ha Hb]; wb; [apply from_terms_within; exact Ha|]; intros c _;
        wb; [apply from_terms_within; exact Ha|]; intros vx _; wb; [apply from_terms_within; exact Hb|]; intros vy _; apply w_ret; exact I|lia]. }
    assert (W : within (k_call f E sort x y e m cm) (B + 6 * n) (fun _ => True)); [|exact (proj1 W)].
    destruct f; cbn [k_call].
    - apply D.
    - eapply w_le; [unfold k_distance_covariance, k_distance_covariance_sqr; wb; [apply D|]; intros; apply w_ret; exact I|lia].
    - eapply w_le; [unfold k_distance_correlation_sqr; wb; [apply S|]; intros; apply w_ret; exact I|lia].
    - eapply w_le; [unfold k_distance_correlation, k_distance_correlation_sqr; wb; [wb; [apply S|]; intros; apply (w_ret _ (fun _ => True)); exact I|]; intros; apply w_ret; exact I|lia].
    - apply D.
    - eapply w_le; [unfold k_u_distance_correlation_sqr; wb; [apply S|]; intros; apply w_ret; exact I|lia].
  Qed.
End Bounds.

(** AVL and MERGESORT take a number of steps proportional to n log n, besides two or three sorts of n numbers; AUTO is
    AVL whenever that applies. *)
Theorem C66_avl_steps {T} (E : Env T) sort f x y e cm n : shape_env E -> wf x -> wf y -> shape0 x = n -> shape0 y = n ->
  steps (k_call f E sort x y e MAvl cm) <= 3 * sort n + 152 * (n * (Nat.log2_up n + 1)).
Proof.
  intros HE Wx Wy Hx Hy. eapply Nat.le_trans.
  - apply call_within with (n := n). intros rv. apply (terms_avl_within E sort HE n); auto.
  - generalize (Nat.log2_up n). intros L. nia.
Qed.
Theorem C66_auto_steps {T} (E : Env T) sort f x y e cm n : shape_env E -> wf x -> wf y -> shape0 x = n -> shape0 y = n ->
  some_numpy x y -> univariate x -> univariate y -> 4 <= n -> neqb (e_num E) e (nunit (e_num E)) = true ->
  steps (k_call f E sort x y e MAuto cm) <= 3 * sort n + 152 * (n * (Nat.log2_up n + 1)).
Proof.
  intros HE Wx Wy Hx Hy Sx Ux Uy Hn He. apply some_together in Sx. eapply Nat.le_trans.
  - apply call_within with (n := n). intros rv. cbn [k_method_terms]. unfold can_use_fast_algorithm. rewrite Sx, He, Hx, Hy.
    assert (R : forall z : array T, univariate z -> is_random_variable (adata z) = true).
    { intros z. unfold univariate, ncols, is_random_variable. destruct (adata z); auto. intros ->. reflexivity. }
    rewrite !R by auto. replace (3 <? n) with true by (symmetry; apply Nat.ltb_lt; lia). cbn [is_numpy andb].
    apply (terms_avl_within E sort HE n); auto.
  - generalize (Nat.log2_up n). intros L. nia.
Qed.
Theorem C66_mergesort_steps {T} (E : Env T) sort f x y e cm n : shape_env E -> wf x -> wf y -> shape0 x = n -> shape0 y = n -> 1 <= n ->
  steps (k_call f E sort x y e MMergesort cm) <= 2 * sort n + 54 * (n * (Nat.log2_up n + 1)).
Proof.
  intros HE Wx Wy Hx Hy Hn. eapply Nat.le_trans.
  - apply call_within with (n := n). intros rv. apply (terms_mergesort_within E sort HE n); auto.
  - generalize (Nat.log2_up n). intros L. nia.
Qed.

(** NAIVE takes a number of steps proportional to the square of n, never less when it returns a result. *)
Theorem C66_naive_steps {T} (E : Env T) sort f x y e cm n : shape0 x = n -> shape0 y = n ->
  steps (k_call f E sort x y e MNaive cm) <= (17 + ncols x + ncols y) * (n * n) /\
  (forall v, call f E x y e MNaive cm = Ok v -> 2 * (n * n) <= steps (k_call f E sort x y e MNaive cm)).
Proof.
  intros Hx Hy. split.
  - eapply Nat.le_trans; [apply call_within with (n := n); intros rv; apply (terms_naive_within E n); auto|]. destruct n; [cbn; lia|nia].
  - intros v Hv. rewrite <- (C66_counts_the_library E sort) in Hv. rewrite <- Hx.
    assert (S1 : forall A B (m : K A) (g : A -> K B), steps m <= steps (kbind m g))
      by (intros A B [c [a|]] g; cbn; [destruct (g a); cbn|]; lia).
    assert (R1 : forall A B (m : K A) (g : A -> K B) b, result (kbind m g) = Ok b -> exists a, result m = Ok a)
      by (intros A B [c [a|]] g b; cbn; [eauto|discriminate]).
    assert (M : forall rv, (exists t, result (k_terms_naive E x y e cm rv) = Ok t) -> 2 * (shape0 x * shape0 x) <= steps (k_terms_naive E x y e cm rv))
      by (intros rv [t Ht]; exact (terms_naive_least E x y e cm rv t Ht)).
    destruct f; cbn [k_call] in *;
      unfold k_distance_covariance, k_distance_correlation, k_distance_covariance_sqr, k_distance_correlation_sqr, k_u_distance_covariance_sqr,
        k_u_distance_correlation_sqr, k_dcov_sqr, k_stats_sqr in *; cbn [k_method_terms] in *;
      repeat match goal with |- _ <= steps (kbind _ _) => eapply Nat.le_trans; [|apply S1] end; apply M;
      repeat match goal with H : result (kbind _ _) = Ok _ |- _ => apply R1 in H as [? H] end; eauto.
Qed.

(** With a sorting routine that takes O(n log n) steps, the fast methods beat NAIVE by any factor on all samples that are
    large enough. *)
Lemma log_lt_lin c : exists n0, forall n, n0 <= n -> c * (Nat.log2_up n + 1) <= n.
Proof.
  exists (Nat.pow 2 (2 * c + 4)). intros n Hn.
  assert (N0 : 1 < n).
  { pose proof (Nat.pow_gt_lin_r 2 (2 * c + 4)). lia. }
  destruct (Nat.log2_up_spec n N0) as [A _]. set (L := Nat.log2_up n) in *.
  assert (HL : 2 * c + 4 <= L).
  { unfold L. rewrite <- (Nat.log2_up_pow2 (2 * c + 4)) by lia. apply Nat.log2_up_le_mono. exact Hn. }
  clearbody L. destruct L as [|l]; [lia|]. cbn [Nat.pred] in A.
  assert (P : forall k, 2 * c + 3 <= k -> c * (S k + 1) <= 2 ^ k).
  { intros k Hk. replace k with ((2 * c + 3) + (k - (2 * c + 3))) by lia. generalize (k - (2 * c + 3)). intros d.
    induction d as [|d IH].
    - rewrite Nat.add_0_r. clear. induction c as [|c IH]; [cbn; lia|].
      replace (2 * S c + 3) with (S (S (2 * c + 3))) by lia. cbn [Nat.pow]. pose proof (Nat.pow_gt_lin_r 2 (2 * c + 3)). nia.
    - replace (2 * c + 3 + S d) with (S (2 * c + 3 + d)) by lia. cbn [Nat.pow].
      assert (c <= 2 ^ (2 * c + 3 + d)) by (pose proof (Nat.pow_gt_lin_r 2 (2 * c + 3 + d)); lia). nia. }
  specialize (P l ltac:(lia)). lia.
Qed.
Theorem C66_fast_beats_naive {T} (E : Env T) sort c factor : shape_env E -> (forall n, sort n <= c * (n * (Nat.log2_up n + 1))) ->
  exists n0, forall f x y e cm n v, n0 <= n -> wf x -> wf y -> shape0 x = n -> shape0 y = n -> call f E x y e MNaive cm = Ok v ->
    factor * steps (k_call f E sort x y e MAvl cm) <= steps (k_call f E sort x y e MNaive cm) /\
    factor * steps (k_call f E sort x y e MMergesort cm) <= steps (k_call f E sort x y e MNaive cm).
Proof.
  intros HE Hs. destruct (log_lt_lin (factor * (3 * c + 152))) as [n0 H0]. exists (n0 + 1). intros f x y e cm n v Hn Wx Wy Hx Hy Hv.
  specialize (H0 n ltac:(lia)). destruct (C66_naive_steps E sort f x y e cm n Hx Hy) as [_ L]. specialize (L v Hv).
  pose proof (C66_avl_steps E sort f x y e cm n HE Wx Wy Hx Hy) as A. pose proof (C66_mergesort_steps E sort f x y e cm n HE Wx Wy Hx Hy ltac:(lia)) as B.
  specialize (Hs n). set (l := Nat.log2_up n) in *. clearbody l.
  set (sa := steps (k_call f E sort x y e MAvl cm)) in *. set (sm := steps (k_call f E sort x y e MMergesort cm)) in *.
  set (sn := steps (k_call f E sort x y e MNaive cm)) in *. clearbody sa sm sn.
  assert (A' : sa <= (3 * c + 152) * (n * (l + 1))) by nia. assert (B' : sm <= (3 * c + 152) * (n * (l + 1))) by nia.
  assert (F : factor * ((3 * c + 152) * (n * (l + 1))) <= n * n) by (replace (factor * ((3 * c + 152) * (n * (l + 1)))) with (n * (factor * (3 * c + 152) * (l + 1))) by ring; apply Nat.mul_le_mono_l; exact H0).
  split; (eapply Nat.le_trans; [apply Nat.mul_le_mono_l; eassumption|lia]).
Qed.

(** Examples: sixteen observations in double precision, with a sort of [n * log2 n] steps.  All hypotheses hold, the
    three methods return a number, and these are the counts. *)
Definition nlogn (n : nat) : nat := n * Nat.log2_up n.
Lemma nlogn_ok n : nlogn n <= 1 * (n * (Nat.log2_up n + 1)).
Proof. unfold nlogn. nia. Qed.
Definition squares (n : nat) : array b64 := ints (map (fun i => Z.of_nat ((i * i) mod 23)) (seq 0 n)).
Definition sevens (n : nat) : array b64 := ints (map (fun i => Z.of_nat ((7 * i) mod 19)) (seq 0 n)).
Example C66_example_counts : forall m, In m [MNaive; MAvl; MMergesort; MAuto] ->
  (match call DcovSqr env_F (squares 16) (sevens 16) (b64_ofZ 1) m CNoCompile with Ok _ => true | Err _ => false end) = true /\
  steps (k_call DcovSqr env_F nlogn (squares 16) (sevens 16) (b64_ofZ 1) m CNoCompile)
  = match m with MNaive => 2368 | MMergesort => 1489 | _ => 3836 end.
Proof. intros m [<-|[<-|[<-|[<-|[]]]]]; split; vm_compute; reflexivity. Qed.
Example C66_example_hypotheses : shape_env env_F /\ wf (squares 16) /\ wf (sevens 16) /\ shape0 (squares 16) = 16 /\ shape0 (sevens 16) = 16 /\
  univariate (squares 16) /\ neqb (e_num env_F) (b64_ofZ 1) (nunit (e_num env_F)) = true.
Proof. split; [exact (fshape plain env_F env_F_valid)|]. repeat split. Qed.
Example C66_example_beats : exists n0, forall f x y e cm n v, n0 <= n -> wf x -> wf y -> shape0 x = n -> shape0 y = n ->
  call f env_F x y e MNaive cm = Ok v ->
  1000 * steps (k_call f env_F nlogn x y e MAvl cm) <= steps (k_call f env_F nlogn x y e MNaive cm) /\
  1000 * steps (k_call f env_F nlogn x y e MMergesort cm) <= steps (k_call f env_F nlogn x y e MNaive cm).
Proof. apply (C66_fast_beats_naive env_F nlogn 1 1000 (fshape plain env_F env_F_valid) nlogn_ok). Qed.
