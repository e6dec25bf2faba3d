(** Refinement at the level of the API: every accepted call returns the textbook value. *)
From Coq Require Import Reals Lra Lia List Arith Bool ZArith.
From Verif Require Import Num Numpy MUtils MDistances MInternals MMergesort MAvl MDcor Sums Spec Tab
  Samples Centering Invariance RefDist RefDyad RefAvl RefMerge RefMergeTerms.
Import ListNotations.
Local Open Scope R_scope.

Lemma not_forced_impls cm : not_forced cm -> impls cm = Some [true; false] /\ is_auto cm = true \/
  impls cm = Some [false] /\ is_auto cm = false.
Proof. intros [->| ->]; auto. Qed.

Lemma distances_1 x i j : univariate x -> distances 1 x i j = Rabs (obs x i 0 - obs x j 0).
Proof.
  intros Hx. unfold distances, dmat. rewrite Hx, dist_1. apply rpow_1, Rabs_pos.
Qed.

Lemma terms_ok_ext n a b a' b' rv t :
  (forall i j, (i < n)%nat -> (j < n)%nat -> a i j = a' i j) ->
  (forall i j, (i < n)%nat -> (j < n)%nat -> b i j = b' i j) ->
  terms_ok n a b rv t -> terms_ok n a' b' rv t.
Proof.
  intros Ha Hb (H1 & H2 & H3 & H4 & H5 & H6). unfold terms_ok.
  rewrite H1, H2, H3, H4, H5.
  split; [apply rsum2_ext; intros; rewrite Ha, Hb by auto; auto|].
  split; [apply tab_ext; intros; apply rsum_ext; intros; auto|].
  split; [apply rsum2_ext; auto|].
  split; [apply tab_ext; intros; apply rsum_ext; intros; auto|].
  split; [apply rsum2_ext; auto|].
  intros Hr. destruct (H6 Hr) as [-> ->].
  split; f_equal; apply rsum2_ext; intros; rewrite ?Ha, ?Hb by auto; auto.
Qed.

Section Api.
  Variable E : Env R.
  Hypothesis HE : valid_env E.
  Let HN : e_num E = RNum := ve_num E HE.

  (** The outcome of trying implementations. *)
  Lemma try_impls_auto w impl t :
    (impl true = Ok t \/ impl true = Err TypeError /\ impl false = Ok t) ->
    outcome (try_impls (T:=R) w true impl [true; false]) = Ok t.
  Proof.
    intros [H|[H1 H2]]; unfold try_impls.
    - rewrite H. reflexivity.
    - rewrite H1, H2. reflexivity.
  Qed.

  Lemma try_impls_one w a impl c t : impl c = Ok t ->
    outcome (try_impls (T:=R) w a impl [c]) = Ok t.
  Proof. intros H. unfold try_impls. rewrite H. reflexivity. Qed.

  Lemma is_f64_spec d : is_f64 d = true <-> d = F64.
  Proof. destruct d; simpl; split; intros; congruence. Qed.

  Section Call.
    Variables (x y : array R) (n : nat).
    Hypothesis Hx : wf x.
    Hypothesis Hy : wf y.
    Hypothesis Hnx : shape0 x = n.
    Hypothesis Hny : shape0 y = n.
    Hypothesis Hn : (1 <= n)%nat.

    Lemma distances_sym e (z : array R) : symmetric n (distances e z).
    Proof. apply dmat_symmetric. Qed.
    Lemma distances_hollow e (z : array R) : hollow n (distances e z).
    Proof. apply dmat_hollow. Qed.

    Lemma terms_avl_ok cm rv : accepts_avl cm x y 1 ->
      exists t, outcome (terms_avl E x y 1 cm rv) = Ok t /\
        terms_ok n (distances 1 x) (distances 1 y) rv t.
    Proof.
      intros (_ & Hux & Huy & Hax & Hn4 & Hcm). apply some_together in Hax. rewrite Hnx in Hn4.
      unfold terms_avl. rewrite HN. cbn [neqb nunit RNum]. rewrite Reqb_refl. cbn [negb].
      rewrite !transform_to_1d_tab by auto. rewrite Hnx, Hny, Hax.
      assert (forall c oob k kv, exists t,
        terms_avl_impl E c oob k kv (tab n (fun i => obs x i 0)) (tab n (fun i => obs y i 0)) rv = Ok t /\
        terms_ok n (distances 1 x) (distances 1 y) rv t) as Himpl.
      { intros c oob k kv.
        destruct (terms_avl_impl_ok E HE n (fun i => obs x i 0) (fun i => obs y i 0) Hn4 c oob k kv rv)
          as (t & H1 & _ & _ & H2).
        exists t. split; [exact H1|]. eapply terms_ok_ext; [| |exact H2];
          intros; symmetry; apply distances_1; auto. }
      destruct (Himpl true UndefinedBehaviour AllPy AllPy) as (tc & Hc1 & Hc2).
      destruct (Himpl false IndexError AllNumpy AllNumpy) as (tp & Hp1 & Hp2).
      rewrite !outcome_bind. cbn [outcome lift snd]. rewrite outcome_bind. cbn [outcome lift snd].
      destruct Hcm as [Hcm|(-> & Hfx & Hfy)].
      - destruct (not_forced_impls cm Hcm) as [[-> ->]|[-> ->]].
        + destruct (is_f64 (adt x) && is_f64 (adt y)) eqn:Hf.
          * exists tc. split; auto. apply try_impls_auto. left. unfold avl_impl. rewrite Hf, (seq_env_R E HN). exact Hc1.
          * exists tp. split; auto. apply try_impls_auto. right. unfold avl_impl. rewrite Hf. auto.
        + exists tp. split; auto. apply try_impls_one. exact Hp1.
      - exists tc. split; auto. cbn [impls is_auto]. apply try_impls_one. unfold avl_impl.
        rewrite Hfx, Hfy, (seq_env_R E HN). exact Hc1.
    Qed.

    Lemma terms_mergesort_ok cm rv : accepts_mergesort cm x y 1 ->
      exists q t, perm_on n q /\ outcome (terms_mergesort E x y 1 cm rv) = Ok t /\
        terms_ok n (relabel q (distances 1 x)) (relabel q (distances 1 y)) rv t.
    Proof.
      intros (_ & Hux & Huy & Hax & Hcm). apply some_together in Hax.
      unfold terms_mergesort. rewrite HN. cbn [neqb nunit RNum]. rewrite Reqb_refl. cbn [negb].
      rewrite !transform_to_1d_tab by auto. rewrite Hnx, Hny, Hax.
      assert (forall oob k kv, exists q t, perm_on n q /\
        terms_mergesort_impl E oob true k kv (tab n (fun i => obs x i 0)) (tab n (fun i => obs y i 0)) rv = Ok t /\
        terms_ok n (relabel q (distances 1 x)) (relabel q (distances 1 y)) rv t) as Himpl.
      { intros oob k kv.
        destruct (terms_mergesort_impl_ok E HE oob n (fun i => obs x i 0) (fun i => obs y i 0) Hn k kv rv)
          as (q & t & H0 & H1 & _ & _ & H2).
        exists q, t. split; [exact H0|]. split; [exact H1|]. eapply terms_ok_ext; [| |exact H2];
          intros; symmetry; apply distances_1; auto. }
      destruct (Himpl UndefinedBehaviour AllPy AllPy) as (qc & tc & Hc0 & Hc1 & Hc2).
      destruct (Himpl IndexError MeanProdPy AllNumpy) as (qp & tp & Hp0 & Hp1 & Hp2).
      rewrite !outcome_bind. cbn [outcome lift snd]. rewrite outcome_bind. cbn [outcome lift snd].
      destruct Hcm as [[Hcm Hd]|(-> & Hfx & Hfy)].
      - assert (mergesort_impl E false (adt x) (adt y) (tab n (fun i => obs x i 0)) (tab n (fun i => obs y i 0)) rv = Ok tp) as Hpy.
        { unfold mergesort_impl. destruct Hd as (Hox & Hoy & Hd). unfold is_object in Hox, Hoy.
          assert (is_obj (adt x) = false) as -> by (destruct (adt x); auto; exfalso; eapply Hox; eauto).
          assert (is_obj (adt y) = false) as -> by (destruct (adt y); auto; exfalso; eapply Hoy; eauto).
          assert (weights_cast_ok (adt x) (adt y) = true) as ->
            by (destruct (adt x), (adt y); simpl in *; auto; contradiction).
          exact Hp1. }
        destruct (not_forced_impls cm Hcm) as [[-> ->]|[-> ->]].
        + destruct (is_f64 (adt x) && is_f64 (adt y)) eqn:Hf.
          * exists qc, tc. split; auto. split; auto. apply try_impls_auto. left.
            unfold mergesort_impl. rewrite Hf, (seq_env_R E HN). exact Hc1.
          * exists qp, tp. split; auto. split; auto. apply try_impls_auto. right. split; [|exact Hpy].
            unfold mergesort_impl. rewrite Hf. reflexivity.
        + exists qp, tp. split; auto. split; auto. apply try_impls_one. exact Hpy.
      - exists qc, tc. split; auto. split; auto. cbn [impls is_auto]. apply try_impls_one.
        unfold mergesort_impl. rewrite Hfx, Hfy, (seq_env_R E HN). exact Hc1.
    Qed.

    Lemma relabel_id a : relabel (fun i => i) a = a.
    Proof. reflexivity. Qed.
    Lemma perm_on_id : perm_on n (fun i => i).
    Proof. split; auto. Qed.

    Lemma fast_case_spec e :
      is_numpy (together x y) && can_use_fast_algorithm E x y e = true
      <-> fast_case x y e.
    Proof.
      unfold fast_case, can_use_fast_algorithm, univariate, ncols.
      assert (is_random_variable (adata x) = true <-> match adata x with Vec _ => 1%nat | Mat c _ => c end = 1%nat) as Rx
        by (destruct (adata x); simpl; [tauto|apply Nat.eqb_eq]).
      assert (is_random_variable (adata y) = true <-> match adata y with Vec _ => 1%nat | Mat c _ => c end = 1%nat) as Ry
        by (destruct (adata y); simpl; [tauto|apply Nat.eqb_eq]).
      rewrite !andb_true_iff, Rx, Ry, !Nat.ltb_lt, HN, Hnx, Hny. cbn [neqb nunit RNum].
      assert (Reqb e 1 = true <-> e = 1) as ->
        by (destruct (Reqb_spec e 1); split; intros; congruence).
      assert (forall s, is_numpy s = true <-> s = Numpy) as Hs
        by (intros []; simpl; split; intros; congruence).
      rewrite !Hs, some_together. split; [intros (?&((((?&?)&?)&?)&?))|intros (?&?&?&?&?)]; repeat split; auto; lia.
    Qed.

    Lemma method_terms_ok m e cm rv : 0 < e -> accepts m cm x y e ->
      exists q t, perm_on n q /\ outcome (method_terms E m x y e cm rv) = Ok t /\
        terms_ok n (relabel q (distances e x)) (relabel q (distances e y)) rv t.
    Proof.
      intros He Hacc.
      assert (not_forced cm -> exists q t, perm_on n q /\ outcome (dcov_terms_naive E x y e cm rv) = Ok t /\
        terms_ok n (relabel q (distances e x)) (relabel q (distances e y)) rv t) as Hnaive.
      { intros Hcm. destruct (naive_terms E HN x y e cm rv n Hx Hy He Hnx Hny Hcm) as (t & H1 & _ & _ & H2).
        exists (fun i => i), t. split; [apply perm_on_id|]. split; auto. }
      assert (forall e, accepts_avl cm x y e -> exists q t, perm_on n q /\ outcome (terms_avl E x y e cm rv) = Ok t /\
        terms_ok n (relabel q (distances e x)) (relabel q (distances e y)) rv t) as Havl.
      { intros e' Ha. assert (e' = 1) as -> by apply Ha.
        destruct (terms_avl_ok cm rv Ha) as (t & H1 & H2).
        exists (fun i => i), t. split; [apply perm_on_id|]. split; auto. }
      destruct m; cbn [method_terms accepts] in *.
      - (* AUTO *) unfold terms_auto.
        destruct (is_numpy (together x y) && can_use_fast_algorithm E x y e) eqn:Hf.
        + apply Havl. apply fast_case_spec in Hf. destruct Hf as (?&?&?&?&?).
          unfold accepts_avl. repeat split; auto. tauto.
        + destruct Hacc as [H|[H _]]; [apply Hnaive; exact H|].
          apply fast_case_spec in H. congruence.
      - apply Hnaive. exact Hacc.
      - apply Havl. exact Hacc.
      - assert (e = 1) as -> by apply Hacc. apply terms_mergesort_ok. exact Hacc.
    Qed.

    Lemma relabel_sym q e z : perm_on n q -> symmetric n (relabel q (distances e z)).
    Proof. intros [H _] i j Hi Hj. unfold relabel. apply distances_sym; auto. Qed.
    Lemma relabel_hollow q e z : perm_on n q -> hollow n (relabel q (distances e z)).
    Proof. intros [H _] i Hi. unfold relabel. apply distances_hollow; auto. Qed.

    Theorem dcov_sqr_ok m e cm : 0 < e -> accepts m cm x y e ->
      outcome (distance_covariance_sqr E x y e (MethodEnum m) cm)
      = Ok (dcov2 n (distances e x) (distances e y)).
    Proof.
      intros He Hacc. destruct (method_terms_ok m e cm false He Hacc) as (q & t & Hq & H1 & H2).
      unfold distance_covariance_sqr, algo_dcov_sqr. rewrite !outcome_bind. cbn [outcome lift snd to_algorithm].
      rewrite outcome_bind, H1, Hnx. cbn [outcome lift snd].
      rewrite (terms_dcov_V E HN _ n _ _ _ t Hn (relabel_sym q e x Hq) (relabel_sym q e y Hq) H2).
      rewrite dcov2_relabel by auto. reflexivity.
    Qed.

    Theorem u_dcov_sqr_ok m e cm : 0 < e -> (4 <= n)%nat -> accepts m cm x y e ->
      outcome (u_distance_covariance_sqr E x y e (MethodEnum m) cm)
      = Ok (udcov2 n (distances e x) (distances e y)).
    Proof.
      intros He Hn4 Hacc. destruct (method_terms_ok m e cm false He Hacc) as (q & t & Hq & H1 & H2).
      unfold u_distance_covariance_sqr, algo_dcov_sqr. rewrite !outcome_bind. cbn [outcome lift snd to_algorithm].
      rewrite outcome_bind, H1, Hnx. cbn [outcome lift snd].
      rewrite (terms_dcov_U E HN _ n _ _ _ t Hn4 (relabel_sym q e x Hq) (relabel_sym q e y Hq)
                 (relabel_hollow q e x Hq) (relabel_hollow q e y Hq) H2).
      rewrite udcov2_relabel by auto. reflexivity.
    Qed.

    Lemma sqrt_clamp_R v : sqrt_clamp RNum v = sqrt v.
    Proof.
      unfold sqrt_clamp. cbn [nsqrt nltb nzero RNum]. destruct (Rltb_spec v 0); auto.
      rewrite sqrt_0, sqrt_neg_0 by lra. reflexivity.
    Qed.

    Lemma correlation_of_ok cov vx vy : 0 <= vx -> 0 <= vy ->
      correlation_of E cov vx vy = corr cov vx vy.
    Proof.
      intros H1 H2. unfold correlation_of, corr. rewrite HN, sqrt_clamp_R. cbn [nabs nmul neqb nzero ndiv RNum].
      rewrite Rabs_pos_eq by (apply Rmult_le_pos; auto).
      pose proof (Rmult_le_pos _ _ H1 H2) as Hp.
      destruct (Reqb_spec (sqrt (vx * vy)) 0) as [He|He]; destruct (Req_EM_T (vx * vy) 0) as [Hz|Hz]; auto.
      - apply sqrt_eq_0 in He; auto. contradiction.
      - rewrite Hz, sqrt_0 in He. contradiction.
    Qed.

    Definition stats2 (a b : nat -> nat -> R) : Stats R :=
      mkStats (dcov2 n a b) (dcor2 n a b) (dcov2 n a a) (dcov2 n b b).
    Definition ustats2 (a b : nat -> nat -> R) : Stats R :=
      mkStats (udcov2 n a b) (udcor2 n a b) (udcov2 n a a) (udcov2 n b b).

    Lemma algo_stats_ok m e cm : 0 < e -> accepts m cm x y e ->
      outcome (algo_stats_sqr E m x y e cm false) = Ok (stats2 (distances e x) (distances e y)).
    Proof.
      intros He Hacc. destruct (method_terms_ok m e cm true He Hacc) as (q & t & Hq & H1 & H2).
      unfold algo_stats_sqr. rewrite outcome_bind, H1, Hnx. cbv zeta.
      destruct (terms_dvar_V E HN (t_vkind t) n _ _ t Hn (relabel_sym q e x Hq) (relabel_sym q e y Hq) H2)
        as (mpa & mpb & Ha & Hb & Hva & Hvb).
      rewrite Ha, Hb. rewrite Hva, Hvb.
      rewrite (terms_dcov_V E HN _ n _ _ _ t Hn (relabel_sym q e x Hq) (relabel_sym q e y Hq) H2).
      rewrite !outcome_bind. cbn [outcome lift snd]. rewrite !outcome_bind. cbn [outcome lift snd].
      rewrite !outcome_bind. cbn [outcome lift snd ret].
      rewrite correlation_of_ok by apply dvar_nonneg.
      unfold stats2, dcor2. rewrite !dcov2_relabel by auto. reflexivity.
    Qed.

    Lemma u_algo_stats_ok m e cm : 0 < e -> (4 <= n)%nat -> accepts m cm x y e ->
      outcome (algo_stats_sqr E m x y e cm true) = Ok (ustats2 (distances e x) (distances e y)).
    Proof.
      intros He Hn4 Hacc. destruct (method_terms_ok m e cm true He Hacc) as (q & t & Hq & H1 & H2).
      unfold algo_stats_sqr. rewrite outcome_bind, H1, Hnx. cbv zeta.
      destruct (terms_dvar_U E HN (t_vkind t) n _ _ t Hn4 (relabel_sym q e x Hq) (relabel_sym q e y Hq)
                  (relabel_hollow q e x Hq) (relabel_hollow q e y Hq) H2)
        as (mpa & mpb & Ha & Hb & Hva & Hvb).
      rewrite Ha, Hb. rewrite Hva, Hvb.
      rewrite (terms_dcov_U E HN _ n _ _ _ t Hn4 (relabel_sym q e x Hq) (relabel_sym q e y Hq)
                 (relabel_hollow q e x Hq) (relabel_hollow q e y Hq) H2).
      rewrite !outcome_bind. cbn [outcome lift snd]. rewrite !outcome_bind. cbn [outcome lift snd].
      rewrite !outcome_bind. cbn [outcome lift snd ret].
      rewrite correlation_of_ok by (apply udvar_nonneg; auto).
      unfold ustats2, udcor2. rewrite !udcov2_relabel by auto. reflexivity.
    Qed.

    Theorem dcov_ok m e cm : 0 < e -> accepts m cm x y e ->
      outcome (distance_covariance E x y e (MethodEnum m) cm)
      = Ok (sqrt (dcov2 n (distances e x) (distances e y))).
    Proof.
      intros He Hacc. unfold distance_covariance. rewrite outcome_bind, dcov_sqr_ok by auto.
      cbn [outcome ret snd]. rewrite HN, sqrt_clamp_R. reflexivity.
    Qed.

    Theorem stats_sqr_ok m e cm : 0 < e -> accepts m cm x y e ->
      outcome (distance_stats_sqr E x y e (MethodEnum m) cm) = Ok (stats2 (distances e x) (distances e y)).
    Proof.
      intros He Hacc. unfold distance_stats_sqr. rewrite outcome_bind. cbn [outcome lift snd to_algorithm].
      apply algo_stats_ok; auto.
    Qed.

    Theorem u_stats_sqr_ok m e cm : 0 < e -> (4 <= n)%nat -> accepts m cm x y e ->
      outcome (u_distance_stats_sqr E x y e (MethodEnum m) cm) = Ok (ustats2 (distances e x) (distances e y)).
    Proof.
      intros He Hn4 Hacc. unfold u_distance_stats_sqr. rewrite outcome_bind. cbn [outcome lift snd to_algorithm].
      apply u_algo_stats_ok; auto.
    Qed.

    Theorem stats_ok m e cm : 0 < e -> accepts m cm x y e ->
      outcome (distance_stats E x y e (MethodEnum m) cm)
      = Ok (mkStats (sqrt (dcov2 n (distances e x) (distances e y)))
                    (sqrt (dcor2 n (distances e x) (distances e y)))
                    (sqrt (dcov2 n (distances e x) (distances e x)))
                    (sqrt (dcov2 n (distances e y) (distances e y)))).
    Proof.
      intros He Hacc. unfold distance_stats. rewrite outcome_bind, stats_sqr_ok by auto.
      cbn [outcome ret snd]. rewrite HN, !sqrt_clamp_R. reflexivity.
    Qed.

    Theorem dcor_sqr_ok m e cm : 0 < e -> accepts m cm x y e ->
      outcome (distance_correlation_sqr E x y e (MethodEnum m) cm)
      = Ok (dcor2 n (distances e x) (distances e y)).
    Proof.
      intros He Hacc. unfold distance_correlation_sqr. rewrite outcome_bind. cbn [outcome lift snd to_algorithm].
      rewrite outcome_bind, algo_stats_ok by auto. reflexivity.
    Qed.

    Theorem u_dcor_sqr_ok m e cm : 0 < e -> (4 <= n)%nat -> accepts m cm x y e ->
      outcome (u_distance_correlation_sqr E x y e (MethodEnum m) cm)
      = Ok (udcor2 n (distances e x) (distances e y)).
    Proof.
      intros He Hn4 Hacc. unfold u_distance_correlation_sqr. rewrite outcome_bind. cbn [outcome lift snd to_algorithm].
      rewrite outcome_bind, u_algo_stats_ok by auto. reflexivity.
    Qed.

    Theorem dcor_ok m e cm : 0 < e -> accepts m cm x y e ->
      outcome (distance_correlation E x y e (MethodEnum m) cm)
      = Ok (sqrt (dcor2 n (distances e x) (distances e y))).
    Proof.
      intros He Hacc. unfold distance_correlation. rewrite outcome_bind, dcor_sqr_ok by auto.
      cbn [outcome ret snd]. rewrite HN, sqrt_clamp_R. reflexivity.
    Qed.
  End Call.
End Api.
