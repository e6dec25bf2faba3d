(** Calls of the six scalar functions as "terms, then a formula": facts valid for every number
    type, used by PMethods.v. *)
From Coq Require Import Lia List Arith Bool ZArith.
From Verif Require Import Num Numpy MUtils MDistances MInternals MMergesort MAvl MDcor Sums Tab Samples Api
  RefDist AvlGeneric MergeGeneric DyadGeneric.
Import ListNotations.
Local Open Scope monad_scope.

Definition wants_var (f : api) : bool :=
  match f with DcovSqr | Dcov | UDcovSqr => false | _ => true end.
Definition corrected (f : api) : bool :=
  match f with UDcovSqr | UDcorSqr => true | _ => false end.

Section Calls.
  Context {T : Type} (E : Env T).
  Let N := e_num E.

  (** From the terms to the returned number. *)
  Definition finish (f : api) (n : nat) (t : terms (T:=T)) : res T :=
    let cov := dcov_from_terms E (t_kind t) (t_mean_prod t) (t_a_axis t) (t_a_total t)
                 (t_b_axis t) (t_b_total t) n (corrected f) in
    let var o ax tot := dcov_from_terms E (t_vkind t) (match o with Some v => v | None => nzero N end)
                 ax tot ax tot n (corrected f) in
    let post v := match f with Dcov | Dcor => sqrt_clamp N v | _ => v end in
    if wants_var f then
      let? c := cov in
      let? vx := var (t_mp_a t) (t_a_axis t) (t_a_total t) in
      let? vy := var (t_mp_b t) (t_b_axis t) (t_b_total t) in
      Ok (post (correlation_of E c vx vy))
    else let? c := cov in Ok (post c).

  Lemma outcome_lift {A} (r : res A) : outcome (lift r) = r.
  Proof. reflexivity. Qed.
  Lemma outcome_ret {A} (a : A) : outcome (ret a) = Ok a.
  Proof. reflexivity. Qed.
  Lemma outcome_raise {A} e : outcome (@raise A e) = Err e.
  Proof. reflexivity. Qed.

  Lemma bind_ok {A B} (a : A) (f : A -> M B) : bind (lift (Ok a)) f = f a.
  Proof. unfold bind, lift. destruct (f a). reflexivity. Qed.
  Lemma bind_err {A B} e (f : A -> M B) : bind (lift (Err e)) f = raise e.
  Proof. reflexivity. Qed.

  Lemma call_terms f x y e m cm :
    call f E x y e m cm
    = rbind (outcome (method_terms E m x y e cm (wants_var f))) (finish f (shape0 x)).
  Proof.
    unfold call, outcome.
    destruct f; cbn [api_fn wants_var]; unfold distance_covariance, distance_covariance_sqr, u_distance_covariance_sqr,
      distance_correlation, distance_correlation_sqr, u_distance_correlation_sqr, algo_dcov_sqr, algo_stats_sqr, finish;
      unfold N; cbn [to_algorithm wants_var corrected]; unfold bind, lift, ret; cbn;
      destruct (method_terms E m x y e cm _) as [ws [t|]]; cbn; auto;
      repeat match goal with |- context [dcov_from_terms E ?k ?a ?b ?c ?d ?g ?n ?bc] =>
        destruct (dcov_from_terms E k a b c d g n bc); cbn; auto end.
  Qed.

  Lemma from_terms_kind k k' mp aa at_ ba bt n (bc : bool) :
    (if bc then 4 <= n else 1 <= n) ->
    dcov_from_terms E k mp aa at_ ba bt n bc = dcov_from_terms E k' mp aa at_ ba bt n bc.
  Proof.
    intros Hn. unfold dcov_from_terms. destruct (np_dot _ _ _); cbn [rbind]; auto.
    assert (forall kk : pykind,
      match kk with
      | AllNumpy => false
      | MeanProdPy => (Z.of_nat n =? 0)%Z || ((if bc then Z.of_nat n - 3 else Z.of_nat n) =? 0)%Z
      | AllPy => (Z.of_nat n =? 0)%Z || ((if bc then Z.of_nat n - 3 else Z.of_nat n) =? 0)%Z
          || ((if bc then (Z.of_nat n - 1) * (Z.of_nat n - 2) * (Z.of_nat n - 3) else Z.of_nat n ^ 3) =? 0)%Z
      end = false) as Hz.
    { intros kk.
      assert (forall z : Z, z <> 0%Z -> (z =? 0)%Z = false) as Hq by (intros; apply Z.eqb_neq; auto).
      destruct bc, kk; auto; rewrite !Hq; auto; nia. }
    rewrite !Hz. reflexivity.
  Qed.

  Lemma finish_kind f n k kv t : min_size f <= n -> 1 <= n -> finish f n (set_kind k kv t) = finish f n t.
  Proof.
    intros Hm Hn. unfold finish, set_kind. cbn [t_kind t_mean_prod t_a_axis t_a_total t_b_axis t_b_total t_vkind t_mp_a t_mp_b].
    assert (if corrected f then 4 <= n else 1 <= n) as Hc by (destruct f; cbn in *; auto).
    rewrite !(from_terms_kind k (t_kind t)) by auto.
    rewrite !(from_terms_kind kv (t_vkind t)) by auto. reflexivity.
  Qed.

  (** Post-processing raises nothing but ValueError or ZeroDivisionError. *)
  Lemma from_terms_err k mp aa at_ ba bt n bc ex :
    dcov_from_terms E k mp aa at_ ba bt n bc = Err ex -> ex = ValueError \/ ex = ZeroDivisionError.
  Proof.
    unfold dcov_from_terms, np_dot. destruct (_ =? _); cbn [rbind]; [|intros [= <-]; auto].
    destruct k; cbn beta iota; try destruct (_ || _); intros [= <-]; auto.
  Qed.

  Lemma finish_err f n t ex : finish f n t = Err ex -> ex = ValueError \/ ex = ZeroDivisionError.
  Proof.
    unfold finish. destruct (wants_var f).
    - destruct (dcov_from_terms _ _ _ _ _ _ _ _ _) eqn:H1; cbn [rbind]; [|intros [= <-]; eapply from_terms_err; eauto].
      destruct (dcov_from_terms E (t_vkind t) _ (t_a_axis t) _ _ _ _ _) eqn:H2; cbn [rbind]; [|intros [= <-]; eapply from_terms_err; eauto].
      destruct (dcov_from_terms E (t_vkind t) _ (t_b_axis t) _ _ _ _ _) eqn:H3; cbn [rbind]; [|intros [= <-]; eapply from_terms_err; eauto].
      discriminate.
    - destruct (dcov_from_terms _ _ _ _ _ _ _ _ _) eqn:H1; cbn [rbind]; [discriminate|intros [= <-]; eapply from_terms_err; eauto].
  Qed.

  (** Compile modes that can run: plain or automatic, or forced with float64 data. *)
  Definition runs (cm : compile_mode) (x y : array T) : Prop := not_forced cm \/ forced_f64 cm x y.

  Lemma to_1d_length (x : array T) v : wf x -> transform_to_1d (adata x) = Ok v -> length v = shape0 x.
  Proof.
    destruct x as [s d [w|c rows]]; unfold wf, shape0; cbn; intros H Hv; [congruence|].
    destruct (Nat.eqb_spec c 1); [|discriminate]. injection Hv as <-. subst.
    induction H as [|r rows Hr H IH]; cbn; auto. rewrite app_length, IH. lia.
  Qed.

  Lemma to_1d_cases (x : array T) :
    (exists v, transform_to_1d (adata x) = Ok v) \/ transform_to_1d (adata x) = Err AssertionError.
  Proof. destruct x as [s d [w|c rows]]; cbn; eauto. destruct (c =? 1); eauto. Qed.

  Section Avl.
    Hypothesis HE : shape_env E.

    Lemma avl_small (E0 : Env T) k oob kk kv v w rv : ~ (4 <= length v /\ length v = length w) ->
      terms_avl_impl E0 k oob kk kv v w rv = Err AssertionError.
    Proof.
      intros H. unfold terms_avl_impl, get_impl_args.
      destruct (Nat.ltb_spec 3 (length v)); cbn [negb]; [|reflexivity].
      destruct (Nat.eqb_spec (length v) (length w)); cbn [negb]; [lia|reflexivity].
    Qed.

    Lemma seq_shape : shape_env (seq_env E).
    Proof. split; [exact (se_argsort E HE)|exact (se_empty E HE)]. Qed.

    (** The compiled implementation of the terms is the pure Python one with sums from left to right. *)
    Lemma avl_compiled v w rv oob k kv : nadd N (nzero N) (nzero N) = nzero N ->
      terms_avl_impl (seq_env E) true oob k kv v w rv = terms_avl_impl (seq_env E) false oob k kv v w rv.
    Proof.
      intros H00. destruct (le_lt_dec 4 (length v)) as [H4|H4];
        [destruct (Nat.eq_dec (length v) (length w)) as [Hl|Hl]|]; [|rewrite !avl_small by lia; reflexivity..].
      destruct (terms_avl_agree (seq_env E) seq_shape v w rv Hl H4) as (t & t' & Ht & H).
      destruct (H oob k kv) as [-> ->]. rewrite Ht by (split; [intros l; reflexivity|exact H00]). reflexivity.
    Qed.

    Definition compiles (cm : compile_mode) (x y : array T) : bool :=
      match cm with CNoCompile => false | _ => is_f64 (adt x) && is_f64 (adt y) end.

    (** The implementation a mode runs. *)
    Lemma avl_outcome x y e rv v w cm : neqb N e (nunit N) = true -> transform_to_1d (adata x) = Ok v ->
      transform_to_1d (adata y) = Ok w -> together x y = Numpy -> runs cm x y ->
      outcome (terms_avl E x y e cm rv)
      = if compiles cm x y then terms_avl_impl (seq_env E) true UndefinedBehaviour AllPy AllPy v w rv
        else terms_avl_impl E false IndexError AllNumpy AllNumpy v w rv.
    Proof.
      intros He Hv Hw Hs Hr. unfold terms_avl. fold N. rewrite He, Hv, Hw, Hs. cbn [negb]. rewrite !bind_ok.
      assert (Hnt : forall E0 c o k kv, shape_env E0 -> terms_avl_impl E0 c o k kv v w rv <> Err TypeError).
      { intros E0 c o k kv H0. destruct (le_lt_dec 4 (length v)) as [H4|H4];
          [destruct (Nat.eq_dec (length v) (length w)) as [Hl|Hl]|]; [|rewrite avl_small by lia; discriminate..].
        destruct (terms_avl_agree E0 H0 v w rv Hl H4) as (t & t' & _ & H). destruct (H o k kv) as [A B].
        destruct c; congruence. }
      pose proof (Hnt (seq_env E) true UndefinedBehaviour AllPy AllPy seq_shape) as N1.
      pose proof (Hnt E false IndexError AllNumpy AllNumpy HE) as N2.
      destruct Hr as [[->| ->]|(-> & Fx & Fy)]; cbn [impls is_auto try_impls compiles]; unfold avl_impl.
      - destruct (is_f64 (adt x) && is_f64 (adt y)).
        + destruct (terms_avl_impl _ _ _ _ _ _ _ _) as [t|[]] eqn:Hd; try reflexivity; congruence.
        + cbn. destruct (terms_avl_impl E false _ _ _ _ _ _) as [t|[]] eqn:Hd; try reflexivity; congruence.
      - destruct (terms_avl_impl E false _ _ _ _ _ _) as [t|[]] eqn:Hd; try reflexivity; congruence.
      - rewrite Fx, Fy. cbn [is_f64 andb].
        destruct (terms_avl_impl _ _ _ _ _ _ _ _) as [t|[]] eqn:Hd; try reflexivity; congruence.
    Qed.

    (** AVL: the same exception in every mode that can run, or the numbers of the compiled or of the pure Python
        implementation. *)
    Lemma avl_uniform x y e rv : wf x -> wf y ->
      (exists ex, (ex = ValueError \/ ex = AssertionError) /\
         forall cm, runs cm x y -> outcome (terms_avl E x y e cm rv) = Err ex) \/
      (4 <= shape0 x /\ shape0 y = shape0 x /\
       exists t t', (adds_in_order E -> t = t') /\
         forall cm, runs cm x y -> exists k kv, outcome (terms_avl E x y e cm rv) = Ok (set_kind k kv (if compiles cm x y then t else t'))).
    Proof.
      intros Wx Wy.
      destruct (neqb N e (nunit N)) eqn:He;
        [|left; exists ValueError; split; auto; intros cm _; unfold terms_avl; fold N; rewrite He; reflexivity].
      destruct (to_1d_cases x) as [[v Hv]|Hv];
        [|left; exists AssertionError; split; auto; intros cm _; unfold terms_avl; fold N; rewrite He, Hv; reflexivity].
      destruct (to_1d_cases y) as [[w Hw]|Hw];
        [|left; exists AssertionError; split; auto; intros cm _; unfold terms_avl; fold N; rewrite He, Hv, Hw; reflexivity].
      assert (length v = shape0 x) as Lv by (eapply to_1d_length; eauto).
      assert (length w = shape0 y) as Lw by (eapply to_1d_length; eauto).
      destruct (together x y) eqn:Hs;
        [|left; exists ValueError; split; auto; intros cm _; unfold terms_avl; fold N; rewrite He, Hv, Hw, Hs; reflexivity].
      destruct (le_lt_dec 4 (length v)) as [H4|H4]; [destruct (Nat.eq_dec (length v) (length w)) as [Hl|Hl]|].
      - right. split; [lia|]. split; [lia|].
        destruct (terms_avl_agree E HE v w rv Hl H4) as (t & t' & Ht & H).
        destruct (terms_avl_agree (seq_env E) seq_shape v w rv Hl H4) as (q & q' & _ & Q).
        exists (set_kind AllNumpy AllNumpy q), (set_kind AllNumpy AllNumpy t'). split.
        + intros HO. rewrite <- (Ht HO). destruct HO as [HS _]. rewrite (seq_env_sequential E HS) in Q.
          destruct (Q IndexError AllNumpy AllNumpy) as [Q1 _]. destruct (H IndexError AllNumpy AllNumpy) as [H1 _]. congruence.
        + intros cm Hr. rewrite (avl_outcome x y e rv v w cm) by auto.
          destruct (compiles cm x y); [destruct (Q UndefinedBehaviour AllPy AllPy) as [-> _]|destruct (H IndexError AllNumpy AllNumpy) as [_ ->]]; do 2 eexists; reflexivity.
      - left. exists AssertionError. split; auto. intros cm Hr. rewrite (avl_outcome x y e rv v w cm) by auto.
        destruct (compiles cm x y); apply avl_small; lia.
      - left. exists AssertionError. split; auto. intros cm Hr. rewrite (avl_outcome x y e rv v w cm) by auto.
        destruct (compiles cm x y); apply avl_small; lia.
    Qed.

    (** The other modes. *)
    Lemma avl_not_runs x y e cm rv : ~ runs cm x y ->
      exists ex, outcome (terms_avl E x y e cm rv) = Err ex /\
        (ex = ValueError \/ ex = AssertionError \/ ex = NotImplementedError \/ ex = TypeError).
    Proof.
      intros Hr. unfold terms_avl. fold N.
      destruct (neqb N e (nunit N)); cbn [negb]; [|exists ValueError; cbn; auto 8].
      destruct (to_1d_cases x) as [[v Hv]|Hv]; rewrite Hv, ?bind_ok, ?bind_err; [|exists AssertionError; cbn; auto 8].
      destruct (to_1d_cases y) as [[w Hw]|Hw]; rewrite Hw, ?bind_ok, ?bind_err; [|exists AssertionError; cbn; auto 8].
      destruct (together x y); [|exists ValueError; cbn; auto 8].
      destruct cm; cbn [impls is_auto].
      - exfalso. apply Hr. left. left. auto.
      - exfalso. apply Hr. left. right. auto.
      - exists TypeError. split; auto. cbn [try_impls]. unfold avl_impl.
        destruct (is_f64 (adt x) && is_f64 (adt y)) eqn:Hf; [|reflexivity].
        exfalso. apply Hr. right. apply andb_true_iff in Hf. unfold forced_f64, is_float64.
        destruct Hf as [F1 F2]. destruct (adt x), (adt y); try discriminate; auto.
      - exists NotImplementedError. cbn. auto 8.
    Qed.

    Lemma avl_cases x y e cm rv : wf x -> wf y ->
      (exists ex, outcome (terms_avl E x y e cm rv) = Err ex /\
        (ex = ValueError \/ ex = AssertionError \/ ex = NotImplementedError \/ ex = TypeError)) \/
      (4 <= shape0 x /\ shape0 y = shape0 x /\ exists t, outcome (terms_avl E x y e cm rv) = Ok t).
    Proof.
      intros Wx Wy. assert (runs cm x y \/ ~ runs cm x y) as [Hr|Hr].
      { unfold runs, not_forced, forced_f64, is_float64. destruct cm; auto.
        - destruct (adt x), (adt y); try (left; right; auto; fail); right; intuition congruence.
        - right. intuition congruence. }
      - destruct (avl_uniform x y e rv Wx Wy) as [(ex & Hex & H)|(H1 & H2 & t & t' & _ & H)].
        + left. exists ex. split; auto. tauto.
        + right. split; auto. split; auto. destruct (H cm Hr) as (k & kv & Ht). eauto.
      - left. apply avl_not_runs; auto.
    Qed.
  End Avl.

  Section Merge.
    Hypothesis HE : shape_env E.

    Lemma seq_shape' : shape_env (seq_env E).
    Proof. exact (seq_shape HE). Qed.

    (** MERGESORT on samples where [y] is at least as long as [x]. *)
    Lemma mergesort_cases x y e rv : wf x -> wf y -> 1 <= shape0 x -> shape0 x <= shape0 y ->
      forall cm,
      (exists ex, outcome (terms_mergesort E x y e cm rv) = Err ex /\
         (ex = ValueError \/ ex = AssertionError \/ ex = NotImplementedError \/ ex = TypeError \/ ex = AttributeError)) \/
      (exists t, outcome (terms_mergesort E x y e cm rv) = Ok t).
    Proof.
      intros Wx Wy H1 H2 cm. unfold terms_mergesort. fold N.
      destruct (neqb N e (nunit N)); cbn [negb]; [|left; exists ValueError; cbn; auto 8].
      destruct (to_1d_cases x) as [[v Hv]|Hv]; rewrite Hv, ?bind_ok, ?bind_err; [|left; exists AssertionError; cbn; auto 8].
      destruct (to_1d_cases y) as [[w Hw]|Hw]; rewrite Hw, ?bind_ok, ?bind_err; [|left; exists AssertionError; cbn; auto 8].
      assert (length v = shape0 x) as Lv by (eapply to_1d_length; eauto).
      assert (length w = shape0 y) as Lw by (eapply to_1d_length; eauto).
      destruct (together x y); [|left; exists ValueError; cbn; auto 8].
      destruct (terms_mergesort_agree E v w rv HE) as [t Ht]; [lia|lia|].
      destruct (terms_mergesort_agree (seq_env E) v w rv seq_shape') as [t' Ht']; [lia|lia|].
      assert (forall c, (exists t, mergesort_impl E c (adt x) (adt y) v w rv = Ok t) \/
                        mergesort_impl E c (adt x) (adt y) v w rv = Err TypeError \/
                        mergesort_impl E c (adt x) (adt y) v w rv = Err AttributeError) as Hi.
      { intros c. unfold mergesort_impl. destruct c.
        - destruct (_ && _); [|auto]. destruct (Ht' UndefinedBehaviour true AllPy AllPy) as [->|[? _]]; [eauto|discriminate].
        - destruct (_ || _); [auto|].
          destruct (Ht IndexError (weights_cast_ok (adt x) (adt y)) MeanProdPy AllNumpy) as [->|[_ ->]]; eauto. }
      rewrite ?bind_ok. destruct cm; cbn [impls is_auto try_impls].
      - destruct (Hi true) as [(t1 & ->)|[->| ->]].
        + right. exists t1. reflexivity.
        + destruct (Hi false) as [(t1 & ->)|[->| ->]].
          * right. exists t1. reflexivity.
          * left. exists TypeError. cbn. auto 8.
          * left. exists AttributeError. cbn. auto 8.
        + left. exists AttributeError. cbn. auto 8.
      - destruct (Hi false) as [(t1 & ->)|[->| ->]].
        + right. exists t1. reflexivity.
        + left. exists TypeError. cbn. auto 8.
        + left. exists AttributeError. cbn. auto 8.
      - destruct (Hi true) as [(t1 & ->)|[->| ->]].
        + right. exists t1. reflexivity.
        + left. exists TypeError. cbn. auto 8.
        + left. exists AttributeError. cbn. auto 8.
      - left. exists NotImplementedError. cbn. auto 8.
    Qed.
  End Merge.

  (** NAIVE raises NotImplementedError or ValueError only. *)
  Lemma pdist_ok s d c r e : exists m, pdist E s d c r e = Ok m /\ length m = length r /\
    Forall (fun row => length row = length r) m.
  Proof.
    assert (forall (g : list T -> list T -> T), length (map (fun u => map (g u) r) r) = length r /\
      Forall (fun row => length row = length r) (map (fun u => map (g u) r) r)) as H.
    { intros g. rewrite map_length. split; auto. apply Forall_forall. intros row Hr.
      apply in_map_iff in Hr. destruct Hr as (u & <- & _). apply map_length. }
    unfold pdist, cdist_scipy, cdist_naive. rewrite Nat.eqb_refl. cbn [orb].
    destruct (can_be_numpy_double E s d); eexists; (split; [reflexivity|apply H]).
  Qed.

  Lemma concat_square (m : list (list T)) n k : Forall (fun row => length row = n) m -> length m = k ->
    length (concat m) = k * n.
  Proof.
    intros H <-. induction H; cbn; auto. rewrite app_length. lia.
  Qed.

  Lemma rows_2d (x : array T) : length (snd (transform_to_2d (adata x))) = shape0 x.
  Proof. destruct x as [s d [v|c rows]]; unfold shape0; cbn; auto. apply map_length. Qed.

  Lemma naive_cases x y e cm rv :
    outcome (dcov_terms_naive E x y e cm rv) = Err NotImplementedError \/
    (if shape0 x =? shape0 y then exists t, outcome (dcov_terms_naive E x y e cm rv) = Ok t
     else outcome (dcov_terms_naive E x y e cm rv) = Err ValueError).
  Proof.
    unfold dcov_terms_naive.
    assert (forall k : list (list T) * list (list T) -> M (terms (T:=T)), exists ab, 
      length (concat (fst ab)) = shape0 x * shape0 x /\ length (concat (snd ab)) = shape0 y * shape0 y /\
      outcome (bind (compute_distances E x y e) k) = outcome (k ab)) as Hd.
    { intros k. unfold compute_distances, check_valid_dcov_exponent.
      unfold pairwise_distances.
      pose proof (rows_2d x) as Rx. pose proof (rows_2d y) as Ry.
      destruct (transform_to_2d (adata x)) as [cx rx]. destruct (transform_to_2d (adata y)) as [cy ry].
      cbn in Rx, Ry.
      destruct (pdist_ok (ans x) (adt x) cx rx e) as (a & -> & A1 & A2).
      destruct (pdist_ok (ans y) (adt y) cy ry e) as (b & -> & B1 & B2).
      exists (a, b). rewrite outcome_bind.
      split; [|split].
      - cbn [fst]. rewrite (concat_square a (length rx) (length rx)) by auto. congruence.
      - cbn [snd]. rewrite (concat_square b (length ry) (length ry)) by auto. congruence.
      - destruct (exponent_in_range E e); reflexivity. }
    destruct cm; auto; right.
    - destruct (Hd (fun ab => let (a, b) := ab in
        mean_prod <- lift (np_dot N (concat a) (concat b)) ;;
        (let (a_axis, a_total) := symmetric_matrix_sums E a in
        let (b_axis, b_total) := symmetric_matrix_sums E b in
        ret (mkTerms mean_prod a_axis a_total b_axis b_total
          (if rv then Some (ndot N (concat a) (concat a)) else None)
          (if rv then Some (ndot N (concat b) (concat b)) else None)
               AllNumpy AllNumpy)))) as ([a b] & Ha & Hb & H).
      cbn [fst snd] in *. cbv zeta. fold N. rewrite H. rewrite outcome_bind. cbn [lift outcome snd].
      unfold np_dot. rewrite Ha, Hb.
      destruct (Nat.eqb_spec (shape0 x) (shape0 y)) as [->|Hne].
      + rewrite Nat.eqb_refl. eexists. reflexivity.
      + destruct (Nat.eqb_spec (shape0 x * shape0 x) (shape0 y * shape0 y)); [nia|reflexivity].
    - destruct (Hd (fun ab => let (a, b) := ab in
        mean_prod <- lift (np_dot N (concat a) (concat b)) ;;
        (let (a_axis, a_total) := symmetric_matrix_sums E a in
        let (b_axis, b_total) := symmetric_matrix_sums E b in
        ret (mkTerms mean_prod a_axis a_total b_axis b_total
          (if rv then Some (ndot N (concat a) (concat a)) else None)
          (if rv then Some (ndot N (concat b) (concat b)) else None)
               AllNumpy AllNumpy)))) as ([a b] & Ha & Hb & H).
      cbn [fst snd] in *. cbv zeta. fold N. rewrite H. rewrite outcome_bind. cbn [lift outcome snd].
      unfold np_dot. rewrite Ha, Hb.
      destruct (Nat.eqb_spec (shape0 x) (shape0 y)) as [->|Hne].
      + rewrite Nat.eqb_refl. eexists. reflexivity.
      + destruct (Nat.eqb_spec (shape0 x * shape0 x) (shape0 y * shape0 y)); [nia|reflexivity].
  Qed.
End Calls.
