(** Which calls succeed, what the others raise, and how the implementations relate:
    C03, C38, C39, C40.

    Theorems quantified over a number type [T] and an environment [E] hold for IEEE floats with
    NaN and infinities, fixed width integers, rationals and reals alike: all they ask of the
    external routines is [shape_env] (argsort returns a permutation, np.empty has the requested
    size). *)
From Coq Require Import Reals Lra Lia List Arith Bool ZArith String Ascii Permutation.
From Verif Require Import Num Numpy MUtils MDistances MInternals MMergesort MAvl MDcor Sums Spec Tab Samples Api
  RefDist RefDyad RefDcor RefMerge DyadGeneric MergeGeneric AvlGeneric Calls RefApi Witness.
Import List ListNotations.

Lemma valid_shape_env E : valid_env E -> shape_env E.
Proof. intros [_ H1 H2]. split; auto. intros l. apply H1. Qed.
Lemma R_00 E : valid_env E -> nadd (e_num E) (nzero (e_num E)) (nzero (e_num E)) = nzero (e_num E).
Proof. intros [-> _ _]. cbn. lra. Qed.

(** ** C03: the table of exceptions *)

Definition is_fast (m : dcov_method) : Prop := m = MAvl \/ m = MMergesort.
Definition forced (cm : compile_mode) : Prop := cm = CCompileCpu \/ cm = CCompileParallel.

(** [raises m cm x y e ex]: the call must raise [ex]. *)
Inductive raises (x y : array R) : dcov_method -> compile_mode -> R -> exn -> Prop :=
| fast_exponent m cm e : is_fast m -> e <> 1%R -> raises x y m cm e ValueError
| fast_multivariate m cm : is_fast m -> ~ (univariate x /\ univariate y) -> raises x y m cm 1%R AssertionError
| fast_library m cm : is_fast m -> univariate x -> univariate y -> ans x = OtherLib -> ans y = OtherLib ->
    raises x y m cm 1%R ValueError
| fast_parallel m : is_fast m -> univariate x -> univariate y -> some_numpy x y ->
    raises x y m CCompileParallel 1%R NotImplementedError
| fast_dtype m : is_fast m -> univariate x -> univariate y -> some_numpy x y ->
    ~ (is_float64 x /\ is_float64 y) -> raises x y m CCompileCpu 1%R TypeError
| avl_small_sample cm : univariate x -> univariate y -> some_numpy x y ->
    not_forced cm \/ forced_f64 cm x y -> shape0 x <= 3 -> raises x y MAvl cm 1%R AssertionError
| mergesort_object cm : univariate x -> univariate y -> some_numpy x y ->
    not_forced cm -> is_object x \/ is_object y -> raises x y MMergesort cm 1%R AttributeError
| naive_forced cm e : forced cm -> raises x y MNaive cm e NotImplementedError
| auto_naive_forced cm e : ~ fast_case x y e -> forced cm -> raises x y MAuto cm e NotImplementedError
| auto_fast cm e ex : fast_case x y e -> raises x y MAvl cm e ex -> raises x y MAuto cm e ex.

(** The one case outside both tables: MERGESORT in pure Python with an integer [y] that cannot
    receive the products with [x]. *)
Definition cast_mismatch (m : dcov_method) (cm : compile_mode) (x y : array R) (e : R) : Prop :=
  m = MMergesort /\ not_forced cm /\ e = 1%R /\ univariate x /\ univariate y /\ some_numpy x y /\
  ~ is_object x /\ ~ is_object y /\ is_integer y /\ ~ mergesort_dtypes x y.

Lemma call_err f E x y e m cm ex : (forall rv, outcome (method_terms E m x y e cm rv) = Err ex) ->
  call (T:=R) f E x y e m cm = Err ex.
Proof. intros H. rewrite call_terms, H. reflexivity. Qed.

Lemma Reqb_neq a b : a <> b -> Reqb a b = false.
Proof. intros. destruct (Reqb_spec a b); congruence. Qed.

Lemma not_f64 (x y : array R) : ~ (is_float64 x /\ is_float64 y) -> is_f64 (adt x) && is_f64 (adt y) = false.
Proof.
  unfold is_float64. intros H. destruct (is_f64 (adt x)) eqn:Hx, (is_f64 (adt y)) eqn:Hy; auto.
  exfalso. apply H. split; apply is_f64_spec; auto.
Qed.

Lemma object_spec (x : array R) : is_obj (adt x) = true <-> is_object x.
Proof.
  unfold is_object. destruct (adt x); cbn; split; intros H; try discriminate; eauto; destruct H; discriminate.
Qed.

Lemma raises_terms E x y n m cm e ex rv : valid_env E -> paired n x y -> raises x y m cm e ex ->
  outcome (method_terms E m x y e cm rv) = Err ex.
Proof.
  intros HE Hp H. pose proof HE as [HN _ _]. destruct Hp as (Wx & Wy & Nx & Ny & Hn).
  assert (forall e, e <> 1%R -> neqb (e_num E) e (nunit (e_num E)) = false) as He1
    by (rewrite HN; exact (fun e => Reqb_neq e 1)).
  assert (neqb (e_num E) 1%R (nunit (e_num E)) = true) as H11 by (rewrite HN; apply Reqb_refl).
  assert (forall z : array R, wf z -> univariate z -> transform_to_1d (adata z) = Ok (tab (shape0 z) (fun i => obs z i 0))) as U
    by (intros; apply transform_to_1d_tab; auto).
  induction H as [m cm e Hm Hne|m cm Hm Hu|m cm Hm Hux Huy Hsx Hsy|m Hm Hux Huy Hs|m Hm Hux Huy Hs Hd
    |cm Hux Huy Hs Hc H3|cm Hux Huy Hs Hc Ho|cm e Hc|cm e Hf Hc|cm e ex Hf H IH]; try (apply some_together in Hs).
  3: assert (Hs : together x y = OtherLib) by (unfold together; rewrite Hsx, Hsy; reflexivity).
  - destruct Hm as [-> | ->]; cbn [method_terms]; unfold terms_avl, terms_mergesort; rewrite He1 by auto; reflexivity.
  - assert (transform_to_1d (adata x) = Err AssertionError \/
      (exists v, transform_to_1d (adata x) = Ok v) /\ transform_to_1d (adata y) = Err AssertionError) as Ht.
    { unfold univariate in Hu. destruct (Nat.eq_dec (ncols x) 1) as [Hx|Hx].
      - right. split; [rewrite U by auto; eauto|]. apply transform_to_1d_fail. tauto.
      - left. apply transform_to_1d_fail. auto. }
    destruct Hm as [-> | ->]; cbn [method_terms]; unfold terms_avl, terms_mergesort; rewrite H11; cbn [negb];
      destruct Ht as [-> | [[v ->] ->]]; rewrite ?bind_ok; reflexivity.
  - destruct Hm as [-> | ->]; cbn [method_terms]; unfold terms_avl, terms_mergesort; rewrite H11; cbn [negb];
      rewrite !U by auto; rewrite !bind_ok; rewrite Hs; reflexivity.
  - destruct Hm as [-> | ->]; cbn [method_terms]; unfold terms_avl, terms_mergesort; rewrite H11; cbn [negb];
      rewrite !U by auto; rewrite !bind_ok; rewrite Hs; reflexivity.
  - destruct Hm as [-> | ->]; cbn [method_terms]; unfold terms_avl, terms_mergesort; rewrite H11; cbn [negb];
      rewrite !U by auto; rewrite !bind_ok; rewrite Hs; cbn [impls is_auto try_impls]; unfold avl_impl, mergesort_impl;
      rewrite not_f64 by auto; reflexivity.
  - cbn [method_terms]. unfold terms_avl. rewrite H11. cbn [negb]. rewrite !U by auto. rewrite !bind_ok, Hs.
    assert (forall c o k kv, terms_avl_impl E c o k kv (tab (shape0 x) (fun i => obs x i 0)) (tab (shape0 y) (fun i => obs y i 0)) rv
      = Err AssertionError) as Ha by (intros; apply avl_small; rewrite !tab_length; lia).
    destruct Hc as [[-> | ->]|(-> & Fx & Fy)]; cbn [impls is_auto try_impls]; unfold avl_impl; rewrite ?(seq_env_R E HN).
    + destruct (is_f64 (adt x) && is_f64 (adt y)); rewrite !Ha; reflexivity.
    + rewrite Ha. reflexivity.
    + rewrite Fx, Fy. cbn [is_f64 andb]. rewrite Ha. reflexivity.
  - cbn [method_terms]. unfold terms_mergesort. rewrite H11. cbn [negb]. rewrite !U by auto. rewrite !bind_ok, Hs.
    assert (is_obj (adt x) || is_obj (adt y) = true) as Hob
      by (apply orb_true_iff; destruct Ho; [left|right]; apply object_spec; auto).
    assert (is_f64 (adt x) && is_f64 (adt y) = false) as Hnf
      by (destruct (adt x), (adt y); cbn in *; auto; discriminate).
    destruct Hc as [-> | ->]; cbn [impls is_auto try_impls]; unfold mergesort_impl; rewrite ?Hnf, Hob; reflexivity.
  - cbn [method_terms]. unfold dcov_terms_naive. destruct Hc as [-> | ->]; reflexivity.
  - cbn [method_terms]. unfold terms_auto.
    assert (is_numpy (together x y) && can_use_fast_algorithm E x y e = false) as ->.
    { apply not_true_iff_false. intros Hf'. apply Hf. apply (fast_case_spec E HE x y n Nx Ny). auto. }
    unfold dcov_terms_naive. destruct Hc as [-> | ->]; reflexivity.
  - cbn [method_terms]. unfold terms_auto.
    assert (is_numpy (together x y) && can_use_fast_algorithm E x y e = true) as ->
      by (apply (fast_case_spec E HE x y n Nx Ny); auto).
    apply IH.
Qed.

(** Supported calls return a number (the number is C01, C02 and the rest of PDcov.v). *)
Theorem C03_accepted f E x y n e m cm : valid_env E -> paired n x y -> (min_size f <= n) -> (0 < e)%R ->
  accepts m cm x y e -> exists v, call f E x y e m cm = Ok v.
Proof. intros. eexists. apply (call_ok f E x y n); auto. Qed.

(** Unsupported calls raise the exception of the table. *)
Theorem C03_raises f E x y n e m cm ex : valid_env E -> paired n x y ->
  raises x y m cm e ex -> call f E x y e m cm = Err ex.
Proof. intros HE Hp H. apply call_err. intros rv. eapply raises_terms; eauto. Qed.

(** The two tables cover every call, but for [cast_mismatch]. *)
Theorem C03_complete x y n e m cm : paired n x y ->
  accepts m cm x y e \/ (exists ex, raises x y m cm e ex) \/ cast_mismatch m cm x y e.
Proof.
  intros (_ & _ & Nx & Ny & _).
  assert (not_forced cm \/ forced cm) as Hcm by (unfold not_forced, forced; destruct cm; auto).
  assert (forall m, is_fast m ->
    (exists ex, raises x y m cm e ex) \/
    (e = 1%R /\ univariate x /\ univariate y /\ some_numpy x y /\ (not_forced cm \/ forced_f64 cm x y))) as Hfast.
  { intros m' Hm'. destruct (Req_dec e 1) as [-> | Hne]; [|left; eexists; apply fast_exponent; auto].
    unfold univariate. destruct (Nat.eq_dec (ncols x) 1) as [Hx|Hx];
      [|left; eexists; apply fast_multivariate; auto; unfold univariate; tauto].
    destruct (Nat.eq_dec (ncols y) 1) as [Hy|Hy];
      [|left; eexists; apply fast_multivariate; auto; unfold univariate; tauto].
    assert (some_numpy x y \/ ans x = OtherLib /\ ans y = OtherLib) as [Hs|[Hs1 Hs2]]
      by (unfold some_numpy; destruct (ans x), (ans y); auto); [|left; eexists; apply fast_library; auto].
    destruct Hcm as [Hcm|[-> | ->]].
    - right. auto 7.
    - destruct (is_f64 (adt x) && is_f64 (adt y)) eqn:Hf.
      + right. apply andb_true_iff in Hf. destruct Hf as [F1 F2]. apply is_f64_spec in F1, F2.
        unfold forced_f64, is_float64. auto 10.
      + left. exists TypeError. apply fast_dtype; auto. unfold is_float64. intros [F1 F2].
        rewrite F1, F2 in Hf. discriminate.
    - left. eexists. apply fast_parallel; auto. }
  assert ((exists ex, raises x y MAvl cm e ex) \/ accepts_avl cm x y e) as Havl.
  { destruct (Hfast MAvl (or_introl eq_refl)) as [H|(-> & Hx & Hy & Hs & Hc)]; auto.
    destruct (le_lt_dec 4 (shape0 x)) as [H4|H4].
    - right. unfold accepts_avl. auto 7.
    - left. eexists. apply avl_small_sample; auto. lia. }
  destruct m; cbn [accepts].
  - assert (fast_case x y e \/ ~ fast_case x y e) as [Hf|Hf].
    { unfold fast_case, univariate.
      assert (some_numpy x y \/ ~ some_numpy x y) as [Hns|Hns] by (unfold some_numpy; destruct (ans x), (ans y); intuition congruence); [|right; tauto].
      destruct (Nat.eq_dec (ncols x) 1); [|right; tauto]. destruct (Nat.eq_dec (ncols y) 1); [|right; tauto].
      destruct (le_dec 4 (shape0 x)); [|right; tauto]. destruct (Req_dec e 1); [|right; tauto]. tauto. }
    + destruct Havl as [[ex Hr]|Ha].
      * right. left. exists ex. apply auto_fast; auto.
      * left. destruct Ha as (_ & _ & _ & _ & _ & [Hc|Hc]); auto.
    + destruct Hcm as [Hc|Hc]; [left; auto|]. right. left. eexists. apply auto_naive_forced; auto.
  - destruct Hcm as [Hc|Hc]; [left; exact Hc|]. right. left. eexists. apply naive_forced; auto.
  - tauto.
  - destruct (Hfast MMergesort (or_intror eq_refl)) as [H|(-> & Hx & Hy & Hs & Hc)]; auto.
    destruct Hc as [Hc|Hc]; [|left; unfold accepts_mergesort; auto 8].
    destruct (is_obj (adt x) || is_obj (adt y)) eqn:Ho.
    + right. left. eexists. apply mergesort_object; auto. apply orb_true_iff in Ho.
      rewrite !object_spec in Ho. auto.
    + apply orb_false_iff in Ho. destruct Ho as [Ox Oy].
      assert (~ is_object x) as Nox by (rewrite <- object_spec; congruence).
      assert (~ is_object y) as Noy by (rewrite <- object_spec; congruence).
      destruct (weights_cast_ok (adt x) (adt y)) eqn:Hw.
      * left. unfold accepts_mergesort. repeat split; auto. left. split; auto. unfold mergesort_dtypes.
        split; auto. split; auto. destruct (adt y), (adt x); cbn in *; auto; discriminate.
      * right. right. unfold cast_mismatch. repeat split; auto.
        -- unfold is_integer. destruct (adt y), (adt x); cbn in *; auto; discriminate.
        -- unfold mergesort_dtypes. intros (_ & _ & Hm). destruct (adt y), (adt x); cbn in *; auto; discriminate.
Qed.

(** The same array with dtype float64. *)
Definition as_f64 (y : array R) : array R := mkArr (ans y) F64 (adata y).

Lemma cast_mismatch_accepts x y n e m cm : paired n x y -> cast_mismatch m cm x y e ->
  e = 1%R /\ m = MMergesort /\ paired n x (as_f64 y) /\ accepts MMergesort CNoCompile x (as_f64 y) 1.
Proof.
  intros Hp (-> & Hc & -> & Hx & Hy & Hs & Ox & Oy & Hi & Hd). repeat split; auto; try (apply Hp).
  left. split; [right; auto|]. unfold mergesort_dtypes, is_object. cbn [as_f64 adt].
  repeat split; auto. intros [p Hpp]. discriminate.
Qed.

Lemma cast_mismatch_terms E x y n e m cm rv : valid_env E -> paired n x y -> cast_mismatch m cm x y e ->
  outcome (method_terms E m x y e cm rv) = Err TypeError \/
  outcome (method_terms E m x y e cm rv) = outcome (method_terms E MMergesort x (as_f64 y) 1%R CNoCompile rv).
Proof.
  intros HE Hp (-> & Hc & -> & Hx & Hy & Hs & Ox & Oy & Hi & Hd).
  destruct Hp as (Wx & Wy & Nx & Ny & Hn).
  pose proof HE as [HN _ _].
  assert (neqb (e_num E) 1%R (nunit (e_num E)) = true) as H11 by (rewrite HN; apply Reqb_refl).
  cbn [method_terms]. unfold terms_mergesort. rewrite H11. cbn [negb as_f64 adata adt].
  rewrite !(transform_to_1d_tab x), !(transform_to_1d_tab y) by auto. rewrite (together_ans x (as_f64 y) x y) by reflexivity.
  apply some_together in Hs. rewrite !bind_ok, Hs, Nx, Ny.
  set (v := tab n (fun i => obs x i 0)). set (w := tab n (fun i => obs y i 0)).
  destruct (terms_mergesort_agree E v w rv (valid_shape_env E HE)) as [t HT];
    [unfold v; rewrite tab_length; lia|unfold v, w; rewrite !tab_length; lia|].
  assert (mergesort_impl E false (adt x) F64 v w rv = Ok (set_kind MeanProdPy AllNumpy t)) as E1.
  { unfold mergesort_impl. assert (is_obj (adt x) = false) as ->
      by (destruct (is_obj (adt x)) eqn:Hob; auto; apply object_spec in Hob; tauto).
    cbn [is_obj orb weights_cast_ok].
    destruct (HT IndexError true MeanProdPy AllNumpy) as [H|[H _]]; [exact H|discriminate]. }
  assert (mergesort_impl E false (adt x) (adt y) v w rv = Err TypeError \/
          mergesort_impl E false (adt x) (adt y) v w rv = Ok (set_kind MeanProdPy AllNumpy t)) as E2.
  { unfold mergesort_impl. destruct (is_obj (adt x)) eqn:Hob; [apply object_spec in Hob; tauto|].
    destruct (is_obj (adt y)) eqn:Hob'; [apply object_spec in Hob'; tauto|]. cbn [orb].
    destruct (HT IndexError (weights_cast_ok (adt x) (adt y)) MeanProdPy AllNumpy) as [H|[_ H]]; rewrite H; auto. }
  assert (mergesort_impl E true (adt x) (adt y) v w rv = Err TypeError) as E3.
  { unfold mergesort_impl.
    assert (is_f64 (adt y) = false) as -> by (destruct Hi as [-> | ->]; reflexivity).
    rewrite andb_false_r. reflexivity. }
  destruct Hc as [-> | ->]; cbn [impls is_auto try_impls]; rewrite ?E3, E1;
    destruct E2 as [-> | ->]; cbn; auto.
Qed.

(** In that case: TypeError, or the correct value; never a wrong number. *)
Theorem C03_cast_mismatch f E x y n e m cm : valid_env E -> paired n x y -> (min_size f <= n) ->
  cast_mismatch m cm x y e ->
  call f E x y e m cm = Err TypeError \/
  call f E x y e m cm = Ok (value f n (distances e x) (distances e y)).
Proof.
  intros HE Hp Hmin Hc. destruct (cast_mismatch_accepts x y n e m cm Hp Hc) as (-> & -> & Hp' & Hacc).
  change (distances 1%R y) with (distances 1%R (as_f64 y)).
  rewrite <- (call_ok f E x (as_f64 y) n 1 MMergesort CNoCompile HE Hp' Hmin Rlt_0_1 Hacc), !call_terms.
  destruct (cast_mismatch_terms E x y n 1%R MMergesort cm (wants_var f) HE Hp Hc) as [-> | ->]; cbn [rbind]; auto.
Qed.

(** An integer second sample. *)
Definition is_ : array R := mkArr Numpy SInt (Vec [0; 2; 2; 7; 1])%R.
Lemma xs_is : paired 5 xs is_.
Proof. repeat split; cbn; auto with arith. Qed.

Example C03_meets :
  call DcovSqr (env_R true) xs zs 1%R MAvl CAuto = Err AssertionError /\
  call Dcor (env_R true) xs ys (1 / 2)%R MMergesort CNoCompile = Err ValueError /\
  call UDcovSqr (env_R true) xs is_ 1%R MAvl CCompileCpu = Err TypeError /\
  call DcorSqr (env_R true) xs ys 1%R MAuto CCompileParallel = Err NotImplementedError /\
  cast_mismatch MMergesort CAuto xs is_ 1.
Proof.
  repeat split.
  - apply (C03_raises _ _ _ _ 5); auto using env_R_valid, xs_zs. apply fast_multivariate; [left; auto|].
    intros [_ H]. discriminate.
  - apply (C03_raises _ _ _ _ 5); auto using env_R_valid, xs_ys. apply fast_exponent; [right; auto|lra].
  - apply (C03_raises _ _ _ _ 5); auto using env_R_valid, xs_is. apply fast_dtype; try reflexivity; try (left; reflexivity).
    intros [_ H]. discriminate.
  - apply (C03_raises _ _ _ _ 5); auto using env_R_valid, xs_ys. apply auto_fast.
    + repeat split; cbn; auto; lia.
    + apply fast_parallel; try reflexivity; left; reflexivity.
  - left; auto.
  - left; auto.
  - intros [p H]; discriminate.
  - intros [p H]; discriminate.
  - left; auto.
  - intros (_ & _ & []).
Qed.

(** ** C38: memory safety *)

(** What an access outside an array would show up as, and a loop that never ends. *)
Definition memory_error (ex : exn) : Prop := ex = IndexError \/ ex = UndefinedBehaviour \/ ex = Diverged.

Theorem C38_avl_in_range {T} (E : Env T) f x y e m cm ex : shape_env E ->
  wf x -> wf y -> m <> MMergesort ->
  call f E x y e m cm = Err ex -> ~ memory_error ex.
Proof.
  intros HE Wx Wy Hm Hc. rewrite call_terms in Hc. unfold memory_error.
  destruct (outcome (method_terms E m x y e cm (wants_var f))) as [t|ex'] eqn:Ht; cbn [rbind] in Hc.
  - apply finish_err in Hc. intuition congruence.
  - injection Hc as ->.
    assert (outcome (dcov_terms_naive E x y e cm (wants_var f)) = Err ex -> ex = NotImplementedError \/ ex = ValueError) as Hn.
    { intros H. destruct (naive_cases E x y e cm (wants_var f)) as [H'|H']; [left; congruence|].
      destruct (shape0 x =? shape0 y); [destruct H'; congruence|right; congruence]. }
    assert (outcome (terms_avl E x y e cm (wants_var f)) = Err ex ->
      ex = ValueError \/ ex = AssertionError \/ ex = NotImplementedError \/ ex = TypeError) as Ha.
    { intros H. destruct (avl_cases E HE x y e cm (wants_var f) Wx Wy) as [(ex' & H1 & H2)|(_ & _ & t & H1)]; [|congruence].
      replace ex with ex' by congruence. auto. }
    destruct m; cbn [method_terms] in Ht.
    + unfold terms_auto in Ht. destruct (_ && _); [specialize (Ha Ht)|specialize (Hn Ht)]; intuition congruence.
    + specialize (Hn Ht). intuition congruence.
    + specialize (Ha Ht). intuition congruence.
    + congruence.
Qed.

(** MERGESORT needs samples of the same size (see C43). *)
Theorem C38_mergesort_in_range {T} (E : Env T) f x y e cm ex : shape_env E ->
  wf x -> wf y -> shape0 x = shape0 y -> 1 <= shape0 x ->
  call f E x y e MMergesort cm = Err ex -> ~ memory_error ex.
Proof.
  intros HE Wx Wy Hs H1 Hc. rewrite call_terms in Hc. cbn [method_terms] in Hc. unfold memory_error.
  destruct (mergesort_cases E HE x y e (wants_var f) Wx Wy H1 ltac:(lia) cm) as [(ex' & H & Hex)|(t & H)]; rewrite H in Hc; cbn [rbind] in Hc.
  - injection Hc as ->. intuition congruence.
  - apply finish_err in Hc. intuition congruence.
Qed.

(** On the data structure itself: with ranks between 1 and 2^L and a scratch array of 2^(L+1)
    cells neither variant of the inner loop leaves the array, whatever an out-of-range access
    would do ([oob]). They return the same array if np.sum adds from left to right. *)
Theorem C38_inner_loops {T} (N : Num T) L y c :
  Forall (fun r => 1 <= r <= 2 ^ Z.of_nat L)%Z y -> length c = length y ->
  exists g g', length g = length y /\ length g' = length y /\
  (sequential N -> nadd N (nzero N) (nzero N) = nzero N -> g = g') /\
  forall oob s, length s = 2 ^ (L + 1) -> exists s1 s2,
    dyad_update N oob y c L s (mk_pos_sums L) = Ok (g, s1) /\
    dyad_update_compiled N oob y c (map (fun _ => nzero N) c) L s (mk_pos_sums L) = Ok (g', s2).
Proof.
  intros Hy Hc. destruct (dyads_agree N L y c Hy Hc) as (g & g' & s1 & s2 & Hg & H1 & H2 & _ & _ & H).
  exists g, g'. split; [auto|]. split; [auto|]. split; [auto|]. intros oob s Hs. exists s1, s2. auto.
Qed.

(** Example number type with NaN and infinities. *)
Definition env_X : Env xR :=
  mkEnv xR XNum (fun l => seq 0 (length l)) (fun n => repeat NaN n) (fun _ => ([], [])) (fun _ _ => NaN) true.
Lemma env_X_shape : shape_env env_X.
Proof. split; cbn; intros; [unfold is_perm; auto|apply repeat_length]. Qed.
Lemma env_X_00 : nadd (e_num env_X) (nzero (e_num env_X)) (nzero (e_num env_X)) = nzero (e_num env_X).
Proof. cbn. f_equal. lra. Qed.
Definition xnan : array xR := mkArr Numpy F64 (Vec [NaN; Fin 1; PInf; Fin 2; NInf]).

Example C38_meets ex :
  (call Dcor env_X xnan xnan (Fin 1) MAvl CCompileCpu = Err ex -> ~ memory_error ex) /\
  (call Dcor env_X xnan xnan (Fin 1) MMergesort CCompileCpu = Err ex -> ~ memory_error ex) /\
  exists g, length g = 5 /\ forall oob s, length s = 16 -> exists s1 s2,
    dyad_update XNum oob [3; 1; 5; 2; 4]%Z [Fin 1; NaN; Fin 3; PInf; NInf] 3 s (mk_pos_sums 3) = Ok (g, s1) /\
    dyad_update_compiled XNum oob [3; 1; 5; 2; 4]%Z [Fin 1; NaN; Fin 3; PInf; NInf]
      [Fin 0; Fin 0; Fin 0; Fin 0; Fin 0] 3 s (mk_pos_sums 3) = Ok (g, s2).
Proof.
  split; [|split].
  - apply C38_avl_in_range; auto using env_X_shape; try exact I. discriminate.
  - apply C38_mergesort_in_range; auto using env_X_shape; try exact I. cbn. lia.
  - destruct (C38_inner_loops XNum 3 [3; 1; 5; 2; 4]%Z [Fin 1; NaN; Fin 3; PInf; NInf]) as (g & g' & L1 & _ & Hg & H); auto.
    + repeat constructor; cbn; lia.
    + exists g. split; [exact L1|]. rewrite <- Hg in H by (try exact env_X_00; intros l; reflexivity). exact H.
Qed.

(** ** C39: compiled = pure Python *)

(** When np.sum adds from left to right, as the loop of the compiled code does (or when the order does not matter). *)
Theorem C39_compiled_is_python {T} (E : Env T) f x y e : shape_env E -> sequential (e_num E) ->
  nadd (e_num E) (nzero (e_num E)) (nzero (e_num E)) = nzero (e_num E) ->
  wf x -> wf y -> is_float64 x -> is_float64 y ->
  call f E x y e MAvl CCompileCpu = call f E x y e MAvl CNoCompile.
Proof.
  intros HE HS H00 Wx Wy Fx Fy. rewrite !call_terms. cbn [method_terms].
  assert (runs CCompileCpu x y) as R1 by (right; unfold forced_f64; auto).
  assert (runs CNoCompile x y) as R2 by (left; right; auto).
  destruct (avl_uniform E HE x y e (wants_var f) Wx Wy) as [(ex & _ & H)|(H4 & Hn & t & t' & Ht & H)].
  - rewrite !H by auto. reflexivity.
  - rewrite (Ht (conj HS H00)) in H. destruct (H _ R1) as (k & kv & ->). destruct (H _ R2) as (k' & kv' & ->). cbn [rbind].
    rewrite !Tauto.if_same.
    rewrite !finish_kind by (destruct f; cbn; lia). reflexivity.
Qed.

(** Automatic compilation, any dtype: the fallback hides nothing. *)
Theorem C39_auto_is_python {T} (E : Env T) f x y e : shape_env E -> sequential (e_num E) ->
  nadd (e_num E) (nzero (e_num E)) (nzero (e_num E)) = nzero (e_num E) ->
  wf x -> wf y -> call f E x y e MAvl CAuto = call f E x y e MAvl CNoCompile.
Proof.
  intros HE HS H00 Wx Wy. rewrite !call_terms. cbn [method_terms].
  assert (runs CAuto x y) as R1 by (left; left; auto).
  assert (runs CNoCompile x y) as R2 by (left; right; auto).
  destruct (avl_uniform E HE x y e (wants_var f) Wx Wy) as [(ex & _ & H)|(H4 & Hn & t & t' & Ht & H)].
  - rewrite !H by auto. reflexivity.
  - rewrite (Ht (conj HS H00)) in H. destruct (H _ R1) as (k & kv & ->). destruct (H _ R2) as (k' & kv' & ->). cbn [rbind].
    rewrite !Tauto.if_same.
    rewrite !finish_kind by (destruct f; cbn; lia). reflexivity.
Qed.

(** MERGESORT: the same for float64 samples of equal size. *)
Theorem C39_mergesort_compiled_is_python {T} (E : Env T) f x y e : shape_env E -> sequential (e_num E) ->
  wf x -> wf y -> is_float64 x -> is_float64 y -> shape0 x = shape0 y -> 1 <= shape0 x -> min_size f <= shape0 x ->
  call f E x y e MMergesort CCompileCpu = call f E x y e MMergesort CNoCompile.
Proof.
  intros HE HS Wx Wy Fx Fy Hs H1 Hm. rewrite !call_terms. cbn [method_terms]. unfold terms_mergesort.
  destruct (neqb (e_num E) e (nunit (e_num E))); cbn [negb]; [|reflexivity].
  destruct (to_1d_cases x) as [[v Hv]|Hv]; rewrite Hv, ?bind_ok, ?bind_err; [|reflexivity].
  destruct (to_1d_cases y) as [[w Hw]|Hw]; rewrite Hw, ?bind_ok, ?bind_err; [|reflexivity].
  destruct (together x y); [|reflexivity]. cbn [impls is_auto try_impls]. unfold mergesort_impl. rewrite (seq_env_sequential E HS).
  unfold is_float64 in *. rewrite !Fx, !Fy. cbn [is_f64 andb is_obj orb weights_cast_ok].
  assert (length v = shape0 x) as Lv by (eapply to_1d_length; eauto).
  assert (length w = shape0 y) as Lw by (eapply to_1d_length; eauto).
  destruct (terms_mergesort_agree E v w (wants_var f) HE) as [t Ht]; [lia|lia|].
  destruct (Ht UndefinedBehaviour true AllPy AllPy) as [-> | [? _]]; [|discriminate].
  destruct (Ht IndexError true MeanProdPy AllNumpy) as [-> | [? _]]; [|discriminate].
  cbn. change (finish E f (shape0 x) (set_kind AllPy AllPy t) = finish E f (shape0 x) (set_kind MeanProdPy AllNumpy t)).
  rewrite !finish_kind by auto. reflexivity.
Qed.

Example C39_meets :
  call Dcor env_X xnan xnan (Fin 1) MAvl CCompileCpu = call Dcor env_X xnan xnan (Fin 1) MAvl CNoCompile /\
  call UDcovSqr env_X xnan xnan (Fin 1) MMergesort CCompileCpu = call UDcovSqr env_X xnan xnan (Fin 1) MMergesort CNoCompile /\
  call Dcov (env_R true) xs is_ 1%R MAvl CAuto = call Dcov (env_R true) xs is_ 1%R MAvl CNoCompile.
Proof.
  split; [|split].
  - apply C39_compiled_is_python; auto using env_X_shape, env_X_00; try (intros l; reflexivity); exact I || reflexivity.
  - apply C39_mergesort_compiled_is_python; auto using env_X_shape; try (intros l; reflexivity); cbn; exact I || reflexivity || lia.
  - apply C39_auto_is_python; auto using valid_shape_env, env_R_valid, R_00; try (intros l; reflexivity); exact I.
Qed.

(** ** C40: the weighted inversion sums *)

Theorem C40_weight_sums E oob (y : list R) (ws : list (list R)) : e_num E = RNum ->
  Forall (fun w => length w = length y) ws ->
  exists r, compute_weight_sums E oob true y ws = Ok r /\ length r = length ws /\
  forall k i, k < length ws -> i < length y ->
  nth i (nth k r []) 0%R
  = rsum i (fun j => if Rlt_dec (nth j y 0%R) (nth i y 0%R) then nth j (nth k ws []) 0%R else 0%R).
Proof.
  intros HN Hw. set (n := length y).
  set (Ws := map (fun w (i : nat) => nth i w 0%R) ws).
  assert (y = tab n (fun i => nth i y 0%R)) as Hy by apply tab_of_list.
  assert (ws = map (tab n) Ws) as HW.
  { unfold Ws. rewrite map_map. rewrite <- (map_id ws) at 1. apply map_ext_in. intros w Hin.
    rewrite Forall_forall in Hw. unfold n. rewrite <- (Hw w Hin). apply tab_of_list. }
  pose proof (compute_weight_sums_ok E oob HN n (fun i => nth i y 0%R) Ws) as H.
  rewrite <- HW, <- Hy in H. eexists. split; [exact H|]. unfold wsrows. split.
  - rewrite map_length. unfold Ws. apply map_length.
  - intros k i Hk Hi.
    rewrite (nth_indep _ [] (tab n (fun i0 => rsum i0 (fun j => zsel (Rltb (nth j y 0%R) (nth i0 y 0%R)) (nth j [] 0%R)))))
      by (rewrite map_length; unfold Ws; rewrite map_length; auto).
    rewrite (map_nth (fun w => tab n (fun i0 => rsum i0 (fun j => zsel (Rltb (nth j y 0%R) (nth i0 y 0%R)) (w j)))) Ws (fun j => nth j [] 0%R)).
    rewrite tab_nth by auto. apply rsum_ext. intros j Hj.
    unfold Ws. rewrite (map_nth (fun w (i : nat) => nth i w 0%R) ws []).
    unfold zsel, Rltb. destruct (Rlt_dec _ _); reflexivity.
Qed.

(** The same pass on any number type: in range, terminating, one row per weight. *)
Theorem C40_in_range {T} (E : Env T) (y : list T) ws : Forall (fun w => length w = length y) ws ->
  exists r, length r = length ws /\ Forall (fun w => length w = length y) r /\
  forall oob, compute_weight_sums E oob true y ws = Ok r.
Proof.
  intros Hw. destruct (compute_weight_sums_good E (length y) y eq_refl ws Hw) as (r & [H1 H2] & H).
  exists r. split; auto. split; auto. intros oob. destruct (H oob true) as [|[? _]]; [auto|discriminate].
Qed.

Example C40_meets : exists r, compute_weight_sums (env_R true) UndefinedBehaviour true [2; 5; 5; 1; 7; 2]%R
    [[1; 1; 1; 1; 1; 1]%R; [1; 2; 3; 4; 5; 6]%R] = Ok r /\
  nth 4 (nth 1 r []) 0%R = (1 + 2 + 3 + 4)%R /\ nth 5 (nth 1 r []) 0%R = 4%R.
Proof.
  destruct (C40_weight_sums (env_R true) UndefinedBehaviour [2; 5; 5; 1; 7; 2]%R
    [[1; 1; 1; 1; 1; 1]%R; [1; 2; 3; 4; 5; 6]%R] eq_refl) as (r & H1 & _ & H3); [repeat constructor|].
  exists r. split; auto. split; (rewrite H3 by (cbn; lia)); cbn;
    repeat (destruct (Rlt_dec _ _); try lra).
Qed.
