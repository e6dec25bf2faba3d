(** C67: Python sequences, and arrays of two libraries, as arguments. *)
From Coq Require Import Reals ZArith List Bool Arith Lia Lra.
From Verif Require Import Num Numpy MUtils MDistances MInternals MMergesort MAvl MDcor MEnergy MHypothesis MHomogeneity MIndependence
  MPartial MArgs Sums Spec Tab Samples Api Calls RefApi Witness.
Import ListNotations.

(** The six covariance and correlation functions on such arguments; return value or exception, and warnings, of a call. *)
Definition p_fn (f : api) {T} (E : Env T) : arg T -> arg T -> T -> method_like -> compile_mode -> P T :=
  match f with
  | DcovSqr => p_distance_covariance_sqr E
  | Dcov => p_distance_covariance E
  | DcorSqr => p_distance_correlation_sqr E
  | Dcor => p_distance_correlation E
  | UDcovSqr => p_u_distance_covariance_sqr E
  | UDcorSqr => p_u_distance_correlation_sqr E
  end.
Definition p_call (f : api) {T} (E : Env T) (x y : arg T) (e : T) (m : dcov_method) (cm : compile_mode) : P T :=
  p_fn f E x y e (MethodEnum m) cm.
Definition p_result {A} (p : P A) : res A := snd p.
Definition p_notes {A} (p : P A) : list note := fst p.

(** The numpy array with the contents of an argument. *)
Definition in_numpy {T} (p : arg T) : array T :=
  match p with AsArray a => mkArr Numpy (adt a) (adata a) | AsList dt d => mkArr Numpy dt d end.

(** The argument is a Python sequence; all arguments are arrays of one library. *)
Definition is_list {T} (p : arg T) : Prop := match p with AsArray _ => False | AsList _ _ => True end.
Definition of_library {T} (s : nspace) (p : arg T) : Prop := match p with AsArray a => ans a = s | AsList _ _ => False end.
Definition one_library {T} (l : list (arg T)) : Prop := l <> [] /\ exists s, Forall (of_library s) l.

Lemma same_lib_spec {T} s (p : arg T) : same_lib s p = true <-> of_library s p.
Proof. destruct p as [[s' dt d]|dt d]; unfold same_lib; cbn; [destruct s, s'|destruct s]; cbn; intuition congruence. Qed.

Lemma namespace_one {T} (l : list (arg T)) s : l <> [] -> Forall (of_library s) l -> array_namespace l = p_ret s.
Proof.
  intros Hl H. unfold array_namespace.
  assert (F : forall s', forallb (same_lib s') l = true <-> Forall (of_library s') l).
  { intros s'. rewrite forallb_forall, Forall_forall. split; intros G p Hp; apply same_lib_spec; auto. }
  assert (D : forall s', Forall (of_library s') l -> s' = s).
  { intros s' G. destruct l as [|p l]; [congruence|]. inversion H; inversion G; subst. destruct p; cbn in *; [congruence|tauto]. }
  replace (match l with [] => false | _ :: _ => forallb (same_lib OtherLib) l end) with (forallb (same_lib OtherLib) l)
    by (destruct l; [congruence|reflexivity]).
  replace (match l with [] => false | _ :: _ => forallb (same_lib Numpy) l end) with (forallb (same_lib Numpy) l)
    by (destruct l; [congruence|reflexivity]).
  destruct (forallb (same_lib OtherLib) l) eqn:E1.
  - apply F in E1. now rewrite (D _ E1).
  - destruct (forallb (same_lib Numpy) l) eqn:E2.
    + apply F in E2. now rewrite (D _ E2).
    + apply F in H. destruct s; congruence.
Qed.

Lemma namespace_other {T} (l : list (arg T)) : ~ one_library l -> array_namespace l = ([Deprecated], Ok Numpy).
Proof.
  intros H. unfold array_namespace. destruct l as [|p l]; [reflexivity|].
  assert (F : forall s, forallb (same_lib s) (p :: l) = false).
  { intros s. apply not_true_is_false. intros F. apply H. split; [discriminate|]. exists s.
    rewrite forallb_forall in F. apply Forall_forall. intros q Hq. apply same_lib_spec; auto. }
  now rewrite !F.
Qed.

Lemma one_library_dec {T} (l : list (arg T)) : one_library l \/ ~ one_library l.
Proof.
  destruct l as [|p l]; [right; intros [H _]; congruence|].
  destruct (forallb (same_lib Numpy) (p :: l)) eqn:E1; [left|destruct (forallb (same_lib OtherLib) (p :: l)) eqn:E2; [left|right]].
  1, 2: split; [discriminate|]; eexists; apply Forall_forall; intros q Hq; apply same_lib_spec;
    match goal with H : forallb _ _ = true |- _ => rewrite forallb_forall in H; exact (H q Hq) end.
  intros [_ [s F]]. assert (G : forallb (same_lib s) (p :: l) = true).
  { apply forallb_forall. rewrite Forall_forall in F. intros q Hq. apply same_lib_spec. auto. }
  destruct s; congruence.
Qed.

(** A call on such arguments against the same call on arrays. *)
Definition agrees {A} (dep : bool) (p : P A) (m : M A) : Prop :=
  snd p = snd m /\ (dep = false -> fst p = map Warned (fst m)) /\
  (forall v, snd m = Ok v -> fst p = (if dep then [Deprecated] else []) ++ map Warned (fst m)).

Lemma agrees_of_M {A} (m : M A) : agrees false (of_M m) m.
Proof. repeat split; auto. Qed.
Lemma agrees_bind {A B} dep (p : P A) (m : M A) (f : A -> P B) g : agrees dep p m -> (forall a, agrees false (f a) (g a)) ->
  agrees dep (p_bind p f) (bind m g).
Proof.
  destruct p as [w r], m as [w' r']. intros (H1 & H2 & H3) H. cbn [fst snd] in *. subst r'. destruct r as [a|ex]; cbn.
  - destruct (H a) as (K1 & K2 & K3). destruct (f a) as [u q], (g a) as [u' q']. cbn [fst snd] in *. subst q'.
    specialize (K2 eq_refl). specialize (H3 a eq_refl). subst u. repeat split; cbn [fst snd]; [intros Hf|intros v Hv].
    + rewrite map_app, H2; auto.
    + rewrite map_app, app_assoc, H3. reflexivity.
  - repeat split; cbn; auto. discriminate.
Qed.
Lemma p_ret_bind {A B} (v : A) (k : A -> P B) : p_bind (p_ret v) k = k v.
Proof. cbn. now destruct (k v). Qed.
Lemma p_lift_bind {A B} (v : A) (k : A -> P B) : p_bind (of_M (lift (Ok v))) k = k v.
Proof. cbn. now destruct (k v). Qed.
Lemma agrees_exact {A} (p : P A) m : agrees false p m -> p = of_M m.
Proof. intros (H1 & H2 & _). unfold of_M. rewrite <- H1, <- H2 by auto. now destruct p. Qed.

Section Calls.
  Context {T : Type} (E : Env T).

  (** The library the two arguments end up in, and whether the DeprecationWarning is emitted. *)
  Definition resolved (x y : arg T) (s : nspace) (dep : bool) : Prop :=
    array_namespace [x; y] = ((if dep then [Deprecated] else []), Ok s).

  Lemma asarray_shape0 s (a : array T) : shape0 (asarray s (AsArray a)) = shape0 a.
  Proof. reflexivity. Qed.

  Lemma terms_agree m a y e cm rv s dep : resolved (AsArray a) y s dep ->
    (m = MAuto -> s = Numpy -> is_random_variable (adata a) = true -> ~ is_list y) ->
    agrees dep (p_method_terms E m (AsArray a) y e cm rv) (method_terms E m (asarray s (AsArray a)) (asarray s y) e cm rv).
  Proof.
    intros R Hm.
    assert (C : forall A (k : array T * array T -> P A), p_bind (converted2 (AsArray a) y) k
      = (let (w, r) := k (asarray s (AsArray a), asarray s y) in ((if dep then [Deprecated] else []) ++ w, r))).
    { intros A k. unfold converted2. unfold resolved in R. rewrite R. cbn [p_bind p_ret]. rewrite app_nil_r. destruct (k _); reflexivity. }
    assert (D : forall A (m' : M A), agrees dep (let (w, r) := of_M m' in ((if dep then [Deprecated] else []) ++ w, r)) m').
    { intros A [w r]. cbn. repeat split; cbn; auto. now intros ->. }
    assert (B : forall A ex, agrees dep (p_raise ex) (raise ex : M A)).
    { intros A ex. repeat split; cbn; auto. discriminate. }
    destruct m; cbn [p_method_terms method_terms].
    - unfold p_terms_auto. rewrite C. cbn [fst snd].
      unfold terms_auto. assert (J : together (asarray s (AsArray a)) (asarray s y) = s).
      { unfold together. destruct s, y; reflexivity. }
      rewrite J. change (ans (asarray s (AsArray a))) with s. destruct s; cbn [is_numpy andb].
      + unfold p_can_use_fast. cbn [with_shape p_bind p_ret].
        destruct (is_random_variable (adata a)) eqn:Rv.
        * specialize (Hm eq_refl eq_refl eq_refl). destruct y as [b|dt d]; [|cbn in Hm; tauto].
          cbn [with_shape p_bind p_ret].
          change (can_use_fast_algorithm E (asarray Numpy (AsArray a)) (asarray Numpy (AsArray b)) e) with (can_use_fast_algorithm E a b e).
          destruct (can_use_fast_algorithm E a b e); cbn [app]; apply D.
        * assert (can_use_fast_algorithm E (asarray Numpy (AsArray a)) (asarray Numpy y) e = false) as ->
            by (unfold can_use_fast_algorithm; cbn [asarray adata]; now rewrite Rv).
          cbn [app p_bind p_ret]. apply D.
      + cbn [p_bind p_ret app]. apply D.
    - unfold p_terms_naive. destruct cm; try apply B; rewrite C; cbn [fst snd]; apply D.
    - unfold p_terms_fast. destruct (negb _) eqn:He.
      + assert (terms_avl E (asarray s (AsArray a)) (asarray s y) e cm rv = raise ValueError) as -> by (unfold terms_avl; now rewrite He). apply B.
      + rewrite C. cbn [fst snd]. apply D.
    - unfold p_terms_fast. destruct (negb _) eqn:He.
      + assert (terms_mergesort E (asarray s (AsArray a)) (asarray s y) e cm rv = raise ValueError) as -> by (unfold terms_mergesort; now rewrite He). apply B.
      + rewrite C. cbn [fst snd]. apply D.
  Qed.

  Lemma call_agree f m a y e cm s dep : resolved (AsArray a) y s dep ->
    (m = MAuto -> s = Numpy -> is_random_variable (adata a) = true -> ~ is_list y) ->
    agrees dep (p_call f E (AsArray a) y e m cm) (api_fn f E (asarray s (AsArray a)) (asarray s y) e (MethodEnum m) cm).
  Proof.
    intros R Hm. pose proof (fun rv => terms_agree m a y e cm rv s dep R Hm) as Ht.
    assert (Hr : forall A (v : A), agrees false (p_ret v) (ret v)) by (intros; repeat split; auto).
    assert (Hd : forall bc, agrees dep (p_dcov_sqr E m (AsArray a) y e cm bc) (algo_dcov_sqr E m (asarray s (AsArray a)) (asarray s y) e cm bc)).
    { intros bc. unfold p_dcov_sqr, algo_dcov_sqr. apply agrees_bind; auto. intros t. cbn [with_shape p_bind p_ret app].
      apply agrees_of_M. }
    assert (Hs : forall bc, agrees dep (p_stats_sqr E m (AsArray a) y e cm bc) (algo_stats_sqr E m (asarray s (AsArray a)) (asarray s y) e cm bc)).
    { intros bc. unfold p_stats_sqr, algo_stats_sqr. cbn [with_shape]. rewrite p_ret_bind. cbv zeta.
      apply agrees_bind; auto. intros t. repeat (apply agrees_bind; [apply agrees_of_M|]; intros). apply Hr. }
    assert (Hl : forall A B (v : A) (k : A -> P B), p_bind (of_M (lift (Ok v))) k = k v).
    { intros. cbn. destruct (k v). reflexivity. }
    unfold p_call. destruct f; cbn [p_fn api_fn];
      unfold p_distance_covariance, p_distance_covariance_sqr, p_u_distance_covariance_sqr, p_distance_correlation, p_distance_correlation_sqr,
        p_u_distance_correlation_sqr, distance_covariance, distance_covariance_sqr, u_distance_covariance_sqr, distance_correlation,
        distance_correlation_sqr, u_distance_correlation_sqr; cbn [to_algorithm]; rewrite ?bind_ok, ?Hl; auto;
      repeat (apply agrees_bind; [|intros; apply Hr]); auto.
  Qed.
End Calls.

(** ** C67: the covariance and correlation functions *)

Lemma asarray_same {T} (a : array T) : asarray (ans a) (AsArray a) = a.
Proof. now destruct a. Qed.
Lemma asarray_numpy {T} (p : arg T) : asarray Numpy p = in_numpy p.
Proof. now destruct p. Qed.

(** On arrays of one library: the functions of the rest of the development, with the same warnings. *)
Theorem C67_one_library {T} (E : Env T) f a b e m cm : ans a = ans b ->
  p_call f E (AsArray a) (AsArray b) e m cm = of_M (api_fn f E a b e (MethodEnum m) cm).
Proof.
  intros Hs. apply agrees_exact. rewrite <- (asarray_same a) at 2. rewrite <- (asarray_same b) at 2. rewrite <- Hs.
  apply call_agree; [|cbn; auto]. unfold resolved. rewrite (namespace_one _ (ans a)); [reflexivity|discriminate|].
  repeat constructor. cbn. auto.
Qed.

(** On arrays of two libraries: the result for the numpy arrays with the same contents, with a DeprecationWarning. *)
Theorem C67_two_libraries {T} (E : Env T) f a b e m cm : ans a <> ans b ->
  p_result (p_call f E (AsArray a) (AsArray b) e m cm) = call f E (in_numpy (AsArray a)) (in_numpy (AsArray b)) e m cm /\
  (forall v, p_result (p_call f E (AsArray a) (AsArray b) e m cm) = Ok v ->
    p_notes (p_call f E (AsArray a) (AsArray b) e m cm)
    = Deprecated :: map Warned (fst (api_fn f E (in_numpy (AsArray a)) (in_numpy (AsArray b)) e (MethodEnum m) cm))).
Proof.
  intros Hs. assert (R : resolved (AsArray a) (AsArray b) Numpy true).
  { apply namespace_other. intros [_ [s F]]. inversion F as [|? ? F1 F2]; subst. inversion F2; subst. cbn in *. congruence. }
  destruct (call_agree E f m a (AsArray b) e cm Numpy true R) as (H1 & _ & H3); [cbn; auto|]. rewrite !asarray_numpy in *.
  split; [exact H1|]. intros v Hv. apply (H3 v). unfold p_result in Hv. congruence.
Qed.

(** A sequence as second sample: the same with the methods that do not look at its shape, ... *)
Theorem C67_list_second {T} (E : Env T) f a y e m cm : is_list y -> m <> MAuto \/ ncols a <> 1 ->
  p_result (p_call f E (AsArray a) y e m cm) = call f E (in_numpy (AsArray a)) (in_numpy y) e m cm /\
  (forall v, p_result (p_call f E (AsArray a) y e m cm) = Ok v ->
    p_notes (p_call f E (AsArray a) y e m cm)
    = Deprecated :: map Warned (fst (api_fn f E (in_numpy (AsArray a)) (in_numpy y) e (MethodEnum m) cm))).
Proof.
  intros Hy Hm. assert (R : resolved (AsArray a) y Numpy true).
  { apply namespace_other. intros [_ [s F]]. inversion F as [|? ? F1 F2]; subst. inversion F2; subst. destruct y; cbn in *; tauto. }
  destruct (call_agree E f m a y e cm Numpy true R) as (H1 & _ & H3).
  { intros -> _ Hr. destruct Hm as [Hm|Hm]; [congruence|]. exfalso. apply Hm. unfold ncols. unfold is_random_variable in Hr.
    destruct (adata a); auto. apply Nat.eqb_eq. exact Hr. }
  rewrite !asarray_numpy in *. split; [exact H1|]. intros v Hv. apply (H3 v). unfold p_result in Hv. congruence.
Qed.

(** ... but the default method AUTO fails when the first sample is univariate. *)
Theorem C67_list_second_auto {T} (E : Env T) f a y e cm : is_list y -> univariate a ->
  p_result (p_call f E (AsArray a) y e MAuto cm) = Err AttributeError.
Proof.
  intros Hy Ha. assert (R : array_namespace [AsArray a; y] = ([Deprecated], Ok Numpy)).
  { apply namespace_other. intros [_ [s F]]. inversion F as [|? ? F1 F2]; subst. inversion F2; subst. destruct y; cbn in *; tauto. }
  assert (Rv : is_random_variable (adata a) = true).
  { unfold univariate, ncols in Ha. unfold is_random_variable. destruct (adata a); auto. subst. reflexivity. }
  assert (Ht : forall rv, p_method_terms E MAuto (AsArray a) y e cm rv = ([Deprecated], Err AttributeError)).
  { intros rv. cbn [p_method_terms]. unfold p_terms_auto, converted2, p_can_use_fast. rewrite R. cbn. rewrite Rv. destruct y; [tauto|]. reflexivity. }
  unfold p_call. destruct f; cbn [p_fn];
    unfold p_distance_covariance, p_distance_covariance_sqr, p_u_distance_covariance_sqr, p_distance_correlation, p_distance_correlation_sqr,
      p_u_distance_correlation_sqr, p_dcov_sqr, p_stats_sqr; cbn [to_algorithm with_shape]; rewrite ?p_lift_bind, ?p_ret_bind, ?Ht; reflexivity.
Qed.

(** A sequence as first sample never works: where numpy arrays would give a value it is AttributeError. *)
Theorem C67_list_first {T} (E : Env T) f x y e m cm : is_list x ->
  (forall v, p_result (p_call f E x y e m cm) <> Ok v) /\
  (forall v, call f E (in_numpy x) (in_numpy y) e m cm = Ok v -> p_result (p_call f E x y e m cm) = Err AttributeError).
Proof.
  intros Hx. destruct x as [a|dt d]; [cbn in Hx; tauto|]. set (x := AsList dt d) in *.
  assert (R : array_namespace [x; y] = ([Deprecated], Ok Numpy)).
  { apply namespace_other. intros [_ [s F]]. inversion F as [|? ? F1 F2]; subst. cbn in F1. tauto. }
  assert (Ht : forall rv t, outcome (method_terms E m (in_numpy x) (in_numpy y) e cm rv) = Ok t ->
    p_result (p_method_terms E m x y e cm rv) = Ok t \/ p_result (p_method_terms E m x y e cm rv) = Err AttributeError).
  { intros rv t. unfold outcome. destruct m; cbn [p_method_terms method_terms].
    - intros _. right. unfold p_terms_auto, converted2, p_can_use_fast. rewrite R. reflexivity.
    - unfold p_terms_naive, converted2. rewrite R. destruct cm; cbn [p_bind p_ret fst snd]; rewrite ?asarray_numpy;
        try discriminate; intros H; left; destruct (dcov_terms_naive _ _ _ _ _ _); cbn in *; auto.
    - unfold p_terms_fast, terms_avl at 1. destruct (negb _) eqn:He; [discriminate|]. intros H. left. unfold converted2. rewrite R.
      cbn [p_bind p_ret fst snd]. rewrite ?asarray_numpy. cbn [method_terms]. unfold terms_avl. rewrite He. unfold of_M. cbn. exact H.
    - unfold p_terms_fast, terms_mergesort at 1. destruct (negb _) eqn:He; [discriminate|]. intros H. left. unfold converted2. rewrite R.
      cbn [p_bind p_ret fst snd]. rewrite ?asarray_numpy. cbn [method_terms]. unfold terms_mergesort. rewrite He. unfold of_M. cbn. exact H. }
  assert (Hd : forall bc, (forall v, p_result (p_dcov_sqr E m x y e cm bc) <> Ok v) /\
    (forall t, outcome (method_terms E m (in_numpy x) (in_numpy y) e cm false) = Ok t -> p_result (p_dcov_sqr E m x y e cm bc) = Err AttributeError)).
  { intros bc. unfold p_dcov_sqr, p_result. split.
    - intros v. destruct (p_method_terms E m x y e cm false) as [w [t|ex]]; cbn; discriminate.
    - intros t H. destruct (Ht false t H) as [Q|Q]; unfold p_result in Q; destruct (p_method_terms E m x y e cm false) as [w [t'|ex]]; cbn in *; congruence. }
  assert (Hs : forall bc, p_stats_sqr E m x y e cm bc = p_raise AttributeError) by reflexivity.
  assert (Hc : forall v, call f E (in_numpy x) (in_numpy y) e m cm = Ok v ->
     exists t, outcome (method_terms E m (in_numpy x) (in_numpy y) e cm (wants_var f)) = Ok t).
  { intros v Hv. rewrite call_terms in Hv. destruct (outcome (method_terms E m (in_numpy x) (in_numpy y) e cm (wants_var f))) as [t|]; [eauto|]. cbn [rbind] in Hv. discriminate. }
  assert (Hl : forall A B (v : A) (k : A -> P B), p_bind (of_M (lift (Ok v))) k = k v).
  { intros. cbn. destruct (k v). reflexivity. }
  unfold p_call. split.
  - intros v. destruct f; cbn [p_fn];
      unfold p_distance_covariance, p_distance_covariance_sqr, p_u_distance_covariance_sqr, p_distance_correlation, p_distance_correlation_sqr,
      p_u_distance_correlation_sqr; cbn [to_algorithm]; rewrite ?Hl, ?Hs; try (apply Hd); unfold p_result; try (cbn; discriminate).
    destruct (Hd false) as [Q _]. unfold p_result in Q. destruct (p_dcov_sqr E m x y e cm false) as [w [r|ex]]; cbn in *; [|discriminate].
    destruct (Q r). reflexivity.
  - intros v Hv. apply Hc in Hv as [t Hv]. destruct f; cbn [p_fn wants_var] in *;
      unfold p_distance_covariance, p_distance_covariance_sqr, p_u_distance_covariance_sqr, p_distance_correlation, p_distance_correlation_sqr,
      p_u_distance_correlation_sqr; cbn [to_algorithm]; rewrite ?Hl, ?Hs; try (eapply Hd; eassumption); try reflexivity.
    destruct (Hd false) as [_ Q]. specialize (Q t Hv). unfold p_result in *.
    destruct (p_dcov_sqr E m x y e cm false) as [w [r|ex]]; cbn in *; congruence.
Qed.

(** In exact arithmetic, with the methods that accept the samples: the statistic of the data, as for arrays. *)
Theorem C67_list_value f E a y n e m cm : valid_env E -> is_list y -> paired n (in_numpy (AsArray a)) (in_numpy y) -> (min_size f <= n)%nat ->
  (0 < e)%R -> m <> MAuto \/ ncols a <> 1 -> accepts m cm (in_numpy (AsArray a)) (in_numpy y) e ->
  p_result (p_call f E (AsArray a) y e m cm) = Ok (value f n (distances e (in_numpy (AsArray a))) (distances e (in_numpy y))) /\
  In Deprecated (p_notes (p_call f E (AsArray a) y e m cm)).
Proof.
  intros HE Hy Hp Hn He Hm Ha. destruct (C67_list_second E f a y e m cm Hy Hm) as [H1 H2].
  rewrite (call_ok f E _ _ n e m cm HE Hp Hn He Ha) in H1. split; auto. rewrite (H2 _ H1). left. reflexivity.
Qed.

(** The t-test of independence: AUTO, so no sequence in the first place, and none in the second beside a univariate sample. *)
Theorem C67_t_test {T} (E : Env T) x y : is_list x \/ is_list y /\ (exists a, x = AsArray a /\ univariate a) ->
  p_result (p_t_statistic E x y) = Err AttributeError /\ p_result (p_t_test E x y) = Err AttributeError.
Proof.
  intros H. assert (Q : p_result (p_t_statistic E x y) = Err AttributeError).
  { unfold p_t_statistic. assert (R : p_result (p_u_distance_correlation_sqr E x y (nunit (e_num E)) (MethodEnum MAuto) CAuto) = Err AttributeError).
    { destruct H as [Hx|[Hy (a & -> & Ha)]].
      - destruct x; [cbn in Hx; tauto|]. reflexivity.
      - exact (C67_list_second_auto E UDcorSqr a y (nunit (e_num E)) CAuto Hy Ha). }
    unfold p_result in *. destruct (p_u_distance_correlation_sqr _ _ _ _ _ _) as [w [r|ex]]; cbn in *; congruence. }
  split; auto. unfold p_t_test. unfold p_result in *. destruct (p_t_statistic E x y) as [w [r|ex]]; cbn in *; congruence.
Qed.

(** ** C67: the functions that convert their arguments first *)

(** One of the arguments at least is a numpy array or a sequence. *)
Definition not_all_other {T} (l : list (arg T)) : Prop := exists p, In p l /\ ~ of_library OtherLib p.
(** A sequence, or a numpy array. *)
Definition numpy_or_list {T} (p : arg T) : Prop := ~ of_library OtherLib p.

Lemma namespace_numpy {T} (l : list (arg T)) : not_all_other l ->
  array_namespace l = ([], Ok Numpy) /\ one_library l \/ array_namespace l = ([Deprecated], Ok Numpy) /\ ~ one_library l.
Proof.
  intros (p & Hp & Ho). destruct (one_library_dec l) as [H|H].
  - left. split; auto. destruct H as [Hl [s F]]. rewrite (namespace_one l s Hl F). rewrite Forall_forall in F. specialize (F p Hp).
    destruct s; [reflexivity|tauto].
  - right. split; auto. apply namespace_other. auto.
Qed.

Lemma converted2_numpy {T} (x y : arg T) : not_all_other [x; y] ->
  exists w, converted2 x y = (w, Ok (in_numpy x, in_numpy y)) /\ (~ one_library [x; y] -> In Deprecated w).
Proof.
  intros H. unfold converted2. destruct (namespace_numpy _ H) as [[-> Ho]|[-> Ho]]; cbn; rewrite !asarray_numpy; eexists; split; eauto; cbn; tauto.
Qed.
Lemma converted_numpy {T} (x : arg T) : numpy_or_list x ->
  exists w, converted x = (w, Ok (in_numpy x)) /\ (is_list x -> In Deprecated w).
Proof.
  intros H. unfold converted. destruct (namespace_numpy [x]) as [[-> Ho]|[-> Ho]]; [exists x; cbn; auto| |]; cbn; rewrite !asarray_numpy;
    eexists; split; eauto; cbn; [|tauto]. intros Hx. exfalso. destruct Ho as [_ [s F]]. inversion F; subst. destruct x; cbn in *; tauto.
Qed.

(** Result of the call on numpy arrays, and a DeprecationWarning unless the arguments are arrays of one library. *)
Definition as_numpy {A} (p : P A) (m : M A) (all_arrays : Prop) : Prop :=
  p_result p = outcome m /\ (~ all_arrays -> In Deprecated (p_notes p)).

Lemma as_numpy_bind {T A} (w : list note) (v : T) (k : T -> P A) (m : M A) (Q : Prop) :
  (~ Q -> In Deprecated w) -> snd (k v) = snd m -> as_numpy (p_bind (w, Ok v) k) m Q.
Proof.
  intros H1 H2. unfold as_numpy, p_result, p_notes, outcome. cbn. destruct (k v) as [w' r]. cbn in *. split; auto. intros. apply in_or_app. auto.
Qed.

Theorem C67_converting_two {T} (E : Env T) {S} (G : Rng S) x y e av es num rs : not_all_other [x; y] ->
  as_numpy (p_pairwise_distances E x (Some y) e) (lift (pairwise_distances E (in_numpy x) (Some (in_numpy y)) e)) (one_library [x; y]) /\
  as_numpy (p_energy_distance E x y e av es) (energy_distance E (in_numpy x) (in_numpy y) e av es) (one_library [x; y]) /\
  as_numpy (p_energy_test_statistic E x y e av es) (energy_test_statistic E (in_numpy x) (in_numpy y) e av es) (one_library [x; y]) /\
  as_numpy (p_distance_covariance_test E G x y num e rs) (distance_covariance_test E G (in_numpy x) (in_numpy y) num e rs) (one_library [x; y]).
Proof.
  intros H. destruct (converted2_numpy x y H) as (w & Hw & Hd).
  unfold p_pairwise_distances, p_energy_distance, p_energy_test_statistic, p_distance_covariance_test. rewrite Hw.
  split; [|split; [|split]]; apply as_numpy_bind; auto.
Qed.

Theorem C67_energy_test {T} (E : Env T) {S} (G : Rng S) l num e rs av es : not_all_other l ->
  as_numpy (p_energy_test E G l num e rs av es) (energy_test E G (map in_numpy l) num e rs av es) (one_library l).
Proof.
  intros H. unfold p_energy_test. destruct (namespace_numpy l H) as [[-> Ho]|[-> Ho]]; apply as_numpy_bind; cbn; try tauto;
    rewrite (map_ext _ _ asarray_numpy); reflexivity.
Qed.

(** Functions that convert every sample on its own. *)
Theorem C67_converting_each {T} (E : Env T) {S} (G : Rng S) x y z e num rs method cm :
  numpy_or_list x -> numpy_or_list y -> numpy_or_list z ->
  as_numpy (p_pairwise_distances E x None e) (lift (pairwise_distances E (in_numpy x) None e)) (~ is_list x) /\
  as_numpy (p_distance_correlation_af_inv_sqr E x y method cm) (distance_correlation_af_inv_sqr E (in_numpy x) (in_numpy y) method cm)
    (~ is_list x /\ ~ is_list y) /\
  as_numpy (p_partial_distance_covariance E x y z) (partial_distance_covariance E (in_numpy x) (in_numpy y) (in_numpy z))
    (~ is_list x /\ ~ is_list y /\ ~ is_list z) /\
  as_numpy (p_partial_distance_correlation E x y z) (partial_distance_correlation E (in_numpy x) (in_numpy y) (in_numpy z))
    (~ is_list x /\ ~ is_list y /\ ~ is_list z) /\
  as_numpy (p_partial_distance_covariance_test E G x y z num e rs)
    (partial_distance_covariance_test E G (in_numpy x) (in_numpy y) (in_numpy z) num e rs) (~ is_list x /\ ~ is_list y /\ ~ is_list z).
Proof.
  intros Hx Hy Hz. destruct (converted_numpy x Hx) as (wx & Ex & Dx). destruct (converted_numpy y Hy) as (wy & Ey & Dy).
  destruct (converted_numpy z Hz) as (wz & Ez & Dz).
  assert (Dec : forall p : arg T, is_list p \/ ~ is_list p) by (intros []; cbn; auto).
  assert (E3 : converted3 x y z = (wx ++ wy ++ wz, Ok (in_numpy x, in_numpy y, in_numpy z))).
  { unfold converted3. rewrite Ex, Ey, Ez. cbn. now rewrite app_nil_r. }
  assert (D3 : ~ (~ is_list x /\ ~ is_list y /\ ~ is_list z) -> In Deprecated (wx ++ wy ++ wz)).
  { intros H. rewrite !in_app_iff. destruct (Dec x), (Dec y), (Dec z); tauto. }
  unfold p_partial_distance_covariance, p_partial_distance_correlation, p_partial_distance_covariance_test. rewrite E3.
  split; [|split; [|split; [|split]]]; try (apply as_numpy_bind; auto; fail).
  - unfold p_pairwise_distances. rewrite Ex. apply as_numpy_bind; auto. intros. destruct (Dec x); tauto.
  - unfold p_distance_correlation_af_inv_sqr. rewrite Ex.
    assert (X : p_bind (wx, Ok (in_numpy x)) (fun ax => p_bind (converted y) (fun ay =>
      p_bind (p_distance_correlation_sqr E (AsArray (af_inv_scaled E ax)) (AsArray (af_inv_scaled E ay)) (nunit (e_num E)) method cm)
        (fun c => p_ret (if nisnan (e_num E) c then nzero (e_num E) else c))))
      = p_bind (wx ++ wy, Ok tt) (fun _ => p_bind (p_distance_correlation_sqr E (AsArray (af_inv_scaled E (in_numpy x)))
          (AsArray (af_inv_scaled E (in_numpy y))) (nunit (e_num E)) method cm) (fun c => p_ret (if nisnan (e_num E) c then nzero (e_num E) else c)))).
    { rewrite Ey. cbn. destruct (p_bind _ _). rewrite app_assoc. reflexivity. }
    rewrite X. apply as_numpy_bind; [intros H; apply in_or_app; destruct (Dec x), (Dec y); tauto|].
    assert (A : forall p : arg T, ans (af_inv_scaled E (in_numpy p)) = Numpy).
    { intros p. unfold af_inv_scaled. destruct (transform_to_2d _). destruct p; reflexivity. }
    assert (Q : p_distance_correlation_sqr E (AsArray (af_inv_scaled E (in_numpy x))) (AsArray (af_inv_scaled E (in_numpy y))) (nunit (e_num E)) method cm
      = of_M (distance_correlation_sqr E (af_inv_scaled E (in_numpy x)) (af_inv_scaled E (in_numpy y)) (nunit (e_num E)) method cm)).
    { pose proof (fun m => C67_one_library E DcorSqr (af_inv_scaled E (in_numpy x)) (af_inv_scaled E (in_numpy y)) (nunit (e_num E)) m cm) as Q.
      rewrite !A in Q. unfold p_distance_correlation_sqr, distance_correlation_sqr. destruct (to_algorithm method) as [m|ex]; [|reflexivity].
      exact (Q m eq_refl). }
    rewrite Q. unfold distance_correlation_af_inv_sqr. cbv zeta. unfold p_bind, bind, of_M.
    destruct (distance_correlation_sqr _ _ _ _ _ _) as [w [c|ex]]; reflexivity.
Qed.

Lemma ret_bind {A B} (v : A) (k : A -> P B) : p_bind (p_ret v) k = k v.
Proof. unfold p_bind, p_ret. cbn. now destruct (k v). Qed.

(** Arrays of one library, whichever it is, go through these functions as they are: same outcome, same warnings. *)
Theorem C67_converting_arrays {T} (E : Env T) {S} (G : Rng S) a b e av es num rs : ans a = ans b ->
  p_pairwise_distances E (AsArray a) (Some (AsArray b)) e = of_M (lift (pairwise_distances E a (Some b) e)) /\
  p_energy_distance E (AsArray a) (AsArray b) e av es = of_M (energy_distance E a b e av es) /\
  p_energy_test_statistic E (AsArray a) (AsArray b) e av es = of_M (energy_test_statistic E a b e av es) /\
  p_distance_covariance_test E G (AsArray a) (AsArray b) num e rs = of_M (distance_covariance_test E G a b num e rs).
Proof.
  intros Hs. assert (C : converted2 (AsArray a) (AsArray b) = p_ret (a, b)).
  { unfold converted2. rewrite (namespace_one _ (ans a)); [|discriminate|repeat constructor; cbn; auto].
    cbn [p_bind p_ret app fst snd]. rewrite asarray_same. rewrite Hs at 1. now rewrite asarray_same. }
  unfold p_pairwise_distances, p_energy_distance, p_energy_test_statistic, p_distance_covariance_test. rewrite C.
  repeat split; apply ret_bind.
Qed.

Theorem C67_energy_test_arrays {T} (E : Env T) {S} (G : Rng S) s (l : list (array T)) num e rs av es :
  l <> [] -> (forall a, In a l -> ans a = s) ->
  p_energy_test E G (map AsArray l) num e rs av es = of_M (energy_test E G l num e rs av es).
Proof.
  intros Hl Hs. unfold p_energy_test. rewrite (namespace_one _ s).
  - rewrite ret_bind, map_map. f_equal. f_equal. rewrite <- (map_id l) at 2. apply map_ext_in. intros a Ha.
    rewrite <- (Hs a Ha). apply asarray_same.
  - destruct l; [congruence|discriminate].
  - rewrite Forall_map, Forall_forall. intros a Ha. cbn. auto.
Qed.

(** Functions that convert every sample on its own: arrays of any libraries go through as they are. *)
Theorem C67_each_arrays {T} (E : Env T) {S} (G : Rng S) a b c e num rs :
  p_pairwise_distances E (AsArray a) None e = of_M (lift (pairwise_distances E a None e)) /\
  p_partial_distance_covariance E (AsArray a) (AsArray b) (AsArray c) = of_M (partial_distance_covariance E a b c) /\
  p_partial_distance_correlation E (AsArray a) (AsArray b) (AsArray c) = of_M (partial_distance_correlation E a b c) /\
  p_partial_distance_covariance_test E G (AsArray a) (AsArray b) (AsArray c) num e rs
  = of_M (partial_distance_covariance_test E G a b c num e rs).
Proof.
  assert (C : forall d : array T, converted (AsArray d) = p_ret d).
  { intros d. unfold converted. rewrite (namespace_one _ (ans d)); [|discriminate|repeat constructor; cbn; auto].
    cbn [p_bind p_ret app fst snd]. now rewrite asarray_same. }
  unfold p_pairwise_distances, p_partial_distance_covariance, p_partial_distance_correlation, p_partial_distance_covariance_test, converted3.
  rewrite !C. repeat split; apply ret_bind.
Qed.

Theorem C67_af_inv_arrays {T} (E : Env T) a b method cm : ans a = ans b ->
  p_distance_correlation_af_inv_sqr E (AsArray a) (AsArray b) method cm = of_M (distance_correlation_af_inv_sqr E a b method cm).
Proof.
  intros Hs. assert (C : forall d : array T, converted (AsArray d) = p_ret d).
  { intros d. unfold converted. rewrite (namespace_one _ (ans d)); [|discriminate|repeat constructor; cbn; auto].
    cbn [p_bind p_ret app fst snd]. now rewrite asarray_same. }
  assert (A : forall d : array T, ans (af_inv_scaled E d) = ans d).
  { intros d. unfold af_inv_scaled. now destruct (transform_to_2d _). }
  assert (Q : p_distance_correlation_sqr E (AsArray (af_inv_scaled E a)) (AsArray (af_inv_scaled E b)) (nunit (e_num E)) method cm
    = of_M (distance_correlation_sqr E (af_inv_scaled E a) (af_inv_scaled E b) (nunit (e_num E)) method cm)).
  { pose proof (fun m => C67_one_library E DcorSqr (af_inv_scaled E a) (af_inv_scaled E b) (nunit (e_num E)) m cm) as Q.
    rewrite !A in Q. unfold p_distance_correlation_sqr, distance_correlation_sqr. destruct (to_algorithm method) as [m|ex]; [|reflexivity].
    exact (Q m Hs). }
  unfold p_distance_correlation_af_inv_sqr. rewrite !C, !ret_bind, Q. unfold distance_correlation_af_inv_sqr. cbv zeta. unfold p_bind, bind, of_M.
  destruct (distance_correlation_sqr _ _ _ _ _ _) as [w [c|ex]]; cbn; rewrite ?map_app, ?app_nil_r; reflexivity.
Qed.

(** The t-test of independence on arrays of one library, in every setting. *)
Theorem C67_t_test_arrays {T} (E : Env T) a b : ans a = ans b ->
  p_t_statistic E (AsArray a) (AsArray b) = of_M (distance_correlation_t_statistic E a b) /\
  p_t_test E (AsArray a) (AsArray b) = of_M (distance_correlation_t_test E a b).
Proof.
  intros Hs. assert (Q : p_t_statistic E (AsArray a) (AsArray b) = of_M (distance_correlation_t_statistic E a b)).
  { unfold p_t_statistic. pose proof (C67_one_library E UDcorSqr a b (nunit (e_num E)) MAuto CAuto Hs) as Q. unfold p_call in Q. cbn [p_fn api_fn] in Q. rewrite Q.
    unfold distance_correlation_t_statistic, p_bind, bind, of_M. destruct (u_distance_correlation_sqr _ _ _ _ _ _) as [w [c|ex]]; cbn; rewrite ?map_app, ?app_nil_r; reflexivity. }
  split; [exact Q|]. unfold p_t_test. rewrite Q. unfold distance_correlation_t_test, p_bind, bind, of_M.
  destruct (distance_correlation_t_statistic _ _ _) as [w [c|ex]]; cbn; rewrite ?map_app, ?app_nil_r; reflexivity.
Qed.

(** On arrays of two libraries, and with a sequence beside a sample of several columns: the result for the numpy arrays with the same contents. *)
Theorem C67_t_test_converted {T} (E : Env T) a y :
  (exists b, y = AsArray b /\ ans a <> ans b) \/ is_list y /\ ncols a <> 1 ->
  p_result (p_t_statistic E (AsArray a) y) = outcome (distance_correlation_t_statistic E (in_numpy (AsArray a)) (in_numpy y)) /\
  p_result (p_t_test E (AsArray a) y) = outcome (distance_correlation_t_test E (in_numpy (AsArray a)) (in_numpy y)).
Proof.
  intros H. assert (R : p_result (p_u_distance_correlation_sqr E (AsArray a) y (nunit (e_num E)) (MethodEnum MAuto) CAuto)
    = outcome (u_distance_correlation_sqr E (in_numpy (AsArray a)) (in_numpy y) (nunit (e_num E)) (MethodEnum MAuto) CAuto)).
  { destruct H as [(b & -> & Hb)|[Hy Hc]].
    - exact (proj1 (C67_two_libraries E UDcorSqr a b (nunit (e_num E)) MAuto CAuto Hb)).
    - exact (proj1 (C67_list_second E UDcorSqr a y (nunit (e_num E)) MAuto CAuto Hy (or_intror Hc))). }
  assert (Q : p_result (p_t_statistic E (AsArray a) y) = outcome (distance_correlation_t_statistic E (in_numpy (AsArray a)) (in_numpy y))).
  { unfold p_t_statistic, distance_correlation_t_statistic, p_result, outcome, p_bind, bind in *.
    destruct (p_u_distance_correlation_sqr _ _ _ _ _ _) as [w [c|ex]], (u_distance_correlation_sqr _ _ _ _ _ _) as [w' [c'|ex']]; cbn [snd fst] in R; try discriminate R; injection R as ->; reflexivity. }
  split; [exact Q|]. unfold p_t_test, distance_correlation_t_test, p_result, outcome, p_bind, bind in *.
  destruct (p_t_statistic _ _ _) as [w [c|ex]], (distance_correlation_t_statistic _ _ _) as [w' [c'|ex']]; cbn [snd fst] in Q; try discriminate Q; injection Q as ->; reflexivity.
Qed.

(** ** Non-trivial cases *)
Definition ys_list : arg R := AsList F64 (adata ys).
Definition ys_other : array R := mkArr OtherLib F64 (adata ys).

Example C67_meets b :
  (* the second sample as a list: a value with AVL or NAIVE, an exception with the default method *)
  p_result (p_call DcovSqr (env_R b) (AsArray xs) ys_list 1%R MAvl CAuto) = Ok (value DcovSqr 5 (distances 1 xs) (distances 1 ys)) /\
  In Deprecated (p_notes (p_call DcovSqr (env_R b) (AsArray xs) ys_list 1%R MAvl CAuto)) /\
  p_result (p_call DcovSqr (env_R b) (AsArray xs) ys_list 1%R MAuto CAuto) = Err AttributeError /\
  (* the first as a list: an exception although arrays have a value *)
  p_result (p_call Dcor (env_R b) ys_list (AsArray xs) 1%R MNaive CAuto) = Err AttributeError /\
  (* two libraries: AVL works, although it does not for two samples of the other library *)
  p_result (p_call DcovSqr (env_R b) (AsArray xs) (AsArray ys_other) 1%R MAvl CAuto) = Ok (value DcovSqr 5 (distances 1 xs) (distances 1 ys)) /\
  p_result (p_call DcovSqr (env_R b) (AsArray ys_other) (AsArray ys_other) 1%R MAvl CAuto) = Err ValueError /\
  not_all_other [AsArray ys_other; ys_list] /\ ~ one_library [AsArray ys_other; ys_list] /\
  (* the t-test on arrays of two libraries *)
  p_result (p_t_test (env_R b) (AsArray xs) (AsArray ys_other)) = outcome (distance_correlation_t_test (env_R b) xs ys).
Proof.
  assert (Y : in_numpy ys_list = ys) by reflexivity. assert (X : in_numpy (AsArray xs) = xs) by reflexivity.
  destruct (C67_list_value DcovSqr (env_R b) xs ys_list 5 1%R MAvl CAuto) as [A1 A2];
    rewrite ?X, ?Y; auto using env_R_valid, xs_ys, xs_ys_avl; try (cbn; lia || lra); [left; discriminate|].
  rewrite X, Y in A1. split; [exact A1|]. split; [exact A2|]. split; [apply C67_list_second_auto; cbn; auto; reflexivity|]. split; [|split; [|split; [|split; [|split]]]].
  - apply (proj2 (C67_list_first (env_R b) Dcor ys_list (AsArray xs) 1%R MNaive CAuto I) (value Dcor 5 (distances 1 ys) (distances 1 xs))).
    rewrite X, Y. apply call_ok; auto using env_R_valid; try (cbn; lia || lra).
    + destruct xs_ys as (?&?&?&?&?). repeat split; auto.
    + left. auto.
  - destruct (C67_two_libraries (env_R b) DcovSqr xs ys_other 1%R MAvl CAuto) as [H _]; [discriminate|]. rewrite H.
    change (in_numpy (AsArray ys_other)) with ys. rewrite X. apply call_ok; auto using env_R_valid, xs_ys, xs_ys_avl; try (cbn; lia || lra).
  - rewrite C67_one_library by reflexivity. unfold p_result, of_M. cbn [snd api_fn]. unfold distance_covariance_sqr. cbn [to_algorithm].
    rewrite bind_ok. unfold algo_dcov_sqr. cbn [method_terms]. unfold terms_avl. destruct (negb _); reflexivity.
  - exists ys_list. cbn. auto.
  - intros [_ [s F]]. inversion F as [|? ? F1 F2]; subst. inversion F2; subst. cbn in *. tauto.
  - apply (C67_t_test_converted (env_R b) xs (AsArray ys_other)). left. exists ys_other. split; [reflexivity|discriminate].
Qed.
