(** Arguments that are not arrays of one library: Python sequences, and arrays of two libraries in one call.  The other
    model files start from arrays; here is what the functions do with their arguments before that. *)
From Coq Require Import ZArith List Bool Arith.
From Verif Require Import Num Numpy MUtils MDistances MInternals MMergesort MAvl MDcor MEnergy MHypothesis MHomogeneity MIndependence
  MPartial.
Import ListNotations.

(** An argument: an array, or a nested Python sequence given by the array [numpy.asarray] makes of it;
    _utils.py:114-144 (the arguments of the public functions, before [xp.asarray]). *)
Inductive arg (T : Type) := AsArray (a : array T) | AsList (dt : dtype) (d : nd T).
Arguments AsArray {T} _.
Arguments AsList {T} _ _.

(** Warnings: the DeprecationWarning of _utils.py:80-85, or one of the others. *)
Inductive note := Deprecated | Warned (w : warn).

(** A call: its warnings in order (the functions below call [array_namespace] repeatedly; not every repetition of its warning is recorded) and its outcome;
    _utils.py:80-85 (the warning) and the [raise] statements of the functions below. *)
Definition P (A : Type) : Type := (list note * res A)%type.
(** A [return], for instance _utils.py:86. *)
Definition p_ret {A} (a : A) : P A := ([], Ok a).
(** A [raise], for instance _fast_dcov_avl.py:530-531. *)
Definition p_raise {A} (e : exn) : P A := ([], Err e).
(** One call after another: an exception ends the caller, as in _dcor.py:227-238. *)
Definition p_bind {A B} (m : P A) (f : A -> P B) : P B :=
  match m with
  | (w, Ok a) => let (w', r) := f a in (w ++ w', r)
  | (w, Err e) => (w, Err e)
  end.
(** A function modelled in the other files, called with arrays (_dcor.py:176-437). *)
Definition of_M {A} (m : M A) : P A := (map Warned (fst m), snd m).
Declare Scope args_scope.
Notation "x <~ m ;; k" := (p_bind m (fun x => k)) (at level 61, m at next level, right associativity) : args_scope.
Local Open Scope args_scope.

Section Args.
  Context {T : Type}.

  (** The library of an argument; a Python sequence has none; _utils.py:74-78. *)
  Definition lib_of (p : arg T) : option nspace := match p with AsArray a => Some (ans a) | AsList _ _ => None end.

  (** Whether the argument is an array of this library, _utils.py:78. *)
  Definition same_lib (s : nspace) (p : arg T) : bool :=
    match lib_of p, s with Some Numpy, Numpy | Some OtherLib, OtherLib => true | _, _ => false end.

  (** _utils.py:74-87: array_api_compat raises TypeError without arguments, for a sequence and for two libraries.
      Simplification: a single library other than numpy takes part. *)
  Definition array_namespace (l : list (arg T)) : P nspace :=
    if match l with [] => false | _ => forallb (same_lib OtherLib) l end then p_ret OtherLib
    else if match l with [] => false | _ => forallb (same_lib Numpy) l end then p_ret Numpy
    else ([Deprecated], Ok Numpy).

  (** [xp.asarray(p)]; _utils.py:119 and 136, _dcor_internals.py:47-48. *)
  Definition asarray (s : nspace) (p : arg T) : array T :=
    match p with AsArray a => mkArr s (adt a) (adata a) | AsList dt d => mkArr s dt d end.

  (** _utils.py:114-147, the conversion of the arguments (the change of shape is in MUtils). *)
  Definition converted2 (x y : arg T) : P (array T * array T) :=
    s <~ array_namespace [x; y] ;; p_ret (asarray s x, asarray s y).
  (** _utils.py:131-144 for one argument. *)
  Definition converted (x : arg T) : P (array T) := s <~ array_namespace [x] ;; p_ret (asarray s x).

  (** [x.shape]; _dcor.py:236, 250 and 324; a Python sequence has no such attribute. *)
  Definition with_shape (x : arg T) : P (array T) :=
    match x with AsArray a => p_ret a | AsList _ _ => p_raise AttributeError end.
End Args.

Section Functions.
  Context {T : Type} (E : Env T).
  Let N := e_num E.

  (** _dcor.py:316-341: the conditions are evaluated from left to right *)
  Definition p_can_use_fast (x y : arg T) (exponent : T) : P bool :=
    ax <~ with_shape x ;;
    if is_random_variable (adata ax)
    then ay <~ with_shape y ;; p_ret (can_use_fast_algorithm E ax ay exponent)
    else p_ret false.

  (** _fast_dcov_avl.py:513-560, _fast_dcov_mergesort.py:372-419 *)
  Definition p_terms_fast (m : dcov_method) (x y : arg T) (exponent : T) (cm : compile_mode) (rv : bool)
      : P (terms (T:=T)) :=
    if negb (neqb N exponent (nunit N)) then p_raise ValueError else
    xy <~ converted2 x y ;; of_M (method_terms E m (fst xy) (snd xy) exponent cm rv).

  (** _dcor_internals.py:130-173 *)
  Definition p_terms_naive (x y : arg T) (exponent : T) (cm : compile_mode) (rv : bool) : P (terms (T:=T)) :=
    match cm with
    | CAuto | CNoCompile =>
        xy <~ converted2 x y ;; of_M (dcov_terms_naive E (fst xy) (snd xy) exponent cm rv)
    | _ => p_raise NotImplementedError
    end.

  (** _dcor.py:176-205.  The namespace computed on line 192 is the one the chosen method computes again; its warning is
      recorded once. *)
  Definition p_terms_auto (x y : arg T) (exponent : T) (cm : compile_mode) (rv : bool) : P (terms (T:=T)) :=
    xy <~ converted2 x y ;;
    fast <~ (if is_numpy (ans (fst xy)) then p_can_use_fast x y exponent else p_ret false) ;;
    if fast then of_M (terms_avl E (fst xy) (snd xy) exponent cm rv)
    else of_M (dcov_terms_naive E (fst xy) (snd xy) exponent cm rv).

  (** The [terms] of the chosen method, _dcor.py:383-410. *)
  Definition p_method_terms (m : dcov_method) (x y : arg T) (exponent : T) (cm : compile_mode) (rv : bool)
      : P (terms (T:=T)) :=
    match m with
    | MAuto => p_terms_auto x y exponent cm rv
    | MNaive => p_terms_naive x y exponent cm rv
    | MAvl | MMergesort => p_terms_fast m x y exponent cm rv
    end.

  (** _dcor.py:217-238: [x.shape] is read after the terms are computed *)
  Definition p_dcov_sqr (m : dcov_method) (x y : arg T) (exponent : T) (cm : compile_mode) (bias_corrected : bool) : P T :=
    t <~ p_method_terms m x y exponent cm false ;;
    ax <~ with_shape x ;;
    of_M (lift (dcov_from_terms E (t_kind t) (t_mean_prod t) (t_a_axis t) (t_a_total t)
                  (t_b_axis t) (t_b_total t) (shape0 ax) bias_corrected)).

  (** _dcor.py:240-313: [x.shape] is read first *)
  Definition p_stats_sqr (m : dcov_method) (x y : arg T) (exponent : T) (cm : compile_mode) (bias_corrected : bool)
      : P (Stats T) :=
    ax <~ with_shape x ;;
    let n := shape0 ax in
    t <~ p_method_terms m x y exponent cm true ;;
    let mp_a := match t_mp_a t with Some v => v | None => nzero N end in
    let mp_b := match t_mp_b t with Some v => v | None => nzero N end in
    cov <~ of_M (lift (dcov_from_terms E (t_kind t) (t_mean_prod t) (t_a_axis t) (t_a_total t)
                         (t_b_axis t) (t_b_total t) n bias_corrected)) ;;
    vx <~ of_M (lift (dcov_from_terms E (t_vkind t) mp_a (t_a_axis t) (t_a_total t)
                        (t_a_axis t) (t_a_total t) n bias_corrected)) ;;
    vy <~ of_M (lift (dcov_from_terms E (t_vkind t) mp_b (t_b_axis t) (t_b_total t)
                        (t_b_axis t) (t_b_total t) n bias_corrected)) ;;
    p_ret (mkStats cov (correlation_of E cov vx vy) vx vy).

  (** _dcor.py:440-497 *)
  Definition p_distance_covariance_sqr (x y : arg T) (exponent : T) (method : method_like) (cm : compile_mode) : P T :=
    m <~ of_M (lift (to_algorithm method)) ;; p_dcov_sqr m x y exponent cm false.
  (** _dcor.py:500-558 *)
  Definition p_u_distance_covariance_sqr (x y : arg T) (exponent : T) (method : method_like) (cm : compile_mode) : P T :=
    m <~ of_M (lift (to_algorithm method)) ;; p_dcov_sqr m x y exponent cm true.
  (** _dcor.py:561-619 *)
  Definition p_distance_covariance (x y : arg T) (exponent : T) (method : method_like) (cm : compile_mode) : P T :=
    v <~ p_distance_covariance_sqr x y exponent method cm ;; p_ret (sqrt_clamp N v).
  (** _dcor.py:859-916 *)
  Definition p_distance_correlation_sqr (x y : arg T) (exponent : T) (method : method_like) (cm : compile_mode) : P T :=
    m <~ of_M (lift (to_algorithm method)) ;; s <~ p_stats_sqr m x y exponent cm false ;; p_ret (correlation_xy s).
  (** _dcor.py:919-979 *)
  Definition p_u_distance_correlation_sqr (x y : arg T) (exponent : T) (method : method_like) (cm : compile_mode) : P T :=
    m <~ of_M (lift (to_algorithm method)) ;; s <~ p_stats_sqr m x y exponent cm true ;; p_ret (correlation_xy s).
  (** _dcor.py:982-1040 *)
  Definition p_distance_correlation (x y : arg T) (exponent : T) (method : method_like) (cm : compile_mode) : P T :=
    v <~ p_distance_correlation_sqr x y exponent method cm ;; p_ret (sqrt_clamp N v).

  (** _dcor_internals.py:727-735 converts its argument, so _dcor.py:1043-1110 passes arrays on *)
  Definition p_distance_correlation_af_inv_sqr (x y : arg T) (method : method_like) (cm : compile_mode) : P T :=
    ax <~ converted x ;;
    ay <~ converted y ;;
    c <~ p_distance_correlation_sqr (AsArray (af_inv_scaled E ax)) (AsArray (af_inv_scaled E ay)) (nunit N) method cm ;;
    p_ret (if nisnan N c then nzero N else c).

  (** independence.py:241-289 *)
  Definition p_t_statistic (x y : arg T) : P T :=
    r <~ p_u_distance_correlation_sqr x y (nunit N) (MethodEnum MAuto) CAuto ;;
    ax <~ with_shape x ;;
    let v := t_v E (shape0 ax) in
    p_ret (ndiv N (nmul N (nsqrt N (nsub N v (nunit N))) r) (sqrt_clamp N (nsub N (nunit N) (nmul N r r)))).

  (** independence.py:292-349 *)
  Definition p_t_test (x y : arg T) : P (HypothesisTest T) :=
    t <~ p_t_statistic x y ;;
    ax <~ with_shape x ;;
    let df := nsub N (t_v E (shape0 ax)) (nunit N) in
    p_ret (mkTest (nsub N (nunit N) (e_tcdf E t df)) t).

  (** distances.py:109-161 *)
  Definition p_pairwise_distances (x : arg T) (y : option (arg T)) (exponent : T) : P (list (list T)) :=
    match y with
    | None => ax <~ converted x ;; of_M (lift (pairwise_distances E ax None exponent))
    | Some y => xy <~ converted2 x y ;; of_M (lift (pairwise_distances E (fst xy) (Some (snd xy)) exponent))
    end.

  (** _energy.py:131-209 *)
  Definition p_energy_distance (x y : arg T) (exponent : T) (av : average_fn (T:=T)) (es : estimation_like) : P T :=
    xy <~ converted2 x y ;; of_M (energy_distance E (fst xy) (snd xy) exponent av es).

  (** homogeneity.py:57-125 *)
  Definition p_energy_test_statistic (x y : arg T) (exponent : T) (av : average_fn (T:=T)) (es : estimation_like) : P T :=
    xy <~ converted2 x y ;; of_M (energy_test_statistic E (fst xy) (snd xy) exponent av es).

  Context {S : Type} (G : Rng S).

  (** homogeneity.py:169-287 *)
  Definition p_energy_test (samples : list (arg T)) (num_resamples : Z) (exponent : T) (random_state : random_like S)
      (av : average_fn (T:=T)) (es : estimation_like) : P (HypothesisTest T * S) :=
    s <~ array_namespace samples ;;
    of_M (energy_test E G (map (asarray s) samples) num_resamples exponent random_state av es).

  (** independence.py:36-135 *)
  Definition p_distance_covariance_test (x y : arg T) (num_resamples : Z) (exponent : T) (random_state : random_like S)
      : P (HypothesisTest T * S) :=
    xy <~ converted2 x y ;; of_M (distance_covariance_test E G (fst xy) (snd xy) num_resamples exponent random_state).

  (** _partial_dcor.py:18-87, 90-174, independence.py:138-238: every sample is converted on its own.  Simplification: a
      warning about the exponent comes after the three conversions. *)
  Definition converted3 (x y z : arg T) : P (array T * array T * array T) :=
    ax <~ converted x ;; ay <~ converted y ;; az <~ converted z ;; p_ret (ax, ay, az).
  (** _partial_dcor.py:18-87. *)
  Definition p_partial_distance_covariance (x y z : arg T) : P T :=
    a <~ converted3 x y z ;; of_M (partial_distance_covariance E (fst (fst a)) (snd (fst a)) (snd a)).
  (** _partial_dcor.py:90-174. *)
  Definition p_partial_distance_correlation (x y z : arg T) : P T :=
    a <~ converted3 x y z ;; of_M (partial_distance_correlation E (fst (fst a)) (snd (fst a)) (snd a)).
  (** independence.py:138-238. *)
  Definition p_partial_distance_covariance_test (x y z : arg T) (num_resamples : Z) (exponent : T)
      (random_state : random_like S) : P (HypothesisTest T * S) :=
    a <~ converted3 x y z ;;
    of_M (partial_distance_covariance_test E G (fst (fst a)) (snd (fst a)) (snd a) num_resamples exponent random_state).
End Functions.
