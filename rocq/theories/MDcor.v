(** Model of dcor/_dcor.py. *)
From Coq Require Import ZArith List Bool Arith String Ascii.
From Verif Require Import Num Numpy MUtils MInternals MMergesort MAvl.
Import ListNotations.
Local Open Scope monad_scope.

(** [str.upper] on ASCII letters (simplification: other characters are unchanged); _dcor.py:437 and _energy.py:42. *)
Definition upper_ascii (a : ascii) : ascii :=
  let n := nat_of_ascii a in
  if (97 <=? n)%nat && (n <=? 122)%nat then ascii_of_nat (n - 32) else a.
(** [str.upper], _dcor.py:437 and _energy.py:42. *)
Fixpoint upper (s : string) : string :=
  match s with
  | EmptyString => EmptyString
  | String a s' => String (upper_ascii a) (upper s')
  end.

(** _dcor.py:380-417 *)
Inductive dcov_method := MAuto | MNaive | MAvl | MMergesort.

(** _dcor.py:423-427: a method, or a string *)
Inductive method_like := MethodEnum (m : dcov_method) | MethodStr (s : string).

(** _dcor.py:430-437 *)
Definition to_algorithm (m : method_like) : res dcov_method :=
  match m with
  | MethodEnum m => Ok m
  | MethodStr s =>
      let u := upper s in
      if String.eqb u "AUTO" then Ok MAuto
      else if String.eqb u "NAIVE" then Ok MNaive
      else if String.eqb u "AVL" then Ok MAvl
      else if String.eqb u "MERGESORT" then Ok MMergesort
      else Err KeyError
  end.

(** _dcor.py:48-54 *)
Record Stats (T : Type) := mkStats {
  covariance_xy : T; correlation_xy : T; variance_x : T; variance_y : T }.
Arguments covariance_xy {T} _.
Arguments correlation_xy {T} _.
Arguments variance_x {T} _.
Arguments variance_y {T} _.
Arguments mkStats {T} _ _ _ _.

(** [xp == numpy_namespace], _dcor.py:196. *)
Definition is_numpy (s : nspace) : bool := match s with Numpy => true | OtherLib => false end.

Section Dcor.
  Context {T : Type} (E : Env T).
  Let N := e_num E.

  (** _dcor.py:316-324 *)
  Definition is_random_variable (d : nd T) : bool :=
    match d with Vec _ => true | Mat c _ => c =? 1 end.

  (** _dcor.py:327-341 *)
  Definition can_use_fast_algorithm (x y : array T) (exponent : T) : bool :=
    is_random_variable (adata x) && is_random_variable (adata y)
    && (3 <? shape0 x) && (3 <? shape0 y) && neqb N exponent (nunit N).

  (** _dcor.py:176-205.  [xp == numpy_namespace] unless both arguments are arrays of another library. *)
  Definition terms_auto (x y : array T) (exponent : T) (cm : compile_mode) (rv : bool)
      : M (terms (T:=T)) :=
    if is_numpy (together x y) && can_use_fast_algorithm x y exponent
    then terms_avl E x y exponent cm rv
    else dcov_terms_naive E x y exponent cm rv.

  (** the [terms] field of each method, _dcor.py:383-410 *)
  Definition method_terms (m : dcov_method) : array T -> array T -> T -> compile_mode -> bool
      -> M (terms (T:=T)) :=
    match m with
    | MAuto => terms_auto
    | MNaive => dcov_terms_naive E
    | MAvl => terms_avl E
    | MMergesort => terms_mergesort E
    end.

  (** _dcor.py:217-238 *)
  Definition algo_dcov_sqr (m : dcov_method) (x y : array T) (exponent : T)
      (cm : compile_mode) (bias_corrected : bool) : M T :=
    t <- method_terms m x y exponent cm false ;;
    lift (dcov_from_terms E (t_kind t) (t_mean_prod t) (t_a_axis t) (t_a_total t)
            (t_b_axis t) (t_b_total t) (shape0 x) bias_corrected).

  (** _dcor.py:298-306: correlation from covariance and variances *)
  Definition correlation_of (cov vx vy : T) : T :=
    let denominator := sqrt_clamp N (nabs N (nmul N vx vy)) in
    if neqb N denominator (nzero N) then nzero N else ndiv N cov denominator.

  (** _dcor.py:240-313 (the variance terms are present because they were requested) *)
  Definition algo_stats_sqr (m : dcov_method) (x y : array T) (exponent : T)
      (cm : compile_mode) (bias_corrected : bool) : M (Stats T) :=
    let n := shape0 x in
    t <- method_terms m x y exponent cm true ;;
    let mp_a := match t_mp_a t with Some v => v | None => nzero N end in
    let mp_b := match t_mp_b t with Some v => v | None => nzero N end in
    cov <- lift (dcov_from_terms E (t_kind t) (t_mean_prod t) (t_a_axis t) (t_a_total t)
                   (t_b_axis t) (t_b_total t) n bias_corrected) ;;
    vx <- lift (dcov_from_terms E (t_vkind t) mp_a (t_a_axis t) (t_a_total t)
                  (t_a_axis t) (t_a_total t) n bias_corrected) ;;
    vy <- lift (dcov_from_terms E (t_vkind t) mp_b (t_b_axis t) (t_b_total t)
                  (t_b_axis t) (t_b_total t) n bias_corrected) ;;
    ret (mkStats cov (correlation_of cov vx vy) vx vy).

  (** _dcor.py:440-497 *)
  Definition distance_covariance_sqr (x y : array T) (exponent : T) (method : method_like)
      (cm : compile_mode) : M T :=
    m <- lift (to_algorithm method) ;; algo_dcov_sqr m x y exponent cm false.

  (** _dcor.py:500-558 *)
  Definition u_distance_covariance_sqr (x y : array T) (exponent : T)
      (method : method_like) (cm : compile_mode) : M T :=
    m <- lift (to_algorithm method) ;; algo_dcov_sqr m x y exponent cm true.

  (** _dcor.py:561-619 *)
  Definition distance_covariance (x y : array T) (exponent : T) (method : method_like)
      (cm : compile_mode) : M T :=
    v <- distance_covariance_sqr x y exponent method cm ;; ret (sqrt_clamp N v).

  (** _dcor.py:622-695 *)
  Definition distance_stats_sqr (x y : array T) (exponent : T) (method : method_like)
      (cm : compile_mode) : M (Stats T) :=
    m <- lift (to_algorithm method) ;; algo_stats_sqr m x y exponent cm false.

  (** _dcor.py:698-775 *)
  Definition u_distance_stats_sqr (x y : array T) (exponent : T) (method : method_like)
      (cm : compile_mode) : M (Stats T) :=
    m <- lift (to_algorithm method) ;; algo_stats_sqr m x y exponent cm true.

  (** _dcor.py:778-856 *)
  Definition distance_stats (x y : array T) (exponent : T) (method : method_like)
      (cm : compile_mode) : M (Stats T) :=
    s <- distance_stats_sqr x y exponent method cm ;;
    ret (mkStats (sqrt_clamp N (covariance_xy s)) (sqrt_clamp N (correlation_xy s))
                 (sqrt_clamp N (variance_x s)) (sqrt_clamp N (variance_y s))).

  (** _dcor.py:859-916 *)
  Definition distance_correlation_sqr (x y : array T) (exponent : T) (method : method_like)
      (cm : compile_mode) : M T :=
    m <- lift (to_algorithm method) ;;
    s <- algo_stats_sqr m x y exponent cm false ;; ret (correlation_xy s).

  (** _dcor.py:919-979 *)
  Definition u_distance_correlation_sqr (x y : array T) (exponent : T)
      (method : method_like) (cm : compile_mode) : M T :=
    m <- lift (to_algorithm method) ;;
    s <- algo_stats_sqr m x y exponent cm true ;; ret (correlation_xy s).

  (** _dcor.py:982-1040 *)
  Definition distance_correlation (x y : array T) (exponent : T) (method : method_like)
      (cm : compile_mode) : M T :=
    v <- distance_correlation_sqr x y exponent method cm ;; ret (sqrt_clamp N v).

  (** _dcor.py:1043-1110 (exponent fixed to the default 1) *)
  Definition distance_correlation_af_inv_sqr (x y : array T) (method : method_like)
      (cm : compile_mode) : M T :=
    let x := af_inv_scaled E x in
    let y := af_inv_scaled E y in
    c <- distance_correlation_sqr x y (nunit N) method cm ;;
    ret (if nisnan N c then nzero N else c).

  (** _dcor.py:1113-1171 *)
  Definition distance_correlation_af_inv (x y : array T) (method : method_like)
      (cm : compile_mode) : M T :=
    v <- distance_correlation_af_inv_sqr x y method cm ;; ret (sqrt_clamp N v).
End Dcor.
