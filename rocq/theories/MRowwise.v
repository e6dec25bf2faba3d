(** Model of dcor/_rowwise.py and of the row-wise part of dcor/_fast_dcov_avl.py. *)
From Coq Require Import ZArith List Bool Arith.
From Verif Require Import Num Numpy MUtils MInternals MMergesort MAvl MDcor.
Import ListNotations.
Local Open Scope monad_scope.

(** Keyword arguments passed through rowwise; _rowwise.py:19-21 and 111. *)
Record kwargs (T : Type) := mkKw {
  kw_exponent : T; kw_method : method_like; kw_compile : compile_mode }.
Arguments kw_exponent {T} _.
Arguments kw_method {T} _.
Arguments kw_compile {T} _.
Arguments mkKw {T} _ _ _.

(** The dependency measures with a [rowwise_function] attribute, and any other one;
    _rowwise.py:37-41, 53, 85-89, 102 and 179. *)
Inductive dep_function (T : Type) :=
| FDcovSqr | FUDcovSqr | FDcov | FDcorSqr | FUDcorSqr | FDcor
| FOther (f : array T -> array T -> kwargs T -> M T).
Arguments FDcovSqr {T}.
Arguments FUDcovSqr {T}.
Arguments FDcov {T}.
Arguments FDcorSqr {T}.
Arguments FUDcorSqr {T}.
Arguments FDcor {T}.
Arguments FOther {T} _.

Section Rowwise.
  Context {T : Type} (E : Env T).
  Let N := e_num E.

  (** Calling the measure itself; _rowwise.py:192. *)
  Definition call_function (f : dep_function T) (x y : array T) (kw : kwargs T) : M T :=
    let e := kw_exponent kw in
    let m := kw_method kw in
    let c := kw_compile kw in
    match f with
    | FDcovSqr => distance_covariance_sqr E x y e m c
    | FUDcovSqr => u_distance_covariance_sqr E x y e m c
    | FDcov => distance_covariance E x y e m c
    | FDcorSqr => distance_correlation_sqr E x y e m c
    | FUDcorSqr => u_distance_correlation_sqr E x y e m c
    | FDcor => distance_correlation E x y e m c
    | FOther g => g x y kw
    end.

  (** The row as a vector if all the rows have the shape of the first one: the stacked
      array [np.asarray(rows)] then has ndim 2 (vectors) or 3 with one column; rows of
      different shapes cannot be stacked (ValueError). *)
  Definition nd_shape (d : nd T) : nat * option nat :=
    match d with Vec v => (length v, None) | Mat c rows => (length rows, Some c) end.
  (** The shapes of two rows are equal (np.concatenate, _rowwise.py:64-65; np.asarray, _fast_dcov_avl.py:618-619). *)
  Definition shape_eqb (s t : nat * option nat) : bool :=
    (fst s =? fst t) &&
    match snd s, snd t with
    | None, None => true | Some a, Some b => a =? b | _, _ => false end.
  (** All the rows have one shape, _rowwise.py:64-65 and _fast_dcov_avl.py:618-619. *)
  Definition homogeneous (l : list (array T)) : bool :=
    match l with
    | [] => true
    | a :: _ => forallb (fun b => shape_eqb (nd_shape (adata a)) (nd_shape (adata b))) l
    end.

  (** _fast_dcov_avl.py:567-587 with _dcor_internals_numba.py:49-89: the kernel of one row *)
  Definition rowwise_kernel (unbiased : bool) (x y : list T) : res T :=
    let? t := terms_avl_impl (seq_env E) true UndefinedBehaviour AllPy AllPy x y false in
    dcov_from_terms (seq_env E) (t_kind t) (t_mean_prod t) (t_a_axis t) (t_a_total t)
      (t_b_axis t) (t_b_total t) (length x) unbiased.

  (** gufunc input/output casting: inputs must be safely convertible to float64, and a
      float64 result must be storable in an array of the dtype of [x]. *)
  Definition gufunc_types_ok (dx dy : dtype) : bool :=
    match dx with F64 | F32 => true | _ => false end &&
    match dy with F64 | F32 | SInt | UInt => true | _ => false end.

  (** Broadcasting of the loop dimension: the output has as many rows as [x]; _fast_dcov_avl.py:638. *)
  Definition bcast_rows (nx : nat) (y : list (list T)) : option (list (list T)) :=
    if length y =? nx then Some y
    else match y with [a] => Some (repeat a nx) | _ => None end.

  (** The dtype of the stacked rows, _fast_dcov_avl.py:618-619. *)
  Definition dt0 (l : list (array T)) : dtype :=
    match l with a :: _ => adt a | [] => F64 end.

  (** _fast_dcov_avl.py:607-640; [None] is NotImplemented.  The dtype of a stack of rows
      is that of its first row (simplification: equal dtypes). *)
  Definition rowwise_avl_generic (x y : list (array T)) (unbiased : bool)
      (cm : compile_mode) : res (option (list T)) :=
    if negb (homogeneous x) then Err ValueError else
    if negb (homogeneous y) then Err ValueError else
    let? xs := mapM (fun a => transform_to_1d (adata a)) x in
    let? ys := mapM (fun a => transform_to_1d (adata a)) y in
    match cm with
    | CNoCompile => Ok None
    | _ =>
        if negb (gufunc_types_ok (dt0 x) (dt0 y)) then Err TypeError else
        let? ys := of_option ValueError (bcast_rows (length xs) ys) in
        if forallb (fun p => length (fst p) =? length (snd p)) (combine xs ys)
        then let? r := mapM (fun p => rowwise_kernel unbiased (fst p) (snd p))
                            (combine xs ys) in
             Ok (Some r)
        else Err ValueError
    end.

  (** [method in (AUTO, AVL)]: a string is not equal to an enum member; _rowwise.py:27-28. *)
  Definition method_auto_or_avl (m : method_like) : bool :=
    match m with MethodEnum MAuto | MethodEnum MAvl => true | _ => false end.

  (** _rowwise.py:17-34; [x[0]] of an empty sequence raises IndexError *)
  Definition rowwise_dcov_sqr (unbiased : bool) (x y : list (array T)) (kw : kwargs T)
      : res (option (list T)) :=
    let? x0 := of_option IndexError (nth_error x 0) in
    let? y0 := of_option IndexError (nth_error y 0) in
    if negb (can_use_fast_algorithm E x0 y0 (kw_exponent kw)) then Ok None else
    if method_auto_or_avl (kw_method kw)
    then rowwise_avl_generic x y unbiased (kw_compile kw)
    else Ok None.

  (** _rowwise.py:44-50 *)
  Definition rowwise_dcov (x y : list (array T)) (kw : kwargs T) : res (option (list T)) :=
    let? r := rowwise_dcov_sqr false x y kw in
    Ok (option_map (map (sqrt_clamp N)) r).

  (** _rowwise.py:56-82; [np.concatenate] requires rows of one shape.  Concatenating empty
      sequences gives an array without rows, or fails on the number of axes. *)
  Definition rowwise_dcor_sqr (unbiased : bool) (x y : list (array T)) (kw : kwargs T)
      : res (option (list T)) :=
    let n_comps := length x in
    if homogeneous (x ++ y)
       && Bool.eqb (length x =? 0) (length y =? 0) then
      let? r := rowwise_dcov_sqr unbiased (x ++ x ++ y) (y ++ x ++ y) kw in
      match r with
      | None => Ok None
      | Some r =>
          let cov := firstn n_comps r in
          let x_std := map (sqrt_clamp N) (slice r n_comps (2 * n_comps)) in
          let y_std := map (sqrt_clamp N) (skipn (2 * n_comps) r) in
          let corr := map2 (ndiv N) (map2 (ndiv N) cov x_std) y_std in
          Ok (Some (map (fun v => if nisnan N v then nzero N else v) corr))
      end
    else Err ValueError.

  (** _rowwise.py:92-99 *)
  Definition rowwise_dcor (x y : list (array T)) (kw : kwargs T) : res (option (list T)) :=
    let? r := rowwise_dcor_sqr false x y kw in
    Ok (option_map (map (sqrt_clamp N)) r).

  (** the [rowwise_function] attributes: _rowwise.py:37-41, 53, 85-89, 102 *)
  Definition rowwise_function (f : dep_function T) (x y : list (array T)) (kw : kwargs T)
      : res (option (list T)) :=
    match f with
    | FDcovSqr => rowwise_dcov_sqr false x y kw
    | FUDcovSqr => rowwise_dcov_sqr true x y kw
    | FDcov => rowwise_dcov x y kw
    | FDcorSqr => rowwise_dcor_sqr false x y kw
    | FUDcorSqr => rowwise_dcor_sqr true x y kw
    | FDcor => rowwise_dcor x y kw
    | FOther _ => Ok None
    end.

  (** A list comprehension whose body may raise or warn, _rowwise.py:192. *)
  Fixpoint mapMM {A B} (f : A -> M B) (l : list A) : M (list B) :=
    match l with
    | [] => ret []
    | a :: l' => b <- f a ;; bs <- mapMM f l' ;; ret (b :: bs)
    end.

  (** _rowwise.py:191-193: list comprehension over zip *)
  Definition rowwise_naive (f : dep_function T) (x y : list (array T)) (kw : kwargs T)
      : M (list T) :=
    mapMM (fun p => call_function f (fst p) (snd p) kw) (combine x y).

  (** _rowwise.py:105-193 *)
  Definition rowwise (f : dep_function T) (x y : list (array T)) (mode : rowwise_mode)
      (kw : kwargs T) : M (list T) :=
    r <- match mode with
         | RWNaive => ret None
         | _ => lift (rowwise_function f x y kw)
         end ;;
    match r with
    | Some l => ret l
    | None =>
        match mode with
        | RWOptimized => raise NotImplementedError
        | _ => rowwise_naive f x y kw
        end
    end.
End Rowwise.
