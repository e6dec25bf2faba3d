(** Model of dcor/_dcor_internals.py. *)
From Coq Require Import ZArith List Bool Arith.
From Verif Require Import Num Numpy MUtils MDistances.
Import ListNotations.
Local Open Scope monad_scope.

Section Internals.
  Context {T : Type} (E : Env T).
  Let N := e_num E.

  (** [0 < exponent < 2] *)
  Definition exponent_in_range (e : T) : bool :=
    nltb N (nzero N) e && nltb N e (nofZ N 2).

  (** _dcor_internals.py:32-41 *)
  Definition check_valid_dcov_exponent (e : T) : M unit :=
    if exponent_in_range e then ret tt else emit WDcovExponent.

  (** _dcor_internals.py:44-55, on the numbers of rows *)
  Definition check_same_n_elements (nx ny : nat) : res unit :=
    if nx =? ny then Ok tt else Err ValueError.

  (** _dcor_internals.py:75-87 *)
  Definition symmetric_matrix_sums (a : list (list T)) : list T * T :=
    let axis_sum := row_sums N a in (axis_sum, np_sum N axis_sum).

  (** ** Terms of the distance covariance *)

  (** Which of the terms are Python floats rather than numpy floats: dividing a Python
      float by zero raises ZeroDivisionError, dividing a numpy float gives inf or nan; _dcor_internals.py:186-188. *)
  Inductive pykind := AllNumpy | MeanProdPy | AllPy.

  (** The 7-tuple returned by the terms functions; [None] when the variance terms are not
      requested.  [t_kind] concerns [t_mean_prod]; the variances use [t_vkind]. *)
  Record terms := mkTerms {
    t_mean_prod : T;
    t_a_axis : list T; t_a_total : T;
    t_b_axis : list T; t_b_total : T;
    t_mp_a : option T; t_mp_b : option T;
    t_kind : pykind; t_vkind : pykind }.

  (** _dcor_internals.py:176-199 (compiled version _dcor_internals_numba.py:30-40: same
      source).  [n] is [n_samples]; denominators are Python integers. *)
  Definition dcov_from_terms (k : pykind) (mean_prod : T) (a_axis : list T) (a_total : T)
      (b_axis : list T) (b_total : T) (n_samples : nat) (bias_corrected : bool) : res T :=
    let n := Z.of_nat n_samples in
    let first := ndiv N mean_prod (nofZ N n) in
    let? second := np_dot N (map (fun v => ndiv N v (nofZ N n)) a_axis) b_axis in
    let third := nmul N (ndiv N a_total (nofZ N n)) b_total in
    let d1 := (if bias_corrected then n - 3 else n)%Z in
    let d2 := (if bias_corrected then (n - 2) * (n - 3) else n ^ 2)%Z in
    let d3 := (if bias_corrected then (n - 1) * (n - 2) * (n - 3) else n ^ 3)%Z in
    let zde :=
      match k with
      | AllNumpy => false
      | MeanProdPy => (n =? 0)%Z || (d1 =? 0)%Z
      | AllPy => (n =? 0)%Z || (d1 =? 0)%Z || (d3 =? 0)%Z
      end in
    if zde then Err ZeroDivisionError else
    let first := ndiv N first (nofZ N d1) in
    let second := ndiv N second (nofZ N d2) in
    let third := ndiv N third (nofZ N d3) in
    Ok (nadd N (nsub N first (nmul N (nofZ N 2) second)) third).

  (** _dcor_internals.py:657-672: both distance matrices.  Simplification: with arrays of two different libraries the
      code converts both to numpy first; here each keeps its library, which only decides which routine of distances.py is
      used on it. *)
  Definition compute_distances (x y : array T) (exponent : T)
      : M (list (list T) * list (list T)) :=
    _ <- check_valid_dcov_exponent exponent ;;
    a <- lift (pairwise_distances E x None exponent) ;;
    b <- lift (pairwise_distances E y None exponent) ;;
    ret (a, b).

  (** _dcor_internals.py:130-173 *)
  Definition dcov_terms_naive (x y : array T) (exponent : T) (cm : compile_mode)
      (return_var_terms : bool) : M terms :=
    match cm with
    | CAuto | CNoCompile =>
        ab <- compute_distances x y exponent ;;
        let (a, b) := ab in
        let a_vec := concat a in
        let b_vec := concat b in
        mean_prod <- lift (np_dot N a_vec b_vec) ;;
        let (a_axis, a_total) := symmetric_matrix_sums a in
        let (b_axis, b_total) := symmetric_matrix_sums b in
        let var v := if return_var_terms
                     then Some (ndot N v v) else None in
        ret (mkTerms mean_prod a_axis a_total b_axis b_total (var a_vec) (var b_vec)
               AllNumpy AllNumpy)
    | _ => raise NotImplementedError
    end.

  (** ** Centring, with in-place updates on a store of float matrices *)

  (** An array object is a location in the store; [true] marks a floating point dtype; _dcor_internals.py:58-72. *)
  Definition store := list (bool * list (list T)).
  (** An array object, as compared by [out is not origin], _dcor_internals.py:70. *)
  Definition loc := nat.

  (** [a] is square, as the broadcasting of _dcor_internals.py:263-264 requires. *)
  Definition square (m : list (list T)) : bool :=
    forallb (fun r => length r =? length m) m.

  (** _dcor_internals.py:58-72: [out is None] allocates [origin / 1]; a different array is
      overwritten (shapes must agree: broadcasting of size-1 axes is not modelled). *)
  Definition float_copy_to_out (h : store) (out : option loc) (origin : loc)
      : res (loc * store) :=
    let? (_, m) := of_option IndexError (nth_error h origin) in
    match out with
    | None => Ok (length h,
                  h ++ [(true, map (map (fun v => ndiv N v (nunit N))) m)])
    | Some o =>
        if o =? origin then Ok (o, h) else
        let? (fl, m') := of_option IndexError (nth_error h o) in
        if same_shape m m' then Ok (o, upd h o (fl, m)) else Err ValueError
    end.

  (** [out op= ...]: update one array in place; numpy refuses to store floats in an
      integer array (UFuncTypeError, a TypeError); _dcor_internals.py:263-265 and 340-342. *)
  Definition inplace (h : store) (o : loc) (f : list (list T) -> list (list T))
      : res store :=
    let? (fl, m) := of_option IndexError (nth_error h o) in
    if fl then Ok (upd h o (fl, f m)) else Err TypeError.

  (** [out - v[None, :]], [out - v[:, None]], [out + t], [out[eye] = 0] *)
  Definition sub_cols (v : list T) (m : list (list T)) : list (list T) :=
    map (fun r => map2 (nsub N) r v) m.
  (** [out - v[:, None]], _dcor_internals.py:264 and 341. *)
  Definition sub_rows (v : list T) (m : list (list T)) : list (list T) :=
    map2 (fun r s => map (fun x => nsub N x s) r) m v.
  (** [out + t], _dcor_internals.py:265 and 342. *)
  Definition add_all (t : T) (m : list (list T)) : list (list T) :=
    map (map (fun x => nadd N x t)) m.
  (** [out[eye] = 0], _dcor_internals.py:346. *)
  Definition zero_diag (m : list (list T)) : list (list T) :=
    map2 (fun i r => upd r i (nzero N)) (seq 0 (length m)) m.

  (** _dcor_internals.py:202-267.  A non-square [a] is rejected (broadcasting errors;
      simplification: numpy broadcasts a matrix with one row, here it is rejected too). *)
  Definition double_centered (h : store) (a : loc) (out : option loc) : res (loc * store) :=
    let? (o, h) := float_copy_to_out h out a in
    let? (_, m) := of_option IndexError (nth_error h a) in
    if square m then
      let dim := Z.of_nat (length m) in
      let (axis_sum, total_sum) := symmetric_matrix_sums m in
      let total_mean := ndiv N total_sum (nofZ N (dim ^ 2)) in
      let axis_mean := map (fun s => ndiv N s (nofZ N dim)) axis_sum in
      let? h := inplace h o (sub_cols axis_mean) in
      let? h := inplace h o (sub_rows axis_mean) in
      let? h := inplace h o (add_all total_mean) in
      Ok (o, h)
    else Err ValueError.

  (** _dcor_internals.py:270-348 *)
  Definition u_centered (h : store) (a : loc) (out : option loc) : res (loc * store) :=
    let? (o, h) := float_copy_to_out h out a in
    let? (_, m) := of_option IndexError (nth_error h a) in
    if square m then
      let dim := Z.of_nat (length m) in
      let (axis_sum, total_sum) := symmetric_matrix_sums m in
      let total_u_mean := ndiv N total_sum (nofZ N ((dim - 1) * (dim - 2))) in
      let axis_u_mean := map (fun s => ndiv N s (nofZ N (dim - 2))) axis_sum in
      let? h := inplace h o (sub_cols axis_u_mean) in
      let? h := inplace h o (sub_rows axis_u_mean) in
      let? h := inplace h o (add_all total_u_mean) in
      let? h := inplace h o zero_diag in
      Ok (o, h)
    else Err ValueError.

  (** Read the array returned by a centring function; _dcor_internals.py:267 and 348. *)
  Definition deref (r : res (loc * store)) : res (list (list T)) :=
    let? (o, h) := r in
    let? (_, m) := of_option IndexError (nth_error h o) in Ok m.

  (** _dcor_internals.py:675-691: [centering(a, out=a)] on a fresh distance matrix *)
  Definition distance_matrix_generic
      (centering : store -> loc -> option loc -> res (loc * store))
      (x : array T) (exponent : T) : M (list (list T)) :=
    _ <- check_valid_dcov_exponent exponent ;;
    a <- lift (pairwise_distances E x None exponent) ;;
    lift (deref (centering [(true, a)] 0 (Some 0))).

  (** _dcor_internals.py:694-700 *)
  Definition u_distance_matrix (x : array T) (exponent : T) : M (list (list T)) :=
    distance_matrix_generic u_centered x exponent.

  (** ** Products and projections *)

  (** Element-wise product [a * b]; _dcor_internals.py:389 and 460. *)
  Definition elt_product (a b : list (list T)) : res (list (list T)) := elt_op (nmul N) a b.

  (** _dcor_internals.py:351-389 *)
  Definition mean_product (a b : list (list T)) : res T :=
    let? p := elt_product a b in Ok (np_mean N (concat p)).

  (** _dcor_internals.py:392-460 *)
  Definition u_product (a b : list (list T)) : res T :=
    let n := Z.of_nat (length a) in
    let? p := elt_product a b in
    Ok (ndiv N (np_sum N (concat p)) (nofZ N (n * (n - 3)))).

  (** _dcor_internals.py:463-568: the closure returned by [u_projection(c)] *)
  Definition u_projection (c : list (list T)) : res (list (list T) -> res (list (list T))) :=
    let? denominator := u_product c c in
    Ok (fun a =>
          if neqb N denominator (nzero N)
          then Ok (map (map (fun _ => nzero N)) c)
          else let? ac := u_product a c in
               Ok (map (map (fun v => nmul N (ndiv N ac denominator) v)) c)).

  (** _dcor_internals.py:571-654 *)
  Definition u_complementary_projection (c : list (list T))
      : res (list (list T) -> res (list (list T))) :=
    let? proj := u_projection c in
    Ok (fun a =>
          let? p := proj a in elt_op (nsub N) a p).

  (** ** Scaling for the affinely invariant correlation *)

  (** [x.T], _dcor_internals.py:712 and 724. *)
  Definition transpose (c : nat) (m : list (list T)) : list (list T) :=
    map (fun j => map (fun r => nth j r (nzero N)) m) (seq 0 c).

  (** [a @ b] for matrices, [b] with [c] columns; _dcor_internals.py:712, 724 and 735. *)
  Definition matmul (c : nat) (a b : list (list T)) : list (list T) :=
    map (fun r => map (fun col => ndot N r col) (transpose c b)) a.

  (** _dcor_internals.py:703-712, [p] x [p] matrix.  Non-positive eigenvalues become inf and
      then [1 / sqrt(inf) = 0] (written directly). *)
  Definition mat_sqrt_inv (p : nat) (m : list (list T)) : list (list T) :=
    let (eigenvalues, eigenvectors) := e_eigh E m in
    let eigenvalues_sqrt_inv :=
      map (fun v => if nleb N v (nzero N) then nzero N
                    else ndiv N (nunit N) (nsqrt N v)) eigenvalues in
    matmul p (map (fun r => map2 (nmul N) r eigenvalues_sqrt_inv) eigenvectors)
           (transpose p eigenvectors).

  (** _dcor_internals.py:715-724 *)
  Definition cov (p : nat) (x : list (list T)) : list (list T) :=
    let mean := map (fun col => np_mean N col) (transpose p x) in
    let xc := map (fun r => map2 (nsub N) r mean) x in
    map (map (fun v => ndiv N v (nofZ N (Z.of_nat (length x) - 1))))
        (matmul p (transpose p xc) xc).

  (** _dcor_internals.py:727-735: the scaled sample as a float matrix *)
  Definition af_inv_scaled (x : array T) : array T :=
    let (p, rows) := transform_to_2d (adata x) in
    let power := mat_sqrt_inv p (cov p rows) in
    mkArr (ans x) F64
      (Mat p (map (map (fun v => ndiv N v (nofZ N (Z.of_nat (length rows) - 1))))
                  (matmul p rows power))).
End Internals.
Arguments t_mean_prod {T} _.
Arguments t_a_axis {T} _.
Arguments t_a_total {T} _.
Arguments t_b_axis {T} _.
Arguments t_b_total {T} _.
Arguments t_mp_a {T} _.
Arguments t_mp_b {T} _.
Arguments t_kind {T} _.
Arguments t_vkind {T} _.
Arguments mkTerms {T}.
