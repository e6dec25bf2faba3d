(** Model of dcor/_fast_dcov_mergesort.py. *)
From Coq Require Import ZArith List Bool Arith.
From Verif Require Import Num Numpy MUtils MInternals.
Import ListNotations.
Local Open Scope monad_scope.

Section Mergesort.
  Context {T : Type} (E : Env T).
  Let N := e_num E.

  (** Effect of an out-of-range index: numpy raises, numba-compiled code does not check. *)
  Variable oob : exn.

  (** Whether [weight_sums[...] += ...] is accepted by numpy's same-kind casting rule:
      false when [y] is an integer array and the weights are floats. *)
  Variable cast_ok : bool.

  (** Mutable state of the merge: the [current_indexes] buffer, [indexes_idx] and
      [weight_sums] (one row per weight variable); _fast_dcov_mergesort.py:47-67. *)
  Record mstate := mkMS { ms_cur : list nat; ms_idx : nat; ms_ws : list (list T) }.

  (** [previous_indexes[i]] and [y[i]], _fast_dcov_mergesort.py:93-96. *)
  Definition rd {A} (l : list A) (i : nat) : res A := of_option oob (nth_error l i).

  (** [current_indexes[idx] = v; indexes_idx += 1] *)
  Definition push (st : mstate) (v : nat) (ws : list (list T)) : res mstate :=
    if ms_idx st <? length (ms_cur st)
    then Ok (mkMS (upd (ms_cur st) (ms_idx st) v) (S (ms_idx st)) ws)
    else Err oob.

  (** [weight_sums[:, p] += weights_cumsum[hi] - weights_cumsum[lo]], one variable; _fast_dcov_mergesort.py:103-106. *)
  Definition add_weight (p hi lo : nat) (row cums : list T) : res (list T) :=
    let? w := rd row p in
    let? chi := rd cums hi in
    let? clo := rd cums lo in
    Ok (upd row p (nadd N w (nsub N chi clo))).

  (** all variables; _fast_dcov_mergesort.py:103-106. *)
  Fixpoint add_weights (p hi lo : nat) (ws cums : list (list T)) : res (list (list T)) :=
    match ws, cums with
    | row :: ws', cs :: cums' =>
        let? row' := add_weight p hi lo row cs in
        let? rest := add_weights p hi lo ws' cums' in
        Ok (row' :: rest)
    | _, _ => Ok []
    end.

  (** _fast_dcov_mergesort.py:88-108: the merge loop on two adjacent blocks, with the
      current and last index of each block; returns the current indices and the state. *)
  Fixpoint merge_loop (fuel : nat) (y : list T) (prev : list nat) (cums : list (list T))
      (s1 last1 s2 last2 : nat) (st : mstate) : res (nat * nat * mstate) :=
    if (s1 <=? last1) && (s2 <=? last2) then
      match fuel with
      | O => Err Diverged
      | S fuel =>
          let? p1 := rd prev s1 in
          let? p2 := rd prev s2 in
          let? y1 := rd y p1 in
          let? y2 := rd y p2 in
          if nleb N y2 y1 then
            let? st := push st p1 (ms_ws st) in
            merge_loop fuel y prev cums (S s1) last1 s2 last2 st
          else
            if cast_ok then
              let? ws := add_weights p2 (last1 + 1) s1 (ms_ws st) cums in
              let? st := push st p2 ws in
              merge_loop fuel y prev cums s1 last1 (S s2) last2 st
            else Err TypeError
      end
    else Ok (s1, s2, st).

  (** [current_indexes[idx:idx+k] = previous_indexes[lo:lo+k]]; _fast_dcov_mergesort.py:113-115 and 120-122. *)
  Definition copy_slice (prev : list nat) (lo k : nat) (st : mstate) : res mstate :=
    let src := slice prev lo (lo + k) in
    if (length src =? k) && (ms_idx st + k <=? length (ms_cur st))
    then Ok (mkMS (firstn (ms_idx st) (ms_cur st) ++ src
                     ++ skipn (ms_idx st + k) (ms_cur st))
                  (ms_idx st + k) (ms_ws st))
    else Err ValueError.

  (** _fast_dcov_mergesort.py:76-123: one pair of blocks of length [len] starting at
      [pair_idx] *)
  Definition merge_pair (n len : nat) (y : list T) (prev : list nat)
      (cums : list (list T)) (st : mstate) (pair_idx : nat) : res mstate :=
    let s1 := pair_idx in
    let s2 := pair_idx + len in
    let last1 := min (s1 + len - 1) (n - 1) in
    let last2 := min (s2 + len - 1) (n - 1) in
    let? (s1, s2, st) := merge_loop (2 * len) y prev cums s1 last1 s2 last2 st in
    if s1 <=? last1 then copy_slice prev s1 (last1 - s1 + 1) st
    else if s2 <=? last2 then copy_slice prev s2 (last2 - s2 + 1) st
    else Ok st.

  (** All the pairs of blocks, _fast_dcov_mergesort.py:76-123. *)
  Fixpoint merge_pairs (n len : nat) (y : list T) (prev : list nat)
      (cums : list (list T)) (pairs : list nat) (st : mstate) : res mstate :=
    match pairs with
    | [] => Ok st
    | p :: ps =>
        let? st := merge_pair n len y prev cums st p in
        merge_pairs n len y prev cums ps st
    end.

  (** [weights_cumsum[1:, var] = cumsum(weights[previous_indexes, var])], with the leading
      0, for one variable (the model stores one list per variable) *)
  Definition cumsum_var (prev : list nat) (w : list T) : res (list T) :=
    let? ws := take_chk oob w prev in Ok (nzero N :: np_cumsum N ws).

  (** _fast_dcov_mergesort.py:62-128: the passes, block length doubling each time *)
  Fixpoint merge_passes (fuel n len : nat) (y : list T) (weights : list (list T))
      (prev cur : list nat) (ws : list (list T)) : res (list (list T)) :=
    if len <? n then
      match fuel with
      | O => Err Diverged
      | S fuel =>
          let gap := 2 * len in
          let? cums := mapM (cumsum_var prev) weights in
          let? st := merge_pairs n len y prev cums (range_step n gap) (mkMS cur 0 ws) in
          merge_passes fuel n gap y weights (ms_cur st) prev (ms_ws st)
      end
    else Ok ws.

  (** _fast_dcov_mergesort.py:40-130; [weights] holds one list per variable *)
  Definition compute_weight_sums (y : list T) (weights : list (list T))
      : res (list (list T)) :=
    let n := length y in
    merge_passes n n 1 y weights (seq 0 n) (repeat 0 n)
      (map (fun _ => repeat (nzero N) n) weights).

  (** _fast_dcov_mergesort.py:139-176; [x] sorted *)
  Definition compute_aijbij_term (x y : list T) : res T :=
    let n := nofZ N (Z.of_nat (length x)) in
    let xy := map2 (nmul N) x y in
    let weights := [map (fun _ => nunit N) y; y; x; xy] in
    let? ws := compute_weight_sums y weights in
    let? term_1 := np_dot N xy (nth 0 ws []) in
    let? term_2 := np_dot N x (nth 1 ws []) in
    let? term_3 := np_dot N y (nth 2 ws []) in
    let term_4 := np_sum N (nth 3 ws []) in
    let sums_term := nadd N (nsub N (nsub N term_1 term_2) term_3) term_4 in
    let sum_x := np_sum N x in
    let sum_y := np_sum N y in
    let? nxy := np_dot N (map (fun v => nmul N n v) x) y in
    let cov_term :=
      nadd N (nsub N nxy
                (np_sum N (map2 (fun a b => nadd N (nmul N sum_x b) (nmul N sum_y a)) x y)))
             (nmul N sum_x sum_y) in
    Ok (nsub N (nmul N (nofZ N 4) sums_term) (nmul N (nofZ N 2) cov_term)).

  (** _fast_dcov_mergesort.py:190-203; [sums[-1]] raises IndexError on an empty array *)
  Definition compute_row_sums (x : list T) : res (list T) :=
    let n := Z.of_nat (length x) in
    let term_1 := map2 (fun i v => nmul N (nofZ N (2 * Z.of_nat i - n)) v)
                       (seq 1 (length x)) x in
    let sums := np_cumsum N x in
    let? last := of_option oob (nth_error sums (length sums - 1)) in
    Ok (map2 (nadd N) term_1 (map (fun s => nsub N last (nmul N (nofZ N 2) s)) sums)).

  (** _fast_dcov_mergesort.py:211-266.  [y[ordered_indexes]] reads only the positions of
      [x]; [b_i = np.empty_like(...)] then [b_i[ordered_indexes_y] = b_i_perm]. *)
  Definition terms_mergesort_impl (k kv : pykind) (x y : list T) (return_var_terms : bool)
      : res (terms (T:=T)) :=
    let n := Z.of_nat (length x) in
    let ordered := e_argsort E x in
    let? x := take_chk oob x ordered in
    let? y := take_chk oob y ordered in
    let? aijbij := compute_aijbij_term x y in
    let? a_i := compute_row_sums x in
    let ordered_y := e_argsort E y in
    let? y_sorted := take_chk oob y ordered_y in
    let? b_i_perm := compute_row_sums y_sorted in
    let b_i := scatter (e_empty E (length b_i_perm)) ordered_y b_i_perm in
    let var v := if return_var_terms
                 then Some (nmul N (nofZ N (2 * n ^ 2)) (np_var N v)) else None in
    Ok (mkTerms aijbij a_i (np_sum N a_i) b_i (np_sum N b_i) (var x) (var y) k kv).
End Mergesort.

Section Wrapper.
  Context {T : Type} (E : Env T).
  Let N := e_num E.

  (** The dtype the numba signatures accept, _fast_dcov_mergesort.py:274-288. *)
  Definition is_f64 (d : dtype) : bool := match d with F64 => true | _ => false end.
  (** [.item()] on elements of object dtype, _fast_dcov_mergesort.py:96 and 174. *)
  Definition is_obj (d : dtype) : bool := match d with Obj _ => true | _ => false end.

  (** One implementation applied to 1-d arrays of given dtypes.  Compiled: the numba
      signature accepts float64 only, otherwise TypeError; a read past the end of [y] is
      unchecked.  Uncompiled: [.item()] does not exist on Fraction/Decimal objects, and
      [weight_sums += ...] fails when [y] is an integer array to which the promoted weights
      cannot be cast (float [x]; signed [x] with unsigned [y]; simplification: signed [y]
      with unsigned [x] is taken to promote to a signed type, i.e. not uint64). *)
  Definition weights_cast_ok (dx dy : dtype) : bool :=
    match dy, dx with
    | SInt, (SInt | UInt) | UInt, UInt => true
    | (SInt | UInt), _ => false
    | _, _ => true
    end.

  (** One implementation, compiled or not, _fast_dcov_mergesort.py:269-293. *)
  Definition mergesort_impl (compiled : bool) (dx dy : dtype) (x y : list T) (rv : bool)
      : res (terms (T:=T)) :=
    if compiled then
      if is_f64 dx && is_f64 dy
      then terms_mergesort_impl (seq_env E) UndefinedBehaviour true AllPy AllPy x y rv
      else Err TypeError
    else
      if is_obj dx || is_obj dy then Err AttributeError
      else terms_mergesort_impl E IndexError (weights_cast_ok dx dy)
             MeanProdPy AllNumpy x y rv.

  (** _fast_dcov_mergesort.py:318-330 (and _fast_dcov_avl.py:459-470): implementations tried for each compile mode *)
  Definition impls (cm : compile_mode) : option (list bool) :=
    match cm with
    | CAuto => Some [true; false]
    | CNoCompile => Some [false]
    | CCompileCpu => Some [true]
    | CCompileParallel => None
    end.

  (** _fast_dcov_mergesort.py:400-419 (and _fast_dcov_avl.py:543-560): try the
      implementations in order, a TypeError in AUTO mode warns and tries the next one;
      falling off the end returns None, and the caller's [terms[:-2]] / unpacking of None
      raises TypeError. *)
  Fixpoint try_impls (w : warn) (auto : bool) (impl : bool -> res (terms (T:=T)))
      (l : list bool) : M (terms (T:=T)) :=
    match l with
    | [] => raise TypeError
    | c :: l' =>
        match impl c with
        | Err TypeError =>
            if auto then (_ <- emit w ;; try_impls w auto impl l') else raise TypeError
        | r => lift r
        end
    end.

  (** [compile_mode is CompileMode.AUTO], _fast_dcov_mergesort.py:410 and _fast_dcov_avl.py:551. *)
  Definition is_auto (cm : compile_mode) : bool :=
    match cm with CAuto => true | _ => false end.

  (** _fast_dcov_mergesort.py:372-419 *)
  Definition terms_mergesort (x y : array T) (exponent : T) (cm : compile_mode) (rv : bool)
      : M (terms (T:=T)) :=
    if negb (neqb N exponent (nunit N)) then raise ValueError else
    x1 <- lift (transform_to_1d (adata x)) ;;
    y1 <- lift (transform_to_1d (adata y)) ;;
    match together x y with
    | OtherLib => raise ValueError
    | Numpy =>
        match impls cm with
        | None => raise NotImplementedError
        | Some l =>
            try_impls WFallbackMergesort (is_auto cm)
              (fun c => mergesort_impl c (adt x) (adt y) x1 y1 rv) l
        end
    end.
End Wrapper.
