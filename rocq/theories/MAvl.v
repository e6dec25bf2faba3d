(** Model of dcor/_fast_dcov_avl.py. *)
From Coq Require Import ZArith List Bool Arith.
From Verif Require Import Num Numpy MUtils MInternals MMergesort.
Import ListNotations.
Local Open Scope monad_scope.

Section Dyad.
  Context {T : Type} (N : Num T).
  Variable oob : exn.

  (** [s[pos]] and [s[pos] = v] with a Python integer index (negative counts from the end);
      _fast_dcov_avl.py:82, 85, 121 and 130. *)
  Definition zget (s : list T) (pos : Z) : res T :=
    let? i := of_option oob (pyidx (length s) pos) in of_option oob (nth_error s i).
  (** [s[pos] = v], _fast_dcov_avl.py:85 and 121. *)
  Definition zset (s : list T) (pos : Z) (v : T) : res (list T) :=
    let? i := of_option oob (pyidx (length s) pos) in Ok (upd s i v).

  (** [int(math.ceil(y / 2**l))] and [int(math.floor(y / 2**l))] for an integer-valued
      [y]; the division of small integers by a power of two is exact in floating point. *)
  Definition ceil_div (y d : Z) : Z := (- ((- y) / d))%Z.

  (** Position in [s] of block [k] (1-based) at level [l]: _fast_dcov_avl.py:66-67 and
      115-119.  [pos_sums[l - 1]] is added for [l > 0]. *)
  Definition level_offset (pos_sums : list Z) (l : nat) : Z :=
    match l with O => 0%Z | S l' => nth l' pos_sums 0%Z end.
  (** Position of step 3.a, _fast_dcov_avl.py:66-67 and 115-119. *)
  Definition pos_3a (pos_sums : list Z) (y : Z) (l : nat) : Z :=
    (ceil_div y (2 ^ Z.of_nat l) - 1 + level_offset pos_sums l)%Z.

  (** _fast_dcov_avl.py:70 and 125 *)
  Definition pos_3b_raw (y : Z) (l : nat) : Z := ((y - 1) / 2 ^ Z.of_nat l - 1)%Z.
  (** _fast_dcov_avl.py:71 and 126 *)
  Definition valid_3b (y : Z) (l : nat) : bool := (pos_3b_raw y l mod 2 =? 0)%Z.
  (** Position of steps 3.b and 3.c, _fast_dcov_avl.py:70-72 and 125-128. *)
  Definition pos_3b (pos_sums : list Z) (y : Z) (l : nat) : Z :=
    (pos_3b_raw y l + level_offset pos_sums l)%Z.

  (** [s[pos]] for an array of positions, _fast_dcov_avl.py:82 and 85. *)
  Fixpoint zgets (s : list T) (ps : list Z) : res (list T) :=
    match ps with
    | [] => Ok []
    | p :: ps' => let? v := zget s p in let? vs := zgets s ps' in Ok (v :: vs)
    end.
  (** [s[pos] = v] for an array of positions, _fast_dcov_avl.py:85. *)
  Fixpoint zsets (s : list T) (ps : list Z) (vs : list T) : res (list T) :=
    match ps, vs with
    | p :: ps', v :: vs' => let? s := zset s p v in zsets s ps' vs'
    | _, _ => Ok s
    end.

  (** _fast_dcov_avl.py:43-87, the loop (lines 78-85): for every element, [gamma[i]] is the
      sum of [s] at the valid 3.b positions, then [s[pos_a] += c_i] (gather, add,
      scatter).  Returns [gamma] and the final [s]. *)
  Fixpoint dyad_loop (l_max : nat) (pos_sums : list Z) (y : list Z) (c : list T)
      (s : list T) : res (list T * list T) :=
    match y, c with
    | yi :: y', ci :: c' =>
        let pos_a := map (pos_3a pos_sums yi) (seq 0 l_max) in
        let pos_b := map (pos_3b pos_sums yi) (filter (valid_3b yi) (seq 0 l_max)) in
        let? sb := zgets s pos_b in
        let gi := np_sum N sb in
        let? sa := zgets s pos_a in
        let? s := zsets s pos_a (map (fun v => nadd N v ci) sa) in
        let? (g, s) := dyad_loop l_max pos_sums y' c' s in
        Ok (gi :: g, s)
    | _, _ => Ok ([], s)
    end.

  (** _fast_dcov_avl.py:43-87; [s[...] = 0] first *)
  Definition dyad_update (y : list Z) (c : list T) (l_max : nat) (s : list T)
      (pos_sums : list Z) : res (list T * list T) :=
    dyad_loop l_max pos_sums y c (map (fun _ => nzero N) s).

  (** _fast_dcov_avl.py:114-121: [s[pos] += c[i-1]] for each level, one after the other *)
  Fixpoint update_levels (pos_sums : list Z) (y : Z) (ci : T) (ls : list nat) (s : list T)
      : res (list T) :=
    match ls with
    | [] => Ok s
    | l :: ls' =>
        let p := pos_3a pos_sums y l in
        let? v := zget s p in
        let? s := zset s p (nadd N v ci) in
        update_levels pos_sums y ci ls' s
    end.

  (** _fast_dcov_avl.py:124-130: [gamma[i] += s[pos]] for each level *)
  Fixpoint gamma_levels (pos_sums : list Z) (y : Z) (ls : list nat) (s : list T) (g : T)
      : res T :=
    match ls with
    | [] => Ok g
    | l :: ls' =>
        if valid_3b y l then
          let? v := zget s (pos_3b pos_sums y l) in
          gamma_levels pos_sums y ls' s (nadd N g v)
        else gamma_levels pos_sums y ls' s g
    end.

  (** _fast_dcov_avl.py:111-130, [for i in range(1, n)]: [yp], [cp] are [y[i-1]], [c[i-1]] *)
  Fixpoint dyad_compiled_loop (l_max : nat) (pos_sums : list Z) (yp : Z) (cp : T)
      (y : list Z) (c gamma s : list T) : res (list T * list T) :=
    match y, c, gamma with
    | yi :: y', ci :: c', gi :: gamma' =>
        let? s := update_levels pos_sums yp cp (seq 0 l_max) s in
        let? gi := gamma_levels pos_sums yi (seq 0 l_max) s gi in
        let? (g, s) := dyad_compiled_loop l_max pos_sums yi ci y' c' gamma' s in
        Ok (gi :: g, s)
    | _, _, _ => Ok ([], s)
    end.

  (** _fast_dcov_avl.py:90-132; [gamma] is the zero array allocated by _get_impl_args *)
  Definition dyad_update_compiled (y : list Z) (c gamma : list T) (l_max : nat)
      (s : list T) (pos_sums : list Z) : res (list T * list T) :=
    let s := map (fun _ => nzero N) s in
    match y, c, gamma with
    | y0 :: y', c0 :: c', g0 :: gamma' =>
        let? (g, s) := dyad_compiled_loop l_max pos_sums y0 c0 y' c' gamma' s in
        Ok (g0 :: g, s)
    | _, _, _ => Ok ([], s)
    end.

  (** _fast_dcov_avl.py:150-177.  Also returns [s], which the four calls share. *)
  Definition partial_sum_2d (compiled : bool) (y : list Z) (c : list T)
      (ix iy : list nat) (sx_c sy_c : list T) (c_sum : T) (l_max : nat) (s : list T)
      (pos_sums : list Z) (gamma : list T) : res (list T * list T) :=
    let? (gamma, s) :=
      if compiled then dyad_update_compiled y c gamma l_max s pos_sums
      else dyad_update y c l_max s pos_sums in
    let two := nofZ N 2 in
    (* c_sum - c - 2 * sy_c[iy] - 2 * sx_c + 4 * gamma *)
    let t := map (fun v => nsub N c_sum v) c in
    let t := map2 (fun a b => nsub N a (nmul N two b)) t (take (nzero N) sy_c iy) in
    let t := map2 (fun a b => nsub N a (nmul N two b)) t sx_c in
    let t := map2 (fun a b => nadd N a (nmul N (nofZ N 4) b)) t gamma in
    Ok (take (nzero N) t ix, s).
End Dyad.

Section Avl.
  Context {T : Type} (E : Env T).
  Let N := e_num E.

  (** The tuple returned by _get_impl_args (_fast_dcov_avl.py:269-285) *)
  Record impl_args := mkArgs {
    g_x : list T; g_y : list T; g_ix : list nat; g_iy : list nat;
    g_vx : list T; g_vy : list T; g_iy_reord : list nat;
    g_c : list (list T); g_sx_c : list (list T); g_sy_c : list (list T);
    g_c_sum : list T; g_l_max : nat; g_s : list T; g_pos_sums : list Z;
    g_gamma : list (list T) }.

  (** cumsum of a list of integers; _fast_dcov_avl.py:265. *)
  Fixpoint zcumsum (acc : Z) (l : list Z) : list Z :=
    match l with [] => [] | a :: l' => (acc + a)%Z :: zcumsum (acc + a)%Z l' end.

  (** _fast_dcov_avl.py:263-265 *)
  Definition mk_pos_sums (l_max : nat) : list Z :=
    zcumsum 0 (map (fun l => 2 ^ (Z.of_nat l_max - Z.of_nat l))%Z (seq 0 l_max)).

  (** _fast_dcov_avl.py:202-285.  [int(math.ceil(np.log2(n)))] is [log2_up n]. *)
  Definition get_impl_args (x y : list T) : res impl_args :=
    let n := length x in
    if negb (3 <? n) then Err AssertionError else
    if negb (n =? length y) then Err AssertionError else
    let z := nzero N in
    let temp := seq 0 n in
    let argsort_x := e_argsort E x in
    let vx := take z x argsort_x in
    let ix := scatter (repeat 0 n) argsort_x temp in
    let argsort_y := e_argsort E y in
    let vy := take z y argsort_y in
    let iy := scatter (repeat 0 n) argsort_y temp in
    let y_reord := take z y argsort_x in
    let x_times_y_reord := take z (map2 (nmul N) x y) argsort_x in
    let argsort_y_reord := e_argsort E y_reord in
    let iy_reord := scatter (repeat 0 n) argsort_y_reord temp in
    let c := [map (fun _ => nunit N) x; vx; y_reord; x_times_y_reord] in
    let c_reord := map (fun ce => take z ce argsort_y_reord) c in
    let excl l := map2 (nsub N) (np_cumsum N l) l in
    let sx_c := map excl c in
    let sy_c := map excl c_reord in
    let c_sum := map (np_sum N) c in
    let l_max := Nat.log2_up n in
    let s := e_empty E (2 ^ (l_max + 1)) in
    let gamma := map (map (fun _ => z)) c in
    Ok (mkArgs x y ix iy vx vy iy_reord c sx_c sy_c c_sum l_max s (mk_pos_sums l_max) gamma).

  (** _fast_dcov_avl.py:382-397: the four calls, in order, sharing [s] *)
  Fixpoint partial_sums (compiled : bool) (oob : exn) (new_y : list Z) (g : impl_args)
      (s : list T) (is_ : list nat) : res (list (list T)) :=
    match is_ with
    | [] => Ok []
    | i :: is' =>
        let? (gam, s) :=
          partial_sum_2d N oob compiled new_y (nth i (g_c g) []) (g_ix g) (g_iy_reord g)
            (nth i (g_sx_c g) []) (nth i (g_sy_c g) []) (nth i (g_c_sum g) (nzero N))
            (g_l_max g) s (g_pos_sums g) (nth i (g_gamma g) []) in
        let? rest := partial_sums compiled oob new_y g s is' in
        Ok (gam :: rest)
    end.

  (** _fast_dcov_avl.py:361, 369, 373: [beta], row sums and total for one variable *)
  Definition avl_beta (v : list T) (ix : list nat) : list T :=
    map2 (nsub N) (take (nzero N) (np_cumsum N v) ix) (take (nzero N) v ix).
  (** [a_i_dot] and [b_i_dot], _fast_dcov_avl.py:369-370. *)
  Definition avl_row_sums (x : list T) (alpha : list nat) (beta : list T) : list T :=
    let x_dot := np_sum N x in
    let n := Z.of_nat (length x) in
    let t := map2 (fun a v => nadd N x_dot (nmul N (nofZ N (2 * Z.of_nat a - n)) v)) alpha x in
    map2 (fun a b => nsub N a (nmul N (nofZ N 2) b)) t beta.
  (** [a_dot_dot] and [b_dot_dot], _fast_dcov_avl.py:373-374. *)
  Definition avl_total (x : list T) (alpha : list nat) (beta : list T) : T :=
    let two := nofZ N 2 in
    nsub N (nmul N two (np_sum N (map2 (fun a v => nmul N (nofZ N (Z.of_nat a)) v) alpha x)))
           (nmul N two (np_sum N beta)).

  (** _fast_dcov_avl.py:310-416 *)
  Definition terms_avl_impl (compiled : bool) (oob : exn) (k kv : pykind) (x y : list T)
      (return_var_terms : bool) : res (terms (T:=T)) :=
    let? g := get_impl_args x y in
    let n := Z.of_nat (length x) in
    let alpha_x := g_ix g in
    let alpha_y := g_iy g in
    let beta_x := avl_beta (g_vx g) alpha_x in
    let beta_y := avl_beta (g_vy g) alpha_y in
    let a_i_dot := avl_row_sums x alpha_x beta_x in
    let b_i_dot := avl_row_sums y alpha_y beta_y in
    let a_dot_dot := avl_total x alpha_x beta_x in
    let b_dot_dot := avl_total y alpha_y beta_y in
    let new_y := map (fun i => (Z.of_nat i + 1)%Z) (g_iy_reord g) in
    let? gs := partial_sums compiled oob new_y g (g_s g) [0; 1; 2; 3] in
    let gamma_1 := nth 0 gs [] in
    let gamma_x := nth 1 gs [] in
    let gamma_y := nth 2 gs [] in
    let gamma_xy := nth 3 gs [] in
    (* x * y * gamma_1 + gamma_xy - x * gamma_y - y * gamma_x *)
    let t := map2 (nadd N) (map2 (nmul N) (map2 (nmul N) x y) gamma_1) gamma_xy in
    let t := map2 (nsub N) t (map2 (nmul N) x gamma_y) in
    let t := map2 (nsub N) t (map2 (nmul N) y gamma_x) in
    let aijbij := np_sum N t in
    let var v := if return_var_terms
                 then Some (nmul N (nofZ N (2 * n ^ 2)) (np_var N v)) else None in
    Ok (mkTerms aijbij a_i_dot a_dot_dot b_i_dot b_dot_dot (var x) (var y) k kv).

End Avl.

Section Wrapper.
  Context {T : Type} (E : Env T).
  Let N := e_num E.

  (** One implementation on given dtypes: the numba signature accepts float64 only. *)
  Definition avl_impl (compiled : bool) (dx dy : dtype) (x y : list T) (rv : bool)
      : res (terms (T:=T)) :=
    if compiled then
      if is_f64 dx && is_f64 dy
      then terms_avl_impl (seq_env E) true UndefinedBehaviour AllPy AllPy x y rv
      else Err TypeError
    else terms_avl_impl E false IndexError AllNumpy AllNumpy x y rv.

  (** _fast_dcov_avl.py:513-560 *)
  Definition terms_avl (x y : array T) (exponent : T) (cm : compile_mode) (rv : bool)
      : M (terms (T:=T)) :=
    if negb (neqb N exponent (nunit N)) then raise ValueError else
    x1 <- lift (transform_to_1d (adata x)) ;;
    y1 <- lift (transform_to_1d (adata y)) ;;
    match together x y with
    | OtherLib => raise ValueError
    | Numpy =>
        match impls cm with
        | None => raise NotImplementedError
        | Some l =>
            try_impls WFallbackAvl (is_auto cm)
              (fun c => avl_impl c (adt x) (adt y) x1 y1 rv) l
        end
    end.
End Wrapper.
