(** Distance covariance and correlation again, counting steps: each iteration of a Python loop and each element
    processed by a numpy call counts one; sorting [n] elements counts [sort n]; an entry of a distance matrix counts one
    for each coordinate and one for the power.  Scalar arithmetic outside of loops, reading attributes and emitting
    warnings are not counted.  The functions are those of MMergesort.v, MAvl.v, MInternals.v and MDcor.v line by line;
    PCost.v proves that they return the same. *)
From Coq Require Import ZArith List Bool Arith.
From Verif Require Import Num Numpy MUtils MDistances MInternals MMergesort MAvl MDcor.
Import ListNotations.
Local Open Scope monad_scope.

(** Number of steps, and outcome.
    The outcome is that of the modelled function (the citations are below); the count has no counterpart in the code. *)
Definition K (A : Type) : Type := (nat * res A)%type.
(** A [return] at no cost, for instance _dcor.py:308-313. *)
Definition kret {A} (a : A) : K A := (0, Ok a).
(** A [raise], for instance _fast_dcov_avl.py:530-531. *)
Definition kraise {A} (e : exn) : K A := (0, Err e).
(** One statement after another, as in _dcor.py:227-238. *)
Definition kbind {A B} (m : K A) (f : A -> K B) : K B :=
  match m with
  | (c, Ok a) => let (c', r) := f a in (c + c', r)
  | (c, Err e) => (c, Err e)
  end.
(** [c] steps that return [a]. A numpy call that cannot raise, for instance _fast_dcov_avl.py:213. *)
Definition kdo {A} (c : nat) (a : A) : K A := (c, Ok a).
(** [c] steps with outcome [r]. A numpy call that may raise, for instance _fast_dcov_mergesort.py:159. *)
Definition kres {A} (c : nat) (r : res A) : K A := (c, r).
(** The count (no counterpart in the code). *)
Definition steps {A} (m : K A) : nat := fst m.
(** The outcome alone: what the functions of MDcor (_dcor.py:440-1040) return. *)
Definition result {A} (m : K A) : res A := snd m.
Declare Scope cost_scope.
Notation "x <~ m ;; f" := (kbind m (fun x => f)) (at level 61, m at next level, right associativity) : cost_scope.
Notation "' x <~ m ;; f" := (kbind m (fun x => f)) (at level 61, x pattern, m at next level, right associativity) : cost_scope.
Local Open Scope cost_scope.

(** numpy calls on vectors: one step for each element of the result, or of the operand of a reduction;
    for instance _fast_dcov_avl.py:379. *)
Definition kmap {A B} (f : A -> B) (l : list A) : K (list B) := kdo (length l) (map f l).
(** Element-wise operation of two vectors, for instance _fast_dcov_avl.py:361. *)
Definition kmap2 {A B C} (f : A -> B -> C) (l : list A) (k : list B) : K (list C) :=
  kdo (length (combine l k)) (map2 f l k).
(** [a[idx]], _fast_dcov_avl.py:216. *)
Definition ktake {A} (d : A) (l : list A) (idx : list nat) : K (list A) := kdo (length idx) (take d l idx).
(** [a[idx]] with the bounds check, _fast_dcov_mergesort.py:240. *)
Definition ktake_chk {A} (e : exn) (l : list A) (idx : list nat) : K (list A) := kres (length idx) (take_chk e l idx).
(** [a[idx] = v], _fast_dcov_avl.py:219. *)
Definition kscatter {A} (l : list A) (idx : list nat) (v : list A) : K (list A) := kdo (length idx) (scatter l idx v).
(** [np.zeros], [np.ones_like], _fast_dcov_avl.py:218 and 237. *)
Definition kconst {A} (n : nat) (a : A) : K (list A) := kdo n (repeat a n).
(** [np.arange], _fast_dcov_avl.py:213. *)
Definition kseq (n : nat) : K (list nat) := kdo n (seq 0 n).

Section Prims.
  Context {T : Type} (N : Num T).
  (** [np.sum], _fast_dcov_avl.py:365. *)
  Definition ksum (l : list T) : K T := kdo (length l) (np_sum N l).
  (** [np.cumsum], _fast_dcov_avl.py:354. *)
  Definition kcumsum (l : list T) : K (list T) := kdo (length l) (np_cumsum N l).
  (** [@], _fast_dcov_mergesort.py:159. *)
  Definition kdot (a b : list T) : K T := kres (length a) (np_dot N a b).
  (** mean, deviations, squares, mean. [np.var], _fast_dcov_avl.py:410. *)
  Definition kvar (l : list T) : K T := kdo (4 * length l) (np_var N l).
End Prims.

Section Mergesort.
  Context {T : Type} (E : Env T) (sort : nat -> nat).
  Let N := e_num E.
  Variable oob : exn.
  Variable cast_ok : bool.

  (** [np.argsort]; _fast_dcov_avl.py:215. *)
  Definition ksort (l : list T) : K (list nat) := kdo (sort (length l)) (e_argsort E l).

  (** _fast_dcov_mergesort.py:88-108 (MMergesort.merge_loop): each iteration is one step, and one for each weight that is updated *)
  Fixpoint k_merge_loop (fuel : nat) (y : list T) (prev : list nat) (cums : list (list T))
      (s1 last1 s2 last2 : nat) (st : mstate (T:=T)) : K (nat * nat * mstate (T:=T)) :=
    if (s1 <=? last1) && (s2 <=? last2) then
      match fuel with
      | O => kraise Diverged
      | S fuel =>
          p1 <~ kres 1 (rd oob prev s1) ;;
          p2 <~ kres 0 (rd oob prev s2) ;;
          y1 <~ kres 0 (rd oob y p1) ;;
          y2 <~ kres 0 (rd oob y p2) ;;
          if nleb N y2 y1 then
            st <~ kres 0 (push oob st p1 (ms_ws st)) ;;
            k_merge_loop fuel y prev cums (S s1) last1 s2 last2 st
          else
            if cast_ok then
              ws <~ kres (length cums) (add_weights E oob p2 (last1 + 1) s1 (ms_ws st) cums) ;;
              st <~ kres 0 (push oob st p2 ws) ;;
              k_merge_loop fuel y prev cums s1 last1 (S s2) last2 st
            else kraise TypeError
      end
    else kret (s1, s2, st).

  (** _fast_dcov_mergesort.py:76-123 (MMergesort.merge_pair); copying a slice counts its length *)
  Definition k_merge_pair (n len : nat) (y : list T) (prev : list nat)
      (cums : list (list T)) (st : mstate (T:=T)) (pair_idx : nat) : K (mstate (T:=T)) :=
    let s1 := pair_idx in
    let s2 := pair_idx + len in
    let last1 := min (s1 + len - 1) (n - 1) in
    let last2 := min (s2 + len - 1) (n - 1) in
    '(s1, s2, st) <~ k_merge_loop (2 * len) y prev cums s1 last1 s2 last2 st ;;
    if s1 <=? last1 then kres (last1 - s1 + 1) (copy_slice prev s1 (last1 - s1 + 1) st)
    else if s2 <=? last2 then kres (last2 - s2 + 1) (copy_slice prev s2 (last2 - s2 + 1) st)
    else kret st.

  (** _fast_dcov_mergesort.py:76-123 (MMergesort.merge_pairs) *)
  Fixpoint k_merge_pairs (n len : nat) (y : list T) (prev : list nat)
      (cums : list (list T)) (pairs : list nat) (st : mstate (T:=T)) : K (mstate (T:=T)) :=
    match pairs with
    | [] => kret st
    | p :: ps =>
        _ <~ kdo 1 tt ;;
        st <~ k_merge_pair n len y prev cums st p ;;
        k_merge_pairs n len y prev cums ps st
    end.

  (** _fast_dcov_mergesort.py:69-73 (MMergesort.cumsum_var) *)
  Definition k_cumsum_var (prev : list nat) (w : list T) : K (list T) :=
    ws <~ ktake_chk oob w prev ;; cs <~ kcumsum N ws ;; kret (nzero N :: cs).
  (** a loop over a list; for instance _fast_dcov_mergesort.py:70-73. *)
  Fixpoint k_mapM {A B} (f : A -> K B) (l : list A) : K (list B) :=
    match l with
    | [] => kret []
    | a :: l' => _ <~ kdo 1 tt ;; b <~ f a ;; bs <~ k_mapM f l' ;; kret (b :: bs)
    end.

  (** _fast_dcov_mergesort.py:62-128 (MMergesort.merge_passes) *)
  Fixpoint k_merge_passes (fuel n len : nat) (y : list T) (weights : list (list T))
      (prev cur : list nat) (ws : list (list T)) : K (list (list T)) :=
    if len <? n then
      match fuel with
      | O => kraise Diverged
      | S fuel =>
          let gap := 2 * len in
          _ <~ kdo 1 tt ;;
          cums <~ k_mapM (k_cumsum_var prev) weights ;;
          st <~ k_merge_pairs n len y prev cums (range_step n gap) (mkMS cur 0 ws) ;;
          k_merge_passes fuel n gap y weights (ms_cur st) prev (ms_ws st)
      end
    else kret ws.

  (** _fast_dcov_mergesort.py:40-130 (MMergesort.compute_weight_sums) *)
  Definition k_compute_weight_sums (y : list T) (weights : list (list T)) : K (list (list T)) :=
    let n := length y in
    prev <~ kseq n ;;
    cur <~ kconst n 0 ;;
    ws <~ kdo (length weights * n) (map (fun _ => repeat (nzero N) n) weights) ;;
    k_merge_passes n n 1 y weights prev cur ws.

  (** _fast_dcov_mergesort.py:139-176 (MMergesort.compute_aijbij_term) *)
  Definition k_compute_aijbij_term (x y : list T) : K T :=
    let n := nofZ N (Z.of_nat (length x)) in
    xy <~ kmap2 (nmul N) x y ;;
    ones <~ kmap (fun _ => nunit N) y ;;
    weights <~ kdo (4 * length y) [ones; y; x; xy] ;;     (* np.column_stack copies *)
    ws <~ k_compute_weight_sums y weights ;;
    term_1 <~ kdot N xy (nth 0 ws []) ;;
    term_2 <~ kdot N x (nth 1 ws []) ;;
    term_3 <~ kdot N y (nth 2 ws []) ;;
    term_4 <~ ksum N (nth 3 ws []) ;;
    let sums_term := nadd N (nsub N (nsub N term_1 term_2) term_3) term_4 in
    sum_x <~ ksum N x ;;
    sum_y <~ ksum N y ;;
    nx <~ kmap (fun v => nmul N n v) x ;;
    nxy <~ kdot N nx y ;;
    mixed <~ kmap2 (fun a b => nadd N (nmul N sum_x b) (nmul N sum_y a)) x y ;;
    sum_mixed <~ ksum N mixed ;;
    let cov_term := nadd N (nsub N nxy sum_mixed) (nmul N sum_x sum_y) in
    kret (nsub N (nmul N (nofZ N 4) sums_term) (nmul N (nofZ N 2) cov_term)).

  (** _fast_dcov_mergesort.py:190-203 (MMergesort.compute_row_sums) *)
  Definition k_compute_row_sums (x : list T) : K (list T) :=
    let n := Z.of_nat (length x) in
    idx <~ kdo (length x) (seq 1 (length x)) ;;
    term_1 <~ kmap2 (fun i v => nmul N (nofZ N (2 * Z.of_nat i - n)) v) idx x ;;
    sums <~ kcumsum N x ;;
    last <~ kres 1 (of_option oob (nth_error sums (length sums - 1))) ;;
    term_2 <~ kmap (fun s => nsub N last (nmul N (nofZ N 2) s)) sums ;;
    kmap2 (nadd N) term_1 term_2.

  (** _fast_dcov_mergesort.py:211-266 (MMergesort.terms_mergesort_impl) *)
  Definition k_terms_mergesort_impl (k kv : pykind) (x y : list T) (return_var_terms : bool)
      : K (terms (T:=T)) :=
    let n := Z.of_nat (length x) in
    ordered <~ ksort x ;;
    x <~ ktake_chk oob x ordered ;;
    y <~ ktake_chk oob y ordered ;;
    aijbij <~ k_compute_aijbij_term x y ;;
    a_i <~ k_compute_row_sums x ;;
    ordered_y <~ ksort y ;;
    y_sorted <~ ktake_chk oob y ordered_y ;;
    b_i_perm <~ k_compute_row_sums y_sorted ;;
    b_i <~ kscatter (e_empty E (length b_i_perm)) ordered_y b_i_perm ;;
    a_tot <~ ksum N a_i ;;
    b_tot <~ ksum N b_i ;;
    let var v := if return_var_terms
                 then s <~ kvar N v ;; kret (Some (nmul N (nofZ N (2 * n ^ 2)) s)) else kret None in
    va <~ var x ;;
    vb <~ var y ;;
    kret (mkTerms aijbij a_i a_tot b_i b_tot va vb k kv).
End Mergesort.

Section Avl.
  Context {T : Type} (E : Env T) (sort : nat -> nat).
  Let N := e_num E.
  Variable oob : exn.

  (** _fast_dcov_avl.py:78-85 (MAvl.dyad_loop): the positions of both kinds, the parity test, the two gathers, the sum, the addition and the scatter *)
  Fixpoint k_dyad_loop (l_max : nat) (pos_sums : list Z) (y : list Z) (c : list T)
      (s : list T) : K (list T * list T) :=
    match y, c with
    | yi :: y', ci :: c' =>
        lev <~ kseq l_max ;;
        pos_a <~ kmap (pos_3a pos_sums yi) lev ;;
        valid <~ kdo l_max (filter (valid_3b yi) lev) ;;
        pos_b <~ kmap (pos_3b pos_sums yi) valid ;;
        sb <~ kres (length pos_b) (zgets oob s pos_b) ;;
        gi <~ ksum N sb ;;
        sa <~ kres (length pos_a) (zgets oob s pos_a) ;;
        sa <~ kmap (fun v => nadd N v ci) sa ;;
        s <~ kres (length pos_a) (zsets oob s pos_a sa) ;;
        '(g, s) <~ k_dyad_loop l_max pos_sums y' c' s ;;
        kret (gi :: g, s)
    | _, _ => kret ([], s)
    end.
  (** _fast_dcov_avl.py:43-87 (MAvl.dyad_update) *)
  Definition k_dyad_update (y : list Z) (c : list T) (l_max : nat) (s : list T)
      (pos_sums : list Z) : K (list T * list T) :=
    s <~ kmap (fun _ => nzero N) s ;; k_dyad_loop l_max pos_sums y c s.

  (** _fast_dcov_avl.py:114-130 (MAvl.update_levels and gamma_levels): one step for each level *)
  Fixpoint k_update_levels (pos_sums : list Z) (y : Z) (ci : T) (ls : list nat) (s : list T) : K (list T) :=
    match ls with
    | [] => kret s
    | l :: ls' =>
        let p := pos_3a pos_sums y l in
        v <~ kres 1 (zget oob s p) ;;
        s <~ kres 0 (zset oob s p (nadd N v ci)) ;;
        k_update_levels pos_sums y ci ls' s
    end.
  (** _fast_dcov_avl.py:124-130 (MAvl.gamma_levels). *)
  Fixpoint k_gamma_levels (pos_sums : list Z) (y : Z) (ls : list nat) (s : list T) (g : T) : K T :=
    match ls with
    | [] => kret g
    | l :: ls' =>
        _ <~ kdo 1 tt ;;
        if valid_3b y l then
          v <~ kres 0 (zget oob s (pos_3b pos_sums y l)) ;;
          k_gamma_levels pos_sums y ls' s (nadd N g v)
        else k_gamma_levels pos_sums y ls' s g
    end.
  (** _fast_dcov_avl.py:111-130 (MAvl.dyad_compiled_loop) *)
  Fixpoint k_dyad_compiled_loop (l_max : nat) (pos_sums : list Z) (yp : Z) (cp : T)
      (y : list Z) (c gamma s : list T) : K (list T * list T) :=
    match y, c, gamma with
    | yi :: y', ci :: c', gi :: gamma' =>
        _ <~ kdo 1 tt ;;
        s <~ k_update_levels pos_sums yp cp (seq 0 l_max) s ;;
        gi <~ k_gamma_levels pos_sums yi (seq 0 l_max) s gi ;;
        '(g, s) <~ k_dyad_compiled_loop l_max pos_sums yi ci y' c' gamma' s ;;
        kret (gi :: g, s)
    | _, _, _ => kret ([], s)
    end.
  (** _fast_dcov_avl.py:90-132 (MAvl.dyad_update_compiled) *)
  Definition k_dyad_update_compiled (y : list Z) (c gamma : list T) (l_max : nat)
      (s : list T) (pos_sums : list Z) : K (list T * list T) :=
    s <~ kmap (fun _ => nzero N) s ;;
    match y, c, gamma with
    | y0 :: y', c0 :: c', g0 :: gamma' =>
        '(g, s) <~ k_dyad_compiled_loop l_max pos_sums y0 c0 y' c' gamma' s ;;
        kret (g0 :: g, s)
    | _, _, _ => kret ([], s)
    end.

  (** _fast_dcov_avl.py:150-177 (MAvl.partial_sum_2d) *)
  Definition k_partial_sum_2d (compiled : bool) (y : list Z) (c : list T)
      (ix iy : list nat) (sx_c sy_c : list T) (c_sum : T) (l_max : nat) (s : list T)
      (pos_sums : list Z) (gamma : list T) : K (list T * list T) :=
    '(gamma, s) <~ (if compiled then k_dyad_update_compiled y c gamma l_max s pos_sums
                    else k_dyad_update y c l_max s pos_sums) ;;
    let two := nofZ N 2 in
    t <~ kmap (fun v => nsub N c_sum v) c ;;
    sy <~ ktake (nzero N) sy_c iy ;;
    t <~ kmap2 (fun a b => nsub N a (nmul N two b)) t sy ;;
    t <~ kmap2 (fun a b => nsub N a (nmul N two b)) t sx_c ;;
    t <~ kmap2 (fun a b => nadd N a (nmul N (nofZ N 4) b)) t gamma ;;
    t <~ ktake (nzero N) t ix ;;
    kret (t, s).

  (** cumsum(c) - c in MAvl.get_impl_args; _fast_dcov_avl.py:252-253. *)
  Definition k_excl (l : list T) : K (list T) := cs <~ kcumsum N l ;; kmap2 (nsub N) cs l.

  (** _fast_dcov_avl.py:202-285 (MAvl.get_impl_args) *)
  Definition k_get_impl_args (x y : list T) : K (impl_args (T:=T)) :=
    let n := length x in
    if negb (3 <? n) then kraise AssertionError else
    if negb (n =? length y) then kraise AssertionError else
    let z := nzero N in
    temp <~ kseq n ;;
    argsort_x <~ ksort E sort x ;;
    vx <~ ktake z x argsort_x ;;
    zs <~ kconst n 0 ;;
    ix <~ kscatter zs argsort_x temp ;;
    argsort_y <~ ksort E sort y ;;
    vy <~ ktake z y argsort_y ;;
    zs <~ kconst n 0 ;;
    iy <~ kscatter zs argsort_y temp ;;
    y_reord <~ ktake z y argsort_x ;;
    xy <~ kmap2 (nmul N) x y ;;
    x_times_y_reord <~ ktake z xy argsort_x ;;
    argsort_y_reord <~ ksort E sort y_reord ;;
    zs <~ kconst n 0 ;;
    iy_reord <~ kscatter zs argsort_y_reord temp ;;
    ones <~ kmap (fun _ => nunit N) x ;;
    let c := [ones; vx; y_reord; x_times_y_reord] in
    c_reord <~ k_mapM (fun ce => ktake z ce argsort_y_reord) c ;;
    sx_c <~ k_mapM k_excl c ;;
    sy_c <~ k_mapM k_excl c_reord ;;
    c_sum <~ k_mapM (ksum N) c ;;
    let l_max := Nat.log2_up n in
    s <~ kdo (2 ^ (l_max + 1)) (e_empty E (2 ^ (l_max + 1))) ;;
    gamma <~ k_mapM (kmap (fun _ => z)) c ;;
    ps <~ kdo (2 * l_max) (mk_pos_sums l_max) ;;
    kret (mkArgs x y ix iy vx vy iy_reord c sx_c sy_c c_sum l_max s ps gamma).

  (** _fast_dcov_avl.py:382-397 (MAvl.partial_sums) *)
  Fixpoint k_partial_sums (compiled : bool) (new_y : list Z) (g : impl_args (T:=T))
      (s : list T) (is_ : list nat) : K (list (list T)) :=
    match is_ with
    | [] => kret []
    | i :: is' =>
        '(gam, s) <~
          k_partial_sum_2d compiled new_y (nth i (g_c g) []) (g_ix g) (g_iy_reord g)
            (nth i (g_sx_c g) []) (nth i (g_sy_c g) []) (nth i (g_c_sum g) (nzero N))
            (g_l_max g) s (g_pos_sums g) (nth i (g_gamma g) []) ;;
        rest <~ k_partial_sums compiled new_y g s is' ;;
        kret (gam :: rest)
    end.

  (** _fast_dcov_avl.py:361, 369, 373 (MAvl.avl_beta, avl_row_sums and avl_total) *)
  Definition k_avl_beta (v : list T) (ix : list nat) : K (list T) :=
    cs <~ kcumsum N v ;; a <~ ktake (nzero N) cs ix ;; b <~ ktake (nzero N) v ix ;; kmap2 (nsub N) a b.
  (** _fast_dcov_avl.py:369-370 (MAvl.avl_row_sums). *)
  Definition k_avl_row_sums (x : list T) (alpha : list nat) (beta : list T) : K (list T) :=
    x_dot <~ ksum N x ;;
    let n := Z.of_nat (length x) in
    t <~ kmap2 (fun a v => nadd N x_dot (nmul N (nofZ N (2 * Z.of_nat a - n)) v)) alpha x ;;
    kmap2 (fun a b => nsub N a (nmul N (nofZ N 2) b)) t beta.
  (** _fast_dcov_avl.py:373-374 (MAvl.avl_total). *)
  Definition k_avl_total (x : list T) (alpha : list nat) (beta : list T) : K T :=
    let two := nofZ N 2 in
    t <~ kmap2 (fun a v => nmul N (nofZ N (Z.of_nat a)) v) alpha x ;;
    st <~ ksum N t ;;
    sb <~ ksum N beta ;;
    kret (nsub N (nmul N two st) (nmul N two sb)).

  (** _fast_dcov_avl.py:310-416 (MAvl.terms_avl_impl) *)
  Definition k_terms_avl_impl (compiled : bool) (k kv : pykind) (x y : list T)
      (return_var_terms : bool) : K (terms (T:=T)) :=
    g <~ k_get_impl_args x y ;;
    let n := Z.of_nat (length x) in
    let alpha_x := g_ix g in
    let alpha_y := g_iy g in
    beta_x <~ k_avl_beta (g_vx g) alpha_x ;;
    beta_y <~ k_avl_beta (g_vy g) alpha_y ;;
    a_i_dot <~ k_avl_row_sums x alpha_x beta_x ;;
    b_i_dot <~ k_avl_row_sums y alpha_y beta_y ;;
    a_dot_dot <~ k_avl_total x alpha_x beta_x ;;
    b_dot_dot <~ k_avl_total y alpha_y beta_y ;;
    new_y <~ kmap (fun i => (Z.of_nat i + 1)%Z) (g_iy_reord g) ;;
    gs <~ k_partial_sums compiled new_y g (g_s g) [0; 1; 2; 3] ;;
    let gamma_1 := nth 0 gs [] in
    let gamma_x := nth 1 gs [] in
    let gamma_y := nth 2 gs [] in
    let gamma_xy := nth 3 gs [] in
    xy <~ kmap2 (nmul N) x y ;;
    t <~ kmap2 (nmul N) xy gamma_1 ;;
    t <~ kmap2 (nadd N) t gamma_xy ;;
    u <~ kmap2 (nmul N) x gamma_y ;;
    t <~ kmap2 (nsub N) t u ;;
    u <~ kmap2 (nmul N) y gamma_x ;;
    t <~ kmap2 (nsub N) t u ;;
    aijbij <~ ksum N t ;;
    let var v := if return_var_terms
                 then s <~ kvar N v ;; kret (Some (nmul N (nofZ N (2 * n ^ 2)) s)) else kret None in
    va <~ var x ;;
    vb <~ var y ;;
    kret (mkTerms aijbij a_i_dot a_dot_dot b_i_dot b_dot_dot va vb k kv).
End Avl.

Section Calls.
  Context {T : Type} (E : Env T) (sort : nat -> nat).
  Let N := e_num E.

  (** _dcor_internals.py:176-199 (MInternals.dcov_from_terms): the division of a vector and the inner product *)
  Definition k_from_terms (k : pykind) (mean_prod : T) (a_axis : list T) (a_total : T)
      (b_axis : list T) (b_total : T) (n_samples : nat) (bias_corrected : bool) : K T :=
    kres (2 * length a_axis)
      (dcov_from_terms E k mean_prod a_axis a_total b_axis b_total n_samples bias_corrected).

  (** distances.py:109-161 (MDistances.pairwise_distances) of a sample with itself *)
  Definition k_pairwise (x : array T) (exponent : T) : K (list (list T)) :=
    let (c, rows) := transform_to_2d (adata x) in
    kres (length rows * length rows * (1 + c)) (pairwise_distances E x None exponent).

  (** _dcor_internals.py:75-87 (MInternals.symmetric_matrix_sums) *)
  Definition k_matrix_sums (a : list (list T)) : K (list T * T) :=
    kdo (length (concat a) + length a) (symmetric_matrix_sums E a).

  (** _dcor_internals.py:130-173 (MInternals.dcov_terms_naive) *)
  Definition k_terms_naive (x y : array T) (exponent : T) (cm : compile_mode)
      (return_var_terms : bool) : K (terms (T:=T)) :=
    match cm with
    | CAuto | CNoCompile =>
        _ <~ kres 0 (outcome (check_valid_dcov_exponent E exponent)) ;;
        a <~ k_pairwise x exponent ;;
        b <~ k_pairwise y exponent ;;
        a_vec <~ kdo (length (concat a)) (concat a) ;;
        b_vec <~ kdo (length (concat b)) (concat b) ;;
        mean_prod <~ kdot N a_vec b_vec ;;
        '(a_axis, a_total) <~ k_matrix_sums a ;;
        '(b_axis, b_total) <~ k_matrix_sums b ;;
        let var v := if return_var_terms then kdo (length v) (Some (ndot N v v)) else kret None in
        va <~ var a_vec ;;
        vb <~ var b_vec ;;
        kret (mkTerms mean_prod a_axis a_total b_axis b_total va vb AllNumpy AllNumpy)
    | _ => kraise NotImplementedError
    end.

  (** _fast_dcov_mergesort.py:400-419 and _fast_dcov_avl.py:543-560 (MMergesort.try_impls) *)
  Fixpoint k_try_impls (auto : bool) (impl : bool -> K (terms (T:=T))) (l : list bool) : K (terms (T:=T)) :=
    match l with
    | [] => kraise TypeError
    | c :: l' =>
        match impl c with
        | (s, Err TypeError) => if auto then (_ <~ kdo s tt ;; k_try_impls auto impl l') else (s, Err TypeError)
        | r => r
        end
    end.

  (** _fast_dcov_avl.py:513-560 (MAvl.avl_impl and terms_avl) *)
  Definition k_avl_impl (compiled : bool) (dx dy : dtype) (x y : list T) (rv : bool) : K (terms (T:=T)) :=
    if compiled then
      if is_f64 dx && is_f64 dy
      then k_terms_avl_impl (seq_env E) sort UndefinedBehaviour true AllPy AllPy x y rv
      else kraise TypeError
    else k_terms_avl_impl E sort IndexError false AllNumpy AllNumpy x y rv.
  (** _fast_dcov_avl.py:513-560 (MAvl.terms_avl). *)
  Definition k_terms_avl (x y : array T) (exponent : T) (cm : compile_mode) (rv : bool) : K (terms (T:=T)) :=
    if negb (neqb N exponent (nunit N)) then kraise ValueError else
    x1 <~ kres 0 (transform_to_1d (adata x)) ;;
    y1 <~ kres 0 (transform_to_1d (adata y)) ;;
    match together x y with
    | OtherLib => kraise ValueError
    | Numpy =>
        match impls cm with
        | None => kraise NotImplementedError
        | Some l => k_try_impls (is_auto cm) (fun c => k_avl_impl c (adt x) (adt y) x1 y1 rv) l
        end
    end.

  (** _fast_dcov_mergesort.py:372-419 (MMergesort.mergesort_impl and terms_mergesort) *)
  Definition k_mergesort_impl (compiled : bool) (dx dy : dtype) (x y : list T) (rv : bool) : K (terms (T:=T)) :=
    if compiled then
      if is_f64 dx && is_f64 dy
      then k_terms_mergesort_impl (seq_env E) sort UndefinedBehaviour true AllPy AllPy x y rv
      else kraise TypeError
    else
      if is_obj dx || is_obj dy then kraise AttributeError
      else k_terms_mergesort_impl E sort IndexError (weights_cast_ok dx dy) MeanProdPy AllNumpy x y rv.
  (** _fast_dcov_mergesort.py:372-419 (MMergesort.terms_mergesort). *)
  Definition k_terms_mergesort (x y : array T) (exponent : T) (cm : compile_mode) (rv : bool) : K (terms (T:=T)) :=
    if negb (neqb N exponent (nunit N)) then kraise ValueError else
    x1 <~ kres 0 (transform_to_1d (adata x)) ;;
    y1 <~ kres 0 (transform_to_1d (adata y)) ;;
    match together x y with
    | OtherLib => kraise ValueError
    | Numpy =>
        match impls cm with
        | None => kraise NotImplementedError
        | Some l => k_try_impls (is_auto cm) (fun c => k_mergesort_impl c (adt x) (adt y) x1 y1 rv) l
        end
    end.

  (** _dcor.py:176-205, 383-410 (MDcor.terms_auto and method_terms) *)
  Definition k_method_terms (m : dcov_method) (x y : array T) (exponent : T) (cm : compile_mode) (rv : bool)
      : K (terms (T:=T)) :=
    match m with
    | MAuto =>
        if is_numpy (together x y) && can_use_fast_algorithm E x y exponent
        then k_terms_avl x y exponent cm rv
        else k_terms_naive x y exponent cm rv
    | MNaive => k_terms_naive x y exponent cm rv
    | MAvl => k_terms_avl x y exponent cm rv
    | MMergesort => k_terms_mergesort x y exponent cm rv
    end.

  (** _dcor.py:217-313 (MDcor.algo_dcov_sqr and algo_stats_sqr) *)
  Definition k_dcov_sqr (m : dcov_method) (x y : array T) (exponent : T) (cm : compile_mode) (bias_corrected : bool) : K T :=
    t <~ k_method_terms m x y exponent cm false ;;
    k_from_terms (t_kind t) (t_mean_prod t) (t_a_axis t) (t_a_total t)
      (t_b_axis t) (t_b_total t) (shape0 x) bias_corrected.
  (** _dcor.py:240-313 (MDcor.algo_stats_sqr). *)
  Definition k_stats_sqr (m : dcov_method) (x y : array T) (exponent : T) (cm : compile_mode) (bias_corrected : bool)
      : K (Stats T) :=
    let n := shape0 x in
    t <~ k_method_terms m x y exponent cm true ;;
    let mp_a := match t_mp_a t with Some v => v | None => nzero N end in
    let mp_b := match t_mp_b t with Some v => v | None => nzero N end in
    cov <~ k_from_terms (t_kind t) (t_mean_prod t) (t_a_axis t) (t_a_total t)
             (t_b_axis t) (t_b_total t) n bias_corrected ;;
    vx <~ k_from_terms (t_vkind t) mp_a (t_a_axis t) (t_a_total t) (t_a_axis t) (t_a_total t) n bias_corrected ;;
    vy <~ k_from_terms (t_vkind t) mp_b (t_b_axis t) (t_b_total t) (t_b_axis t) (t_b_total t) n bias_corrected ;;
    kret (mkStats cov (correlation_of E cov vx vy) vx vy).

  (** _dcor.py:440-619, 859-1040 (MDcor.distance_covariance_sqr, distance_covariance, distance_correlation_sqr, distance_correlation,
      u_distance_covariance_sqr and u_distance_correlation_sqr) *)
  Definition k_distance_covariance_sqr x y exponent m cm := k_dcov_sqr m x y exponent cm false.
  (** _dcor.py:500-558. *)
  Definition k_u_distance_covariance_sqr x y exponent m cm := k_dcov_sqr m x y exponent cm true.
  (** _dcor.py:561-619. *)
  Definition k_distance_covariance x y exponent m cm :=
    v <~ k_distance_covariance_sqr x y exponent m cm ;; kret (sqrt_clamp N v).
  (** _dcor.py:859-916. *)
  Definition k_distance_correlation_sqr x y exponent m cm :=
    s <~ k_stats_sqr m x y exponent cm false ;; kret (correlation_xy s).
  (** _dcor.py:919-979. *)
  Definition k_u_distance_correlation_sqr x y exponent m cm :=
    s <~ k_stats_sqr m x y exponent cm true ;; kret (correlation_xy s).
  (** _dcor.py:982-1040. *)
  Definition k_distance_correlation x y exponent m cm :=
    v <~ k_distance_correlation_sqr x y exponent m cm ;; kret (sqrt_clamp N v).
End Calls.
