(** numpy array primitives on lists, exceptions and warnings.

    A 1-d array is a [list T], a 2-d array is the list of its rows.  Nothing here comes
    from dcor itself: these are the meanings given to the numpy calls the code makes. *)
From Coq Require Import ZArith List Bool Arith.
From Verif Require Import Num.
Import ListNotations.

(** ** Outcomes *)

(** Python exceptions the modelled code can raise.  [UndefinedBehaviour] stands for an
    out-of-range access in numba-compiled code, which performs no bounds checks;
    [Diverged] marks a loop that ran out of the fuel of its model. For instance _dcor_internals.py:50-55 and 147-150. *)
Inductive exn :=
| AssertionError | ValueError | IndexError | NotImplementedError | TypeError
| KeyError | AttributeError | ZeroDivisionError | UnboundLocalError
| UndefinedBehaviour | Diverged.

(** What a call gives: a value ([return]) or an exception ([raise], for instance _dcor_internals.py:50-55). *)
Inductive res (A : Type) := Ok (a : A) | Err (e : exn).
Arguments Ok {A} _.
Arguments Err {A} _.

(** One statement after another; an exception ends the function, as in _dcor_internals.py:254-267. *)
Definition rbind {A B} (m : res A) (f : A -> res B) : res B :=
  match m with Ok a => f a | Err e => Err e end.

(** A lookup that may raise, for instance the index of _fast_dcov_mergesort.py:93. *)
Definition of_option {A} (e : exn) (o : option A) : res A :=
  match o with Some a => Ok a | None => Err e end.

(** The warnings dcor itself emits with [warnings.warn];
    _dcor_internals.py:32-41, _energy.py:66-75, _fast_dcov_avl.py:554-560, _fast_dcov_mergesort.py:413-419. *)
Inductive warn := WDcovExponent | WEnergyExponent | WFallbackAvl | WFallbackMergesort.

(** A call: the warnings it emits, in order, and its outcome. For instance _dcor_internals.py:657-672. *)
Definition M (A : Type) : Type := (list warn * res A)%type.
(** [return]. *)
Definition ret {A} (a : A) : M A := ([], Ok a).
(** [raise], for instance _fast_dcov_avl.py:530-531. *)
Definition raise {A} (e : exn) : M A := ([], Err e).
(** A computation without warnings, for instance _dcor_internals.py:176-199. *)
Definition lift {A} (r : res A) : M A := ([], r).
(** One statement after another, as in _dcor_internals.py:664-672. *)
Definition bind {A B} (m : M A) (f : A -> M B) : M B :=
  match m with
  | (w, Ok a) => let (w', r) := f a in (w ++ w', r)
  | (w, Err e) => (w, Err e)
  end.
(** [warnings.warn], _dcor_internals.py:41. *)
Definition emit (w : warn) : M unit := ([w], Ok tt).
(** What the caller gets: the value or the exception (for instance _dcor.py:440-497). *)
Definition outcome {A} (m : M A) : res A := snd m.
(** What the caller sees of [warnings.warn] (for instance _dcor_internals.py:41). *)
Definition warnings {A} (m : M A) : list warn := fst m.

Declare Scope monad_scope.
Notation "x <- m ;; f" := (bind m (fun x => f))
  (at level 61, m at next level, right associativity) : monad_scope.
Notation "'let?' x := m 'in' f" := (rbind m (fun x => f))
  (at level 200, x pattern, right associativity) : monad_scope.

(** ** Generic list operations *)

(** Element-wise operation on two arrays of one length, for instance _fast_dcov_avl.py:361. *)
Definition map2 {A B C} (f : A -> B -> C) (l : list A) (k : list B) : list C :=
  map (fun p => f (fst p) (snd p)) (combine l k).

(** [a[i] = v]; _fast_dcov_avl.py:82. *)
Fixpoint upd {A} (l : list A) (i : nat) (v : A) : list A :=
  match l, i with
  | [], _ => []
  | _ :: l', O => v :: l'
  | a :: l', S i' => a :: upd l' i' v
  end.

(** [a[idx] = vals] with a list of (distinct) indices: element by element; _fast_dcov_avl.py:219. *)
Fixpoint scatter {A} (l : list A) (idx : list nat) (vals : list A) : list A :=
  match idx, vals with
  | i :: idx', v :: vals' => scatter (upd l i v) idx' vals'
  | _, _ => l
  end.

(** [a[idx]]; indices in range; _fast_dcov_avl.py:216. *)
Definition take {A} (d : A) (l : list A) (idx : list nat) : list A :=
  map (fun i => nth i l d) idx.

(** [a[idx]] with the bounds check of numpy: all the elements or the exception; _fast_dcov_mergesort.py:240. *)
Fixpoint take_chk {A} (e : exn) (l : list A) (idx : list nat) : res (list A) :=
  match idx with
  | [] => Ok []
  | i :: idx' =>
      match nth_error l i, take_chk e l idx' with
      | Some v, Ok vs => Ok (v :: vs)
      | None, _ => Err e
      | _, Err e' => Err e'
      end
  end.

(** Python index [i] (possibly negative, counting from the end) into a sequence of
    length [n]: the position, or None if out of range; _fast_dcov_avl.py:82 and 130. *)
Definition pyidx (n : nat) (i : Z) : option nat :=
  (if (0 <=? i) && (i <? Z.of_nat n) then Some (Z.to_nat i)
   else if (- Z.of_nat n <=? i) && (i <? 0) then Some (Z.to_nat (Z.of_nat n + i))
   else None)%Z.

(** [a[lo:hi]] for non-negative bounds; _fast_dcov_mergesort.py:113-115, homogeneity.py:140-148. *)
Definition slice {A} (l : list A) (lo hi : nat) : list A := firstn (hi - lo) (skipn lo l).

(** [range(0, n, step)] for [step > 0]. *)
Definition range_step (n step : nat) : list nat :=
  map (fun k => k * step) (seq 0 ((n + step - 1) / step)).

Section Prims.
  Context {T : Type} (N : Num T).

  (** [np.sum] of a 1-d array. *)
  Definition np_sum (l : list T) : T := nsum N l.

  (** [np.cumsum]; _fast_dcov_avl.py:354. *)
  Fixpoint cumsum_from (acc : T) (l : list T) : list T :=
    match l with
    | [] => []
    | a :: l' => let acc' := nadd N acc a in acc' :: cumsum_from acc' l'
    end.
  (** [np.cumsum], _fast_dcov_avl.py:354. *)
  Definition np_cumsum (l : list T) : list T := cumsum_from (nzero N) l.

  (** 1-d [@]; operands of different length raise ValueError. *)
  Definition np_dot (a b : list T) : res T :=
    if length a =? length b then Ok (ndot N a b) else Err ValueError.

  (** A number of elements as an operand, for instance _dcor_internals.py:186. *)
  Definition nofnat (n : nat) : T := nofZ N (Z.of_nat n).

  (** [np.mean] of a flat array; _dcor_internals.py:389 and _energy.py:117. *)
  Definition np_mean (l : list T) : T := ndiv N (np_sum l) (nofnat (length l)).

  (** [np.var] of a 1-d array. *)
  Definition np_var (l : list T) : T :=
    let m := np_mean l in
    np_mean (map (fun v => let d := nsub N v m in nmul N d d) l).

  (** Sum along axis 1 of a matrix. *)
  Definition row_sums (m : list (list T)) : list T := map np_sum m.
End Prims.
Arguments np_sum {T} N l : simpl never.

(** Shape equality of two matrices given as lists of rows.
    The element-wise operations without broadcasting, _dcor_internals.py:389. *)
Definition same_shape {A B} (a : list (list A)) (b : list (list B)) : bool :=
  (length a =? length b) &&
  forallb (fun p => length (fst p) =? length (snd p)) (combine a b).

(** A computation that may raise, for each element in order. For instance the loop of _fast_dcov_mergesort.py:70-73. *)
Fixpoint mapM {A B} (f : A -> res B) (l : list A) : res (list B) :=
  match l with
  | [] => Ok []
  | a :: l' => rbind (f a) (fun b => rbind (mapM f l') (fun bs => Ok (b :: bs)))
  end.

(** Broadcasting of one axis: equal lengths, or one of them is 1. *)
Definition bcast_axis {A B C} (f : A -> B -> res C) (u : list A) (v : list B) : res (list C) :=
  if length u =? length v then mapM (fun p => f (fst p) (snd p)) (combine u v)
  else match u, v with
       | [a], _ => mapM (f a) v
       | _, [b] => mapM (fun a => f a b) u
       | _, _ => Err ValueError
       end.

(** An element-wise operation on two matrices, with broadcasting; _dcor_internals.py:389, 460 and 652. *)
Definition elt_op {A B C} (f : A -> B -> C) (a : list (list A)) (b : list (list B)) : res (list (list C)) :=
  if same_shape a b then Ok (map2 (map2 f) a b)
  else bcast_axis (bcast_axis (fun x y => Ok (f x y))) a b.

(** ** Arrays passed to the public functions *)

(** Array library of an argument: numpy, or any other (array-API-strict, PyTorch...); _utils.py:74-87. *)
Inductive nspace := Numpy | OtherLib.

(** dtypes as far as the code distinguishes them. [F80] is a float wider than double,
    [Obj] an object array (Fraction, Decimal); [pow_ok] says whether the element type
    supports [** 0.5] (Decimal does not accept a float exponent). *)
Inductive dtype := F64 | F32 | F80 | SInt | UInt | Obj (pow_ok : bool).

(** A vector, or a matrix with its number of columns (simplification: 0-d and >2-d
    arrays are not represented). *)
Inductive nd (T : Type) := Vec (v : list T) | Mat (ncols : nat) (rows : list (list T)).
Arguments Vec {T} _.
Arguments Mat {T} _ _.

(** An argument: library, dtype (_utils.py:147-167) and elements. *)
Record array (T : Type) := mkArr { ans : nspace; adt : dtype; adata : nd T }.
Arguments ans {T} _.
Arguments adt {T} _.
Arguments adata {T} _.
Arguments mkArr {T} _ _ _.

(** The namespace of two arguments, _utils.py:74-87: arrays of one library stay in it; arrays of different libraries make
    array_api_compat raise TypeError, which is caught, and both are then converted with [numpy.asarray].  Simplifications:
    at most one library other than numpy takes part in a call, and its arrays can be converted. *)
Definition together {T} (x y : array T) : nspace :=
  match ans x, ans y with OtherLib, OtherLib => OtherLib | _, _ => Numpy end.

(** [x.shape[0]] *)
Definition shape0 {T} (x : array T) : nat :=
  match adata x with Vec v => length v | Mat _ rows => length rows end.

(** Rows of a matrix all have the declared number of columns (_utils.py:131-144 relies on the shape of the array). *)
Definition wf_nd {T} (d : nd T) : Prop :=
  match d with Vec _ => True | Mat c rows => Forall (fun r => length r = c) rows end.
(** The same for an array, _utils.py:131-144. *)
Definition wf {T} (x : array T) : Prop := wf_nd (adata x).

(** ** External routines *)

(** The library routines whose result is not determined by dcor; their contracts are
    premises of the theorems ([EnvSpec] in the proof files).
    For instance np.argsort (_fast_dcov_avl.py:215), scipy's cdist (distances.py:52 and 72), eigh (_dcor_internals.py:706). *)
Record Env (T : Type) := mkEnv {
  e_num : Num T;
  e_argsort : list T -> list nat;                    (* np.argsort *)
  e_empty : nat -> list T;                           (* np.empty: garbage *)
  e_eigh : list (list T) -> list T * list (list T);  (* np.linalg.eigh *)
  e_tcdf : T -> T -> T;                              (* scipy.stats.t.cdf(t, df) *)
  e_nsp_is_np : bool;   (* whether array_namespace(numpy array) == numpy itself *)
}.
Arguments e_num {T} _.
Arguments e_argsort {T} _ _.
Arguments e_empty {T} _ _.
Arguments e_eigh {T} _ _.
Arguments e_tcdf {T} _ _ _.
Arguments e_nsp_is_np {T} _.

(** What numba-compiled code uses; _fast_dcov_avl.py:422-435 and _fast_dcov_mergesort.py:274-293. *)
Definition seq_env {T} (E : Env T) : Env T :=
  mkEnv T (seq_num (e_num E)) (e_argsort E) (e_empty E) (e_eigh E) (e_tcdf E) (e_nsp_is_np E).
