(** Double precision: IEEE-754 binary64 numbers with rounding to nearest even, overflow, underflow, signed zeros,
    infinities and NaN (Flocq's formalisation), as a number type of the model.

    [nadd], [nsub], [nmul], [ndiv], [nsqrt] are the correctly rounded operations.  A Python integer operand is converted
    to the nearest double.  [x ** 0.5] is computed by numpy as a square root; the power function for other exponents comes
    from the C library and is not specified by IEEE-754, so it is a parameter [f_pow].

    np.sum and [@] add in an order chosen by the library, a parameter: any binary tree with every element once at a leaf, with
    any number of additional zeros of either sign; [@] may multiply and add in one rounding.  numba's np.sum adds from left to
    right.  Simplifications: the tree depends on the number of elements only (not on strides, axes or alignment), and scipy's
    cdist adds squares with the tree of np.sum; compiled code does not contract products and sums into fused operations
    (numba's default). *)
From Coq Require Import ZArith List Bool.
From Flocq Require Import IEEE754.BinarySingleNaN.
From Verif Require Import Num Numpy.
Import ListNotations.

(** The elements of an array of dtype float64, _utils.py:160-162. *)
Definition b64 : Type := binary_float 53 1024.

(** The precision is positive (a fact about the format, used by Flocq; no code). *)
Definition b64_prec : FLX.Prec_gt_0 53 := eq_refl.
(** The format holds its precision (a fact about the format, used by Flocq; no code). *)
Definition b64_emax : Prec_lt_emax 53 1024 := eq_refl.

(** The nearest double of an integer. For instance [n_samples], _dcor_internals.py:186. *)
Definition b64_ofZ (z : Z) : b64 := binary_normalize 53 1024 b64_prec b64_emax mode_NE z 0 false.

(** The double 0.5, _utils.py:111. *)
Definition b64_half : b64 := Bdiv mode_NE (prec_gt_0_ := b64_prec) (prec_lt_emax_ := b64_emax) (b64_ofZ 1) (b64_ofZ 2).

(** [+] of two doubles, for instance _dcor_internals.py:265. *)
Definition b64_add : b64 -> b64 -> b64 := Bplus (prec_gt_0_ := b64_prec) (prec_lt_emax_ := b64_emax) mode_NE.
(** [-] of two doubles, for instance _dcor_internals.py:263. *)
Definition b64_sub : b64 -> b64 -> b64 := Bminus (prec_gt_0_ := b64_prec) (prec_lt_emax_ := b64_emax) mode_NE.
(** [*] of two doubles, for instance _dcor_internals.py:389. *)
Definition b64_mul : b64 -> b64 -> b64 := Bmult (prec_gt_0_ := b64_prec) (prec_lt_emax_ := b64_emax) mode_NE.
(** [/] of two doubles, for instance _dcor_internals.py:186. *)
Definition b64_div : b64 -> b64 -> b64 := Bdiv (prec_gt_0_ := b64_prec) (prec_lt_emax_ := b64_emax) mode_NE.
(** Fused multiply-add, which [@] may use (_dcor_internals.py:162). *)
Definition b64_fma : b64 -> b64 -> b64 -> b64 := Bfma (prec_gt_0_ := b64_prec) (prec_lt_emax_ := b64_emax) mode_NE.
(** [xp.sqrt], _utils.py:109. *)
Definition b64_sqrt : b64 -> b64 := Bsqrt (prec_gt_0_ := b64_prec) (prec_lt_emax_ := b64_emax) mode_NE.

(** The order in which np.sum adds an array of a given length: a binary tree over the positions; [SZero s] is an accumulator
    that starts at a (signed) zero. [Leaf 0], [Node (Leaf 0) (Leaf 1)], ... are left to right; numpy adds pairwise, with
    eight accumulators. *)
Inductive stree := SZero (s : bool) | Leaf (i : nat) | Node (p q : stree).
(** The positions of a tree, in order ([np.sum], _dcor_internals.py:84-85). *)
Fixpoint sleaves (t : stree) : list nat :=
  match t with SZero _ => [] | Leaf i => [i] | Node p q => sleaves p ++ sleaves q end.
(** [np.sum] in the order of a tree, _dcor_internals.py:84-85. *)
Fixpoint seval (t : stree) (l : list b64) : b64 :=
  match t with
  | SZero s => B754_zero s
  | Leaf i => nth i l (B754_zero false)
  | Node p q => b64_add (seval p l) (seval q l)
  end.

(** The order of a dot product: each product is rounded and added, or added with one rounding (fused multiply-add);
    _dcor_internals.py:162. *)
Inductive dtree := DZero (s : bool) | DMul (i : nat) | DFma (i : nat) (t : dtree) | DNode (p q : dtree).
(** The positions of a tree, in order ([@], _dcor_internals.py:162). *)
Fixpoint dleaves (t : dtree) : list nat :=
  match t with DZero _ => [] | DMul i => [i] | DFma i t => i :: dleaves t | DNode p q => dleaves p ++ dleaves q end.
(** [@] in the order of a tree, _dcor_internals.py:162. *)
Fixpoint deval (t : dtree) (a b : list b64) : b64 :=
  let at_ l i := nth i l (B754_zero false) in
  match t with
  | DZero s => B754_zero s
  | DMul i => b64_mul (at_ a i) (at_ b i)
  | DFma i t => b64_fma (at_ a i) (at_ b i) (deval t a b)
  | DNode p q => b64_add (deval p a b) (deval q a b)
  end.

(** What depends on the machine and the libraries: [**] (other than the exponent 0.5), and the orders of addition of np.sum
    and of [@], which depend on the length of the array only. *)
Record flib := mkLib { f_pow : b64 -> b64 -> b64; f_sum : nat -> stree; f_dot : nat -> dtree }.

(** The operations applied to arrays of doubles (dtype float64), _utils.py:147-167. *)
Definition B64Num (lib : flib) : Num b64 := {|
  nzero := B754_zero false; nunit := b64_ofZ 1;
  nadd := b64_add; nsub := b64_sub; nmul := b64_mul; ndiv := b64_div;
  nleb := Bleb; nltb := Bltb; neqb := Beqb;
  nsqrt := b64_sqrt;
  npow := fun x e => if Beqb e b64_half then b64_sqrt x else f_pow lib x e;
  nabs := Babs;
  nofZ := b64_ofZ;
  nisnan := is_nan;
  nsum := fun l => seval (f_sum lib (length l)) l;
  ndot := fun a b => deval (f_dot lib (length a)) a b |}.
