(** Integer samples: numpy arrays of a fixed width integer dtype, promoted to floating point by
    the operations that promote them.

    The dtype is described by its reduction function [w]: [wrap 64] for int64, [uwrap 8] for
    uint8 and so on.  Additions, subtractions and products of two integer operands stay integers
    and are reduced by [w], with no overflow error (numpy array semantics); a Python integer
    operand adopts the dtype of the array.  Division, square root and a power give floats, and so
    does any operation with a float operand.  The floats themselves are the extended reals of
    [XNum] (rounding is not modelled, here as elsewhere).

    Simplifications: both operands have the same integer dtype (numpy promotes mixed ones);
    np.sum, np.cumsum and [@] are reduced by [w] although numpy accumulates narrow integers in
    64 bits, so for narrow dtypes only results whose sums need no reduction are meaningful;
    scipy's cdist converts to double first, which is not represented, so statements about
    distances are for arrays that do not take the scipy path. *)
From Coq Require Import Reals ZArith List Bool.
From Verif Require Import Num Numpy.
Import ListNotations.

(** An element of an array: an integer of the dtype, or a float once an operation has promoted it (distances.py:33-38). *)
Inductive hR := HI (z : Z) | HF (x : xR).

(** The number denoted. The value compared, divided or passed to [**], for instance distances.py:36. *)
Definition hx (a : hR) : xR := match a with HI z => Fin (IZR z) | HF x => x end.

(** [+], [-], [*] of two elements, for instance distances.py:33. *)
Definition hop (w : Z -> Z) (zop : Z -> Z -> Z) (xop : xR -> xR -> xR) (a b : hR) : hR :=
  match a, b with
  | HI x, HI y => HI (w (zop x y))
  | _, _ => HF (xop (hx a) (hx b))
  end.

(** The operations applied to an integer array, for instance distances.py:33-38, _fast_dcov_avl.py:369. *)
Definition HNum (w : Z -> Z) : Num hR := {|
  nzero := HI 0%Z; nunit := HI 1%Z;
  nadd := hop w Z.add xadd; nsub := hop w Z.sub xsub; nmul := hop w Z.mul xmul;
  ndiv := fun a b => HF (xdiv (hx a) (hx b));
  nleb := fun a b => xleb (hx a) (hx b);
  nltb := fun a b => xltb (hx a) (hx b);
  neqb := fun a b => xeqb (hx a) (hx b);
  nsqrt := fun a => HF (xsqrt (hx a));
  npow := fun a e => HF (xpow (hx a) (hx e));
  nabs := fun a => match a with HI z => HI (w (Z.abs z)) | HF x => HF (xabs x) end;
  nofZ := HI;
  nisnan := fun a => match hx a with NaN => true | _ => false end;
  nsum := seq_sum (hop w Z.add xadd) (HI 0%Z);
  ndot := seq_dot (hop w Z.add xadd) (hop w Z.mul xmul) (HI 0%Z) |}.

(** An integer array as the program sees it, and the same numbers as reals. The arguments x and y of _dcor.py:440-1040. *)
Definition amap {A B} (f : A -> B) (x : array A) : array B :=
  mkArr (ans x) (adt x)
    (match adata x with Vec v => Vec (map f v) | Mat c rows => Mat c (map (map f) rows) end).
(** The array as the program sees it (_dcor.py:440-1040). *)
Definition ints (x : array Z) : array hR := amap HI x.
(** The same numbers as reals (_dcor.py:440-1040). *)
Definition reals (x : array Z) : array R := amap IZR x.

(** The integer dtypes of [k] bits: reduction, and the first non-negative integer they cannot
    hold; _utils.py:164 distinguishes the signed ones. *)
Inductive idtype := Signed (k : Z) | Unsigned (k : Z).
(** The result of an operation that leaves the range wraps around (numpy, for instance distances.py:33). *)
Definition reduce (d : idtype) : Z -> Z := match d with Signed k => wrap k | Unsigned k => uwrap k end.
(** The first non-negative integer the dtype cannot hold (numpy; _utils.py:164-165 tests the dtype). *)
Definition limit (d : idtype) : Z := match d with Signed k => 2 ^ (k - 1) | Unsigned k => 2 ^ k end.
(** The number of bits (numpy; [x.dtype], _utils.py:164). *)
Definition width (d : idtype) : Z := match d with Signed k | Unsigned k => k end.
