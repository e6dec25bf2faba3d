(** Model of dcor/_utils.py. *)
From Coq Require Import ZArith List Bool Arith.
From Verif Require Import Num Numpy.
Import ListNotations.

(** _utils.py:30-51 *)
Inductive compile_mode := CAuto | CNoCompile | CCompileCpu | CCompileParallel.

(** _utils.py:54-70 *)
Inductive rowwise_mode := RWAuto | RWNaive | RWOptimized.

(** _utils.py:89-111, on one element: negative values are replaced with 0, then the
    square root is taken (the fall-back [** 0.5] computes the same real number).
    [x_copy < 0] is false on NaN, which therefore passes through. *)
Definition sqrt_clamp {T} (N : Num T) (x : T) : T :=
  nsqrt N (if nltb N x (nzero N) then nzero N else x).

(** _utils.py:114-128, one argument *)
Definition transform_to_1d {T} (d : nd T) : res (list T) :=
  match d with
  | Vec v => Ok v
  | Mat c rows => if c =? 1 then Ok (concat rows) else Err AssertionError
  end.

(** _utils.py:131-144, one argument: number of columns and rows *)
Definition transform_to_2d {T} (d : nd T) : nat * list (list T) :=
  match d with
  | Vec v => (1, map (fun a => [a]) v)
  | Mat c rows => (c, rows)
  end.

(** _utils.py:147-167.  [e_nsp_is_np] is the outcome of [array_namespace(x) == np] on a
    numpy array ([np.can_cast(x, float)] holds for every signed integer array). *)
Definition can_be_numpy_double {T} (E : Env T) (s : nspace) (d : dtype) : bool :=
  match s with
  | OtherLib => false
  | Numpy =>
      e_nsp_is_np E &&
      match d with F64 | F32 | SInt => true | F80 | UInt | Obj _ => false end
  end.
