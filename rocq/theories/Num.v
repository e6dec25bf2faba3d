(** Number types the model is generic in.

    Every function of the model takes a [Num T]: the scalar operations that the
    Python code applies to array elements.  The instances below are
    - [RNum]: exact real arithmetic (all semantic theorems);
    - [XNum]: reals with +inf, -inf and NaN, IEEE-754 rules for the special values
      (no signed zero: -0 is identified with 0, simplification);
    - [QNum]: rationals, executable, used to replay doctests;
    - [WNum k]: two's complement k-bit integers (numpy's fixed width integer dtypes).

    Double precision with rounding is the instance [B64Num] of MFloat.v. *)
From Coq Require Import Reals QArith ZArith List Bool Lra.
From Coq Require Import Qreduction.
Import ListNotations.

(** The operations the code applies to array elements: for instance distances.py:33-38, _dcor_internals.py:84-85, 162 and
    186-199, _utils.py:106-111, _rowwise.py:76-78. *)
Record Num (T : Type) := mkNum {
  nzero : T;
  nunit : T;
  nadd : T -> T -> T;
  nsub : T -> T -> T;
  nmul : T -> T -> T;
  ndiv : T -> T -> T;
  nleb : T -> T -> bool;      (* <= , false on NaN *)
  nltb : T -> T -> bool;      (* <  , false on NaN *)
  neqb : T -> T -> bool;      (* == , false on NaN *)
  nsqrt : T -> T;             (* np.sqrt *)
  npow : T -> T -> T;         (* ** *)
  nabs : T -> T;              (* np.abs *)
  nofZ : Z -> T;              (* integer literal / Python int operand *)
  nisnan : T -> bool;         (* np.isnan *)
  nsum : list T -> T;         (* np.sum of a 1-d array, in the order numpy adds *)
  ndot : list T -> list T -> T; (* 1-d @, operands of equal length, in the order BLAS adds *)
}.
Arguments nzero {T} _.
Arguments nunit {T} _.
Arguments nadd {T} _ _ _.
Arguments nsub {T} _ _ _.
Arguments nmul {T} _ _ _.
Arguments ndiv {T} _ _ _.
Arguments nleb {T} _ _ _.
Arguments nltb {T} _ _ _.
Arguments neqb {T} _ _ _.
Arguments nsqrt {T} _ _.
Arguments npow {T} _ _ _.
Arguments nabs {T} _ _.
Arguments nofZ {T} _ _.
Arguments nisnan {T} _ _.
Arguments nsum {T} _ _.
Arguments ndot {T} _ _ _.
Arguments nsum : simpl never.
Arguments ndot : simpl never.

(** Left to right addition and left to right sum of products. In exact arithmetic, and modulo a power of two, the order is
    irrelevant; the instances below add in this order. In double precision it is not: see [B64Num] (MFloat.v). *)
Definition seq_sum {T} (add : T -> T -> T) (zero : T) (l : list T) : T := fold_left add l zero.
(** Left to right sum of products: [@], _dcor_internals.py:162. *)
Definition seq_dot {T} (add mul : T -> T -> T) (zero : T) (a b : list T) : T :=
  fold_left add (map (fun p => mul (fst p) (snd p)) (combine a b)) zero.

(** The numbers as numba-compiled code handles them: np.sum is a loop over the array, [@] is still a call to BLAS;
    _fast_dcov_avl.py:422-435 and _fast_dcov_mergesort.py:274-293. *)
Definition seq_num {T} (N : Num T) : Num T :=
  mkNum T (nzero N) (nunit N) (nadd N) (nsub N) (nmul N) (ndiv N) (nleb N) (nltb N) (neqb N) (nsqrt N) (npow N) (nabs N)
    (nofZ N) (nisnan N) (seq_sum (nadd N) (nzero N)) (ndot N).

(** np.sum of these numbers can be computed from left to right; _fast_dcov_avl.py:365. *)
Definition sequential {T} (N : Num T) : Prop := forall l, nsum N l = seq_sum (nadd N) (nzero N) l.

(** ** Exact reals *)

(** [<=] of reals, for instance _dcor_internals.py:709. *)
Definition Rleb (x y : R) : bool := if Rle_dec x y then true else false.
(** [<] of reals, for instance _utils.py:106. *)
Definition Rltb (x y : R) : bool := if Rlt_dec x y then true else false.
(** [==] of reals, for instance _dcor.py:303. *)
Definition Reqb (x y : R) : bool := if Req_EM_T x y then true else false.

(** [x ** e] for a non-negative base.  Python: [0 ** 0 = 1], [0 ** e = 0] for [e > 0];
    for [e < 0] the base 0 gives an infinity, which only [XNum] represents. *)
Definition Rpow_py (x e : R) : R :=
  if Req_EM_T e 0 then 1
  else if Rle_dec x 0 then 0 else Rpower x e.

(** Exact real arithmetic in place of the operations on array elements, for instance _dcor_internals.py:186-199. *)
Definition RNum : Num R := {|
  nzero := 0%R; nunit := 1%R;
  nadd := Rplus; nsub := Rminus; nmul := Rmult; ndiv := Rdiv;
  nleb := Rleb; nltb := Rltb; neqb := Reqb;
  nsqrt := sqrt; npow := Rpow_py; nabs := Rabs;
  nofZ := IZR; nisnan := fun _ => false;
  nsum := seq_sum Rplus 0%R; ndot := seq_dot Rplus Rmult 0%R |}.

(** ** Extended reals with NaN *)

(** The values a float can take, without rounding; NaN and infinities arise for instance in _dcor_internals.py:336-337. *)
Inductive xR := Fin (r : R) | PInf | NInf | NaN.

(** Change of sign. *)
Definition xopp (x : xR) : xR :=
  match x with Fin r => Fin (- r) | PInf => NInf | NInf => PInf | NaN => NaN end.

(** [+], for instance _dcor_internals.py:342. *)
Definition xadd (x y : xR) : xR :=
  match x, y with
  | Fin a, Fin b => Fin (a + b)
  | NaN, _ | _, NaN => NaN
  | PInf, NInf | NInf, PInf => NaN
  | PInf, _ | _, PInf => PInf
  | NInf, _ | _, NInf => NInf
  end.

(** [-], for instance _dcor_internals.py:340. *)
Definition xsub (x y : xR) : xR := xadd x (xopp y).

(** infinity times a value of sign [s] (_dcor_internals.py:460). *)
Definition xinf_times (pos : bool) (y : xR) : xR :=
  let sgn (b : bool) := if Bool.eqb pos b then PInf else NInf in
  match y with
  | Fin b => if Rltb 0 b then sgn true else if Rltb b 0 then sgn false else NaN
  | PInf => sgn true
  | NInf => sgn false
  | NaN => NaN
  end.

(** [*], for instance _dcor_internals.py:460. *)
Definition xmul (x y : xR) : xR :=
  match x, y with
  | Fin a, Fin b => Fin (a * b)
  | NaN, _ | _, NaN => NaN
  | PInf, _ => xinf_times true y
  | NInf, _ => xinf_times false y
  | Fin _, PInf => xinf_times true x
  | Fin _, NInf => xinf_times false x
  end.

(** [/], for instance _dcor_internals.py:336-337. *)
Definition xdiv (x y : xR) : xR :=
  match x, y with
  | NaN, _ | _, NaN => NaN
  | Fin a, Fin b =>
      if Reqb b 0
      then (if Rltb 0 a then PInf else if Rltb a 0 then NInf else NaN)
      else Fin (a / b)
  | Fin _, PInf | Fin _, NInf => Fin 0
  | PInf, Fin b => if Rltb b 0 then NInf else PInf
  | NInf, Fin b => if Rltb b 0 then PInf else NInf
  | PInf, _ | NInf, _ => NaN
  end.

(** [<=], for instance _dcor_internals.py:709. *)
Definition xleb (x y : xR) : bool :=
  match x, y with
  | NaN, _ | _, NaN => false
  | Fin a, Fin b => Rleb a b
  | NInf, _ | _, PInf => true
  | PInf, _ | _, NInf => false
  end.

(** [==], for instance _dcor.py:303. *)
Definition xeqb (x y : xR) : bool :=
  match x, y with
  | Fin a, Fin b => Reqb a b
  | PInf, PInf | NInf, NInf => true
  | _, _ => false
  end.

(** [<], for instance _utils.py:106. *)
Definition xltb (x y : xR) : bool := xleb x y && negb (xeqb x y).

(** [xp.sqrt], _utils.py:109. *)
Definition xsqrt (x : xR) : xR :=
  match x with
  | Fin a => if Rltb a 0 then NaN else Fin (sqrt a)
  | PInf => PInf
  | _ => NaN
  end.

(** [x ** e]; only non-negative bases occur in the code (simplification: a negative
    base gives NaN unless the exponent is 0). *)
Definition xpow (x e : xR) : xR :=
  match e with
  | Fin e' =>
      if Reqb e' 0 then Fin 1 else
      match x with
      | Fin a => if Rltb a 0 then NaN
                 else if Reqb a 0 then (if Rltb e' 0 then PInf else Fin 0)
                 else Fin (Rpow_py a e')
      | PInf => if Rltb e' 0 then Fin 0 else PInf
      | _ => NaN
      end
  | _ => NaN
  end.

(** [xp.abs], _dcor.py:298. *)
Definition xabs (x : xR) : xR :=
  match x with Fin a => Fin (Rabs a) | PInf | NInf => PInf | NaN => NaN end.

(** Extended real arithmetic in place of the operations on array elements, for instance _dcor_internals.py:336-342. *)
Definition XNum : Num xR := {|
  nzero := Fin 0%R; nunit := Fin 1%R;
  nadd := xadd; nsub := xsub; nmul := xmul; ndiv := xdiv;
  nleb := xleb; nltb := xltb; neqb := xeqb;
  nsqrt := xsqrt; npow := xpow; nabs := xabs;
  nofZ := fun z => Fin (IZR z);
  nisnan := fun x => match x with NaN => true | _ => false end;
  nsum := seq_sum xadd (Fin 0%R); ndot := seq_dot xadd xmul (Fin 0%R) |}.

(** ** Rationals (executable) *)

(** Exact square root of perfect squares, [floor] otherwise (only used on doctests whose
    square roots are rational); _utils.py:109. *)
Definition Qsqrt_exact (x : Q) : Q :=
  let x := Qred x in
  Qred (Z.sqrt (Qnum x) # Z.to_pos (Z.sqrt (Zpos (Qden x)))).

(** [**] for the exponents of the doctests, distances.py:36. *)
Definition Qpow_exact (x e : Q) : Q :=
  if Qeq_bool e 1 then x
  else if Qeq_bool e (1#2) then Qsqrt_exact x
  else if Qeq_bool e 2 then Qred (x * x)%Q
  else 0%Q.

(** Rational arithmetic in place of the operations on array elements (doctests only, for instance _dcor.py:470-497). *)
Definition QNum : Num Q := {|
  nzero := 0%Q; nunit := 1%Q;
  nadd := fun x y => Qred (x + y)%Q;
  nsub := fun x y => Qred (x - y)%Q;
  nmul := fun x y => Qred (x * y)%Q;
  ndiv := fun x y => Qred (x / y)%Q;
  nleb := Qle_bool;
  nltb := fun x y => negb (Qle_bool y x);
  neqb := Qeq_bool;
  nsqrt := Qsqrt_exact; npow := Qpow_exact;
  nabs := fun x => Qabs.Qabs x;
  nofZ := inject_Z; nisnan := fun _ => false;
  nsum := seq_sum (fun x y => Qred (x + y)%Q) 0%Q;
  ndot := seq_dot (fun x y => Qred (x + y)%Q) (fun x y => Qred (x * y)%Q) 0%Q |}.

(** ** Fixed width signed integers: reduction modulo 2^k into [-2^(k-1), 2^(k-1)) *)

(** The result of an integer operation on a signed dtype, for instance distances.py:33. *)
Definition wrap (k : Z) (z : Z) : Z :=
  ((z + 2 ^ (k - 1)) mod 2 ^ k - 2 ^ (k - 1))%Z.

(** Unsigned variant: reduction modulo 2^k into [0, 2^k). *)
Definition uwrap (k : Z) (z : Z) : Z := (z mod 2 ^ k)%Z.

(** The operations on an integer dtype whose reduction is [w], for instance distances.py:33. *)
Definition WNum (w : Z -> Z) : Num Z := {|
  nzero := 0%Z; nunit := 1%Z;
  nadd := fun x y => w (x + y)%Z;
  nsub := fun x y => w (x - y)%Z;
  nmul := fun x y => w (x * y)%Z;
  ndiv := fun x y => (x / y)%Z;
  nleb := Z.leb; nltb := Z.ltb; neqb := Z.eqb;
  nsqrt := Z.sqrt; npow := fun x e => w (x ^ e)%Z; nabs := fun x => w (Z.abs x);
  nofZ := w; nisnan := fun _ => false;
  nsum := seq_sum (fun x y => w (x + y)%Z) 0%Z;
  ndot := seq_dot (fun x y => w (x + y)%Z) (fun x y => w (x * y)%Z) 0%Z |}.
