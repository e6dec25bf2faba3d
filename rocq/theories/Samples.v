(** Reading a sample off an array argument, and the contracts of the external routines:
    the vocabulary of the theorem statements, besides Spec.v. *)
From Coq Require Import Reals Lra List Arith Bool ZArith Permutation.
From Verif Require Import Num Numpy MUtils MDcor Sums Spec Tab.
Import ListNotations.

(** Number of coordinates of the observations (a 1-d array is a univariate sample). *)
Definition ncols {T} (x : array T) : nat :=
  match adata x with Vec _ => 1 | Mat c _ => c end.

(** Coordinate [k] of observation [i]. *)
Definition obs (x : array R) (i k : nat) : R :=
  match adata x with Vec v => nth i v 0%R | Mat _ rows => nth k (nth i rows []) 0%R end.

(** The e-th power distance matrix of a sample. *)
Definition distances (e : R) (x : array R) : nat -> nat -> R := dmat e (ncols x) (obs x).

(** [p] lists the positions of [l] in an order that sorts its values: all that is assumed
    of np.argsort (equal values may come in any order). *)
Definition sorts (l : list R) (p : list nat) : Prop :=
  is_perm (length l) p /\
  forall i j, i < j -> j < length l -> (nth (nth i p 0%nat) l 0 <= nth (nth j p 0%nat) l 0)%R.

(** Exact real arithmetic, a correct argsort, and np.empty of the right size with
    arbitrary contents. *)
Record valid_env (E : Env R) : Prop := {
  ve_num : e_num E = RNum;
  ve_argsort : forall l, sorts l (e_argsort E l);
  ve_empty : forall n, length (e_empty E n) = n }.

(** The calls the documentation accepts: which method and compile mode can be used with which
    samples (the samples have the same number of observations, at least one). *)
Definition univariate {T} (x : array T) : Prop := ncols x = 1.
Definition is_float64 {T} (x : array T) : Prop := adt x = F64.
Definition is_object {T} (x : array T) : Prop := exists p, adt x = Obj p.
Definition is_integer {T} (x : array T) : Prop := adt x = SInt \/ adt x = UInt.

(** Plain or automatic compilation; or forced compilation of float64 samples. *)
Definition not_forced (cm : compile_mode) : Prop := cm = CAuto \/ cm = CNoCompile.
Definition forced_f64 {T} (cm : compile_mode) (x y : array T) : Prop :=
  cm = CCompileCpu /\ is_float64 x /\ is_float64 y.

(** At least one of the two arguments is a numpy array. *)
Definition some_numpy {T} (x y : array T) : Prop := ans x = Numpy \/ ans y = Numpy.
#[global] Hint Unfold some_numpy : core.

Lemma together_l {T} (x y : array T) : ans x = Numpy -> together x y = Numpy.
Proof. unfold together. now intros ->. Qed.
Lemma together_r {T} (x y : array T) : ans y = Numpy -> together x y = Numpy.
Proof. unfold together. intros ->. now destruct (ans x). Qed.
Lemma together_comm {T} (x y : array T) : together x y = together y x.
Proof. unfold together. now destruct (ans x), (ans y). Qed.
Lemma together_ans {T U} (x y : array T) (x' y' : array U) : ans x = ans x' -> ans y = ans y' -> together x y = together x' y'.
Proof. unfold together. now intros -> ->. Qed.
Lemma some_together {T} (x y : array T) : some_numpy x y <-> together x y = Numpy.
Proof. unfold some_numpy, together. destruct (ans x), (ans y); intuition congruence. Qed.

Definition accepts_naive (cm : compile_mode) : Prop := not_forced cm.

Definition accepts_avl (cm : compile_mode) (x y : array R) (e : R) : Prop :=
  e = 1%R /\ univariate x /\ univariate y /\ some_numpy x y /\ 4 <= shape0 x /\
  (not_forced cm \/ forced_f64 cm x y).

(** No object arrays; an integer [y] only with an [x] whose dtype promotes to the dtype of [y]. *)
Definition mergesort_dtypes (x y : array R) : Prop :=
  ~ is_object x /\ ~ is_object y /\
  match adt y, adt x with
  | SInt, (SInt | UInt) | UInt, UInt => True
  | (SInt | UInt), _ => False
  | _, _ => True
  end.
Definition accepts_mergesort (cm : compile_mode) (x y : array R) (e : R) : Prop :=
  e = 1%R /\ univariate x /\ univariate y /\ some_numpy x y /\
  (not_forced cm /\ mergesort_dtypes x y \/ forced_f64 cm x y).

(** AUTO uses AVL for numpy univariate samples of more than three observations with exponent
    1, NAIVE otherwise. *)
Definition fast_case (x y : array R) (e : R) : Prop :=
  some_numpy x y /\ univariate x /\ univariate y /\ 4 <= shape0 x /\ e = 1%R.

Definition accepts (m : dcov_method) (cm : compile_mode) (x y : array R) (e : R) : Prop :=
  match m with
  | MNaive => accepts_naive cm
  | MAvl => accepts_avl cm x y e
  | MMergesort => accepts_mergesort cm x y e
  | MAuto => not_forced cm \/ (fast_case x y e /\ forced_f64 cm x y)
  end.
