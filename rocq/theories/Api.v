(** The public distance covariance/correlation functions under one name, and the words used
    in theorem statements about them. *)
From Coq Require Import Reals List Arith Bool.
From Verif Require Import Num Numpy MUtils MDcor Sums Spec Tab Samples.
Local Open Scope R_scope.

(** Two samples of [n] observations each. *)
Definition paired (n : nat) (x y : array R) : Prop :=
  wf x /\ wf y /\ shape0 x = n /\ shape0 y = n /\ (1 <= n)%nat.

(** The six scalar functions. *)
Inductive api := DcovSqr | Dcov | DcorSqr | Dcor | UDcovSqr | UDcorSqr.

Definition api_fn (f : api) {T} (E : Env T) : array T -> array T -> T -> method_like -> compile_mode -> M T :=
  match f with
  | DcovSqr => distance_covariance_sqr E
  | Dcov => distance_covariance E
  | DcorSqr => distance_correlation_sqr E
  | Dcor => distance_correlation E
  | UDcovSqr => u_distance_covariance_sqr E
  | UDcorSqr => u_distance_correlation_sqr E
  end.

(** Return value or exception of a call. *)
Definition call (f : api) {T} (E : Env T) (x y : array T) (e : T) (m : dcov_method) (cm : compile_mode) : res T :=
  outcome (api_fn f E x y e (MethodEnum m) cm).

(** Number of observations needed. *)
Definition min_size (f : api) : nat :=
  match f with UDcovSqr | UDcorSqr => 4 | _ => 1 end.

(** What each function should return, from the two distance matrices. *)
Definition value (f : api) (n : nat) (a b : nat -> nat -> R) : R :=
  match f with
  | DcovSqr => dcov2 n a b
  | Dcov => sqrt (dcov2 n a b)
  | DcorSqr => dcor2 n a b
  | Dcor => sqrt (dcor2 n a b)
  | UDcovSqr => udcov2 n a b
  | UDcorSqr => udcor2 n a b
  end.

(** Arrays of the same library, dtype and shape. *)
Definition same_form (x x' : array R) : Prop :=
  ans x' = ans x /\ adt x' = adt x /\ ncols x' = ncols x /\ shape0 x' = shape0 x /\ wf x'.

(** [x'] is [x] with its observations in the order [q]. *)
Definition reordered (q : nat -> nat) (x x' : array R) : Prop :=
  same_form x x' /\
  forall i k, (i < shape0 x)%nat -> (k < ncols x)%nat -> obs x' i k = obs x (q i) k.

(** The distances between observations are the same in [x] and [x'] (which may have
    different numbers of coordinates). *)
Definition isometric (x x' : array R) : Prop :=
  shape0 x' = shape0 x /\
  forall i j, (i < shape0 x)%nat -> (j < shape0 x)%nat ->
  dist (ncols x') (obs x' i) (obs x' j) = dist (ncols x) (obs x i) (obs x j).

(** [x'] is [x] with [c k] added to coordinate [k] of every observation. *)
Definition translated (c : nat -> R) (x x' : array R) : Prop :=
  same_form x x' /\
  forall i k, (i < shape0 x)%nat -> (k < ncols x)%nat -> obs x' i k = obs x i k + c k.

(** Every observation of [x'] is the orthogonal matrix [Q] applied to that of [x]. *)
Definition orthogonal (p : nat) (Q : nat -> nat -> R) : Prop :=
  forall k l, (k < p)%nat -> (l < p)%nat ->
  rsum p (fun r => Q r k * Q r l) = if Nat.eqb k l then 1 else 0.
Definition rotated (Q : nat -> nat -> R) (x x' : array R) : Prop :=
  orthogonal (ncols x) Q /\ same_form x x' /\
  forall i k, (i < shape0 x)%nat -> (k < ncols x)%nat ->
  obs x' i k = rsum (ncols x) (fun l => Q k l * obs x i l).

(** [x'] is [s] times [x]. *)
Definition scaled (s : R) (x x' : array R) : Prop :=
  same_form x x' /\
  forall i k, (i < shape0 x)%nat -> (k < ncols x)%nat -> obs x' i k = s * obs x i k.

(** All the observations are equal. *)
Definition constant (x : array R) : Prop :=
  forall i j, (i < shape0 x)%nat -> (j < shape0 x)%nat -> same_point (ncols x) (obs x i) (obs x j).

(** The distances of [x] are [c] times those of [y], for some [c > 0]. *)
Definition proportional_distances (e : R) (x y : array R) : Prop :=
  exists c, 0 < c /\ forall i j, (i < shape0 x)%nat -> (j < shape0 x)%nat ->
  distances e x i j = c * distances e y i j.
