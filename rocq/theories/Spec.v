(** The textbook definitions the properties refer to: plain mathematics on functions
    [nat -> ...] (indices start at 0), independent of the model of the code. *)
From Coq Require Import Reals List Arith Bool.
From Verif Require Import Sums.
Local Open Scope R_scope.

(** [x^e] for [x >= 0], [e > 0] (with [0^e = 0]). *)
Definition rpow (x e : R) : R := if Rle_dec x 0 then 0 else exp (e * ln x).

(** Euclidean distance of two points with [p] coordinates. *)
Definition dist (p : nat) (u v : nat -> R) : R :=
  sqrt (rsum p (fun k => (u k - v k) ^ 2)).

(** A sample: [X i k] is coordinate [k] of observation [i].
    Matrix of the [e]-th powers of the distances of the observations. *)
Definition dmat (e : R) (p : nat) (X : nat -> nat -> R) (i j : nat) : R :=
  rpow (dist p (X i) (X j)) e.

Definition mean (n : nat) (f : nat -> R) : R := rsum n f / INR n.

(** Double centring: subtract row and column means, add the grand mean. *)
Definition dcenter (n : nat) (a : nat -> nat -> R) (i j : nat) : R :=
  a i j - mean n (fun l => a i l) - mean n (fun k => a k j)
  + mean n (fun k => mean n (fun l => a k l)).

(** Squared sample distance covariance (V-statistic) of two distance matrices. *)
Definition dcov2 (n : nat) (a b : nat -> nat -> R) : R :=
  / (INR n) ^ 2 * rsum2 n n (fun i j => dcenter n a i j * dcenter n b i j).

(** U-centring (Szekely and Rizzo 2014). *)
Definition ucenter (n : nat) (a : nat -> nat -> R) (i j : nat) : R :=
  if Nat.eqb i j then 0
  else a i j - / (INR n - 2) * rsum n (fun l => a i l)
             - / (INR n - 2) * rsum n (fun k => a k j)
             + / ((INR n - 1) * (INR n - 2)) * rsum2 n n a.

(** Inner product of U-centred matrices. *)
Definition uprod (n : nat) (a b : nat -> nat -> R) : R :=
  / (INR n * (INR n - 3)) * rsum2 n n (fun i j => a i j * b i j).

(** Bias-corrected squared distance covariance. *)
Definition udcov2 (n : nat) (a b : nat -> nat -> R) : R :=
  uprod n (ucenter n a) (ucenter n b).

(** Correlation from a covariance and two variances; 0 when a variance vanishes. *)
Definition corr (cov vx vy : R) : R :=
  if Req_EM_T (vx * vy) 0 then 0 else cov / sqrt (vx * vy).

Definition dcor2 (n : nat) (a b : nat -> nat -> R) : R :=
  corr (dcov2 n a b) (dcov2 n a a) (dcov2 n b b).
Definition udcor2 (n : nat) (a b : nat -> nat -> R) : R :=
  corr (udcov2 n a b) (udcov2 n a a) (udcov2 n b b).

(** Energy distance (V-statistic) of samples X (size n) and Y (size m). *)
Definition energy (e : R) (p n m : nat) (X Y : nat -> nat -> R) : R :=
  2 * (rsum2 n m (fun i j => rpow (dist p (X i) (Y j)) e) / (INR n * INR m))
  - rsum2 n n (fun i j => rpow (dist p (X i) (X j)) e) / (INR n * INR n)
  - rsum2 m m (fun i j => rpow (dist p (Y i) (Y j)) e) / (INR m * INR m).

(** Energy distance, U-statistic: within-sample means over the pairs i < j. *)
Definition upper_mean (n : nat) (a : nat -> nat -> R) : R :=
  rsum2 n n (fun i j => if Nat.ltb i j then a i j else 0) / (INR n * (INR n - 1) / 2).
Definition uenergy (e : R) (p n m : nat) (X Y : nat -> nat -> R) : R :=
  2 * (rsum2 n m (fun i j => rpow (dist p (X i) (Y j)) e) / (INR n * INR m))
  - upper_mean n (fun i j => rpow (dist p (X i) (X j)) e)
  - upper_mean m (fun i j => rpow (dist p (Y i) (Y j)) e).

(** Two observations of a sample are the same point. *)
Definition same_point (p : nat) (u v : nat -> R) : Prop :=
  forall k, (k < p)%nat -> u k = v k.

(** Symmetric matrix with zero diagonal. *)
Definition symmetric (n : nat) (a : nat -> nat -> R) : Prop :=
  forall i j, (i < n)%nat -> (j < n)%nat -> a i j = a j i.
Definition hollow (n : nat) (a : nat -> nat -> R) : Prop :=
  forall i, (i < n)%nat -> a i i = 0.

(** Decision of [same_point]. *)
Definition same_pointb (p : nat) (u v : nat -> R) : bool :=
  forallb (fun k => if Req_EM_T (u k) (v k) then true else false) (seq 0 p).

(** Number of indices below [n] with property [f]. *)
Definition count (n : nat) (f : nat -> bool) : R := rsum n (fun k => if f k then 1 else 0).

(** The joint sample ((X 0, Y 0), ..., (X (n-1), Y (n-1))) is empirically independent: the
    relative frequency of each pair of observed values is the product of their relative
    frequencies. *)
Definition empirically_independent (n p q : nat) (X Y : nat -> nat -> R) : Prop :=
  forall i j, (i < n)%nat -> (j < n)%nat ->
  count n (fun k => same_pointb p (X k) (X i) && same_pointb q (Y k) (Y j)) / INR n
  = (count n (fun k => same_pointb p (X k) (X i)) / INR n)
    * (count n (fun k => same_pointb q (Y k) (Y j)) / INR n).

(** Two samples with the same empirical distribution: every point has the same relative
    frequency in both. *)
Definition same_distribution (p n m : nat) (X Y : nat -> nat -> R) : Prop :=
  forall z : nat -> R,
  count n (fun k => same_pointb p (X k) z) / INR n = count m (fun k => same_pointb p (Y k) z) / INR m.
