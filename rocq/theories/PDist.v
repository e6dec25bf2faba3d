(** Pairwise distances: C36, C37. *)
From Coq Require Import Reals Lra Lia List Arith Bool ZArith.
From Verif Require Import Num Numpy MUtils MDistances Sums Spec Centering Tab Samples Api RefDist RefDcor RefCenter RefEnergy SpecFacts RefApi Witness.
Import List ListNotations.
Local Open Scope R_scope.

(** Number of rows, common number of columns, and entries of a matrix given as a list of rows. *)
Definition has_shape (n m : nat) (a : list (list R)) : Prop := length a = n /\ Forall (fun r => length r = m) a.
Definition entry (a : list (list R)) (i j : nat) : R := nth j (nth i a []) 0.

(** The Euclidean distance of observation [i] of [x] and observation [j] of [y]. *)
Definition euclid (x y : array R) (i j : nat) : R := dist (ncols x) (obs x i) (obs y j).

(** Samples handled by scipy: numpy arrays (when the library namespace of numpy arrays is numpy itself, [e_nsp_is_np]) of
    at most double precision floats or of signed integers. *)
Definition scipy_sample (E : Env R) (x : array R) : Prop :=
  e_nsp_is_np E = true /\ ans x = Numpy /\ (adt x = F64 \/ adt x = F32 \/ adt x = SInt).

Lemma scipy_spec E x : can_be_numpy_double E (ans x) (adt x) = true <-> scipy_sample E x.
Proof.
  unfold can_be_numpy_double, scipy_sample. destruct (ans x), (adt x), (e_nsp_is_np E); cbn; intuition congruence.
Qed.

Lemma tab2_shape n m f : has_shape n m (tab2 n m f).
Proof.
  split; [apply tab2_length|]. apply Forall_forall. intros r Hr. unfold tab2 in Hr. apply (In_nth _ _ []) in Hr as (i & Hi & <-).
  rewrite tab_length in Hi. rewrite tab_nth by auto. apply tab_length.
Qed.
Lemma tab2_entry n m f i j : (i < n)%nat -> (j < m)%nat -> entry (tab2 n m f) i j = f i j.
Proof. intros Hi Hj. unfold entry, tab2. rewrite tab_nth, tab_nth by auto. reflexivity. Qed.

(** Two samples, scipy path: shape and entries as documented. *)
Theorem C36_two_samples E x y e : valid_env E -> wf x -> wf y -> ncols x = ncols y -> 0 < e ->
  scipy_sample E x -> scipy_sample E y ->
  exists a, pairwise_distances E x (Some y) e = Ok a /\ has_shape (shape0 x) (shape0 y) a /\
    forall i j, (i < shape0 x)%nat -> (j < shape0 y)%nat -> entry a i j = rpow (euclid x y i j) e.
Proof.
  intros HE Wx Wy Hc He Sx Sy. pose proof HE as [EN _ _]. apply scipy_spec in Sx, Sy.
  rewrite (pairwise_distances_two E) by auto. eexists. split; [reflexivity|]. split; [apply tab2_shape|].
  intros i j Hi Hj. rewrite tab2_entry by auto. reflexivity.
Qed.

(** Otherwise the result is transposed: its shape is (len(y), len(x)) and entry (j, i) belongs to x[i] and y[j]. *)
Theorem C36_transposed_refuted E x y e : valid_env E -> wf x -> wf y -> ncols x = ncols y -> 0 < e ->
  ~ (scipy_sample E x /\ scipy_sample E y) ->
  exists a, pairwise_distances E x (Some y) e = Ok a /\ has_shape (shape0 y) (shape0 x) a /\
    forall i j, (i < shape0 x)%nat -> (j < shape0 y)%nat -> entry a j i = rpow (euclid x y i j) e.
Proof.
  intros HE Wx Wy Hc He Hs. pose proof HE as [EN _ _].
  assert (can_be_numpy_double E (ans x) (adt x) && can_be_numpy_double E (ans y) (adt y) = false) as Hd.
  { destruct (can_be_numpy_double E (ans x) (adt x)) eqn:H1; auto. destruct (can_be_numpy_double E (ans y) (adt y)) eqn:H2; auto.
    exfalso. apply Hs. split; apply scipy_spec; auto. }
  rewrite (pairwise_distances_two_naive E) by auto. eexists. split; [reflexivity|]. split; [apply tab2_shape|].
  intros i j Hi Hj. rewrite tab2_entry by auto. reflexivity.
Qed.

(** One sample: passing it twice is the same as passing it once. *)
Theorem C37_one_sample E x e : valid_env E -> wf x -> 0 < e ->
  exists a, pairwise_distances E x None e = Ok a /\ pairwise_distances E x (Some x) e = Ok a /\ has_shape (shape0 x) (shape0 x) a /\
    forall i j, (i < shape0 x)%nat -> (j < shape0 x)%nat ->
      entry a i j = rpow (euclid x x i j) e /\ entry a i j = entry a j i /\ entry a i i = 0 /\ 0 <= entry a i j /\
      (entry a i j = 0 <-> same_point (ncols x) (obs x i) (obs x j)).
Proof.
  intros HE Wx He. pose proof HE as [EN _ _]. rewrite (pairwise_distances_one E) by auto. eexists. split; [reflexivity|].
  assert (pairwise_distances E x (Some x) e = Ok (tab2 (shape0 x) (shape0 x) (distances e x))) as Hs.
  { destruct (can_be_numpy_double E (ans x) (adt x)) eqn:Hd.
    - apply (pairwise_distances_two E); auto.
    - rewrite (pairwise_distances_two_naive E) by (auto; rewrite Hd; reflexivity). f_equal. apply tab2_ext. intros i j Hi Hj.
      unfold distances, dmat. rewrite dist_sym. reflexivity. }
  split; [exact Hs|]. split; [apply tab2_shape|]. intros i j Hi Hj. rewrite !tab2_entry by auto. split; [reflexivity|].
  split; [apply dmat_symmetric with (n := shape0 x); auto|]. split; [apply dmat_hollow with (n := shape0 x); auto|].
  split; [apply rpow_nonneg|]. apply dmat_zero_iff.
Qed.

(** Both code paths give the same matrix: it does not depend on the library, the dtype or the namespace. *)
Theorem C37_paths_agree E E' x x' e : valid_env E -> valid_env E' -> wf x -> wf x' -> 0 < e ->
  ncols x' = ncols x -> shape0 x' = shape0 x -> (forall i k, obs x' i k = obs x i k) ->
  pairwise_distances E x None e = pairwise_distances E' x' None e.
Proof.
  intros HE HE' Wx Wx' He Hc Hn Ho. pose proof HE as [EN _ _]. pose proof HE' as [EN' _ _].
  rewrite (pairwise_distances_one E), (pairwise_distances_one E') by auto. rewrite Hn. f_equal. apply tab2_ext. intros i j Hi Hj.
  unfold distances. rewrite Hc. apply dmat_ext; intros; symmetry; apply Ho.
Qed.

(** ** The triangle inequality *)

Lemma dist_triangle p u v w : dist p u w <= dist p u v + dist p v w.
Proof.
  unfold dist. set (a := fun k => u k - v k). set (b := fun k => v k - w k).
  assert (rsum p (fun k => (u k - w k) ^ 2) = rsum p (fun k => a k ^ 2) + rsum p (fun k => b k ^ 2) + 2 * rsum p (fun k => a k * b k)) as ->.
  { rewrite <- rsum_scal_l, <- !rsum_plus. apply rsum_ext. intros. unfold a, b. ring. }
  change (rsum p (fun k => (u k - v k) ^ 2)) with (rsum p (fun k => a k ^ 2)). change (rsum p (fun k => (v k - w k) ^ 2)) with (rsum p (fun k => b k ^ 2)).
  assert (0 <= rsum p (fun k => a k ^ 2)) as Ha by (apply rsum_nonneg; intros; apply pow2_ge_0).
  assert (0 <= rsum p (fun k => b k ^ 2)) as Hb by (apply rsum_nonneg; intros; apply pow2_ge_0).
  pose proof (rsum_cauchy_schwarz p a b) as Hcs.
  set (A := rsum p (fun k => a k ^ 2)) in *. set (B := rsum p (fun k => b k ^ 2)) in *. set (C := rsum p (fun k => a k * b k)) in *.
  replace (rsum p (fun k => a k * a k)) with A in Hcs by (apply rsum_ext; intros; ring).
  replace (rsum p (fun k => b k * b k)) with B in Hcs by (apply rsum_ext; intros; ring).
  pose proof (sqrt_pos A) as PA. pose proof (sqrt_pos B) as PB. pose proof (sqrt_sqrt A Ha) as QA. pose proof (sqrt_sqrt B Hb) as QB.
  apply Rsqr_incr_0_var; [|lra]. assert (0 <= A + B + 2 * C) as Hn.
  { assert (C * C <= A * B) by lra. clear - Ha Hb H. clearbody A B C. apply Rnot_lt_le. intros Hc.
    assert ((A + B) * (A + B) < (-2 * C) * (-2 * C)) by (apply Rmult_le_0_lt_compat; lra). pose proof (Rle_0_sqr (A - B)) as Hq. unfold Rsqr in Hq. lra. }
  rewrite Rsqr_sqrt by auto. unfold Rsqr. set (sa := sqrt A) in *. set (sb := sqrt B) in *.
  assert (C <= sa * sb) as HC. { assert (C * C <= (sa * sb) * (sa * sb)) as H2 by (replace (sa * sb * (sa * sb)) with (sa * sa * (sb * sb)) by ring; rewrite QA, QB; auto).
    assert (0 <= sa * sb) by (apply Rmult_le_pos; auto). clear - H H2. set (q := sa * sb) in *. clearbody C q. apply Rnot_lt_le. intros Hc.
    assert (q * q < C * C) by (apply Rmult_le_0_lt_compat; lra). lra. }
  nra.
Qed.

Lemma rpow_subadditive a b e : 0 <= a -> 0 <= b -> 0 < e <= 1 -> rpow (a + b) e <= rpow a e + rpow b e.
Proof.
  intros Ha Hb He.
  assert (forall s t, 0 < t -> t <= s -> t / s * exp (e * ln s) <= exp (e * ln t)) as H.
  { intros s t Ht Hs. assert (ln t <= ln s) as Hl by (destruct (Req_dec t s); [subst; lra|left; apply ln_increasing; lra]).
    replace (t / s) with (exp (ln t - ln s)).
    - rewrite <- exp_plus. destruct (Req_dec (ln t - ln s + e * ln s) (e * ln t)) as [->|Hd]; [lra|]. left. apply exp_increasing. nra.
    - unfold Rminus. rewrite exp_plus, exp_Ropp, !exp_ln by lra. reflexivity. }
  destruct (Req_dec a 0) as [->|Ha']; [rewrite Rplus_0_l, rpow_0; lra|]. destruct (Req_dec b 0) as [->|Hb']; [rewrite Rplus_0_r, rpow_0; lra|].
  unfold rpow. destruct (Rle_dec (a + b) 0); [lra|]. destruct (Rle_dec a 0); [lra|]. destruct (Rle_dec b 0); [lra|].
  pose proof (H (a + b) a ltac:(lra) ltac:(lra)) as H1. pose proof (H (a + b) b ltac:(lra) ltac:(lra)) as H2.
  set (z := exp (e * ln (a + b))) in *. assert (a / (a + b) * z + b / (a + b) * z = z) by (field; lra). lra.
Qed.

Lemma rpow_le a b e : 0 <= a -> a <= b -> 0 < e -> rpow a e <= rpow b e.
Proof.
  intros Ha Hb He. unfold rpow. destruct (Rle_dec a 0); [destruct (Rle_dec b 0); [lra|left; apply exp_pos]|].
  destruct (Rle_dec b 0); [lra|]. destruct (Req_dec a b) as [->|]; [lra|]. left. apply exp_increasing.
  assert (ln a < ln b) by (apply ln_increasing; lra). nra.
Qed.

Theorem C37_triangle E x e a : valid_env E -> wf x -> 0 < e <= 1 -> pairwise_distances E x None e = Ok a ->
  forall i j k, (i < shape0 x)%nat -> (j < shape0 x)%nat -> (k < shape0 x)%nat -> entry a i k <= entry a i j + entry a j k.
Proof.
  intros HE Wx He Ha i j k Hi Hj Hk. pose proof HE as [EN _ _]. rewrite (pairwise_distances_one E) in Ha by (auto; lra). injection Ha as <-.
  rewrite !tab2_entry by auto. unfold distances, dmat.
  eapply Rle_trans; [apply rpow_le; [apply dist_nonneg|apply (dist_triangle _ _ (obs x j))|lra]|].
  apply rpow_subadditive; auto; apply dist_nonneg.
Qed.

(** For exponents above 1 the triangle inequality fails: 0, 1, 2 on the line. *)
Definition line : array R := mkArr Numpy F64 (Vec [0; 1; 2]).
Theorem C37_triangle_needs_exponent E : valid_env E -> forall e, 1 < e -> exists a, pairwise_distances E line None e = Ok a /\
  entry a 0 2 > entry a 0 1 + entry a 1 2.
Proof.
  intros HE e He. pose proof HE as [EN _ _]. rewrite (pairwise_distances_one E) by (cbn; auto; lra). eexists. split; [reflexivity|].
  rewrite !tab2_entry by (cbn; lia).
  assert (forall i j, distances e line i j = rpow (Rabs (obs line i 0 - obs line j 0)) e) as H.
  { intros. unfold distances, dmat. f_equal. rewrite <- (distances_1 line) by reflexivity. unfold distances, dmat. rewrite rpow_1; auto. apply dist_nonneg. }
  rewrite !H. cbn [obs line adata nth]. rewrite (Rabs_left (0 - 2)), (Rabs_left (0 - 1)), (Rabs_left (1 - 2)) by lra.
  replace (- (0 - 2)) with 2 by ring. replace (- (0 - 1)) with 1 by ring. replace (- (1 - 2)) with 1 by ring. rewrite rpow_1_l.
  unfold rpow. destruct (Rle_dec 2 0); [lra|]. replace (1 + 1) with (exp (ln 2)) by (rewrite exp_ln; lra). apply exp_increasing.
  pose proof ln_lt_2. nra.
Qed.

Example C36_meets : scipy_sample (env_R true) zs /\ ~ scipy_sample (env_R false) zs /\ wf zs /\ wf line.
Proof.
  split; [|split; [|split]].
  - repeat split; auto.
  - intros [H _]. discriminate.
  - repeat constructor.
  - cbn. auto.
Qed.
