(** C44: the affinely invariant distance correlation. *)
From Coq Require Import Reals Lra Lia List Arith Bool ZArith Psatz.
From Verif Require Import Num Numpy MUtils MInternals MDcor Sums Spec Tab Samples Api Witness Centering RefDist RefDcor SpecFacts RefApi RefCenter PDcov AffInv.
Import ListNotations.
Local Open Scope R_scope.

(** ** The scaled sample *)

Section Ref.
  Context (E : Env R) (HE : valid_env E).
  Let EN : e_num E = RNum := ve_num E HE.

  Lemma transpose_tab n p a : transpose E p (tab2 n p a) = tab2 p n (fun k i => a i k).
  Proof.
    unfold transpose, tab2. fold (tab p (fun j => map (fun r => nth j r (nzero (e_num E))) (tab n (fun i => tab p (a i))))).
    apply tab_ext. intros k Hk. rewrite tab_map. apply tab_ext. intros i Hi. rewrite tab_nth by auto. reflexivity.
  Qed.
  Lemma matmul_tab n m p a b :
    matmul E p (tab2 n m a) (tab2 m p b) = tab2 n p (fun i k => rsum m (fun l => a i l * b l k)).
  Proof.
    unfold matmul. rewrite transpose_tab. unfold tab2 at 2 3. rewrite tab_map. apply tab_ext. intros i Hi.
    unfold tab2. rewrite tab_map. apply tab_ext. intros k Hk. rewrite EN, dot_R, tab_map2, np_sum_tab. reflexivity.
  Qed.
  Lemma cov_tab n p x : cov E p (tab2 n p x) = tab2 p p (covariance n x).
  Proof.
    unfold cov. rewrite transpose_tab.
    assert (map (fun col => np_mean (e_num E) col) (tab2 p n (fun k i => x i k)) = tab p (mean_coord n x)) as ->.
    { unfold tab2. rewrite tab_map. apply tab_ext. intros k Hk. rewrite EN, np_mean_tab. reflexivity. }
    assert (map (fun r => map2 (nsub (e_num E)) r (tab p (mean_coord n x))) (tab2 n p x)
            = tab2 n p (fun i k => x i k - mean_coord n x k)) as ->.
    { unfold tab2. rewrite tab_map. apply tab_ext. intros i Hi. rewrite tab_map2, EN. reflexivity. }
    rewrite transpose_tab, matmul_tab, tab2_map. unfold tab2 at 2. rewrite tab_length, EN.
    apply tab2_ext. intros k l Hk Hl. cbn [ndiv nofZ RNum]. unfold covariance.
    rewrite minus_IZR, <- INR_IZR_INZ. reflexivity.
  Qed.
  Definition isq (v : R) : R := if Rleb v 0 then 0 else 1 / sqrt v.
  Lemma mat_sqrt_inv_tab p s lam V : e_eigh E (tab2 p p s) = (tab p lam, tab2 p p V) ->
    mat_sqrt_inv E p (tab2 p p s) = tab2 p p (fun k c => rsum p (fun l => V k l * isq (lam l) * V c l)).
  Proof.
    intros He. unfold mat_sqrt_inv. rewrite He, tab_map.
    assert (map (fun r => map2 (nmul (e_num E)) r
        (tab p (fun i => if nleb (e_num E) (lam i) (nzero (e_num E)) then nzero (e_num E)
                         else ndiv (e_num E) (nunit (e_num E)) (nsqrt (e_num E) (lam i))))) (tab2 p p V)
        = tab2 p p (fun k l => V k l * isq (lam l))) as ->.
    { unfold tab2. rewrite tab_map. apply tab_ext. intros i Hi. rewrite tab_map2, EN. reflexivity. }
    rewrite transpose_tab, matmul_tab. reflexivity.
  Qed.
End Ref.

(** ** Specification *)

(** [eigh] applied to the covariance matrix of [x] returns its eigenvalues and an orthonormal
    basis of eigenvectors. *)
Definition eigh_correct (E : Env R) (x : array R) : Prop :=
  let p := ncols x in
  let s := covariance (shape0 x) (obs x) in
  exists lam V, e_eigh E (tab2 p p s) = (tab p lam, tab2 p p V) /\ eigen p s lam V.

(** Every observation of [x'] is the image of that of [x] by [v |-> v A + b], where the linear
    map [A] is injective (has a right inverse).  A square [A] is one that is invertible; [x'] may
    also have more coordinates than [x]. *)
Definition affine_image (A : nat -> nat -> R) (b : nat -> R) (x x' : array R) : Prop :=
  wf x' /\ shape0 x' = shape0 x /\
  (exists B, forall l m, (l < ncols x)%nat -> (m < ncols x)%nat ->
     rsum (ncols x') (fun k => A l k * B k m) = if Nat.eqb l m then 1 else 0) /\
  forall i k, (i < shape0 x)%nat -> (k < ncols x')%nat ->
    obs x' i k = rsum (ncols x) (fun l => obs x i l * A l k) + b k.

(** ** Theorems *)

Lemma scaled_form E x : valid_env E -> wf x -> eigh_correct E x ->
  wf (af_inv_scaled E x) /\ shape0 (af_inv_scaled E x) = shape0 x /\ ncols (af_inv_scaled E x) = ncols x
  /\ ans (af_inv_scaled E x) = ans x /\ adt (af_inv_scaled E x) = F64
  /\ exists lam V, eigen (ncols x) (covariance (shape0 x) (obs x)) lam V
     /\ forall i c, (i < shape0 x)%nat -> (c < ncols x)%nat ->
        obs (af_inv_scaled E x) i c =
        rsum (ncols x) (fun k => obs x i k * rsum (ncols x) (fun l => V k l * isq (lam l) * V c l)) / (INR (shape0 x) - 1).
Proof.
  intros HE Hx (lam & V & He & HV). pose proof (ve_num E HE) as EN.
  assert (Hs : af_inv_scaled E x = mkArr (ans x) F64 (Mat (ncols x) (tab2 (shape0 x) (ncols x) (fun i c =>
     rsum (ncols x) (fun k => obs x i k * rsum (ncols x) (fun l => V k l * isq (lam l) * V c l)) / (INR (shape0 x) - 1))))).
  { unfold af_inv_scaled. rewrite transform_to_2d_tab by auto. rewrite cov_tab by auto.
    rewrite (mat_sqrt_inv_tab E HE _ _ lam V He), (matmul_tab E HE), tab2_map, EN.
    do 2 f_equal. apply tab2_ext. intros i c Hi Hc. cbn [ndiv nofZ RNum]. unfold tab2. rewrite tab_length.
    rewrite minus_IZR, <- INR_IZR_INZ. reflexivity. }
  rewrite Hs. unfold wf, shape0, ncols; cbn [adata ans adt].
  split; [|split; [|split; [|split; [|split]]]]; auto.
  - unfold tab2, tab. apply Forall_map, Forall_forall. intros. apply tab_length.
  - unfold tab2. apply tab_length.
  - exists lam, V. split; auto. intros i c Hi Hc. unfold obs at 1; cbn [adata].
    unfold tab2. rewrite tab_nth, tab_nth by auto. reflexivity.
Qed.

Lemma scaled_dist E x i j u : valid_env E -> wf x -> (2 <= shape0 x)%nat -> eigh_correct E x ->
  (i < shape0 x)%nat -> (j < shape0 x)%nat ->
  (forall k, (k < ncols x)%nat -> rsum (ncols x) (fun l => covariance (shape0 x) (obs x) k l * u l) = obs x i k - obs x j k) ->
  dist (ncols x) (obs (af_inv_scaled E x) i) (obs (af_inv_scaled E x) j)
  = sqrt (dot (ncols x) u (fun k => obs x i k - obs x j k) / (INR (shape0 x) - 1)²).
Proof.
  intros HE Hx Hn He Hi Hj Hu. destruct (scaled_form E x HE Hx He) as (_ & _ & _ & _ & _ & lam & V & HV & Ho).
  pose proof (INR_n1 _ Hn) as HN. unfold dist. f_equal.
  rewrite <- (scaled_length_any (shape0 x) (ncols x) (obs x) lam V Hn HV i j Hi Hj u Hu).
  unfold Rdiv. rewrite <- rsum_scal_r. apply rsum_ext. intros c Hc. rewrite !Ho by auto.
  unfold isq, Rsqr, Rdiv. field. lra.
Qed.

Lemma affine_isometric E A b x x' : valid_env E -> wf x -> (2 <= shape0 x)%nat ->
  eigh_correct E x -> eigh_correct E x' -> affine_image A b x x' ->
  isometric (af_inv_scaled E x) (af_inv_scaled E x').
Proof.
  intros HE Hx Hn He He' (Hx' & Hs & (B & HB) & Ho).
  destruct (scaled_form E x HE Hx He) as (_ & S1 & C1 & _ & _ & lam & V & HV & _).
  destruct (scaled_form E x' HE Hx' He') as (_ & S2 & C2 & _).
  split; [congruence|]. intros i j Hi Hj. rewrite S1 in Hi, Hj. rewrite C1, C2.
  destruct (solution_exists _ _ _ lam V Hn HV i j Hi Hj) as (u & Hu).
  destruct (quad_change (shape0 x) (ncols x) (ncols x') (obs x) (obs x') A B b Hn Ho HB u i j Hi Hj Hu) as (H1 & H2).
  rewrite (scaled_dist E x i j u) by auto.
  rewrite <- Hs in H1. rewrite (scaled_dist E x' i j (fun l => rsum (ncols x) (fun m => B l m * u m))); auto; try lia.
  rewrite H2, Hs. reflexivity.
Qed.

Lemma accepts_scaled E m cm x y : valid_env E -> wf x -> wf y -> eigh_correct E x -> eigh_correct E y ->
  accepts m cm x y 1 -> accepts m cm (af_inv_scaled E x) (af_inv_scaled E y) 1.
Proof.
  intros HE Hx Hy Ex Ey.
  destruct (scaled_form E x HE Hx Ex) as (_ & S1 & C1 & N1 & D1 & _).
  destruct (scaled_form E y HE Hy Ey) as (_ & S2 & C2 & N2 & D2 & _).
  unfold accepts, accepts_avl, accepts_mergesort, fast_case, some_numpy, forced_f64, mergesort_dtypes, univariate, is_float64, is_object.
  rewrite S1, C1, C2, N1, N2, D1, D2. destruct m; auto.
  - intros [H|(H & H' & _)]; [left; auto|right]. auto.
  - intros (H1 & H2 & H3 & H4 & H5 & [H6|(H6 & _)]); repeat split; auto.
  - intros (H1 & H2 & H3 & H4 & [(H5 & _)|(H5 & _)]); repeat split; auto.
    left. repeat split; auto; intros (q & Hq); discriminate.
Qed.

Definition af_inv_call (root : bool) (E : Env R) (x y : array R) (m : dcov_method) (cm : compile_mode) : res R :=
  outcome ((if root then distance_correlation_af_inv else distance_correlation_af_inv_sqr) E x y (MethodEnum m) cm).

Lemma af_inv_ok root E x y n m cm : valid_env E -> paired n x y -> (2 <= n)%nat ->
  eigh_correct E x -> eigh_correct E y -> accepts m cm x y 1 ->
  af_inv_call root E x y m cm =
  call (if root then Dcor else DcorSqr) E (af_inv_scaled E x) (af_inv_scaled E y) 1 m cm.
Proof.
  intros HE Hp Hn Ex Ey Ha. pose proof (ve_num E HE) as EN.
  pose proof Hp as (Hx & Hy & Nx & Ny & _).
  pose proof (accepts_scaled E m cm x y HE Hx Hy Ex Ey Ha) as Ha'.
  destruct (scaled_form E x HE Hx Ex) as (W1 & S1 & _).
  destruct (scaled_form E y HE Hy Ey) as (W2 & S2 & _).
  assert (Hp' : paired n (af_inv_scaled E x) (af_inv_scaled E y)) by (repeat split; auto; lia || congruence).
  assert (Hc : outcome (distance_correlation_af_inv_sqr E x y (MethodEnum m) cm)
               = call DcorSqr E (af_inv_scaled E x) (af_inv_scaled E y) 1 m cm).
  { rewrite (call_ok DcorSqr _ _ _ n) by (auto; cbn; lia || lra).
    unfold distance_correlation_af_inv_sqr. rewrite outcome_bind.
    pose proof (call_ok DcorSqr E (af_inv_scaled E x) (af_inv_scaled E y) n 1 m cm HE Hp' ltac:(cbn; lia) ltac:(lra) Ha') as Hk.
    unfold call, api_fn in Hk. rewrite EN. cbn [nunit RNum]. rewrite Hk. reflexivity. }
  destruct root; unfold af_inv_call; [|exact Hc].
  unfold distance_correlation_af_inv. rewrite outcome_bind, Hc.
  rewrite (call_ok DcorSqr _ _ _ n), (call_ok Dcor _ _ _ n) by (auto; cbn; lia || lra).
  cbn [rbind value]. unfold outcome, ret. cbn [snd]. rewrite EN. f_equal. unfold sqrt_clamp; cbn [nsqrt nltb nzero RNum]. apply (sqrt_clamp_R).
Qed.

Lemma paired_scaled E n x y : valid_env E -> paired n x y -> eigh_correct E x -> eigh_correct E y ->
  paired n (af_inv_scaled E x) (af_inv_scaled E y).
Proof.
  intros HE (Hx & Hy & Nx & Ny & H1) Ex Ey.
  destruct (scaled_form E x HE Hx Ex) as (W1 & S1 & _).
  destruct (scaled_form E y HE Hy Ey) as (W2 & S2 & _).
  repeat split; auto; congruence.
Qed.

(** Both functions ([root] chooses the one with the square root), all methods. *)
Theorem C44_affine_invariant root E A b C d x y x' y' n m cm m' cm' :
  valid_env E -> paired n x y -> (2 <= n)%nat ->
  eigh_correct E x -> eigh_correct E y -> eigh_correct E x' -> eigh_correct E y' ->
  affine_image A b x x' -> affine_image C d y y' ->
  accepts m cm x y 1 -> accepts m' cm' x' y' 1 ->
  af_inv_call root E x' y' m' cm' = af_inv_call root E x y m cm.
Proof.
  intros HE Hp Hn Ex Ey Ex' Ey' HA HC Ha Ha'.
  pose proof Hp as (Hx & Hy & Nx & Ny & H1).
  pose proof HA as (Wx' & Sx' & _). pose proof HC as (Wy' & Sy' & _).
  assert (Hp' : paired n x' y') by (repeat split; auto; congruence).
  rewrite (af_inv_ok root E x y n), (af_inv_ok root E x' y' n) by auto.
  apply (C11_isometric _ E _ _ _ _ n); auto using paired_scaled, accepts_scaled.
  - destruct root; cbn; lia.
  - lra.
  - apply (affine_isometric E A b); auto. lia.
  - apply (affine_isometric E C d); auto. lia.
Qed.

(** Mahalanobis distances for the inverse [T] of a covariance matrix. *)
Definition mahalanobis (p : nat) (T : nat -> nat -> R) (x : nat -> nat -> R) (i j : nat) : R :=
  sqrt (rsum2 p p (fun k l => (x i k - x j k) * T k l * (x i l - x j l))).
Definition inverse_matrix (p : nat) (s T : nat -> nat -> R) : Prop :=
  forall k l, (k < p)%nat -> (l < p)%nat -> rsum p (fun r => s k r * T r l) = if Nat.eqb k l then 1 else 0.

Theorem C44_value root E x y n m cm T U : valid_env E -> paired n x y -> (2 <= n)%nat ->
  eigh_correct E x -> eigh_correct E y -> accepts m cm x y 1 ->
  inverse_matrix (ncols x) (covariance n (obs x)) T -> inverse_matrix (ncols y) (covariance n (obs y)) U ->
  let r := dcor2 n (mahalanobis (ncols x) T (obs x)) (mahalanobis (ncols y) U (obs y)) in
  af_inv_call root E x y m cm = Ok (if root then sqrt r else r) /\ 0 <= r <= 1.
Proof.
  intros HE Hp Hn Ex Ey Ha HT HU r.
  pose proof Hp as (Hx & Hy & Nx & Ny & H1). pose proof (INR_n1 n Hn) as HN.
  assert (Hd : forall z V, wf z -> shape0 z = n -> eigh_correct E z -> inverse_matrix (ncols z) (covariance n (obs z)) V ->
    forall i j, (i < n)%nat -> (j < n)%nat ->
    distances 1 (af_inv_scaled E z) i j = / (INR n - 1) * mahalanobis (ncols z) V (obs z) i j).
  { intros z V Wz Nz Ez HV i j Hi Hj.
    destruct (scaled_form E z HE Wz Ez) as (_ & _ & C1 & _).
    unfold distances, dmat. rewrite rpow_1 by apply dist_nonneg. rewrite C1.
    rewrite (scaled_dist E z i j (fun k => rsum (ncols z) (fun l => V k l * (obs z i l - obs z j l)))); auto; try lia.
    - rewrite Nz, sqrt_div_alt by (apply Rsqr_pos_lt; lra). rewrite sqrt_Rsqr by lra.
      unfold Rdiv. rewrite Rmult_comm. f_equal. unfold mahalanobis. f_equal. unfold dot, rsum2.
      apply rsum_ext. intros k Hk. rewrite Rmult_comm, <- rsum_scal_l. apply rsum_ext. intros. ring.
    - intros k Hk. rewrite Nz.
      rewrite (rsum_ext _ _ (fun r => rsum (ncols z) (fun l => (obs z i l - obs z j l) * (covariance n (obs z) k r * V r l)))).
      + rewrite rsum_swap. rewrite (rsum_ext _ _ (fun l => if Nat.eqb l k then obs z i l - obs z j l else 0)).
        * apply (rsum_delta _ k (fun l => obs z i l - obs z j l)). auto.
        * intros l Hl. rewrite rsum_scal_l, HV by auto. rewrite Nat.eqb_sym. destruct (l =? k)%nat; ring.
      + intros r0 Hr. rewrite <- rsum_scal_l. apply rsum_ext. intros. ring. }
  assert (Hr : dcor2 n (distances 1 (af_inv_scaled E x)) (distances 1 (af_inv_scaled E y)) = r).
  { unfold r. pose proof (Rinv_0_lt_compat _ HN) as HI.
    rewrite <- (dcor2_scal n _ _ (mahalanobis (ncols x) T (obs x)) (mahalanobis (ncols y) U (obs y)) HI HI).
    apply (value_ext DcorSqr); intros; apply Hd; auto. }
  rewrite (af_inv_ok root E x y n) by auto.
  rewrite (call_ok _ E _ _ n); auto using paired_scaled, accepts_scaled; try lra.
  - split.
    + destruct root; cbn [value]; rewrite Hr; reflexivity.
    + rewrite <- Hr. apply dcor2_range; auto; lra.
  - destruct root; cbn; lia.
Qed.

(** ** A two-dimensional sample with a non-diagonal change of coordinates *)

Definition env_eigh : Env R :=
  mkEnv R RNum argsort_R (fun n => repeat 7 n)
    (fun m => (tab (length m) (fun i => nth i (nth i m []) 0),
               tab2 (length m) (length m) (fun i j => if Nat.eqb i j then 1 else 0)))
    (fun _ _ => 1 / 2) true.
Definition sq : array R := mkArr Numpy F64 (Mat 2 [[0; 0]; [2; 0]; [0; 2]; [2; 2]]).
Definition sq' : array R := mkArr Numpy F64 (Mat 2 [[5; 0]; [7; 2]; [7; -2]; [9; 0]]).
Definition one_d : array R := mkArr Numpy F64 (Vec [0; 3; 1; 2]).
Definition one_d' : array R := mkArr Numpy F64 (Vec [1; -5; -1; -3]).

Lemma env_eigh_valid : valid_env env_eigh.
Proof. destruct (env_R_valid true) as [A B C]. split; [reflexivity|exact B|exact C]. Qed.

Lemma env_eigh_diagonal x : (forall k l, (k < ncols x)%nat -> (l < ncols x)%nat -> k <> l ->
  covariance (shape0 x) (obs x) k l = 0) -> eigh_correct env_eigh x.
Proof.
  intros H. exists (fun i => covariance (shape0 x) (obs x) i i), (fun i j => if Nat.eqb i j then 1 else 0). split.
  - cbn [e_eigh env_eigh]. unfold tab2 at 1 2 4 5. rewrite tab_length. f_equal; auto.
    apply tab_ext. intros i Hi. rewrite tab_nth, tab_nth by auto. reflexivity.
  - assert (HO : orthogonal (ncols x) (fun i j => if Nat.eqb i j then 1 else 0)).
    { intros k l Hk Hl. rewrite (rsum_ext _ _ (fun r => if Nat.eqb r k then (if Nat.eqb r l then 1 else 0) else 0)).
      - apply (rsum_delta _ k (fun r => if Nat.eqb r l then 1 else 0)). auto.
      - intros. destruct (i =? k)%nat; ring. }
    split; [exact HO|split].
    + intros k l Hk Hl. rewrite <- HO by auto. apply rsum_ext. intros. rewrite (Nat.eqb_sym i k), (Nat.eqb_sym i l). reflexivity.
    + intros k l Hk Hl. rewrite (rsum_ext _ _ (fun r => if Nat.eqb r k then (if Nat.eqb l r then covariance (shape0 x) (obs x) r r else 0) else 0)).
      * rewrite (rsum_delta _ k (fun r => if Nat.eqb l r then covariance (shape0 x) (obs x) r r else 0)) by auto.
        destruct (Nat.eqb_spec l k) as [->|Hne]; auto.
      * intros r Hr. rewrite (Nat.eqb_sym k r). destruct (r =? k)%nat, (l =? r)%nat; ring.
Qed.

Example C44_meets :
  paired 4 sq one_d /\ affine_image (fun l k => if (Nat.eqb l 1 && Nat.eqb k 1)%bool then -1 else 1) (fun k => if Nat.eqb k 0 then 5 else 0) sq sq'
  /\ affine_image (fun _ _ => -2) (fun _ => 1) one_d one_d'
  /\ eigh_correct env_eigh sq /\ eigh_correct env_eigh sq' /\ eigh_correct env_eigh one_d /\ eigh_correct env_eigh one_d'
  /\ inverse_matrix 2 (covariance 4 (obs sq)) (fun k l => if Nat.eqb k l then 3 / 4 else 0)
  /\ accepts MAuto CAuto sq one_d 1.
Proof.
  split; [|split; [|split; [|split; [|split; [|split; [|split; [|split]]]]]]].
  - unfold paired, wf, shape0; cbn. repeat split; auto; repeat constructor.
  - split; [repeat constructor|]. split; [reflexivity|]. split.
    + exists (fun l k => if (Nat.eqb l 1 && Nat.eqb k 1)%bool then -1/2 else 1/2).
      intros [|[|l]] [|[|m]] Hl Hm; cbn in *; try lia; lra.
    + intros i k Hi Hk. unfold obs; cbn in *.
      do 4 (destruct i as [|i]; [destruct k as [|[|k]]; try lia; cbn; lra|]). lia.
  - split; [repeat constructor|]. split; [reflexivity|]. split.
    + exists (fun _ _ => - (1 / 2)). intros [|l] [|m] Hl Hm; cbn in *; try lia; lra.
    + intros i k Hi Hk. unfold obs; cbn in *. do 4 (destruct i as [|i]; [cbn; lra|]). lia.
  - apply env_eigh_diagonal. intros [|[|k]] [|[|l]] Hk Hl; unfold ncols in *; cbn in *; try lia;
    intros; unfold covariance, mean_coord, obs, shape0; cbn; try lra; congruence.
  - apply env_eigh_diagonal. intros [|[|k]] [|[|l]] Hk Hl; unfold ncols in *; cbn in *; try lia;
    intros; unfold covariance, mean_coord, obs, shape0; cbn; try lra; congruence.
  - apply env_eigh_diagonal. intros [|k] [|l] Hk Hl; unfold ncols in *; cbn in *; try lia; congruence.
  - apply env_eigh_diagonal. intros [|k] [|l] Hk Hl; unfold ncols in *; cbn in *; try lia; congruence.
  - intros [|[|k]] [|[|l]] Hk Hl; try lia; unfold covariance, mean_coord, obs; cbn; lra.
  - left. left. reflexivity.
Qed.
