(** C87, continued: the default method on samples of several columns, and the t-test.

    [rescaled k x x'], [ordinary n x]: PFloatScale.v. [cdf_contract_float E]: what is used of scipy's [t.cdf] (PTFloat.v). *)
From Coq Require Import Reals Lra Lia List Arith Bool ZArith Psatz.
From Flocq Require Import Core IEEE754.BinarySingleNaN.
From Verif Require Import Num Numpy MUtils MDistances MInternals MMergesort MAvl MDcor MHypothesis MIndependence MInteger MFloat Sums Spec Tab Samples RefDist RefDcor Api Witness
  Calls RefInteger RefFloat FloatApi FloatSum FloatEnv FloatError FloatCorr FloatTStat PInteger PFloat FloatNaive PFloatCorr PTFloat FloatScale PFloatScale.
Import ListNotations.
Local Open Scope R_scope.

(** The fast algorithms are out of the question: they need numpy arrays with one column each. *)
Definition not_fast {T} (x y : array T) : Prop := ncols x <> 1%nat \/ ncols y <> 1%nat \/ (ans x = OtherLib /\ ans y = OtherLib).

Lemma one_column {T} (x : array T) : is_random_variable (adata x) = true -> ncols x = 1%nat.
Proof. unfold ncols, is_random_variable. destruct (adata x); auto. intros H. apply Nat.eqb_eq in H. exact H. Qed.

Lemma terms_not_fast {T} (E : Env T) x y e cm rv : not_fast x y -> method_terms E MAuto x y e cm rv = method_terms E MNaive x y e cm rv.
Proof.
  intros H. cbn [method_terms]. unfold terms_auto.
  destruct (is_numpy (together x y) && can_use_fast_algorithm E x y e) eqn:F; [exfalso|reflexivity].
  apply andb_true_iff in F. destruct F as [F1 F2]. unfold can_use_fast_algorithm in F2. rewrite !andb_true_iff in F2. destruct F2 as ((((A & B) & _) & _) & _).
  destruct H as [H|[H|[H1 H2]]]; [apply H, one_column; auto|apply H, one_column; auto|]. unfold together in F1. rewrite H1, H2 in F1. discriminate.
Qed.

(** There the default method is the quadratic one, in any arithmetic. *)
Lemma call_not_fast {T} (E : Env T) f x y e cm : not_fast x y -> call f E x y e MAuto cm = call f E x y e MNaive cm.
Proof.
  intros H. unfold call. destruct f; cbn [api_fn]; unfold u_distance_covariance_sqr, u_distance_correlation_sqr, distance_covariance, distance_correlation, distance_covariance_sqr, distance_correlation_sqr,
    u_distance_stats_sqr, distance_stats_sqr, algo_dcov_sqr, algo_stats_sqr; cbn [to_algorithm]; rewrite ?outcome_bind; cbn [outcome lift rbind snd fst];
    rewrite ?outcome_bind, ?terms_not_fast by exact H; reflexivity.
Qed.

(** The default method: covariances are multiplied by the product of the two powers, correlations stay. *)
Theorem C87_default lib E n k l x x' y y' cm : valid_fenv lib E -> not_forced cm -> not_fast x y ->
  (-40 <= k <= 40)%Z -> (-40 <= l <= 40)%Z -> ordinary n x -> ordinary n y -> rescaled k x x' -> rescaled l y y' ->
  (forall f, squared f -> (min_size f <= n)%nat ->
    exists v v', call f E x y (b64_ofZ 1) MAuto cm = Ok v /\ call f E x' y' (b64_ofZ 1) MAuto cm = Ok v' /\
      is_finite v = true /\ is_finite v' = true /\ B2R v' = powerRZ 2 (k + l) * B2R v) /\
  (forall g f, correlates g f -> (min_size f <= n)%nat ->
    exists v v', call g E x y (b64_ofZ 1) MAuto cm = Ok v /\ call g E x' y' (b64_ofZ 1) MAuto cm = Ok v' /\
      is_finite v = true /\ is_finite v' = true /\ B2R v' = B2R v).
Proof.
  intros HE Hcm NF K L Ox Oy Rx Ry.
  assert (NF' : not_fast x' y').
  { destruct Rx as (A & _ & _ & _ & B & _), Ry as (C & _ & _ & _ & D & _). unfold not_fast. rewrite A, B, C, D. exact NF. }
  split.
  - intros f Hf Hn. destruct (C87_covariance f lib E n k l x x' y y' cm) as (v & v' & V & V' & R); auto.
    exists v, v'. rewrite !call_not_fast by auto. auto.
  - intros g f Hg Hn. destruct (C87_correlation g f lib E n k l x x' y y' cm) as (v & v' & V & V' & R); auto.
    exists v, v'. rewrite !call_not_fast by auto. auto.
Qed.

Lemma equal_leb (a b : b64) : is_finite a = true -> is_finite b = true -> B2R b = B2R a -> Bleb a b = true /\ Bleb b a = true.
Proof. intros F G H. rewrite !Bleb_correct by auto. rewrite H. split; apply Rle_bool_true; lra. Qed.

Lemma leb_eqb (a b : b64) : Bleb a b = true -> Bleb b a = true -> Beqb a b = true.
Proof.
  intros H H'. assert (N : is_nan a = false /\ is_nan b = false) by (destruct a, b; try discriminate H; auto). destruct N as [N N'].
  destruct (is_finite a) eqn:Fa, (is_finite b) eqn:Fb.
  - rewrite Bleb_correct in H, H' by auto. rewrite Beqb_correct by auto. apply Req_bool_true.
    apply Rle_antisym; [destruct (Rle_bool_spec (B2R a) (B2R b))|destruct (Rle_bool_spec (B2R b) (B2R a))]; auto; discriminate.
  - destruct a, b as [|[]| |]; try discriminate; auto.
  - destruct b, a as [|[]| |]; try discriminate; auto.
  - destruct a as [|[]| |], b as [|[]| |]; try discriminate; auto.
Qed.

(** The t-test on samples of several columns: the same statistic (as Python's [==] sees it) and the same p-value. *)
Theorem C87_t_test lib E n k l x x' y y' : valid_fenv lib E -> cdf_contract_float E -> not_fast x y -> (4 <= n)%nat ->
  (-40 <= k <= 40)%Z -> (-40 <= l <= 40)%Z -> ordinary n x -> ordinary n y -> rescaled k x x' -> rescaled l y y' ->
  exists r r', outcome (distance_correlation_t_test E x y) = Ok r /\ outcome (distance_correlation_t_test E x' y') = Ok r' /\
    Beqb (statistic r) (statistic r') = true /\ is_finite (pvalue r) = true /\ is_finite (pvalue r') = true /\ B2R (pvalue r') = B2R (pvalue r).
Proof.
  intros HE Hc NF Hn K L Ox Oy Rx Ry. pose proof (vf_num _ _ HE) as EN.
  destruct (C87_default lib E n k l x x' y y' CAuto HE (or_introl eq_refl) NF K L Ox Oy Rx Ry) as [_ D].
  destruct (D UDcorSqr UDcovSqr) as (v & v' & V & V' & F & F' & S); [right; auto|exact Hn|].
  change (fbcdcor E x y = Ok v) in V. change (fbcdcor E x' y' = Ok v') in V'.
  assert (Sx : shape0 x = n) by apply Ox. assert (Sx' : shape0 x' = shape0 x) by apply Rx.
  assert (Z : size_ok (shape0 x)). { rewrite Sx. destruct Ox as (_ & _ & _ & Hb & _). split; [exact Hn|]. eapply Z.le_trans; [exact Hb|]. apply Z.pow_le_mono_r; lia. }
  assert (Z' : size_ok (shape0 x')) by (rewrite Sx'; exact Z).
  assert (N : is_nan v = false) by (destruct v; auto; discriminate). assert (N' : is_nan v' = false) by (destruct v'; auto; discriminate).
  destruct (equal_leb v v' F F' S) as [L1 L2].
  destruct (C73_p_value lib E x y v EN Hc Z V N) as (p & t & T & St & Fp & _).
  destruct (C73_p_value lib E x' y' v' EN Hc Z' V' N') as (p' & t' & T' & St' & Fp' & _).
  exists (mkTest p t), (mkTest p' t'). split; [exact T|]. split; [exact T'|]. cbn [statistic pvalue]. split; [|split; [exact Fp|split; [exact Fp'|]]].
  - apply leb_eqb; [eapply (C73_increasing lib E x y x' y'); eauto|eapply (C73_increasing lib E x' y' x y); eauto].
  - apply Rle_antisym.
    + apply (C73_p_decreasing lib E x y x' y' v v' (mkTest p t) (mkTest p' t')); auto.
    + apply (C73_p_decreasing lib E x' y' x y v' v (mkTest p' t') (mkTest p t)); auto.
Qed.

(** Two coordinates in metres, (3, 0), (1, 2), (2, 2), (1, 7), (5, 1), against (0, 2, 2, 7, 1) in seconds. *)
Definition plane : array b64 := mkArr Numpy F64 (Mat 2 (map (map b64_ofZ) [[3; 0]; [1; 2]; [2; 2]; [1; 7]; [5; 1]]%Z)).

Lemma plane_small i j : (i < 5)%nat -> (j < 2)%nat -> exists z, fobs plane i j = b64_ofZ z /\ (Z.abs z <= 100)%Z.
Proof.
  intros Hi Hj. exists (nth j (nth i [[3; 0]; [1; 2]; [2; 2]; [1; 7]; [5; 1]]%Z []) 0%Z).
  do 5 (destruct i as [|i]; [do 2 (destruct j as [|j]; [split; [reflexivity|cbn; lia]|]); lia|]). lia.
Qed.

Lemma plane_ordinary : ordinary 5 plane.
Proof.
  split; [repeat constructor|]. split; [reflexivity|]. split; [lia|]. split; [lia|]. split; [cbn; lia|]. split; [reflexivity|]. split.
  - unfold entries, plane. cbn [adata]. assert (G : forall z, (Z.abs z <= 100)%Z -> is_finite (b64_ofZ z) = true) by (intros z Hz; destruct (rep_ofZ z) as (Fz & _); [lia|auto]).
    cbn [map concat app]. repeat constructor; apply G; lia.
  - intros i j k Hi Hj Hk. rewrite !obs_freals. destruct (plane_small i k Hi Hk) as (z & -> & Bz). destruct (plane_small j k Hj Hk) as (w & -> & Bw).
    destruct (rep_ofZ z) as (_ & -> & _); [lia|]. destruct (rep_ofZ w) as (_ & -> & _); [lia|].
    destruct (Z.eq_dec z w) as [-> | H]; [left; reflexivity|right]. rewrite <- minus_IZR, <- abs_IZR.
    assert (2 ^ 40 = 1099511627776) by (cbn; lra). assert (/ 2 ^ 40 <= 1) by (rewrite <- Rinv_1; apply Rinv_le_contravar; lra).
    assert (1 <= IZR (Z.abs (z - w))) by (apply IZR_le; lia). assert (IZR (Z.abs (z - w)) <= 200) by (apply IZR_le; lia). split; lra.
Qed.

Lemma plane_rescaled : rescaled 3 plane (times eight plane).
Proof.
  destruct eight_real as (F8 & R8). apply (C87_times 5); auto using plane_ordinary; [lia|]. intros i j Hi Hj. rewrite obs_freals.
  destruct (plane_small i j Hi Hj) as (z & -> & B). destruct (rep_ofZ z) as (_ & -> & _); [lia|].
  destruct (Z.eq_dec z 0) as [-> | H]; [left; reflexivity|right]. rewrite <- abs_IZR.
  assert (P : 2 ^ 40 <= 2 ^ 900) by (apply Rle_pow; [lra|lia]). assert (2 ^ 40 = 1099511627776) by (cbn; lra).
  assert (/ 2 ^ 900 <= 1) by (rewrite <- Rinv_1; apply Rinv_le_contravar; lra).
  assert (1 <= IZR (Z.abs z)) by (apply IZR_le; lia). assert (IZR (Z.abs z) <= 100) by (apply IZR_le; lia). split; lra.
Qed.

Lemma env_T_valid : valid_fenv plain env_T.
Proof.
  destruct env_F_valid as [A B C D]. split; auto.
Qed.

Example C87_t_test_meets : valid_fenv plain env_T /\ cdf_contract_float env_T /\ not_fast plane yi /\ ordinary 5 plane /\ rescaled 3 plane (times eight plane) /\
  exists r r', outcome (distance_correlation_t_test env_T plane yi) = Ok r /\ outcome (distance_correlation_t_test env_T (times eight plane) (times quarter yi)) = Ok r' /\
    Beqb (statistic r) (statistic r') = true /\ B2R (pvalue r') = B2R (pvalue r).
Proof.
  assert (NF : not_fast plane yi) by (left; discriminate).
  split; [exact env_T_valid|]. split; [exact env_T_cdf|]. split; [exact NF|]. split; [exact plane_ordinary|]. split; [exact plane_rescaled|].
  assert (By : Forall (fun z => (Z.abs z <= 100)%Z) [0; 2; 2; 7; 1]%Z) by (repeat constructor; cbn; lia).
  assert (Oy : ordinary 5 yi) by (apply (small_ordinary [0; 2; 2; 7; 1]%Z); [discriminate|cbn; auto with arith; lia|exact By]).
  destruct quarter_real as (F4 & R4).
  assert (Ry : rescaled (-2) yi (times quarter yi)) by (apply (C87_times 5); auto; try lia; intros; apply (small_range [0; 2; 2; 7; 1]%Z); auto).
  destruct (C87_t_test plain env_T 5 3 (-2) plane (times eight plane) yi (times quarter yi)) as (r & r' & T & T' & S & _ & _ & P);
    auto using env_T_valid, env_T_cdf, plane_ordinary, plane_rescaled; try lia.
  exists r, r'. auto.
Qed.
