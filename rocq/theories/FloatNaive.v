(** The NAIVE method on arbitrary doubles: relative error of the distances and of their sums. *)
From Coq Require Import Reals Lra Lia List Arith Bool ZArith Psatz.
From Flocq Require Import Core Relative IEEE754.BinarySingleNaN.
From Verif Require Import Num Numpy MUtils MDistances MInternals MDcor MFloat MInteger Sums Spec Tab Samples RefDist Api RefInteger RefFloat
  FloatSum FloatApi FloatError FloatAccuracy.
Import ListNotations.
Local Open Scope R_scope.

(** The real numbers held by a sample of doubles. *)
Definition freals (x : array b64) : array R := amap B2R x.

Lemma near_ext k M a b r : near k M a r -> is_finite b = true -> B2R b = B2R a -> near k M b r.
Proof. intros (F & H) Fb E. split; auto. rewrite E. exact H. Qed.

(** [(u - v) * (u - v)] *)
Lemma near_sq q u v : is_finite u = true -> is_finite v = true ->
  let t := B2R u - B2R v in (t = 0 \/ / 2 ^ q <= Rabs t) -> Rabs t <= 2 ^ q -> (q <= 400)%nat ->
  near 3 (2 ^ (2 * q)) (b64_mul (b64_sub u v) (b64_sub u v)) (t ^ 2).
Proof.
  intros Fu Fv t Hlo Hhi Hq.
  assert (P900 : forall j, (j <= 900)%nat -> 2 ^ j <= 2 ^ 900) by (intros; apply pow2_le; auto).
  pose proof (b64_plus_rel (B2R u) (- B2R v) (generic_format_B2R 53 1024 u) ltac:(apply generic_format_opp, generic_format_B2R)) as Hr.
  change (B2R u + - B2R v) with t in Hr.
  assert (Hov : Rabs (b64_round t) < bpow radix2 1024).
  { apply round_small; auto. eapply Rle_trans; [exact Hhi|]. apply pow2_le. lia. }
  pose proof (Bminus_correct 53 1024 b64_prec b64_emax mode_NE u v Fu Fv) as HC. fold t in HC.
  rewrite Rlt_bool_true in HC by exact Hov. destruct HC as (H1 & H2 & _).
  set (d := b64_sub u v). change (B2R d = b64_round t) in H1. change (is_finite d = true) in H2.
  assert (Nd : near 1 (2 ^ q) (Babs d) (Rabs t)).
  { split; [rewrite is_finite_Babs; auto|]. rewrite B2R_Babs, H1, gam_1. split.
    - eapply Rle_trans; [apply Rabs_triang_inv2|]. exact Hr.
    - split; [|split; [split; [apply Rabs_pos|auto]|apply pow_R1_Rle; lra]].
      destruct Hlo as [->|Hlo]; [left; apply Rabs_R0|right]. split; auto. eapply Rlt_le_trans; [|exact Hlo]. apply Rinv_0_lt_compat, pow_lt. lra. }
  assert (Nm : near 3 (2 ^ q * 2 ^ q) (b64_mul (Babs d) (Babs d)) (Rabs t * Rabs t)).
  { apply (near_mul 1 1); auto; [unfold few; cbn; lra|]. rewrite <- pow_add. apply P900. lia. }
  replace (2 * q)%nat with (q + q)%nat by lia. rewrite pow_add.
  replace (t ^ 2) with (Rabs t * Rabs t) by (rewrite <- Rabs_mult, Rabs_pos_eq by nra; ring).
  assert (Hdd : B2R d * B2R d = B2R (Babs d) * B2R (Babs d)) by (rewrite B2R_Babs, <- Rabs_mult, Rabs_pos_eq by nra; ring).
  assert (Hn : normal (B2R d * B2R d)).
  { rewrite Hdd. apply near_bounds in Nd; [|unfold few; cbn; lra]. rewrite !B2R_Babs in *.
    destruct Hlo as [H0|Hlo].
    - rewrite H0, Rabs_R0 in Nd. left. replace (Rabs (B2R d)) with 0 by lra. ring.
    - assert (0 < 2 ^ q) by (apply pow_lt; lra). assert (0 < / 2 ^ q) by (apply Rinv_0_lt_compat; auto).
      apply (normal_pos _ (2 ^ q * 2 ^ q)).
      + rewrite <- pow_add. split; [apply pow_R1_Rle; lra|apply P900; lia].
      + rewrite Rinv_mult. assert (3 / 4 * / 2 ^ q <= Rabs (B2R d)) by lra.
        apply Rle_trans with ((3 / 4 * / 2 ^ q) * (3 / 4 * / 2 ^ q)); [|apply Rmult_le_compat; lra].
        assert (0 <= / 2 ^ q * / 2 ^ q) by nra. lra.
      + assert (Rabs (B2R d) <= 5 / 4 * 2 ^ q) by lra. pose proof (Rabs_pos (B2R d)).
        apply Rle_trans with ((5 / 4 * 2 ^ q) * (5 / 4 * 2 ^ q)); [apply Rmult_le_compat; lra|].
        assert (0 <= 2 ^ q * 2 ^ q) by nra. lra. }
  destruct (normal_round _ Hn) as [_ Hb].
  pose proof (Bmult_correct 53 1024 b64_prec b64_emax mode_NE d d) as HM. rewrite Rlt_bool_true in HM by exact Hb. destruct HM as (M1 & M2 & _).
  pose proof (Bmult_correct 53 1024 b64_prec b64_emax mode_NE (Babs d) (Babs d)) as HM'. rewrite <- Hdd, Rlt_bool_true in HM' by exact Hb. destruct HM' as (M1' & _).
  eapply near_ext; [exact Nm| |].
  - unfold b64_mul. rewrite M2, H2. reflexivity.
  - unfold b64_mul. rewrite M1, M1'. reflexivity.
Qed.

Lemma near_sqrt k q a r : near k (2 ^ (2 * q)) a r -> few (S k) -> (q <= 400)%nat -> near (S k) (2 ^ q) (b64_sqrt a) (sqrt r).
Proof.
  intros Ha Hf Hq. assert (fk : few k) by (apply (few_le _ _ Hf); lia).
  pose proof (near_bounds _ _ _ _ fk Ha) as Ba. destruct Ha as (F & He & Hlo & Hr & _).
  assert (P2 : 2 ^ (2 * q) = 2 ^ q * 2 ^ q) by (replace (2 * q)%nat with (q + q)%nat by lia; apply pow_add).
  assert (Pq : 0 < 2 ^ q) by (apply pow_lt; lra).
  assert (Sq : sqrt (2 ^ (2 * q)) = 2 ^ q) by (rewrite P2; apply sqrt_square; lra).
  pose proof (Bsqrt_correct 53 1024 b64_prec b64_emax mode_NE a) as (C1 & C2 & _). change (Bsqrt mode_NE a) with (b64_sqrt a) in C1, C2.
  assert (Hpos : 0 <= B2R a) by lra.
  assert (Fs : is_finite (b64_sqrt a) = true).
  { rewrite C2. destruct a as [?|?| |s m e p]; try discriminate; auto. destruct s; auto. cbn in Hpos. exfalso.
    assert (F2R (Float radix2 (Z.neg m) e) < 0) by (apply F2R_lt_0; reflexivity). cbn in Hpos. lra. }
  split; [exact Fs|]. rewrite C1.
  assert (sle : sqrt r <= 2 ^ q) by (rewrite <- Sq; apply sqrt_le_1; lra).
  assert (H1q : 1 <= 2 ^ q) by (apply pow_R1_Rle; lra).
  split; [|split; [|split; [split; [apply sqrt_pos|auto]|auto]]].
  - destruct Hlo as [H0|[H0 H0']].
    + rewrite H0 in *. assert (B2R a = 0) as -> by lra. rewrite sqrt_0. rewrite round_0 by apply valid_rnd_N. rewrite Rminus_0_r, Rabs_R0. lra.
    + assert (sp : 0 < sqrt r) by (apply sqrt_lt_R0; auto).
      assert (D : Rabs (sqrt (B2R a) - sqrt r) <= gam k * sqrt r).
      { apply (Rmult_le_reg_r (sqrt r)); auto. rewrite Rmult_assoc, sqrt_sqrt by lra.
        eapply Rle_trans; [|exact He]. pose proof (sqrt_pos (B2R a)).
        replace (B2R a - r) with ((sqrt (B2R a) - sqrt r) * (sqrt (B2R a) + sqrt r)).
        - rewrite Rabs_mult. apply Rmult_le_compat_l; [apply Rabs_pos|]. rewrite Rabs_pos_eq by lra. lra.
        - transitivity (sqrt (B2R a) * sqrt (B2R a) - sqrt r * sqrt r); [ring|]. rewrite !sqrt_sqrt by lra. reflexivity. }
      apply round_step; auto; [lra|]. apply (normal_pos _ (2 ^ q)).
      * split; [auto|apply pow2_le; lia].
      * assert (/ 2 ^ q * / 2 ^ q <= r) by (rewrite <- Rinv_mult, <- P2; auto).
        assert (ip : 0 < / 2 ^ q) by (apply Rinv_0_lt_compat; auto).
        apply Rle_trans with (sqrt ((/ 2 ^ q * / 8) * (/ 2 ^ q * / 8))); [rewrite sqrt_square; nra|]. apply sqrt_le_1; [nra|lra|]. nra.
      * apply Rle_trans with (sqrt ((6 * 2 ^ q) * (6 * 2 ^ q))); [|rewrite sqrt_square; lra]. apply sqrt_le_1; [lra|nra|]. nra.
  - destruct Hlo as [->|[H0 H0']]; [left; apply sqrt_0|right]. split; [apply sqrt_lt_R0; auto|].
    rewrite <- (sqrt_square (/ 2 ^ q)) by (left; apply Rinv_0_lt_compat; auto). rewrite <- Rinv_mult, <- P2. apply sqrt_le_1; auto; [|lra].
    left. apply Rinv_0_lt_compat, pow_lt. lra.
Qed.

(** ** Distances and their sums *)

(** Coordinate [k] of observation [i]. *)
Definition fobs (x : array b64) (i k : nat) : b64 :=
  match adata x with Vec v => nth i v (B754_zero false) | Mat _ rows => nth k (nth i rows []) (B754_zero false) end.
Lemma obs_freals x i k : obs (freals x) i k = B2R (fobs x i k).
Proof.
  destruct x as [s d [v|c rows]]; unfold obs, fobs, freals; cbn.
  - change 0 with (B2R (B754_zero false : b64)). apply map_nth.
  - change 0 with (B2R (B754_zero false : b64)). change (@nil R) with (map (B2R (prec := 53) (emax := 1024)) []). rewrite map_nth. apply map_nth.
Qed.
Lemma fobs_2d (x : array b64) : wf x -> transform_to_2d (adata x) = (ncols x, tab2 (shape0 x) (ncols x) (fobs x)).
Proof.
  destruct x as [s d [v|c rows]]; unfold wf, shape0, ncols, fobs; simpl; intros H.
  - f_equal. unfold tab2. rewrite (tab_of_list (B754_zero false) v) at 1. rewrite tab_map. reflexivity.
  - f_equal. rewrite Forall_forall in H. unfold tab2.
    rewrite (tab_of_list [] rows) at 1. apply tab_ext. intros i Hi.
    rewrite (tab_of_list_n (B754_zero false) c (nth i rows [])) at 1 by (apply H, nth_In; auto). reflexivity.
Qed.
Lemma freals_ncols x : ncols (freals x) = ncols x.
Proof. apply amap_ncols. Qed.
Lemma freals_shape0 x : shape0 (freals x) = shape0 x.
Proof. apply amap_shape0. Qed.
Lemma freals_wf x : wf (freals x) -> wf x.
Proof.
  destruct x as [s d [v|c rows]]; cbn; auto. unfold wf; cbn. rewrite Forall_map. intros H. eapply Forall_impl; [|exact H].
  cbn. intros r Hr. rewrite map_length in Hr. auto.
Qed.

Lemma Forall2_tab {A B} (P : A -> B -> Prop) n f g : (forall i, (i < n)%nat -> P (f i) (g i)) -> Forall2 P (tab n f) (tab n g).
Proof.
  intros H. unfold tab. assert (forall i, In i (seq 0 n) -> P (f i) (g i)) as H' by (intros i Hi; apply H; apply in_seq in Hi; lia).
  clear H. induction (seq 0 n); cbn; constructor; auto with datatypes.
Qed.

Lemma near_tab_sum lib k q m n f (g : nat -> R) : good_lib lib -> (forall i, (i < n)%nat -> near k (2 ^ q) (f i) (g i)) -> few (k + n) ->
  INR n <= 2 ^ m -> (q + m <= 900)%nat -> near (k + n) (2 ^ (q + m)) (np_sum (B64Num lib) (tab n f)) (rsum n g).
Proof.
  intros GL H Hf Hn Hq. rewrite <- np_sum_tab. rewrite <- (tab_length n f) at 1. apply near_sum_of.
  - apply np_sum_of; auto.
  - apply Forall2_tab. intros i Hi. eapply near_more; [apply H; auto|]. apply pow2_le. lia.
  - rewrite tab_length. auto.
  - rewrite np_sum_tab, pow_add. apply Rle_trans with (INR n * 2 ^ q).
    + rewrite <- rsum_const. apply rsum_le. intros i Hi. apply (H i Hi).
    + rewrite Rmult_comm. apply Rmult_le_compat_l; auto. apply pow_le. lra.
  - apply pow_R1_Rle. lra.
  - apply pow2_le. auto.
Qed.
Lemma near_tab_dot lib k l q m n f f' (g g' : nat -> R) : good_lib lib -> (forall i, (i < n)%nat -> near k (2 ^ q) (f i) (g i)) ->
  (forall i, (i < n)%nat -> near l (2 ^ q) (f' i) (g' i)) -> few (k + l + n) -> INR n <= 2 ^ m -> (q + q + m <= 900)%nat ->
  near (k + l + n) (2 ^ (q + q + m)) (ndot (B64Num lib) (tab n f) (tab n f')) (rsum n (fun i => g i * g' i)).
Proof.
  intros GL H H' Hf Hn Hq.
  assert (Hc : forall A B (u : nat -> A) (v : nat -> B), combine (tab n u) (tab n v) = tab n (fun i => (u i, v i))).
  { intros. unfold tab. generalize (seq 0 n). intros c. induction c as [|i c IH]; cbn; congruence. }
  assert (rsum n (fun i => g i * g' i) = np_sum RNum (map (fun q => fst q * snd q) (tab n (fun i => (g i, g' i))))) as -> by (rewrite tab_map, np_sum_tab; reflexivity).
  rewrite <- (tab_length n (fun i => (f i, f' i))) at 1.
  assert (F2 : Forall2 (near2 k l (2 ^ q) (2 ^ q)) (tab n (fun i => (f i, f' i))) (tab n (fun i => (g i, g' i)))) by (apply Forall2_tab; intros i Hi; split; cbn [fst snd]; auto).
  apply (near_dot_of k l (2 ^ q) (2 ^ q)); auto.
  - rewrite <- Hc. apply ndot_of; auto. rewrite !tab_length. auto.
  - rewrite tab_length. auto.
  - eapply Rle_trans; [apply (near2_bound _ _ _ _ _ _ F2)|]. rewrite tab_length, !pow_add, Rmult_comm. apply Rmult_le_compat_l; auto.
    apply Rmult_le_pos; apply pow_le; lra.
  - rewrite <- pow_add. apply pow2_le. lia.
  - apply pow_R1_Rle. lra.
  - apply pow2_le. auto.
Qed.

Section Dist.
  Context (lib : flib) (GL : good_lib lib) (E : Env b64) (EN : e_num E = B64Num lib).
  Context (x : array b64) (n : nat) (Wx : wf x) (Lx : shape0 x = n) (Fx : adt x = F64).
  Context (Fin : forall i k, (i < n)%nat -> (k < ncols x)%nat -> is_finite (fobs x i k) = true).
  Context (q m : nat) (Hc : INR (ncols x) <= 2 ^ (2 * m)) (Hq : (q + m <= 400)%nat) (Hf : few (4 + ncols x)).
  Context (Sp : forall i j k, (i < n)%nat -> (j < n)%nat -> (k < ncols x)%nat ->
    let t := obs (freals x) i k - obs (freals x) j k in t = 0 \/ (/ 2 ^ q <= Rabs t <= 2 ^ q)).

  Definition fdist (i j : nat) : b64 := b64_sqrt (sq_norm E (tab (ncols x) (fobs x i)) (tab (ncols x) (fobs x j))).
  Definition fdists (i j : nat) : b64 := if can_be_numpy_double E (ans x) (adt x) then fdist i j else fdist j i.

  Lemma fdist_near i j : (i < n)%nat -> (j < n)%nat -> near (4 + ncols x) (2 ^ (q + m)) (fdist i j) (distances 1 (freals x) i j).
  Proof.
    intros Hi Hj. unfold distances, dmat. rewrite rpow_1 by apply dist_nonneg. unfold dist. rewrite freals_ncols.
    unfold fdist, sq_norm. rewrite EN, tab_map2. cbn [nsub nmul B64Num]. change (4 + ncols x)%nat with (S (3 + ncols x)). apply near_sqrt; auto.
    replace (2 * (q + m))%nat with (2 * q + 2 * m)%nat by lia. apply near_tab_sum; auto; [|apply (few_le _ _ Hf); lia|lia].
    intros k Hk. rewrite !obs_freals. specialize (Sp i j k Hi Hj Hk). cbv zeta in Sp. rewrite !obs_freals in Sp.
    assert (0 < 2 ^ q) by (apply pow_lt; lra).
    apply near_sq; auto; try lia.
    - destruct Sp as [?|[? ?]]; auto.
    - destruct Sp as [->|[? ?]]; auto. rewrite Rabs_R0. lra.
  Qed.
  Lemma fdists_near i j : (i < n)%nat -> (j < n)%nat -> near (4 + ncols x) (2 ^ (q + m)) (fdists i j) (distances 1 (freals x) i j).
  Proof.
    intros Hi Hj. unfold fdists. destruct (can_be_numpy_double _ _ _); [apply fdist_near; auto|].
    assert (distances 1 (freals x) i j = distances 1 (freals x) j i) as -> by (unfold distances; apply (dmat_symmetric 1 (ncols (freals x)) (obs (freals x)) n); auto).
    apply fdist_near; auto.
  Qed.
  Lemma pairwise_fdists : pairwise_distances E x None (b64_ofZ 1) = Ok (tab2 n n fdists).
  Proof.
    unfold pairwise_distances. rewrite fobs_2d, Lx by auto. unfold pdist, fdists. destruct (can_be_numpy_double E (ans x) (adt x)) eqn:Ec.
    - unfold cdist_scipy. rewrite Nat.eqb_refl. f_equal. unfold tab2 at 1 2 3. rewrite tab_map. apply tab_ext. intros i Hi. rewrite tab_map.
      apply tab_ext. intros j Hj. rewrite EN. cbn [neqb nunit nsqrt B64Num]. rewrite one_one. reflexivity.
    - unfold cdist_naive. rewrite Nat.eqb_refl. cbn [orb]. f_equal.
      replace (if ncols x =? 1 then ncols x else ncols x)%nat with (ncols x) by (destruct (ncols x =? 1)%nat; auto).
      unfold tab2 at 1 2 3. rewrite tab_map. apply tab_ext. intros i Hi. rewrite tab_map. apply tab_ext. intros j Hj.
      assert (B : forall p (u : nat -> b64), bcast_row p (tab p u) = tab p u) by (intros [|[|p]] u; reflexivity).
      rewrite !B. unfold dist_power. rewrite Fx. change (b64_ofZ 1) with (nunit (B64Num lib)). rewrite <- EN. unfold half. rewrite EN.
      change (ndiv (B64Num lib) (nunit (B64Num lib)) (nofZ (B64Num lib) 2)) with b64_half. cbn [npow B64Num]. rewrite half_half. reflexivity.
  Qed.

  Context (r : nat) (Hn : INR n <= 2 ^ r) (Hr : (q + m + r + r <= 900)%nat) (Hf2 : few (4 + ncols x + n + n)).
  Lemma fdists_row i : (i < n)%nat -> near (4 + ncols x + n) (2 ^ (q + m + r)) (np_sum (B64Num lib) (tab n (fdists i))) (rsum n (distances 1 (freals x) i)).
  Proof. intros Hi. apply near_tab_sum; auto; [intros; apply fdists_near; auto|apply (few_le _ _ Hf2); lia|lia]. Qed.
  Lemma fdists_total : near (4 + ncols x + n + n) (2 ^ (q + m + r + r)) (np_sum (B64Num lib) (row_sums (B64Num lib) (tab2 n n fdists))) (rsum2 n n (distances 1 (freals x))).
  Proof. unfold row_sums, tab2. rewrite tab_map. unfold rsum2. apply near_tab_sum; auto. apply fdists_row. Qed.
  Lemma fdists_rows : Forall2 (near (4 + ncols x + n) (2 ^ (q + m + r))) (row_sums (B64Num lib) (tab2 n n fdists)) (tab n (fun i => rsum n (distances 1 (freals x) i))).
  Proof. unfold row_sums, tab2. rewrite tab_map. apply Forall2_tab. apply fdists_row. Qed.
End Dist.

Lemma concat_tab_tab {A} n m (f : nat -> nat -> A) : concat (tab2 n m f) = tab (n * m) (fun i => f (i / m) (i mod m))%nat.
Proof.
  unfold tab2. induction n as [|n IH]; [reflexivity|]. rewrite tab_snoc, concat_app, IH. cbn [concat]. rewrite app_nil_r.
  replace (S n * m)%nat with (n * m + m)%nat by lia. rewrite tab_app. f_equal. apply tab_ext. intros i Hi.
  rewrite Nat.add_comm, Nat.div_add, Nat.mod_add, Nat.div_small, Nat.mod_small by lia. reflexivity.
Qed.
