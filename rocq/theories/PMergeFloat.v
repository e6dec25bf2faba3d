(** C65: accuracy of the MERGESORT method on arbitrary doubles.

    MERGESORT sums the same products as AVL in another order, by merging blocks of doubling length: the bound is the one of AVL
    (C56), relative to the largest magnitudes in the samples. *)
From Coq Require Import Reals Lra Lia List Arith Bool ZArith Psatz.
From Flocq Require Import Core IEEE754.BinarySingleNaN.
From Verif Require Import Num Numpy MUtils MDistances MInternals MMergesort MAvl MDcor MInteger MFloat Sums Spec Centering Tab
  Samples RefDist RefAvl RefMergeTerms RefDcor Api Witness RefApi SpecFacts Calls AvlGeneric MergeGeneric Transfer Hom RefInteger RefFloat FloatAvl FloatApi
  FloatEnv FloatSum FloatError FloatAccuracy PInteger PFloat FloatNaive PNaiveFloat FloatCorr Invariance FloatAvlErr FloatAvlForm PAvlFloat FloatAvlVar
  PFloatCorr PTTest FloatMerge FloatMergeTerms.
Import ListNotations.
Local Open Scope R_scope.

(** Variance terms are computed on the reordered samples. *)
Definition take_var {T} (E : Env T) (x z : list T) (d : T) : T :=
  nmul (e_num E) (nofZ (e_num E) (2 * Z.of_nat (length x) ^ 2)) (np_var (e_num E) (take d z (e_argsort E x))).

Lemma merge_impl_var {T} (E : Env T) o k kv v w t d : (forall i, In i (e_argsort E v) -> (i < length v)%nat) -> length v = length w ->
  terms_mergesort_impl E o true k kv v w false = Ok t ->
  terms_mergesort_impl E o true k kv v w true = Ok (with_var (take_var E v v d) (take_var E v w d) t).
Proof.
  intros Hi Hl H. unfold terms_mergesort_impl in *. cbv zeta in *.
  rewrite (take_chk_ok o d v) in * by auto. rewrite (take_chk_ok o d w) in * by (rewrite <- Hl; auto). cbn [rbind] in *.
  destruct (compute_aijbij_term E o true _ _) as [mp|]; cbn [rbind] in *; [|discriminate].
  destruct (compute_row_sums E o (take d v _)) as [ra|]; cbn [rbind] in *; [|discriminate].
  destruct (take_chk o _ _) as [ws|]; cbn [rbind] in *; [|discriminate].
  destruct (compute_row_sums E o ws) as [rb|]; cbn [rbind] in *; [|discriminate].
  injection H as <-. reflexivity.
Qed.

Lemma merge_prod n X Y mp r : (4 <= n)%nat -> INR n <= 2 ^ 37 -> / 2 ^ 300 <= X <= 2 ^ 300 -> / 2 ^ 300 <= Y <= 2 ^ 300 ->
  apx (2 * n + Nat.log2_up n + 9) (prod_size X Y n) mp r -> Rabs r <= 4 * (INR n * (INR n * (X * Y))) ->
  apx (4 * n + Nat.log2_up n + 12) (32 * (INR (Nat.log2_up n) * (INR n * (INR n * (X * Y))))) mp r.
Proof.
  intros Hn Hb BX BY ((F & E & A & B) & L0) Hr.
  assert (l2 : 2 <= INR (Nat.log2_up n)) by (replace 2 with (INR 2) by (cbn; ring); apply le_INR; apply (Nat.log2_up_le_mono 4 n); auto).
  set (L := Nat.log2_up n) in *. set (l := INR L) in *. pose proof (pow_inv_pos 300).
  assert (P : 0 <= INR n * (INR n * (X * Y))) by (repeat apply Rmult_le_pos; try apply pos_INR; lra).
  unfold prod_size in *. fold L in L0, E, B |- *. fold l in L0, E, B |- *. set (S := INR n * (INR n * (X * Y))) in *.
  replace (32 * (l * S)) with (32 * l * S) by ring.
  assert (M1 : 32 * l * S <= (32 * l + 8) * S) by (apply Rmult_le_compat_r; lra).
  assert (M2 : 4 * S <= 32 * l * S) by (apply Rmult_le_compat_r; lra).
  assert (M3 : 8 * ((32 * l + 8) * S) <= 9 * (32 * l * S)) by (assert (16 * S <= 8 * l * S) by (apply Rmult_le_compat_r; lra); lra).
  split; [split; [exact F|split; [|split; lra]]|].
  - eapply Rle_trans; [exact E|]. set (k := (2 * n + L + 9)%nat). replace (4 * n + L + 12)%nat with (k + (2 * n + 3))%nat by (unfold k; lia).
    pose proof (gam_ratio k (2 * n + 3)) as G. pose proof (gam_nonneg k) as G0. pose proof (gam_nonneg (k + (2 * n + 3))) as G1.
    assert (K : INR k <= 8 * INR (2 * n + 3)).
    { replace 8 with (INR 8) by (cbn; ring). rewrite <- mult_INR. apply le_INR. unfold k. assert (L <= n)%nat by (apply Nat.log2_up_le_lin; lia). lia. }
    assert (K0 : 0 < INR k) by (apply lt_0_INR; unfold k; lia).
    assert (G9 : 9 * gam k <= 8 * gam (k + (2 * n + 3))).
    { assert (INR k * gam k <= 8 * INR (2 * n + 3) * gam k) by (apply Rmult_le_compat_r; lra).
      apply Rmult_le_reg_l with (INR k); [exact K0|]. lra. }
    assert (S0 : 0 <= 32 * l * S) by (apply Rmult_le_pos; lra).
    assert (gam k * (8 * ((32 * l + 8) * S)) <= gam k * (9 * (32 * l * S))) by (apply Rmult_le_compat_l; lra).
    assert (9 * gam k * (32 * l * S) <= 8 * gam (k + (2 * n + 3)) * (32 * l * S)) by (apply Rmult_le_compat_r; lra). lra.
  - right. apply Rle_trans with (/ 2 ^ 600).
    + pose proof (pow_inv_pos 600) as p6. assert (LK : lowM (/ 2 ^ 600)) by (eapply low_inv; [|apply Rle_refl]; lia). destruct LK as [LK|LK]; [lra|exact LK].
    + assert (i6 : / 2 ^ 600 = / 2 ^ 300 * / 2 ^ 300) by (rewrite <- Rinv_mult, <- pow_add; reflexivity). rewrite i6.
      assert (XY : / 2 ^ 300 * / 2 ^ 300 <= X * Y) by (apply Rmult_le_compat; lra).
      assert (m4 : 4 <= INR n) by (replace 4 with (INR 4) by (cbn; ring); apply le_INR; auto).
      assert (XY0 : 0 <= X * Y) by (apply Rmult_le_pos; lra).
      assert (1 * (X * Y) <= INR n * (X * Y)) by (apply Rmult_le_compat_r; lra).
      assert (1 * (INR n * (X * Y)) <= S) by (unfold S; apply Rmult_le_compat_r; lra). lra.
Qed.

(** What is known of the terms computed by MERGESORT, for some order [q] of the observations. *)
Definition merge_known (X Y : R) (n : nat) (a b : nat -> nat -> R) (va vb : b64) (t : terms (T:=b64)) : Prop :=
  exists q, perm_on n q /\
    apx (4 * n + Nat.log2_up n + 12) (32 * (INR (Nat.log2_up n) * (INR n * (INR n * (X * Y))))) (t_mean_prod t)
      (rsum2 n n (fun i j => relabel q a i j * relabel q b i j)) /\
    apxs (4 + n) (5 * (INR n * X)) (t_a_axis t) (tab n (fun i => rsum n (relabel q a i))) /\
    apx (2 * n + 4) (5 * (INR n * (INR n * X))) (t_a_total t) (rsum2 n n (relabel q a)) /\
    apxs (4 + n) (5 * (INR n * Y)) (t_b_axis t) (tab n (fun i => rsum n (relabel q b i))) /\
    apx (2 * n + 4) (5 * (INR n * (INR n * Y))) (t_b_total t) (rsum2 n n (relabel q b)) /\
    length (t_a_axis t) = n /\ length (t_b_axis t) = n /\
    apx (4 * n + Nat.log2_up n + 12) (32 * (INR (Nat.log2_up n) * (INR n * (INR n * (X * X))))) va
      (rsum2 n n (fun i j => relabel q a i j * relabel q a i j)) /\
    apx (4 * n + Nat.log2_up n + 12) (32 * (INR (Nat.log2_up n) * (INR n * (INR n * (Y * Y))))) vb
      (rsum2 n n (fun i j => relabel q b i j * relabel q b i j)).

Definition absd (l : list b64) (i j : nat) : R := Rabs (B2R (nth i l (B754_zero false)) - B2R (nth j l (B754_zero false))).

Section Lists.
  Context (lib : flib) (E : Env b64) (HE : valid_fenv lib E) (HV : sorts_values E).
  Let EN : e_num E = B64Num lib := vf_num _ _ HE.

  Lemma merge_lists (fx fy : list b64) X Y n k kv oob : length fx = n -> length fy = n -> (4 <= n)%nat -> INR n <= 2 ^ 37 ->
    Forall (fun v => is_finite v = true) fx -> Forall (fun v => is_finite v = true) fy ->
    Forall (fun v => Rabs (B2R v) <= X) fx -> Forall (fun v => Rabs (B2R v) <= Y) fy ->
    / 2 ^ 300 <= X <= 2 ^ 300 -> / 2 ^ 300 <= Y <= 2 ^ 300 ->
    exists t va vb, terms_mergesort_impl E oob true k kv fx fy false = Ok t /\
      terms_mergesort_impl E oob true k kv fx fy true = Ok (with_var va vb t) /\
      merge_known X Y n (absd fx) (absd fy) va vb t.
  Proof.
    intros Lx Ly Hn Hb Fx Fy HX HY BX BY.
    set (ax := e_argsort E fx).
    assert (PX : is_perm n ax) by (rewrite <- Lx; apply (vf_perm _ _ HE)).
    assert (F3 : Forall (fun v => is_finite v = true) (take (B754_zero false : b64) fy ax)) by (apply (take_Forall n); auto).
    set (ER := env3 E fx fy (take (B754_zero false) fy ax)).
    assert (VR : valid_env ER) by (apply (env3_valid lib); auto).
    assert (Tx : forall l : list b64, length l = n -> map B2R l = tab n (fun i => B2R (nth i l (B754_zero false)))).
    { intros l Hl. rewrite <- Hl. rewrite (tab_of_list (B754_zero false : b64) l) at 1. rewrite tab_map. reflexivity. }
    destruct (terms_mergesort_impl_ok ER VR oob n (fun i => B2R (nth i fx (B754_zero false))) (fun i => B2R (nth i fy (B754_zero false))) ltac:(lia) k kv true)
      as (q & tr & Hq & Ht & _ & _ & Hok).
    rewrite <- (Tx fx Lx), <- (Tx fy Ly) in Ht.
    assert (P300 : 1 <= 2 ^ 300) by (apply pow_R1_Rle; lra). assert (i300 : / 2 ^ 300 <= 1) by (rewrite <- Rinv_1; apply Rinv_le; lra).
    assert (p300 : 0 < / 2 ^ 300) by apply pow_inv_pos.
    assert (S600 : 2 ^ 600 = 2 ^ 300 * 2 ^ 300) by (rewrite <- pow_add; reflexivity).
    assert (i600 : / 2 ^ 600 = / 2 ^ 300 * / 2 ^ 300) by (rewrite S600, Rinv_mult; reflexivity).
    assert (K1 : forall K, In K [1; X; Y; X * Y] -> / 2 ^ 600 <= K <= 2 ^ 600).
    { rewrite i600, S600. assert (2 ^ 300 * 1 <= 2 ^ 300 * 2 ^ 300) by (apply Rmult_le_compat_l; lra).
      assert (/ 2 ^ 300 * / 2 ^ 300 <= / 2 ^ 300 * 1) by (apply Rmult_le_compat_l; lra).
      intros K [<-|[<-|[<-|[<-|[]]]]]; try lra. split; apply Rmult_le_compat; lra. }
    assert (A1 : e_argsort E fx = e_argsort ER (map B2R fx)) by (eapply sort3_1; eauto).
    assert (A3 : e_argsort E (take (B754_zero false : b64) fy (e_argsort E fx)) = e_argsort ER (take 0 (map B2R fy) (e_argsort ER (map B2R fx)))).
    { rewrite <- A1, <- take_B2R. apply sort3_3; auto. }
    assert (lm0 : INR (Nat.log2_up n) <= 2 ^ 37) by (apply (L_le n Hn); auto).
    pose proof (fewn n Hn Hb) as fw.
    assert (HB : 64 * INR (Nat.log2_up n) * INR n ^ 2 * 2 ^ 600 <= 2 ^ 900).
    { apply Rle_trans with (2 ^ 6 * 2 ^ 37 * (2 ^ 37) ^ 2 * 2 ^ 600).
      - apply Rmult_le_compat_r; [apply pow_le; lra|]. pose proof (pos_INR n). pose proof (pos_INR (Nat.log2_up n)).
        apply Rmult_le_compat; [apply Rmult_le_pos; lra|apply pow_le; auto|apply Rmult_le_compat; try lra|apply pow_incr; auto].
      - rewrite <- pow_mult, <- !pow_add. apply pow2_le. lia. }
    assert (LW : forall K, In K [1; X; Y; X * Y] -> bpow radix2 (-900) <= K).
    { intros K HK. destruct (K1 K HK) as (KL & _). pose proof (pow_inv_pos 600) as p600. assert (LK : lowM K) by (eapply low_inv; [|exact KL]; lia). destruct LK as [LK|LK]; [lra|exact LK]. }
    assert (H53 : (2 * Z.of_nat n <= 2 ^ 53)%Z).
    { assert (IZR (Z.of_nat n) <= IZR (2 ^ 37)) as Hz by (rewrite <- INR_IZR_INZ; change (2 ^ 37)%Z with (2 ^ Z.of_nat 37)%Z; rewrite <- pow_IZR; auto).
      apply le_IZR in Hz. lia. }
    pose proof (merge_apx lib (vf_lib _ _ HE) E ER EN eq_refl oob X Y n Hn (2 ^ 600) (fun K HK => proj2 (K1 K HK)) HB LW fw H53 fx fy Lx Ly Fx Fy HX HY
      (vf_perm _ _ HE) (vf_empty _ _ HE) (ve_empty _ VR) A1 A3 k kv) as H.
    assert (Lxr : length (map B2R fx) = n) by (rewrite map_length; auto). assert (Lyr : length (map B2R fy) = n) by (rewrite map_length; auto).
    destruct (terms_mergesort_impl ER oob true k kv (map B2R fx) (map B2R fy) false) as [tr0|er] eqn:Er.
    2:{ exfalso. unfold terms_mergesort_impl in Ht, Er. cbv zeta in Ht, Er.
      repeat (match type of Ht with rbind ?u _ = _ => destruct u; cbn [rbind] in Ht, Er; [|discriminate Ht] end). discriminate Er. }
    destruct (terms_mergesort_impl E oob true k kv fx fy false) as [t|] eqn:Et; [|contradiction]. cbn [rel] in H.
    rewrite (merge_impl_var ER oob k kv _ _ tr0 0) in Ht; [|rewrite <- A1, Lxr; intros i Hi; eapply is_perm_In; eauto|congruence|exact Er].
    injection Ht as <-. exists t, (take_var E fx fx (B754_zero false)), (take_var E fx fy (B754_zero false)). split; [reflexivity|].
    split; [apply merge_impl_var; auto; [|congruence]; rewrite Lx; intros i Hi; eapply is_perm_In; eauto|].
    destruct H as (N1 & N2 & N3 & N4 & N5 & La & Lb). destruct Hok as (M1 & M2 & M3 & M4 & M5 & M6). destruct (M6 eq_refl) as (M7 & M8).
    cbn [with_var t_mean_prod t_a_axis t_a_total t_b_axis t_b_total t_mp_a t_mp_b] in *. injection M7 as M7. injection M8 as M8.
    rewrite M1 in N1. rewrite M2 in N2. rewrite M3 in N3. rewrite M4 in N4. rewrite M5 in N5.
    assert (V : forall (z : list b64) Z, length z = n -> Forall (fun v => is_finite v = true) z -> Forall (fun v => Rabs (B2R v) <= Z) z -> / 2 ^ 300 <= Z <= 2 ^ 300 ->
      apx (4 * n + Nat.log2_up n + 12) (32 * (INR (Nat.log2_up n) * (INR n * (INR n * (Z * Z))))) (take_var E fx z (B754_zero false)) (take_var ER (map B2R fx) (map B2R z) 0)).
    { intros z Z Lz Fz Hz BZ. unfold take_var. rewrite <- A1, Lx, Lxr, EN, <- take_B2R. change (e_num ER) with RNum. cbn [nmul nofZ RNum].
      assert (Lt : length (take (B754_zero false : b64) z (e_argsort E fx)) = n) by (unfold take; rewrite map_length; apply (is_perm_length _ _ PX)).
      pose proof (apx_var lib (vf_lib _ _ HE) Z BZ (take (B754_zero false : b64) z (e_argsort E fx)) n Lt Hn Hb) as AV.
      unfold var_of in AV. rewrite Lt in AV. apply AV; apply (take_Forall n); auto. }
    exists q. split; [exact Hq|]. split.
    - apply merge_prod; auto. rewrite Rabs_pos_eq.
      + apply Rle_trans with (INR n * (INR n * (2 * X * (2 * Y)))); [|lra]. apply rsum2_le_const. intros i j Hi Hj.
        assert (D : forall (z : list b64) Z, length z = n -> Forall (fun v => Rabs (B2R v) <= Z) z -> relabel q (absd z) i j <= 2 * Z).
        { intros z Z Lz Hz. unfold relabel, absd. rewrite Forall_forall in Hz. destruct Hq as [Hq _]. pose proof (Hq i Hi). pose proof (Hq j Hj).
          assert (Rabs (B2R (nth (q i) z (B754_zero false : b64))) <= Z) by (apply Hz, nth_In; lia).
          assert (Rabs (B2R (nth (q j) z (B754_zero false : b64))) <= Z) by (apply Hz, nth_In; lia).
          revert H1 H2. unfold Rabs. repeat destruct Rcase_abs; lra. }
        apply Rmult_le_compat; [apply Rabs_pos|apply Rabs_pos|apply D; auto|apply D; auto].
      + unfold rsum2. apply rsum_nonneg. intros i Hi. apply rsum_nonneg. intros j Hj. apply Rmult_le_pos; apply Rabs_pos.
    - split; [exact N2|]. split; [exact N3|]. split; [exact N4|]. split; [exact N5|]. split; [exact La|]. split; [exact Lb|]. split.
      + unfold relabel, absd. rewrite <- M7. apply V; auto.
      + unfold relabel, absd. rewrite <- M8. apply V; auto.
  Qed.
End Lists.

Lemma merge_known_ext X Y n a b a' b' va vb t : (forall i j, (i < n)%nat -> (j < n)%nat -> a i j = a' i j) ->
  (forall i j, (i < n)%nat -> (j < n)%nat -> b i j = b' i j) -> merge_known X Y n a b va vb t -> merge_known X Y n a' b' va vb t.
Proof.
  intros Ha Hb (q & Hq & H). assert (Q := Hq). destruct Q as [Q _]. exists q. split; [exact Hq|].
  assert (forall c d c' d' : nat -> nat -> R, (forall i j, (i < n)%nat -> (j < n)%nat -> c i j = c' i j) -> (forall i j, (i < n)%nat -> (j < n)%nat -> d i j = d' i j) ->
    rsum2 n n (fun i j => relabel q c i j * relabel q d i j) = rsum2 n n (fun i j => relabel q c' i j * relabel q d' i j)) as E1.
  { intros c d c' d' Hc Hd. unfold rsum2, relabel. apply rsum_ext. intros i Hi. apply rsum_ext. intros j Hj. rewrite Hc, Hd by auto. reflexivity. }
  assert (forall c c' : nat -> nat -> R, (forall i j, (i < n)%nat -> (j < n)%nat -> c i j = c' i j) ->
    tab n (fun i => rsum n (relabel q c i)) = tab n (fun i => rsum n (relabel q c' i)) /\ rsum2 n n (relabel q c) = rsum2 n n (relabel q c')) as E2.
  { intros c c' Hc. unfold rsum2, relabel. split; [apply tab_ext|apply rsum_ext]; intros i Hi; apply rsum_ext; intros j Hj; auto. }
  rewrite <- (E1 a b a' b' Ha Hb), <- (E1 a a a' a' Ha Ha), <- (E1 b b b' b' Hb Hb).
  destruct (E2 a a' Ha) as [<- <-]. destruct (E2 b b' Hb) as [<- <-]. exact H.
Qed.

Section MergeCall.
  Context (lib : flib) (E : Env b64) (HE : valid_fenv lib E) (HV : sorts_values E).
  Let EN : e_num E = B64Num lib := vf_num _ _ HE.
  Context (n : nat) (x y : array b64) (Hp : double_pair n x y) (Ux : univariate x) (Uy : univariate y) (Sx : some_numpy x y).
  Context (X Y : R) (HX : within X x) (HY : within Y y) (BX : / 2 ^ 300 <= X <= 2 ^ 300) (BY : / 2 ^ 300 <= Y <= 2 ^ 300).
  Context (Hn : (4 <= n)%nat) (Hn' : (Z.of_nat n <= 2 ^ 37)%Z).
  Let a := distances 1 (freals x).
  Let b := distances 1 (freals y).

  Lemma absd_dist z vz : univariate z -> wf (freals z) -> shape0 z = n -> transform_to_1d (adata z) = Ok vz ->
    forall i j, (i < n)%nat -> (j < n)%nat -> absd vz i j = distances 1 (freals z) i j.
  Proof.
    intros Uz Wz Lz Ez i j Hi Hj. assert (Uz' : univariate (freals z)) by (unfold univariate, freals; rewrite amap_ncols; auto).
    pose proof (transform_to_1d_tab (freals z) Wz Uz') as Tz. unfold freals in Tz. rewrite amap_1d in Tz. fold (freals z) in Tz.
    change (@transform_to_1d (binary_float 53 1024)) with (@transform_to_1d b64) in Tz. change (binary_float 53 1024) with b64 in Tz.
    rewrite Ez in Tz. cbn [rmap] in Tz. injection Tz as Tz. rewrite freals_shape0, Lz in Tz.
    rewrite distances_1 by auto. unfold absd.
    assert (Hk : forall k, (k < n)%nat -> B2R (nth k vz (B754_zero false)) = obs (freals z) k 0).
    { intros k Hk. pose proof (map_nth B2R vz (B754_zero false : b64) k) as H. cbn [B2R] in H.
      change (@map (binary_float 53 1024) R) with (@map b64 R) in H. rewrite Tz, tab_nth in H by auto. symmetry. exact H. }
    rewrite (Hk i Hi), (Hk j Hj). reflexivity.
  Qed.

  Lemma merge_call cm : not_forced cm \/ cm = CCompileCpu ->
    exists t va vb, outcome (terms_mergesort E x y (b64_ofZ 1) cm false) = Ok t /\
      outcome (terms_mergesort E x y (b64_ofZ 1) cm true) = Ok (with_var va vb t) /\ merge_known X Y n a b va vb t.
  Proof.
    intros Hcm. destruct Hp as ((Wx & Wy & Lx & Ly & _) & Fx & Fy & Ix & Iy).
    assert (WFx := Wx). assert (WFy := Wy). apply freals_wf in WFx, WFy. rewrite freals_shape0 in Lx, Ly.
    destruct (to_1d_cases x) as [[vx Ex]|Ex]; [|exfalso; clear - Ex Ux; destruct x as [s d [v|c rows]]; unfold univariate in Ux; cbn in *; [discriminate|subst c; discriminate]].
    destruct (to_1d_cases y) as [[vy Ey]|Ey]; [|exfalso; clear - Ey Uy; destruct y as [s d [v|c rows]]; unfold univariate in Uy; cbn in *; [discriminate|subst c; discriminate]].
    pose proof (entries_1d x vx Ex) as Vx. pose proof (entries_1d y vy Ey) as Vy.
    assert (lx : length vx = n) by (rewrite (to_1d_length x vx WFx Ex); exact Lx).
    assert (ly : length vy = n) by (rewrite (to_1d_length y vy WFy Ey); exact Ly).
    unfold within in HX, HY. rewrite <- Vx in HX, Ix. rewrite <- Vy in HY, Iy.
    assert (Hb : INR n <= 2 ^ 37) by (apply small_INR; exact Hn').
    unfold a, b.
    assert (G : forall lib' E' k kv oob, valid_fenv lib' E' -> sorts_values E' -> exists t va vb, terms_mergesort_impl E' oob true k kv vx vy false = Ok t /\
      terms_mergesort_impl E' oob true k kv vx vy true = Ok (with_var va vb t) /\ merge_known X Y n (distances 1 (freals x)) (distances 1 (freals y)) va vb t).
    { intros lib' E' k kv oob HE' HV'. destruct (merge_lists lib' E' HE' HV' vx vy X Y n k kv oob lx ly Hn Hb Ix Iy HX HY BX BY) as (t & va & vb & T1 & T2 & T3).
      exists t, va, vb. split; [exact T1|]. split; [exact T2|].
      apply (merge_known_ext X Y n (absd vx) (absd vy)); [apply absd_dist; auto|apply absd_dist; auto|exact T3]. }
    unfold terms_mergesort. assert (neqb (e_num E) (b64_ofZ 1) (nunit (e_num E)) = true) as He by (rewrite EN; apply one_one).
    rewrite He, Ex, Ey, (proj1 (some_together x y) Sx). cbn [negb]. rewrite !bind_ok, Fx, Fy.
    destruct (G _ (seq_env E) AllPy AllPy UndefinedBehaviour (valid_seq _ _ HE) HV) as (tc & vac & vbc & C1 & C2 & C3).
    destruct (G _ E MeanProdPy AllNumpy IndexError HE HV) as (tp & vap & vbp & P1 & P2 & P3).
    destruct Hcm as [[-> | ->]| ->]; cbn [impls is_auto try_impls]; unfold mergesort_impl; cbn [is_f64 is_obj andb orb weights_cast_ok].
    - exists tc, vac, vbc. rewrite C1, C2. split; [reflexivity|]. split; [reflexivity|exact C3].
    - exists tp, vap, vbp. rewrite P1, P2. split; [reflexivity|]. split; [reflexivity|exact P3].
    - exists tc, vac, vbc. rewrite C1, C2. split; [reflexivity|]. split; [reflexivity|exact C3].
  Qed.

  Lemma merge_three f g cm : squared f -> wants_var g = true -> corrected g = corrected f -> not_forced cm \/ cm = CCompileCpu ->
    let post v := match g with Dcov | Dcor => sqrt_clamp (e_num E) v | _ => v end in
    exists c vx vy, call f E x y (b64_ofZ 1) MMergesort cm = Ok c /\ call g E x y (b64_ofZ 1) MMergesort cm = Ok (post (correlation_of E c vx vy)) /\
      is_finite c = true /\ is_finite vx = true /\ is_finite vy = true /\
      Rabs (B2R c - value f n a b) <= avl_roundings n * avl_unit f * (X * Y) /\
      Rabs (B2R vx - value f n a a) <= avl_roundings n * avl_unit f * (X * X) /\
      Rabs (B2R vy - value f n b b) <= avl_roundings n * avl_unit f * (Y * Y).
  Proof.
    intros Hf Hw Hc Hcm post.
    destruct (merge_call cm Hcm) as (t & va & vb & T0 & T & q & Hq & N1 & N2 & N3 & N4 & N5 & La & Lb & Va & Vb).
    assert (Lx : shape0 x = n) by (destruct Hp as ((_ & _ & L0 & _) & _); rewrite freals_shape0 in L0; auto).
    assert (Hnb : INR n <= 2 ^ 37) by (apply small_INR; exact Hn').
    assert (Sa : symmetric n (relabel q a)) by (apply relabel_sym; auto). assert (Sb : symmetric n (relabel q b)) by (apply relabel_sym; auto).
    assert (Ha : hollow n (relabel q a)) by (apply relabel_hollow; auto). assert (Hb : hollow n (relabel q b)) by (apply relabel_hollow; auto).
    destruct (formula_accuracy_sym lib E n (relabel q a) (relabel q b) X Y f (t_kind t) _ _ _ _ _ HE Sa Sb Ha Hb Hn Hnb BX BY Hf N1 N2 N3 N4 N5 La Lb) as (c & C1 & C2 & C3).
    destruct (formula_accuracy_sym lib E n (relabel q a) (relabel q a) X X f (t_vkind t) _ _ _ _ _ HE Sa Sa Ha Ha Hn Hnb BX BX Hf Va N2 N3 N2 N3 La La) as (vx & X1 & X2 & X3).
    destruct (formula_accuracy_sym lib E n (relabel q b) (relabel q b) Y Y f (t_vkind t) _ _ _ _ _ HE Sb Sb Hb Hb Hn Hnb BY BY Hf Vb N4 N5 N4 N5 Lb Lb) as (vy & Y1 & Y2 & Y3).
    rewrite value_relabel in C3, X3, Y3 by auto.
    assert (Hwf : wants_var f = false) by (destruct Hf as [-> | ->]; reflexivity).
    exists c, vx, vy. rewrite !call_terms, Hw, Hwf. cbn [method_terms]. rewrite T, T0. cbn [rbind]. rewrite Lx. unfold finish. rewrite Hw, Hwf, Hc.
    cbn [with_var t_kind t_vkind t_mean_prod t_a_axis t_b_axis t_a_total t_b_total t_mp_a t_mp_b]. rewrite C1, X1, Y1. cbn [rbind].
    split; [destruct Hf as [-> | ->]; reflexivity|]. split; [reflexivity|]. repeat split; auto.
  Qed.
End MergeCall.

(** The result of the squared functions is finite, and as close to the exact value as C56 says for AVL. *)
Theorem C65_mergesort_accuracy f lib E n x y X Y cm : valid_fenv lib E -> sorts_values E -> double_pair n x y ->
  univariate x -> univariate y -> some_numpy x y -> (4 <= n)%nat -> (Z.of_nat n <= 2 ^ 37)%Z ->
  within X x -> within Y y -> / 2 ^ 300 <= X <= 2 ^ 300 -> / 2 ^ 300 <= Y <= 2 ^ 300 ->
  squared f -> not_forced cm \/ cm = CCompileCpu ->
  exists v, call f E x y (b64_ofZ 1) MMergesort cm = Ok v /\ is_finite v = true /\
    Rabs (B2R v - value f n (distances 1 (freals x)) (distances 1 (freals y))) <= avl_roundings n * avl_unit f * (X * Y).
Proof.
  intros HE HV Hp Ux Uy Sx Hn Hn' HX HY BX BY Hf Hcm.
  destruct Hf as [-> | ->].
  - destruct (merge_three lib E HE HV n x y Hp Ux Uy Sx X Y HX HY BX BY Hn Hn' DcovSqr DcorSqr cm (or_introl eq_refl) eq_refl eq_refl Hcm) as (c & _ & _ & C & _ & F & _ & _ & A & _). eauto.
  - destruct (merge_three lib E HE HV n x y Hp Ux Uy Sx X Y HX HY BX BY Hn Hn' UDcovSqr UDcorSqr cm (or_intror eq_refl) eq_refl eq_refl Hcm) as (c & _ & _ & C & _ & F & _ & _ & A & _). eauto.
Qed.

(** The two fast methods agree up to twice that bound. *)
Theorem C65_methods_close f lib E n x y X Y m cm cm' : valid_fenv lib E -> sorts_values E -> double_pair n x y ->
  univariate x -> univariate y -> some_numpy x y -> (4 <= n)%nat -> (Z.of_nat n <= 2 ^ 37)%Z ->
  within X x -> within Y y -> / 2 ^ 300 <= X <= 2 ^ 300 -> / 2 ^ 300 <= Y <= 2 ^ 300 ->
  squared f -> avl_or_auto m -> not_forced cm \/ m = MAvl /\ cm = CCompileCpu -> not_forced cm' \/ cm' = CCompileCpu ->
  exists v w, call f E x y (b64_ofZ 1) m cm = Ok v /\ call f E x y (b64_ofZ 1) MMergesort cm' = Ok w /\
    Rabs (B2R v - B2R w) <= 2 * (avl_roundings n * avl_unit f * (X * Y)).
Proof.
  intros HE HV Hp Ux Uy Sx Hn Hn' HX HY BX BY Hf Hm Hcm Hcm'.
  destruct (C56_avl_accuracy f lib E n x y X Y m cm) as (v & V1 & _ & V3); auto.
  destruct (C65_mergesort_accuracy f lib E n x y X Y cm') as (w & W1 & _ & W3); auto.
  exists v, w. split; [exact V1|]. split; [exact W1|]. revert V3 W3. unfold Rabs. repeat destruct Rcase_abs; lra.
Qed.

(** The squared correlations, as C58 says for AVL. *)
Theorem C65_mergesort_correlation g f lib E n x y X Y rho cm : valid_fenv lib E -> sorts_values E -> double_pair n x y ->
  univariate x -> univariate y -> some_numpy x y -> (4 <= n)%nat -> (Z.of_nat n <= 2 ^ 37)%Z ->
  within X x -> within Y y -> / 2 ^ 300 <= X <= 2 ^ 300 -> / 2 ^ 300 <= Y <= 2 ^ 300 ->
  correlates g f -> not_forced cm \/ cm = CCompileCpu ->
  let vx := value f n (distances 1 (freals x)) (distances 1 (freals x)) in
  let vy := value f n (distances 1 (freals y)) (distances 1 (freals y)) in
  / 2 ^ 450 <= vx <= 2 ^ 450 -> / 2 ^ 450 <= vy <= 2 ^ 450 -> rho <= / 4 ->
  avl_roundings n * avl_unit f * (X * X) <= rho * vx -> avl_roundings n * avl_unit f * (Y * Y) <= rho * vy ->
  exists r, call g E x y (b64_ofZ 1) MMergesort cm = Ok r /\ is_finite r = true /\
    Rabs (B2R r - value g n (distances 1 (freals x)) (distances 1 (freals y))) <= 3 * rho + / 2 ^ 49.
Proof.
  intros HE HV Hp Ux Uy Sx Hn Hn' HX HY BX BY Hg Hcm vx vy Bx By Hr Rx Ry.
  assert (Hf : squared f) by (unfold squared; destruct Hg as [[_ ->]|[_ ->]]; auto).
  assert (Hw : wants_var g = true /\ corrected g = corrected f) by (destruct Hg as [[-> ->]|[-> ->]]; auto). destruct Hw as [Hw Hc].
  destruct (merge_three lib E HE HV n x y Hp Ux Uy Sx X Y HX HY BX BY Hn Hn' f g cm Hf Hw Hc Hcm) as (c & wx & wy & _ & C & Fc & Fx & Fy & Ec & Ex & Ey).
  exists (correlation_of E c wx wy). split; [rewrite C; destruct Hg as [[-> ->]|[-> ->]]; reflexivity|].
  pose proof (pow_inv_pos 300).
  apply (correlation_error lib E g f n (freals x) (freals y) c wx wy (avl_roundings n * avl_unit f) X Y rho (vf_num _ _ HE)); auto; try lra.
  unfold avl_roundings. repeat apply Rmult_le_pos; try apply pos_INR. destruct Hf as [-> | ->]; cbn [avl_unit]; lra.
Qed.

(** ** Cases that meet the hypotheses *)
Example C65_meets :
  exists v w, call UDcovSqr env_F xt yv (b64_ofZ 1) MAuto CAuto = Ok v /\ call UDcovSqr env_F xt yv (b64_ofZ 1) MMergesort CCompileCpu = Ok w /\
    Rabs (B2R v - B2R w) <= 2 * (avl_roundings 5 * / 2 ^ 42 * (1 * 1)).
Proof.
  assert (P : 1 <= 2 ^ 300) by (apply pow_R1_Rle; lra). assert (Q : / 2 ^ 300 <= 1) by (rewrite <- Rinv_1; apply Rinv_le; lra).
  apply (C65_methods_close UDcovSqr plain env_F 5 xt yv 1 1);
    unfold squared, not_forced, avl_or_auto, univariate; auto using env_F_valid, env_F_values; try (cbn; lia).
  - repeat split; auto; try (cbn; lia); try (repeat constructor; fail).
  - apply tenths_within. auto.
  - apply tenths_within. intros v Hv. apply in_rev. exact Hv.
Qed.

Example C65_meets_correlation : exists r, call UDcorSqr env_F xi yi (b64_ofZ 1) MMergesort CAuto = Ok r /\ is_finite r = true /\
  Rabs (B2R r - 8 / 15 / sqrt (16 / 15 * (2 / 5))) <= 3 * / 2 ^ 27 + / 2 ^ 49.
Proof.
  destruct xs_ys_cov as (H1 & H2 & H3).
  assert (Vx : value UDcovSqr 5 (distances 1 (freals xi)) (distances 1 (freals xi)) = 16 / 15).
  { cbn [value]. rewrite xi_xs, (udcov2_ext 5 _ _ dx dx) by auto using xs_dist. exact H2. }
  assert (Vy : value UDcovSqr 5 (distances 1 (freals yi)) (distances 1 (freals yi)) = 2 / 5).
  { cbn [value]. rewrite yi_ys, (udcov2_ext 5 _ _ dy dy) by auto using ys_dist. exact H3. }
  assert (V : value UDcorSqr 5 (distances 1 (freals xi)) (distances 1 (freals yi)) = 8 / 15 / sqrt (16 / 15 * (2 / 5))).
  { cbn [value]. unfold udcor2. rewrite xi_xs, yi_ys, (udcov2_ext 5 _ _ dx dy), (udcov2_ext 5 (distances 1 xs) _ dx dx), (udcov2_ext 5 (distances 1 ys) _ dy dy)
      by auto using xs_dist, ys_dist. rewrite H1, H2, H3. unfold corr. destruct (Req_EM_T _ _); [lra|reflexivity]. }
  assert (W : forall l K, Forall (fun z => (Z.abs z <= K)%Z) l -> (K <= 2 ^ 53)%Z -> within (IZR K) (ints l)).
  { intros l K Hl HK. unfold within. change (entries (ints l)) with (map b64_ofZ l). apply Forall_forall. intros v Hv. apply in_map_iff in Hv. destruct Hv as (z & <- & Hz).
    rewrite Forall_forall in Hl. pose proof (Hl z Hz) as Hz'. destruct (rep_ofZ z ltac:(lia)) as (_ & R & _). rewrite R, <- abs_IZR. apply IZR_le. auto. }
  assert (B : forall K, 1 <= K <= 16 -> / 2 ^ 300 <= K <= 2 ^ 300).
  { intros K HK. assert (16 <= 2 ^ 300) by (replace 16 with (2 ^ 4) by (cbn; ring); apply Rle_pow; [lra|lia]).
    assert (/ 2 ^ 300 <= 1) by (rewrite <- Rinv_1; apply Rinv_le_contravar; lra). lra. }
  rewrite <- V. apply (C65_mergesort_correlation UDcorSqr UDcovSqr plain env_F 5 xi yi 5 7 (/ 2 ^ 27) CAuto); unfold correlates, univariate, not_forced; auto using env_F_valid, xi_yi, env_F_values; try (cbn; lia).
  - apply (W [3; 1; 2; 1; 5]%Z 5%Z); [repeat constructor; cbn; lia|lia].
  - apply (W [0; 2; 2; 7; 1]%Z 7%Z); [repeat constructor; cbn; lia|lia].
  - apply B; lra.
  - apply B; lra.
  - rewrite Vx. apply pow450. lra.
  - rewrite Vy. apply pow450. lra.
  - lra.
  - rewrite Vx. unfold avl_roundings, avl_unit. change (Nat.log2_up 5) with 3%nat. cbn [Nat.mul Nat.add INR]. lra.
  - rewrite Vy. unfold avl_roundings, avl_unit. change (Nat.log2_up 5) with 3%nat. cbn [Nat.mul Nat.add INR]. lra.
Qed.

(** The methods are not identical, even on small integers: MERGESORT adds the row sums in the order of the first sample. *)
Theorem C65_identical_refuted :
  exists x y v w u, double_pair 7 x y /\ (exists l l', x = ints l /\ y = ints l' /\ Forall (fun z => (0 <= z <= 15)%Z) (l ++ l')) /\
    call DcovSqr env_F x y (b64_ofZ 1) MAvl CNoCompile = Ok v /\ call DcovSqr env_F x y (b64_ofZ 1) MNaive CNoCompile = Ok u /\
    call DcovSqr env_F x y (b64_ofZ 1) MMergesort CNoCompile = Ok w /\ B2R v = B2R u /\ B2R w < B2R v.
Proof.
  set (l := [3; 1; 9; 4; 5; 2; 7]%Z). set (l' := [1; 2; 3; 7; 15; 9; 4]%Z).
  assert (V : sf (call DcovSqr env_F (ints l) (ints l') (b64_ofZ 1) MAvl CNoCompile) = Ok (SpecFloat.S754_finite false 7262781239974424 (-52))) by (vm_compute; reflexivity).
  assert (U : sf (call DcovSqr env_F (ints l) (ints l') (b64_ofZ 1) MNaive CNoCompile) = Ok (SpecFloat.S754_finite false 7262781239974424 (-52))) by (vm_compute; reflexivity).
  assert (W : sf (call DcovSqr env_F (ints l) (ints l') (b64_ofZ 1) MMergesort CNoCompile) = Ok (SpecFloat.S754_finite false 7262781239974408 (-52))) by (vm_compute; reflexivity).
  destruct (sf_ok _ _ V ltac:(discriminate)) as [V1 V2]. destruct (sf_ok _ _ U ltac:(discriminate)) as [U1 U2]. destruct (sf_ok _ _ W ltac:(discriminate)) as [W1 W2].
  exists (ints l), (ints l'). eexists. eexists. eexists.
  split; [apply ints_pair; auto; try lia; repeat constructor; cbn; lia|].
  split; [exists l, l'; split; [reflexivity|split; [reflexivity|]]; repeat constructor; lia|].
  split; [exact V1|]. split; [exact U1|]. split; [exact W1|].
  rewrite (B2SF_real _ _ _ _ V2), (B2SF_real _ _ _ _ U2), (B2SF_real _ _ _ _ W2). split; [reflexivity|].
  unfold F2R. cbn [Fnum Fexp cond_Zopp]. apply Rmult_lt_compat_r; [apply bpow_gt_0|]. apply IZR_lt. reflexivity.
Qed.
