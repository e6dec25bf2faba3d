(** C87, the energy distance: changing the unit of measurement by a power of two, in double precision.

    [rescaled], [ordinary]: PFloatScale.v. *)
From Coq Require Import Reals Lra Lia List Arith Bool ZArith Psatz.
From Flocq Require Import Core IEEE754.BinarySingleNaN.
From Verif Require Import Num Numpy MUtils MDistances MInternals MDcor MEnergy MFloat Sums Spec Centering Tab Samples Api RefDist RefCenter RefEnergy MInteger RefInteger
  RefFloat FloatAvl FloatApi FloatSum FloatError FloatAccuracy FloatNaive FloatAvlErr FloatAvlForm FloatCenter FloatEnergy FloatEnv FloatCorr EnergyMath PFloat PNaiveFloat
  Witness PEnergy PFloatCorr PFloatTests PFloatEnergy FloatScale PFloatScale PFloatScaleTest.
Import List ListNotations.
Local Open Scope R_scope.
Local Notation p2 := (bpow radix2).

(** As in [ordinary], for the coordinates of an observation of x and one of y. *)
Definition ordinary_between (n m : nat) (x y : array b64) : Prop :=
  forall i j k, (i < n)%nat -> (j < m)%nat -> (k < ncols x)%nat ->
    obs (freals x) i k = obs (freals y) j k \/ / 2 ^ 40 <= Rabs (obs (freals x) i k - obs (freals y) j k) <= 2 ^ 40.

Section ScaleEnergy.
  Context (lib : flib) (E : Env b64) (HE : valid_fenv lib E).
  Notation NF := (B64Num lib).

  Lemma pairwise_fcross2 (EN : e_num E = B64Num lib) (x y : array b64) n m p : wf x -> wf y -> shape0 x = n -> shape0 y = m -> ncols x = p -> ncols y = p ->
    adt x = F64 -> adt y = F64 -> exists d, pairwise_distances E x (Some y) (b64_ofZ 1) = Ok d /\
      d = if can_be_numpy_double E (ans x) (adt x) && can_be_numpy_double E (ans y) (adt y) then tab2 n m (fcross E x y p) else tab2 m n (fun i j => fcross E x y p j i).
  Proof.
    intros Wx Wy Lx Ly Cx Cy Fx Fy.
    unfold pairwise_distances. rewrite (fobs_2d x), (fobs_2d y), Lx, Ly, Cx, Cy by auto. unfold cdist.
    destruct (can_be_numpy_double E (ans x) (adt x) && can_be_numpy_double E (ans y) (adt y)).
    - unfold cdist_scipy. rewrite Nat.eqb_refl. eexists. split; [reflexivity|]. unfold tab2 at 1 2 3. rewrite tab_map. apply tab_ext. intros i Hi.
      rewrite tab_map. apply tab_ext. intros j Hj. rewrite EN. cbn [neqb nunit nsqrt B64Num]. rewrite one_one. reflexivity.
    - unfold cdist_naive. rewrite Nat.eqb_refl. cbn [orb]. eexists. split; [reflexivity|].
      replace (if p =? 1 then p else p)%nat with p by (destruct (p =? 1)%nat; auto).
      unfold tab2 at 1 2 3. rewrite tab_map. apply tab_ext. intros i Hi. rewrite tab_map. apply tab_ext. intros j Hj.
      assert (B : forall p (u : nat -> b64), bcast_row p (tab p u) = tab p u) by (intros [|[|p']] u; reflexivity).
      rewrite !B. unfold dist_power, promote. rewrite Fx, Fy. change (b64_ofZ 1) with (nunit (B64Num lib)). rewrite <- EN. unfold half. rewrite EN.
      change (ndiv (B64Num lib) (nunit (B64Num lib)) (nofZ (B64Num lib) 2)) with b64_half. cbn [npow B64Num]. rewrite half_half. reflexivity.
  Qed.

  Section Between.
    Context (n m : nat) (k : Z) (x x' y y' : array b64) (K : (-40 <= k <= 40)%Z) (Ox : ordinary n x) (Oy : ordinary m y).
    Context (Rx : rescaled k x x') (Ry : rescaled k y y') (Cxy : ncols y = ncols x) (Sp : ordinary_between n m x y).

    Lemma fcross_scaled i j : (i < n)%nat -> (j < m)%nat -> scaled k 118 (p2 55) (fcross E x y (ncols x) i j) (fcross E x' y' (ncols x) i j).
    Proof.
      intros Hi Hj. pose proof (fobs_scaled n k x x' Ox Rx) as FX. pose proof (fobs_scaled m k y y' Oy Ry) as FY. rewrite Cxy in FY.
      assert (C : (Z.of_nat (ncols x) <= 2 ^ 30)%Z) by apply Ox. unfold fcross.
      assert (EN := vf_num _ _ HE). unfold sq_norm. rewrite EN, !tab_map2. cbn [nsub nmul B64Num].
      assert (S : scaled (2 * k) (2 * 66) (p2 (2 * 55))
        (np_sum NF (tab (ncols x) (fun t => b64_mul (b64_sub (fobs x i t) (fobs y j t)) (b64_sub (fobs x i t) (fobs y j t)))))
        (np_sum NF (tab (ncols x) (fun t => b64_mul (b64_sub (fobs x' i t) (fobs y' j t)) (b64_sub (fobs x' i t) (fobs y' j t)))))).
      { change (2 * 66)%Z with 132%Z. change (2 * 55)%Z with (80 + 30)%Z. apply scaled_sum; try lia; [apply (vf_lib _ _ HE)|unfold calm; lia|rewrite tab_length; lia|].
        apply Forall2_tab. intros t Ht. destruct (FX i t Hi Ht) as (A1 & A2 & A3). destruct (FY j t Hj Ht) as (B1 & B2 & B3).
        apply scaled_diff; auto. specialize (Sp i j t Hi Hj Ht). rewrite !obs_freals in Sp. destruct Sp as [Sp'|Sp']; [left; auto|right].
        change (-40)%Z with (- Z.of_nat 40)%Z. change 40%Z with (Z.of_nat 40). rewrite p2_inv, p2_pow. exact Sp'. }
      apply (scaled_sqrt k 66 55); [unfold calm; lia|exact S| |lia].
      pose proof (near_tab_sum lib 3 (2 * 40) (2 * 15) (ncols x) (fun t => b64_mul (b64_sub (fobs x i t) (fobs y j t)) (b64_sub (fobs x i t) (fobs y j t)))
        (fun t => (B2R (fobs x i t) - B2R (fobs y j t)) ^ 2) (vf_lib _ _ HE)) as Nr.
      assert (cx : INR (ncols x) <= 2 ^ (2 * 15)) by (rewrite INR_IZR_INZ, <- p2_pow; change (p2 (Z.of_nat (2 * 15))) with (IZR (2 ^ 30)); apply IZR_le; exact C).
      assert (fw : few (3 + ncols x)).
      { unfold few. rewrite plus_INR. assert (2 ^ (2 * 15) = 1073741824) by (cbn; lra). assert (2 ^ 40 = 1099511627776) by (cbn; lra). cbn [INR]. lra. }
      destruct (near_bounds (3 + ncols x) (2 ^ (2 * 40 + 2 * 15)) (np_sum NF (tab (ncols x) (fun t => b64_mul (b64_sub (fobs x i t) (fobs y j t)) (b64_sub (fobs x i t) (fobs y j t)))))
        (rsum (ncols x) (fun t => (B2R (fobs x i t) - B2R (fobs y j t)) ^ 2)) fw) as [Lo _].
      { apply Nr; auto; [|lia]. intros t Ht. destruct (FX i t Hi Ht) as (A1 & _). destruct (FY j t Hj Ht) as (B1 & _).
        specialize (Sp i j t Hi Hj Ht). rewrite !obs_freals in Sp. assert (0 < 2 ^ 40) by (apply pow_lt; lra).
        apply near_sq; auto; [| |lia]; destruct Sp as [Sp'|[Sp' Sp'']]; auto; [left; rewrite Sp'; ring|]. rewrite Sp'. unfold Rminus. rewrite Rplus_opp_r, Rabs_R0. lra. }
      assert (0 <= rsum (ncols x) (fun t => (B2R (fobs x i t) - B2R (fobs y j t)) ^ 2)) by (apply rsum_nonneg; intros; apply pow2_ge_0). lra.
    Qed.
  End Between.

  Lemma mean_scaled k l l' : (-40 <= k <= 40)%Z -> (1 <= length l)%nat -> (Z.of_nat (length l) <= 2 ^ 36)%Z -> scaleds k 118 (p2 55) l l' ->
    scaled k 206 (p2 91) (np_mean NF l) (np_mean NF l').
  Proof.
    intros K L1 L2 H. unfold np_mean. rewrite <- (Forall2_len _ _ _ H). unfold nofnat. cbn [ndiv nofZ B64Num].
    destruct (ofZ_between (Z.of_nat (length l)) 36 ltac:(lia) ltac:(lia) ltac:(lia)) as (F2 & B2).
    assert (S : scaled k 118 (p2 (55 + 36)) (np_sum NF l) (np_sum NF l')) by (apply scaled_sum; try lia; auto; [apply (vf_lib _ _ HE)|unfold calm; lia]).
    destruct (scaled_div k 118 36 (p2 (55 + 36)) _ _ (b64_ofZ (Z.of_nat (length l))) ltac:(unfold calm; lia) S) as [T _]; auto; try apply fm; lia.
  Qed.

  Lemma concat_scaled k q B n m f f' : (forall i j, (i < n)%nat -> (j < m)%nat -> scaled k q B (f i j) (f' i j)) ->
    scaleds k q B (concat (tab2 n m f)) (concat (tab2 n m f')).
  Proof. intros H. apply Forall2_concat. unfold tab2. apply Forall2_tab. intros i Hi. apply Forall2_tab. auto. Qed.
  Lemma between_scaled k n m f f' : (-40 <= k <= 40)%Z -> (1 <= n)%nat -> (1 <= m)%nat -> (Z.of_nat n <= 2 ^ 18)%Z -> (Z.of_nat m <= 2 ^ 18)%Z ->
    (forall i j, (i < n)%nat -> (j < m)%nat -> scaled k 118 (p2 55) (f i j) (f' i j)) ->
    scaled k 206 (p2 91) (np_mean NF (concat (tab2 n m f))) (np_mean NF (concat (tab2 n m f'))).
  Proof.
    intros K N1 M1 N2 M2 H. apply mean_scaled; auto; [| |apply concat_scaled; auto]; rewrite concat_tab2_length; [nia|].
    rewrite Nat2Z.inj_mul. change (2 ^ 36)%Z with (2 ^ 18 * 2 ^ 18)%Z. apply Z.mul_le_mono_nonneg; lia.
  Qed.
  Lemma within_scaled st k n f f' : (-40 <= k <= 40)%Z -> (least st <= n)%nat -> (Z.of_nat n <= 2 ^ 18)%Z ->
    (forall i j, (i < n)%nat -> (j < n)%nat -> scaled k 118 (p2 55) (f i j) (f' i j)) ->
    scaled k 206 (p2 91) (np_mean NF (fflat st (tab2 n n f))) (np_mean NF (fflat st (tab2 n n f'))).
  Proof.
    intros K N1 N2 H. destruct st; cbn [fflat least] in *; [|apply between_scaled; auto].
    pose proof (flat_le n f) as FL. apply mean_scaled; auto; [apply flat_ge; auto| |].
    - assert (Z.of_nat (n * n) <= 2 ^ 36)%Z; [|lia]. rewrite Nat2Z.inj_mul. change (2 ^ 36)%Z with (2 ^ 18 * 2 ^ 18)%Z. apply Z.mul_le_mono_nonneg; lia.
    - rewrite !flat_tab2. apply Forall2_concat. apply Forall2_tab. intros i Hi. apply Forall2_tab. intros j Hj. apply H; lia.
  Qed.

  Lemma average_fflat st m : apply_average E None (match st with UStatistic => get_flat_upper_matrix m 1 | VStatistic => concat m end) = np_mean NF (fflat st m).
  Proof. unfold apply_average. rewrite (vf_num _ _ HE). destruct st; reflexivity. Qed.

  (** Twice a mean minus two others. *)
  Lemma combine_scaled k a a' b b' c c' : (-40 <= k <= 40)%Z -> scaled k 206 (p2 91) a a' -> scaled k 206 (p2 91) b b' -> scaled k 206 (p2 91) c c' ->
    scaled k 206 (p2 94) (b64_sub (b64_sub (b64_mul (b64_ofZ 2) a) b) c) (b64_sub (b64_sub (b64_mul (b64_ofZ 2) a') b') c').
  Proof.
    intros K A B C.
    pose proof (scaled_mul 0 k 0 206 (p2 1) (p2 91) _ _ _ _ ltac:(unfold calm; lia) (scaled_const 2 1 ltac:(lia) ltac:(lia) ltac:(lia)) A) as U.
    rewrite <- bpow_plus in U. specialize (U ltac:(apply fm; lia) ltac:(apply fm; lia)).
    replace (p2 94) with (p2 93 + p2 93) by apply p2_double.
    apply scaled_sub; [unfold calm; lia| |eapply scaled_weaken; [exact C|lia|apply p2_le; lia]|rewrite p2_double; apply fm; lia|rewrite p2_double; apply fm; lia].
    replace (p2 93) with (p2 92 + p2 92) by apply p2_double.
    apply scaled_sub; [unfold calm; lia|exact U|eapply scaled_weaken; [exact B|lia|apply p2_le; lia]|rewrite p2_double; apply fm; lia|rewrite p2_double; apply fm; lia].
  Qed.
End ScaleEnergy.

(** The energy distance of two samples of n and m observations, for both estimators, is multiplied by exactly 2^k when both samples are. *)
Theorem C87_energy lib E n m k x x' y y' es st : valid_fenv lib E -> to_estimation es = Ok st -> (least st <= n)%nat -> (least st <= m)%nat ->
  (-40 <= k <= 40)%Z -> ordinary n x -> ordinary m y -> ncols y = ncols x -> ordinary_between n m x y -> rescaled k x x' -> rescaled k y y' ->
  exists v v', outcome (energy_distance E x y (b64_ofZ 1) None es) = Ok v /\ outcome (energy_distance E x' y' (b64_ofZ 1) None es) = Ok v' /\
    is_finite v = true /\ is_finite v' = true /\ B2R v' = powerRZ 2 k * B2R v.
Proof.
  intros HE Hes Hn Hm K Ox Oy Cxy Sp Rx Ry. pose proof (vf_num _ _ HE) as EN.
  destruct (pairwise_scaled lib E HE n k x x' Ox Rx) as (Px & Px'). destruct (pairwise_scaled lib E HE m k y y' Oy Ry) as (Py & Py').
  assert (N1 : (1 <= n)%nat) by apply Ox. assert (M1 : (1 <= m)%nat) by apply Oy.
  assert (N2 : (Z.of_nat n <= 2 ^ 18)%Z) by apply Ox. assert (M2 : (Z.of_nat m <= 2 ^ 18)%Z) by apply Oy.
  pose proof Ox as (Wx & Lx & _ & _ & _ & Dx & _). pose proof Oy as (Wy & Ly & _ & _ & _ & Dy & _).
  pose proof Rx as (Ax & Dx' & Wx' & Lx' & Cx' & _). pose proof Ry as (Ay & Dy' & Wy' & Ly' & Cy' & _). rewrite Lx in Lx'. rewrite Ly in Ly'. rewrite Cxy in Cy'.
  pose proof (fcross_scaled lib E HE n m k x x' y y' K Ox Oy Rx Ry Cxy Sp) as FC.
  assert (PC : exists d d', pairwise_distances E x (Some y) (b64_ofZ 1) = Ok d /\ pairwise_distances E x' (Some y') (b64_ofZ 1) = Ok d' /\
    scaled k 206 (p2 91) (np_mean (B64Num lib) (concat d)) (np_mean (B64Num lib) (concat d'))).
  { destruct (pairwise_fcross2 lib E EN x y n m (ncols x) Wx Wy Lx Ly eq_refl Cxy Dx Dy) as (d & Pd & Hd).
    destruct (pairwise_fcross2 lib E EN x' y' n m (ncols x) Wx' Wy' Lx' Ly' Cx' Cy' Dx' Dy') as (d' & Pd' & Hd').
    exists d, d'. split; auto. split; auto. rewrite Ax, Ay, Dx', Dy', <- Dx in Hd'. rewrite Dx, Dy in Hd. rewrite Dx in Hd'.
    destruct (can_be_numpy_double E (ans x) F64 && can_be_numpy_double E (ans y) F64); subst d d'; apply (between_scaled lib E HE); auto. }
  destruct PC as (d & d' & Pd & Pd' & Sd).
  assert (T : forall u w U W D, pairwise_distances E u None (b64_ofZ 1) = Ok U -> pairwise_distances E w None (b64_ofZ 1) = Ok W ->
    pairwise_distances E u (Some w) (b64_ofZ 1) = Ok D ->
    outcome (energy_distance E u w (b64_ofZ 1) None es) = Ok (b64_sub (b64_sub (b64_mul (b64_ofZ 2) (np_mean (B64Num lib) (concat D)))
      (np_mean (B64Num lib) (fflat st U))) (np_mean (B64Num lib) (fflat st W)))).
  { intros u w U W D PU PW PD. unfold energy_distance. rewrite outcome_bind, (energy_exponent_F E). rewrite outcome_bind. cbn [outcome lift snd]. rewrite PU.
    rewrite outcome_bind. cbn [outcome lift snd]. rewrite PW. rewrite outcome_bind. cbn [outcome lift snd]. rewrite PD. cbn [rbind outcome lift snd].
    unfold energy_distance_from_distance_matrices. rewrite Hes. cbn [rbind]. unfold apply_average. rewrite EN. destruct st; reflexivity. }
  eexists _, _. split; [exact (T _ _ _ _ _ Px Py Pd)|]. split; [exact (T _ _ _ _ _ Px' Py' Pd')|].
  destruct (combine_scaled k _ _ _ _ _ _ K Sd
    (within_scaled lib E HE st k n _ _ K Hn N2 (fdists_scaled lib E HE n k x x' K Ox Rx))
    (within_scaled lib E HE st k m _ _ K Hm M2 (fdists_scaled lib E HE m k y y' K Oy Ry))) as (F & F' & S & _).
  split; [exact F|]. split; [exact F'|]. rewrite S, bpow_powerRZ. reflexivity.
Qed.

(** (3, 1, 2, 1, 5) and (0, 2, 2, 7, 1), in units and in eighths of a unit. *)
Example C87_energy_meets : exists v v', outcome (energy_distance env_F xi yi (b64_ofZ 1) None U) = Ok v /\
  outcome (energy_distance env_F (times eight xi) (times eight yi) (b64_ofZ 1) None U) = Ok v' /\ B2R v' = 8 * B2R v.
Proof.
  destruct C87_meets as (Ox & Oy & Rx & _).
  assert (By : Forall (fun z => (Z.abs z <= 100)%Z) [0; 2; 2; 7; 1]%Z) by (repeat constructor; cbn; lia).
  destruct eight_real as (F8 & R8).
  assert (Ry : rescaled 3 yi (times eight yi)) by (apply (C87_times 5); auto; try lia; intros; apply (small_range [0; 2; 2; 7; 1]%Z); auto).
  destruct (C87_energy plain env_F 5 5 3 xi (times eight xi) yi (times eight yi) U UStatistic env_F_valid eq_refl) as (v & v' & V & V' & _ & _ & S); auto; cbn [least]; try lia.
  - intros i j k Hi Hj Hk. destruct (proj2 (proj2 (proj2 (proj2 (proj2 (proj2 (proj2 (small_ordinary [3; 1; 2; 1; 5; 0; 2; 2; 7; 1]%Z ltac:(discriminate) ltac:(cbn; lia)
      ltac:(repeat constructor; cbn; lia)))))))) i (5 + j)%nat k) as [H|H]; cbn [length]; try lia; [exact Hk| |].
    + left. cbn in Hk. assert (k = 0%nat) as -> by lia.
      rewrite !obs_freals in H. rewrite !obs_freals. assert (A : fobs (ints [3; 1; 2; 1; 5; 0; 2; 2; 7; 1]%Z) i 0 = fobs xi i 0) by (do 5 (destruct i as [|i]; [reflexivity|]); lia).
      assert (B : fobs (ints [3; 1; 2; 1; 5; 0; 2; 2; 7; 1]%Z) (5 + j) 0 = fobs yi j 0) by (do 5 (destruct j as [|j]; [reflexivity|]); lia). rewrite A, B in H. exact H.
    + right. cbn in Hk. assert (k = 0%nat) as -> by lia.
      rewrite !obs_freals in H. rewrite !obs_freals. assert (A : fobs (ints [3; 1; 2; 1; 5; 0; 2; 2; 7; 1]%Z) i 0 = fobs xi i 0) by (do 5 (destruct i as [|i]; [reflexivity|]); lia).
      assert (B : fobs (ints [3; 1; 2; 1; 5; 0; 2; 2; 7; 1]%Z) (5 + j) 0 = fobs yi j 0) by (do 5 (destruct j as [|j]; [reflexivity|]); lia). rewrite A, B in H. exact H.
  - exists v, v'. split; [exact V|]. split; [exact V'|]. rewrite S. unfold powerRZ. change (Pos.to_nat 3) with 3%nat. lra.
Qed.
