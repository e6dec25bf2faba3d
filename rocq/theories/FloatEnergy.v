(** Means of distances and energy distances in double precision. *)
From Coq Require Import Reals Lra Lia List Arith Bool ZArith Psatz Permutation.
From Flocq Require Import Core IEEE754.BinarySingleNaN.
From Verif Require Import Num Numpy MUtils MDistances MInternals MEnergy MFloat Sums Spec Centering Tab Samples Api RefDist RefCenter RefEnergy RefFloat
  FloatApi FloatSum FloatError FloatAccuracy FloatNaive FloatAvlErr FloatAvlForm FloatCenter.
Import List ListNotations.
Local Open Scope R_scope.

Lemma Forall2_concat {A B} (P : A -> B -> Prop) l l' : Forall2 (Forall2 P) l l' -> Forall2 P (concat l) (concat l').
Proof. induction 1; cbn; [constructor|]. apply Forall2_app; auto. Qed.
Lemma apxs_concat2 k M n m f g : (forall i j, (i < n)%nat -> (j < m)%nat -> apx k M (f i j) (g i j)) ->
  apxs k M (concat (tab2 n m f)) (concat (tab2 n m g)).
Proof. intros H. apply Forall2_concat. unfold tab2. apply Forall2_tab. intros i Hi. apply Forall2_tab. auto. Qed.
Lemma apxs_flat k M n f g : (forall i j, (i < n)%nat -> (j < n)%nat -> apx k M (f i j) (g i j)) ->
  apxs k M (get_flat_upper_matrix (tab2 n n f) 1) (get_flat_upper_matrix (tab2 n n g) 1).
Proof.
  intros H. rewrite !flat_tab2. apply Forall2_concat. apply Forall2_tab. intros i Hi. apply Forall2_tab. intros j Hj. apply H; lia.
Qed.

Section Energy.
  Context (lib : flib) (GL : good_lib lib) (E : Env b64) (EN : e_num E = B64Num lib).
  Notation NF := (B64Num lib).

  Lemma apx_mean k D l rs : apxs k D l rs -> (1 <= length l)%nat -> lowM D -> D <= 2 ^ 300 -> (Z.of_nat (length l) <= 2 ^ 37)%Z -> few (k + length l + 3) ->
    apx (k + length l + 3) D (np_mean NF l) (np_mean RNum rs).
  Proof.
    intros H Hl LD HD HL Hf. unfold np_mean. rewrite nofnat_INR. unfold nofnat. cbn [ndiv nofZ B64Num RNum].
    rewrite <- (apxs_length _ _ _ _ H).
    assert (N1 : 1 <= INR (length l)) by (replace 1 with (INR 1) by reflexivity; apply le_INR; auto).
    assert (N2 : INR (length l) <= 2 ^ 37) by (rewrite INR_IZR_INZ; change 2 with (IZR 2); rewrite pow_IZR; apply IZR_le; exact HL).
    assert (D0 : 0 <= D) by (apply lowM_nonneg; auto).
    assert (P : 2 ^ 37 * 2 ^ 300 <= BB) by (rewrite <- pow_add; apply pow2_le; lia).
    assert (HB : lenR l * D <= BB).
    { unfold lenR. apply Rle_trans with (2 ^ 37 * 2 ^ 300); [|exact P]. apply Rmult_le_compat; lra. }
    replace (k + length l + 3)%nat with (3 + (k + length l))%nat by lia.
    replace D with (lenR l * D / INR (length l)) by (unfold lenR; field; lra).
    apply apx_div.
    - apply (apxs_sum lib GL); auto. apply (few_le _ _ Hf). lia.
    - lia.
    - apply INR_IZR_INZ.
    - apply Rle_trans with (2 ^ 37); [lra|]. apply pow2_le. lia.
    - apply (few_le _ _ Hf). lia.
    - replace (lenR l * D / INR (length l)) with D by (unfold lenR; field; lra). auto.
  Qed.

  (** Twice a mean minus two others. *)
  Lemma apx_energy k L D a b c r s t : apx k D a r -> apx k D b s -> apx k D c t -> lowM D -> D <= 2 ^ 300 -> (k + 3 <= L)%nat -> few L ->
    apx L (4 * D) (b64_sub (b64_sub (b64_mul (b64_ofZ 2) a) b) c) (2 * r - s - t).
  Proof.
    intros Ha Hb Hc LD HD HL Hf. assert (D0 : 0 <= D) by (apply lowM_nonneg; auto).
    assert (P : 4 * 2 ^ 300 <= BB) by (replace 4 with (2 ^ 2) by lra; rewrite <- pow_add; apply pow2_le; lia).
    assert (L2 : lowM (2 * D)) by (apply lowM_mul; auto; lra).
    assert (H2 : apx 0 2 (b64_ofZ 2) 2) by (apply (apx_ofZ 0 2 2); cbn; lra || lia).
    apply (apx_k (S (S (S k)))); [|lia]. replace (4 * D) with (2 * D + D + D) by ring.
    apply apx_sub; [|apply (apx_k k); auto; lia|apply (few_le _ _ Hf); lia|lra].
    apply apx_sub; [|apply (apx_k k); auto; lia|apply (few_le _ _ Hf); lia|lra].
    apply (apx_mul 0 k); auto; [apply (few_le _ _ Hf); lia|lra].
  Qed.

  Definition fflat (es : estimation_stat) (m : list (list b64)) : list b64 :=
    match es with UStatistic => get_flat_upper_matrix m 1 | VStatistic => concat m end.
  (** at least this many observations per sample *)
  Definition least (st : estimation_stat) : nat := match st with UStatistic => 2 | VStatistic => 1 end.
  Definition within_mean (st : estimation_stat) (n : nat) (a : nat -> nat -> R) : R :=
    match st with UStatistic => upper_mean n a | VStatistic => rsum2 n n a / (INR n * INR n) end.

  Lemma flat_le {A} n (f : nat -> nat -> A) : (length (get_flat_upper_matrix (tab2 n n f) 1) <= n * n)%nat.
  Proof.
    rewrite flat_tab2. assert (H : forall k, (k <= n)%nat -> (length (concat (tab k (fun i => tab (n - (i + 1)) (fun j => f i (i + 1 + j)%nat)))) <= k * n)%nat).
    { induction k as [|k IH]; intros Hk; [cbn; lia|]. rewrite tab_snoc, concat_app, app_length. cbn [concat]. rewrite app_nil_r, tab_length.
      specialize (IH ltac:(lia)). nia. }
    apply H. lia.
  Qed.
  Lemma flat_ge {A} n (f : nat -> nat -> A) : (2 <= n)%nat -> (1 <= length (get_flat_upper_matrix (tab2 n n f) 1))%nat.
  Proof.
    intros Hn. rewrite flat_tab2. destruct n as [|[|n]]; try lia. unfold tab. cbn [seq map concat]. rewrite app_length, map_length, seq_length. lia.
  Qed.
  Lemma concat_tab2_length {A} n m (f : nat -> nat -> A) : length (concat (tab2 n m f)) = (n * m)%nat.
  Proof. rewrite concat_tab_tab. apply tab_length. Qed.

  Lemma within_apx st k D n f a : (forall i j, (i < n)%nat -> (j < n)%nat -> apx k D (f i j) (a i j)) -> (least st <= n)%nat -> lowM D -> D <= 2 ^ 300 ->
    (Z.of_nat n <= 2 ^ 18)%Z -> few (k + n * n + 3) ->
    apx (k + n * n + 3) D (np_mean NF (fflat st (tab2 n n f))) (within_mean st n a).
  Proof.
    intros H Hn LD HD N18 Hf. destruct st; cbn [fflat within_mean least] in *.
    - rewrite <- np_mean_flat. pose proof (flat_le n f). pose proof (flat_ge n f Hn).
      apply (apx_k (k + length (get_flat_upper_matrix (tab2 n n f) 1) + 3)); [|lia].
      apply apx_mean; auto; [apply apxs_flat; auto|nia|apply (few_le _ _ Hf); lia].
    - rewrite <- np_mean_tab2. pose proof (concat_tab2_length n n f) as L. rewrite <- L. rewrite <- L in Hf.
      apply apx_mean; auto; [apply apxs_concat2; auto|nia|]. rewrite L. nia.
  Qed.
  Lemma between_apx k D n m f a : (forall i j, (i < n)%nat -> (j < m)%nat -> apx k D (f i j) (a i j)) -> (1 <= n)%nat -> (1 <= m)%nat -> lowM D -> D <= 2 ^ 300 ->
    (Z.of_nat n <= 2 ^ 18)%Z -> (Z.of_nat m <= 2 ^ 18)%Z -> few (k + n * m + 3) ->
    apx (k + n * m + 3) D (np_mean NF (concat (tab2 n m f))) (rsum2 n m a / (INR n * INR m)).
  Proof.
    intros H Hn Hm LD HD N18 M18 Hf. rewrite <- np_mean_tab2. pose proof (concat_tab2_length n m f) as L. rewrite <- L. rewrite <- L in Hf.
    apply apx_mean; auto; [apply apxs_concat2; auto|nia|]. rewrite L. nia.
  Qed.

  (** The energy distance from matrices of distances. *)
  Lemma matrices_apx es st k D n m fxx fyy dxy fxy axx ayy axy : to_estimation es = Ok st ->
    (forall i j, (i < n)%nat -> (j < n)%nat -> apx k D (fxx i j) (axx i j)) ->
    (forall i j, (i < m)%nat -> (j < m)%nat -> apx k D (fyy i j) (ayy i j)) ->
    (forall i j, (i < n)%nat -> (j < m)%nat -> apx k D (fxy i j) (axy i j)) ->
    dxy = tab2 n m fxy \/ dxy = tab2 m n (fun i j => fxy j i) ->
    (least st <= n)%nat -> (least st <= m)%nat -> lowM D -> D <= 2 ^ 300 -> (Z.of_nat n <= 2 ^ 18)%Z -> (Z.of_nat m <= 2 ^ 18)%Z ->
    few (k + (n * n + m * m) + 6) ->
    exists v, energy_distance_from_distance_matrices E (tab2 n n fxx) (tab2 m m fyy) dxy None es = Ok v /\
      apx (k + (n * n + m * m) + 6) (4 * D) v (2 * (rsum2 n m axy / (INR n * INR m)) - within_mean st n axx - within_mean st m ayy).
  Proof.
    intros Hs Hx Hy Hxy Hd Hn Hm LD HD N18 M18 Hf. unfold energy_distance_from_distance_matrices. rewrite Hs. cbn [rbind].
    eexists. split; [reflexivity|]. rewrite EN. cbn [nsub nmul nofZ B64Num].
    assert (N1 : (1 <= n)%nat) by (destruct st; cbn [least] in *; lia). assert (M1 : (1 <= m)%nat) by (destruct st; cbn [least] in *; lia).
    assert (NM : (n * m <= n * n + m * m)%nat) by nia.
    apply (apx_energy (k + (n * n + m * m) + 3)); auto; [| | |lia].
    - cbn [apply_average]. rewrite EN. apply (apx_k (k + n * m + 3)); [|lia]. destruct Hd as [Hd|Hd]; rewrite Hd.
      + apply between_apx; auto. apply (few_le _ _ Hf). lia.
      + rewrite rsum2_swap, (Rmult_comm (INR n)), (Nat.mul_comm n). apply between_apx; auto. apply (few_le _ _ Hf). lia.
    - replace (apply_average E None _) with (np_mean NF (fflat st (tab2 n n fxx))) by (unfold apply_average; rewrite EN; destruct st; reflexivity).
      apply (apx_k (k + n * n + 3)); [|lia]. apply within_apx; auto. apply (few_le _ _ Hf). lia.
    - replace (apply_average E None _) with (np_mean NF (fflat st (tab2 m m fyy))) by (unfold apply_average; rewrite EN; destruct st; reflexivity).
      apply (apx_k (k + m * m + 3)); [|lia]. apply within_apx; auto. apply (few_le _ _ Hf). lia.
  Qed.

  (** Distances between two samples. *)
  Section Cross.
    Context (x y : array b64) (n m p : nat) (Wx : wf x) (Wy : wf y) (Lx : shape0 x = n) (Ly : shape0 y = m) (Cx : ncols x = p) (Cy : ncols y = p).
    Context (Fx : adt x = F64) (Fy : adt y = F64).
    Context (Finx : forall i k, (i < n)%nat -> (k < ncols x)%nat -> is_finite (fobs x i k) = true).
    Context (Finy : forall i k, (i < m)%nat -> (k < ncols y)%nat -> is_finite (fobs y i k) = true).
    Context (q l : nat) (Hc : INR p <= 2 ^ (2 * l)) (Hq : (q + l <= 400)%nat) (Hf : few (4 + p)).
    Context (Sp : forall i j k, (i < n)%nat -> (j < m)%nat -> (k < p)%nat ->
      let t := obs (freals x) i k - obs (freals y) j k in t = 0 \/ (/ 2 ^ q <= Rabs t <= 2 ^ q)).

    Definition fcross (i j : nat) : b64 := b64_sqrt (sq_norm E (tab p (fobs x i)) (tab p (fobs y j))).

    Lemma fcross_near i j : (i < n)%nat -> (j < m)%nat -> near (4 + p) (2 ^ (q + l)) (fcross i j) (cross 1 (freals x) (freals y) i j).
    Proof.
      intros Hi Hj. unfold cross. rewrite rpow_1 by apply dist_nonneg. unfold dist. rewrite freals_ncols, Cx.
      unfold fcross, sq_norm. rewrite EN, tab_map2. cbn [nsub nmul B64Num]. change (4 + p)%nat with (S (3 + p)). apply near_sqrt; auto.
      replace (2 * (q + l))%nat with (2 * q + 2 * l)%nat by lia. apply near_tab_sum; auto; [|apply (few_le _ _ Hf); lia|lia].
      intros k Hk. rewrite !obs_freals. specialize (Sp i j k Hi Hj Hk). cbv zeta in Sp. rewrite !obs_freals in Sp.
      assert (0 < 2 ^ q) by (apply pow_lt; lra).
      apply near_sq; auto; try lia; try (apply Finx; lia); try (apply Finy; lia).
      - destruct Sp as [?|[? ?]]; auto.
      - destruct Sp as [->|[? ?]]; auto. rewrite Rabs_R0. lra.
    Qed.

    Lemma pairwise_fcross : exists d, pairwise_distances E x (Some y) (b64_ofZ 1) = Ok d /\ (d = tab2 n m fcross \/ d = tab2 m n (fun i j => fcross j i)).
    Proof.
      unfold pairwise_distances. rewrite (fobs_2d x), (fobs_2d y), Lx, Ly, Cx, Cy by auto. unfold cdist.
      destruct (can_be_numpy_double E (ans x) (adt x) && can_be_numpy_double E (ans y) (adt y)).
      - unfold cdist_scipy. rewrite Nat.eqb_refl. eexists. split; [reflexivity|left]. unfold tab2 at 1 2 3. rewrite tab_map. apply tab_ext. intros i Hi.
        rewrite tab_map. apply tab_ext. intros j Hj. rewrite EN. cbn [neqb nunit nsqrt B64Num]. rewrite one_one. reflexivity.
      - unfold cdist_naive. rewrite Nat.eqb_refl. cbn [orb]. eexists. split; [reflexivity|right].
        replace (if p =? 1 then p else p)%nat with p by (destruct (p =? 1)%nat; auto).
        unfold tab2 at 1 2 3. rewrite tab_map. apply tab_ext. intros i Hi. rewrite tab_map. apply tab_ext. intros j Hj.
        assert (B : forall p (u : nat -> b64), bcast_row p (tab p u) = tab p u) by (intros [|[|p']] u; reflexivity).
        rewrite !B. unfold dist_power, promote. rewrite Fx, Fy. change (b64_ofZ 1) with (nunit (B64Num lib)). rewrite <- EN. unfold half. rewrite EN.
        change (ndiv (B64Num lib) (nunit (B64Num lib)) (nofZ (B64Num lib) 2)) with b64_half. cbn [npow B64Num]. rewrite half_half. reflexivity.
    Qed.
  End Cross.
End Energy.
