(** C63: the energy test in double precision. *)
From Coq Require Import Reals Lra Lia List Arith Bool ZArith Psatz Permutation.
From Flocq Require Import Core IEEE754.BinarySingleNaN.
From Verif Require Import Num Numpy MUtils MDistances MInternals MDcor MEnergy MHypothesis MHomogeneity MFloat Sums Spec Centering Tab Samples Api RefDist RefCenter
  RefEnergy RefTests RefHomogeneity MInteger RefInteger RefFloat FloatAvl FloatApi FloatSum FloatError FloatAccuracy FloatNaive FloatAvlErr FloatAvlForm FloatCenter
  FloatEnergy FloatEnv FloatCorr EnergyMath PFloat PNaiveFloat PTests Witness PEnergy PFloatCorr PFloatTests PFloatEnergy.
Import List ListNotations.
Local Open Scope R_scope.

(** A permutation test whose statistics are computed with an error of at most [err]. *)
Lemma gap_test {S} lib (G : Rng S) n (f : nat -> nat -> b64) stat (v : list nat -> b64) (ex : list nat -> R) err b rs :
  permuting G -> (Z.of_nat b + 1 <= 2 ^ 53)%Z ->
  (forall q, is_perm n q -> stat (tab2 n n (fun i j => f (nth i q 0%nat) (nth j q 0%nat))) = Ok (v q)) ->
  (forall q, is_perm n q -> is_finite (v q) = true /\ Rabs (B2R (v q) - ex q) <= err) ->
  let d := draw_permutations G b n (random_state_init G rs) in
  exists t, permutation_test_with_sym_matrix (B64Num lib) G (tab2 n n f) stat (Z.of_nat b) rs = Ok (t, snd d) /\
    is_finite (statistic t) = true /\ Rabs (B2R (statistic t) - ex (seq 0 n)) <= err /\
    ((forall q, In q (fst d) -> q = seq 0 n \/ 2 * err < Rabs (ex q - ex (seq 0 n))) ->
      is_finite (pvalue t) = true /\ B2R (pvalue t) = b64_round (p_value (ex (seq 0 n)) (map ex (fst d)))).
Proof.
  intros HG Hb V A d.
  assert (Hid : is_perm n (seq 0 n)) by (unfold is_perm; auto).
  assert (Hd : forall q, In q (fst d) -> is_perm n q) by (intros; eapply draw_perm; eauto).
  assert (Hl : length (fst d) = b) by apply draw_length.
  set (st := v (seq 0 n)).
  set (k := length (filter (fun q => Bltb st (v q)) (fst d))).
  assert (Hk : (k <= b)%nat) by (rewrite <- Hl; apply filter_length_le).
  set (p := b64_div (b64_add (b64_ofZ (Z.of_nat k)) (b64_ofZ 1)) (b64_ofZ (Z.of_nat b + 1))).
  exists (mkTest p st). split; [|cbn [statistic pvalue]; split; [apply A; auto|split; [apply A; auto|]]].
  - unfold permutation_test_with_sym_matrix. rewrite Nat2Z.id, tab2_length.
    assert (stat (tab2 n n f) = Ok st) as ->.
    { unfold st. rewrite <- V by auto. f_equal. apply tab2_ext. intros i j Hi Hj. rewrite !seq_nth by auto. reflexivity. }
    cbn [rbind]. fold d. rewrite (surjective_pairing d) at 1.
    rewrite (mapM_ok _ v) by (intros q Hq; rewrite permuted_tab by auto; apply V; auto). cbn [rbind].
    unfold permutation_pvalue. destruct (Z.eqb_spec (Z.of_nat b + 1) 0); [lia|]. cbn [rbind nltb ndiv nadd nofZ nunit B64Num].
    rewrite filter_map_length. reflexivity.
  - intros Hgap. set (o := ex (seq 0 n)) in *.
    assert (Hc : k = length (filter (fun u => if Rlt_dec o u then true else false) (map ex (fst d)))).
    { rewrite filter_map_length. unfold k. apply count_same. intros q Hq. destruct (A q (Hd q Hq)) as [Fq Aq]. destruct (A _ Hid) as [F0 A0]. fold st in F0, A0.
      rewrite Bltb_correct by auto. fold o in A0. apply Rabs_le_inv in Aq, A0.
      destruct (Hgap q Hq) as [->|Hg].
      - fold st o. destruct (Rlt_dec o o); [lra|]. apply Rlt_bool_false. lra.
      - destruct (Rlt_dec o (ex q)) as [Hlt|Hge].
        + rewrite Rabs_pos_eq in Hg by lra. apply Rlt_bool_true. lra.
        + rewrite Rabs_left1 in Hg by lra. apply Rlt_bool_false. lra. }
    destruct (quotient (b64_add (b64_ofZ (Z.of_nat k)) (b64_ofZ 1)) (b64_ofZ (Z.of_nat b + 1)) (Z.of_nat k + 1) (Z.of_nat b + 1)) as [F Q].
    + eapply rep_weaken; [apply (rep_add (Z.abs (Z.of_nat k)) (Z.abs 1)); [apply rep_ofZ; lia|apply rep_ofZ; lia|lia]|lia].
    + eapply rep_weaken; [apply rep_ofZ; lia|lia].
    + lia.
    + split; [exact F|]. unfold p. rewrite Q. f_equal. unfold p_value, ratio. rewrite <- Hc, map_length, Hl.
      rewrite !plus_IZR, <- !INR_IZR_INZ. f_equal; ring.
Qed.

(** Two or more float64 samples with [p] columns, without infinities or NaN, and enough observations for the estimator. *)
Definition double_group (p : nat) (st : estimation_stat) (samples : list (array b64)) : Prop :=
  (2 <= length samples)%nat /\
  Forall (fun s : array b64 => wf s /\ ncols s = p /\ adt s = F64 /\ (least st <= shape0 s)%nat /\ Forall (fun v => is_finite v = true) (entries s)) samples.

(** The k-sample statistic of exact arithmetic: over the pairs of samples, n m / (n + m) times the energy distance. *)
Definition energy_statistic (st : estimation_stat) (p : nat) (samples : list (array R)) : R :=
  let s i := sample samples i in
  let k := length samples in
  rsum2 k k (fun i j => if Nat.ltb i j then
    INR (shape0 (s i)) * INR (shape0 (s j)) / (INR (shape0 (s i)) + INR (shape0 (s j)))
      * exact_energy st p (shape0 (s i)) (shape0 (s j)) (obs (s i)) (obs (s j))
  else 0).

Definition energy_test_error (k n p : nat) (D : R) : R := (2 * INR n ^ 2 + INR p + 20) * INR k ^ 2 * INR n * D / 2 ^ 52.

(** ** The pooled sample *)

Lemma freals_rows s : snd (transform_to_2d (adata (freals s))) = map (map B2R) (snd (transform_to_2d (adata s))).
Proof. unfold freals. rewrite amap_2d. reflexivity. Qed.
Lemma wf_freals s : wf s -> wf (freals s).
Proof.
  destruct s as [ns d [v|c rows]]; unfold wf, freals; cbn; auto. intros H. apply Forall_map. apply Forall_impl with (2 := H). intros r Hr. rewrite map_length. exact Hr.
Qed.
Lemma freals_sizes l : map shape0 (map freals l) = map shape0 l.
Proof. rewrite map_map. apply map_ext. intros. apply freals_shape0. Qed.

Section Pool.
  Context (p : nat) (samples : list (array b64)) (Hne : samples <> []).
  Context (H : Forall (fun s : array b64 => wf s /\ ncols s = p /\ adt s = F64 /\ Forall (fun v => is_finite v = true) (entries s)) samples).
  Let S2 := map (fun a : array b64 => transform_to_2d (adata a)) samples.
  Definition pool_ns : nspace := match samples with a :: _ => ans a | [] => Numpy end.
  Definition pooled_doubles : array b64 := mkArr pool_ns F64 (Mat p (concat (map snd S2))).

  Lemma group_wf : well_formed p (map freals samples).
  Proof. unfold well_formed. apply Forall_map. apply Forall_impl with (2 := H). intros s (W & C & _). split; [apply wf_freals; auto|rewrite freals_ncols; auto]. Qed.

  Lemma pool_doubles : MHomogeneity.pool S2 = Ok (p, concat (map snd S2)).
  Proof.
    unfold S2. destruct samples as [|s l]; [congruence|]. unfold MHomogeneity.pool. cbn [map]. inversion H as [|? ? (Ws & Cs & _) Hl]; subst.
    destruct (transform_to_2d (adata s)) as [c r] eqn:Es. assert (c = ncols s) as -> by (change c with (fst (c, r)); rewrite <- Es; apply cols_2d).
    set (f := forallb _ _). assert (f = true) as ->; [|reflexivity].
    unfold f. apply forallb_forall. intros t [<-|Ht]; [apply Nat.eqb_refl|]. apply in_map_iff in Ht as (a & <- & Ha).
    rewrite Forall_forall in Hl. destruct (Hl a Ha) as (_ & Ca & _). rewrite cols_2d. apply Nat.eqb_eq. auto.
  Qed.
  Lemma pool_reals : map (map B2R) (concat (map snd S2)) = tab2 (total (map freals samples)) p (pooled (map freals samples)).
  Proof.
    rewrite <- (pooled_rows p) by apply group_wf. rewrite concat_map. f_equal. unfold S2. rewrite !map_map. apply map_ext. intros s. symmetry. apply freals_rows.
  Qed.
  Lemma pool_wf : wf pooled_doubles /\ shape0 pooled_doubles = total (map freals samples) /\ ncols pooled_doubles = p.
  Proof.
    pose proof (f_equal (@length _) pool_reals) as L. rewrite map_length, tab2_length in L. split; [|split; [exact L|reflexivity]].
    unfold wf, pooled_doubles. cbn [adata]. apply Forall_forall. intros r Hr. transitivity (length (map (B2R (prec := 53) (emax := 1024)) r)); [symmetry; apply map_length|].
    assert (Hr' : In (map B2R r) (tab2 (total (map freals samples)) p (pooled (map freals samples)))) by (rewrite <- pool_reals; apply in_map, Hr).
    unfold tab2, tab in Hr'. apply in_map_iff in Hr' as (i & <- & _). apply tab_length.
  Qed.
  Lemma pool_obs i k : (i < total (map freals samples))%nat -> (k < p)%nat -> obs (freals pooled_doubles) i k = pooled (map freals samples) i k.
  Proof.
    intros Hi Hk. unfold obs, freals, pooled_doubles. cbn [adata amap]. 
    change (nth k (nth i (map (map B2R) (concat (map snd S2))) []) 0 = pooled (map freals samples) i k). rewrite pool_reals.
    exact (entry_tab2 _ p (pooled (map freals samples)) i k Hi Hk).
  Qed.
  Lemma pool_finite : Forall (fun v : b64 => is_finite v = true) (entries pooled_doubles).
  Proof.
    unfold entries, pooled_doubles. cbn [adata]. apply concat_Forall, concat_Forall. unfold S2. rewrite map_map. apply Forall_map.
    apply Forall_impl with (2 := H). intros s (_ & _ & _ & Fs). destruct s as [ns d [v|c rows]]; unfold entries in Fs; cbn in *.
    - apply Forall_map. apply Forall_impl with (2 := Fs). auto.
    - apply Forall_forall. intros r Hr. rewrite Forall_forall in *. intros w Hw. apply Fs. apply in_concat. eauto.
  Qed.
End Pool.

(** ** The statistic *)

Lemma pair_sizes (ss : list (array R)) d : forall i j, (i < j < length ss)%nat -> (shape0 (nth i ss d) + shape0 (nth j ss d) <= total ss)%nat.
Proof.
  induction ss as [|s l IH]; intros i j H; [cbn in H; lia|]. change (total (s :: l)) with (shape0 s + total l)%nat. cbn [length] in H.
  destruct j as [|j]; [lia|]. destruct i as [|i]; cbn [nth].
  - pose proof (off_le l d j ltac:(lia)). lia.
  - specialize (IH i j ltac:(lia)). lia.
Qed.
Lemma count_samples (ss : list (array R)) : Forall (fun s => 1 <= shape0 s)%nat ss -> (length ss <= total ss)%nat.
Proof. induction 1 as [|s l Hs _ IH]; [cbn; lia|]. change (total (s :: l)) with (shape0 s + total l)%nat. cbn [length]. lia. Qed.
Lemma pairs_length k : (length (sample_pairs k) <= k * k)%nat.
Proof.
  unfold sample_pairs. assert (H : forall l : list nat, (length (concat (map (fun i => map (fun j => (i, j)) (seq (i + 1) (k - (i + 1)))) l)) <= length l * k)%nat).
  { induction l as [|i l IH]; cbn; [lia|]. rewrite app_length, map_length, seq_length. lia. }
  specialize (H (seq 0 k)). rewrite seq_length in H. exact H.
Qed.

Section Statistic.
  Context (lib : flib) (E : Env b64) (HE : valid_fenv lib E).
  Let EN : e_num E = B64Num lib := vf_num _ _ HE.
  Let GL : good_lib lib := vf_lib _ _ HE.
  Context (es : estimation_like) (st : estimation_stat) (Hes : to_estimation es = Ok st).
  Context (ss : list (array R)) (p : nat) (D : R) (Hk : (2 <= length ss)%nat) (Hmin : Forall (fun s => least st <= shape0 s)%nat ss).
  Let N := total ss.
  Context (N18 : (Z.of_nat N <= 2 ^ 18)%Z) (P30 : (Z.of_nat p <= 2 ^ 30)%Z) (BD : / 2 ^ 100 <= D <= 2 ^ 200).
  Context (F : nat -> nat -> b64) (a : nat -> nat -> R) (A : forall i j, (i < N)%nat -> (j < N)%nat -> apx (4 + p) D (F i j) (a i j)).

  Definition pair_exact (i j : nat) : R :=
    let n := shape0 (sample ss i) in let m := shape0 (sample ss j) in let oi := off ss i in let oj := off ss j in
    INR n * INR m / (INR n + INR m) *
      (2 * (rsum2 n m (fun r s => a (oi + r) (oj + s))%nat / (INR n * INR m)) - within_mean st n (fun r s => a (oi + r) (oi + s))%nat
       - within_mean st m (fun r s => a (oj + r) (oj + s))%nat).

  Lemma sizes_pos i : (i < length ss)%nat -> (least st <= shape0 (sample ss i))%nat.
  Proof. intros Hi. rewrite Forall_forall in Hmin. apply Hmin, nth_In, Hi. Qed.
  Lemma least_1 : (1 <= least st)%nat. Proof. destruct st; cbn; lia. Qed.
  Lemma sample_count : (length ss <= N)%nat.
  Proof. apply count_samples. apply Forall_impl with (2 := Hmin). intros s. pose proof least_1. lia. Qed.
  Lemma N_bounds : 2 <= INR N <= 2 ^ 18.
  Proof.
    split; [|apply small_INR; exact N18]. replace 2 with (INR 2) by reflexivity. apply le_INR. pose proof sample_count. lia.
  Qed.
  Lemma stat_few : few (p + 2 * (N * N) + 14).
  Proof. unfold few. apply small_INR. change (Z.of_nat 40) with 40%Z. nia. Qed.
  Lemma pair_low : lowM (INR N * D) /\ INR N * D <= 2 ^ 218.
  Proof.
    pose proof N_bounds as HN. assert (P0 : 0 < / 2 ^ 100) by (apply Rinv_0_lt_compat, pow_lt; lra). split.
    - apply low_of. apply Rle_trans with (1 * D); [lra|]. apply Rmult_le_compat_r; lra.
    - replace 218%nat with (18 + 200)%nat by reflexivity. rewrite pow_add. apply Rmult_le_compat; lra.
  Qed.

  Lemma coefficient_apx n m : (1 <= n)%nat -> (1 <= m)%nat -> (n + m <= N)%nat -> exists c, energy_coefficient E n m = Ok c /\
    apx 3 (INR n * INR m / (INR n + INR m)) c (INR n * INR m / (INR n + INR m)).
  Proof.
    intros Hn Hm HN. unfold energy_coefficient. cbv zeta. destruct (Z.eqb_spec (Z.of_nat n + Z.of_nat m) 0); [lia|]. eexists. split; [reflexivity|].
    rewrite EN. cbn [ndiv nofZ B64Num]. change 3%nat with (3 + 0)%nat.
    assert (n1 : 1 <= INR n) by (replace 1 with (INR 1) by reflexivity; apply le_INR; auto).
    assert (m1 : 1 <= INR m) by (replace 1 with (INR 1) by reflexivity; apply le_INR; auto).
    assert (nb : INR n <= 2 ^ 18) by (apply small_INR; change (Z.of_nat 18) with 18%Z; lia). assert (mb : INR m <= 2 ^ 18) by (apply small_INR; change (Z.of_nat 18) with 18%Z; lia).
    assert (PB : 2 ^ 18 * 2 ^ 18 <= BB) by (rewrite <- pow_add; apply pow2_le; lia).
    assert (PB2 : 2 ^ 18 + 2 ^ 18 <= BB) by (replace (2 ^ 18 + 2 ^ 18) with (2 ^ 19) by ring; apply pow2_le; lia).
    apply apx_div.
    - replace (INR n * INR m) with (IZR (Z.of_nat n * Z.of_nat m)) by (rewrite mult_IZR, <- !INR_IZR_INZ; reflexivity).
      assert (E1 : IZR (Z.abs (Z.of_nat n * Z.of_nat m)) = INR n * INR m) by (rewrite Z.abs_eq, mult_IZR, <- !INR_IZR_INZ by lia; reflexivity).
      apply apx_ofZ; [nia|rewrite Z.abs_eq by lia; apply Rle_refl| |]; rewrite mult_IZR, <- !INR_IZR_INZ; [nra|].
      apply Rle_trans with (2 := PB). apply Rmult_le_compat; lra.
    - lia.
    - rewrite plus_IZR, <- !INR_IZR_INZ. reflexivity.
    - lra.
    - apply (few_le _ _ stat_few). lia.
    - right. apply Rle_trans with (/ 2).
      + change (/ 2) with (bpow radix2 (-1)). apply bpow_le. lia.
      + apply Rmult_le_reg_r with (INR n + INR m); [lra|]. unfold Rdiv. rewrite Rmult_assoc, Rinv_l, Rmult_1_r by lra. nra.
  Qed.

  Lemma pair_apx i j : (i < j < length ss)%nat -> exists v,
    pair_statistic E (tab2 N N F) (sample_indexes (map shape0 ss)) (map shape0 ss) None es (i, j) = Ok v /\
    apx (p + N * N + 14) (INR N * D) v (pair_exact i j).
  Proof.
    intros Hij. unfold pair_statistic. rewrite sample_indexes_tab, !tab_nth by lia.
    rewrite (nth_indep (map shape0 ss) (n := i) 0%nat (shape0 none)) by (rewrite map_length; lia).
    rewrite (nth_indep (map shape0 ss) (n := j) 0%nat (shape0 none)) by (rewrite map_length; lia).
    rewrite !(map_nth shape0). fold (sample ss i) (sample ss j). unfold pair_exact.
    pose proof (off_le ss none i ltac:(lia)) as Oi. pose proof (off_le ss none j ltac:(lia)) as Oj. fold (sample ss i) in Oi. fold (sample ss j) in Oj.
    pose proof (pair_sizes ss none i j Hij) as Onm. fold (sample ss i) (sample ss j) in Onm. fold N in Oi, Oj, Onm.
    pose proof (sizes_pos i ltac:(lia)) as Hn. pose proof (sizes_pos j ltac:(lia)) as Hm. pose proof least_1 as L1.
    cbv zeta. set (n := shape0 (sample ss i)) in *. set (m := shape0 (sample ss j)) in *. set (oi := off ss i) in *. set (oj := off ss j) in *. clearbody n m oi oj.
    rewrite !submatrix_tab by auto. unfold energy_test_statistic_from_distance_matrices.
    pose proof stat_few as fw. pose proof pair_low as [PL PB]. pose proof N_bounds as HN. assert (P0 : 0 < / 2 ^ 100) by (apply Rinv_0_lt_compat, pow_lt; lra).
    destruct (matrices_apx lib GL E EN es st (4 + p) D n m (fun r s => F (oi + r) (oi + s))%nat (fun r s => F (oj + r) (oj + s))%nat
      (tab2 n m (fun r s => F (oi + r) (oj + s))%nat) (fun r s => F (oi + r) (oj + s))%nat
      (fun r s => a (oi + r) (oi + s))%nat (fun r s => a (oj + r) (oj + s))%nat (fun r s => a (oi + r) (oj + s))%nat) as (e & He & Ae); auto.
    - intros; apply A; lia.
    - intros; apply A; lia.
    - intros; apply A; lia.
    - apply low_of. lra.
    - apply Rle_trans with (2 ^ 200); [lra|apply pow2_le; lia].
    - lia.
    - lia.
    - apply (few_le _ _ fw). nia.
    - match goal with |- context [rbind (energy_distance_from_distance_matrices E ?X ?Y ?Z ?W es) _] =>
        assert (He' : energy_distance_from_distance_matrices E X Y Z W es = Ok e) by exact He; rewrite He' end.
      cbn [rbind]. destruct (coefficient_apx n m) as (c & Hc & Ac); try lia. rewrite Hc. cbn [rbind]. eexists. split; [reflexivity|]. rewrite EN. cbn [nmul B64Num].
      assert (n1 : 1 <= INR n) by (replace 1 with (INR 1) by reflexivity; apply le_INR; lia).
      assert (m1 : 1 <= INR m) by (replace 1 with (INR 1) by reflexivity; apply le_INR; lia).
      assert (nmN : INR n + INR m <= INR N) by (rewrite <- plus_INR; apply le_INR; lia).
      assert (C1 : / 2 <= INR n * INR m / (INR n + INR m)).
      { apply Rmult_le_reg_r with (INR n + INR m); [lra|]. unfold Rdiv. rewrite Rmult_assoc, Rinv_l, Rmult_1_r by lra. nra. }
      assert (C2 : INR n * INR m / (INR n + INR m) <= INR N / 4).
      { apply Rmult_le_reg_r with (INR n + INR m); [lra|]. replace (INR n * INR m / (INR n + INR m) * (INR n + INR m)) with (INR n * INR m) by (field; lra).
        apply Rle_trans with ((INR n + INR m) / 4 * (INR n + INR m)); [pose proof (Rle_0_sqr (INR n - INR m)) as Q; unfold Rsqr in Q; lra|apply Rmult_le_compat_r; lra]. }
      set (C := INR n * INR m / (INR n + INR m)) in *. clearbody C.
      assert (CD : C * (4 * D) <= INR N * D) by (apply Rle_trans with (INR N / 4 * (4 * D)); [apply Rmult_le_compat_r; lra|lra]).
      assert (BBl : 2 ^ 218 <= BB) by (apply pow2_le; lia).
      apply (apx_weaken (S (3 + (4 + p + (n * n + m * m) + 6))) _ (C * (4 * D))); [|nia|exact CD|exact PL|lra].
      apply apx_mul; auto; [apply (few_le _ _ fw); nia|lra|]. apply low_of. apply Rle_trans with (/ 2 * (4 * D)); [lra|apply Rmult_le_compat_r; lra].
  Qed.

  Lemma accumulate_apx (f : nat * nat -> res b64) (h : nat * nat -> R) l : (forall q, In q l -> exists v, f q = Ok v /\ apx (p + N * N + 14) (INR N * D) v (h q)) ->
    forall c v r, (1 <= c)%nat -> (c + length l <= N * N)%nat -> apx (p + N * N + 14 + c) (INR c * (INR N * D)) v r ->
    exists w, accumulate E f l (Some v) = Ok (Some w) /\ apx (p + N * N + 14 + (c + length l)) (INR (c + length l) * (INR N * D)) w (r + lsum (map h l)).
  Proof.
    pose proof pair_low as [PL PB]. pose proof (lowM_nonneg _ PL) as M0. set (M := INR N * D) in *.
    induction l as [|q l IH]; intros Hf c v r Hc Hl Av; cbn [accumulate length map lsum fold_right].
    - exists v. rewrite Nat.add_0_r, Rplus_0_r. auto.
    - destruct (Hf q (or_introl eq_refl)) as (u & Hu & Au). rewrite Hu. cbn [rbind]. cbn [length] in Hl.
      destruct (IH (fun q' Hq' => Hf q' (or_intror Hq')) (S c) (nadd (e_num E) v u) (r + h q)) as (w & Hw & Aw); [lia|lia| |].
      + rewrite EN. cbn [nadd B64Num]. replace (p + N * N + 14 + S c)%nat with (S (p + N * N + 14 + c)) by lia.
        rewrite S_INR, Rmult_plus_distr_r, Rmult_1_l. apply apx_add; auto; [apply (apx_k (p + N * N + 14)); auto; lia|apply (few_le _ _ stat_few); lia|].
        replace (INR c * M + M) with (INR (S c) * M) by (rewrite S_INR; ring).
        apply Rle_trans with (2 ^ 36 * 2 ^ 218); [|rewrite <- pow_add; apply pow2_le; lia].
        apply Rmult_le_compat; auto; [apply pos_INR|]. apply small_INR. change (Z.of_nat 36) with 36%Z. nia.
      + exists w. split; [exact Hw|]. replace (c + S (length l))%nat with (S c + length l)%nat by lia.
        fold (lsum (map h l)). rewrite <- Rplus_assoc. exact Aw.
  Qed.

  Lemma statistic_apx : exists v,
    energy_statistic_multivariate E (tab2 N N F) (sample_indexes (map shape0 ss)) (map shape0 ss) None es = Ok v /\
    apx (p + 2 * (N * N) + 14) (INR (length ss * length ss) * (INR N * D)) v
      (rsum2 (length ss) (length ss) (fun i j => if Nat.ltb i j then pair_exact i j else 0)).
  Proof.
    unfold energy_statistic_multivariate.
    assert (length (sample_indexes (map shape0 ss)) = length ss) as -> by (rewrite sample_indexes_tab; apply tab_length).
    pose proof (pairs_sum (length ss) (fun q => pair_exact (fst q) (snd q))) as PS. cbn [fst snd] in PS. rewrite <- PS. clear PS.
    assert (Hin : forall q, In q (sample_pairs (length ss)) -> exists v,
      pair_statistic E (tab2 N N F) (sample_indexes (map shape0 ss)) (map shape0 ss) None es q = Ok v /\ apx (p + N * N + 14) (INR N * D) v (pair_exact (fst q) (snd q))).
    { intros [i j] Hq. apply in_pairs in Hq. apply pair_apx. auto. }
    assert (H01 : In (0, 1)%nat (sample_pairs (length ss))) by (apply in_pairs; lia).
    pose proof (pairs_length (length ss)) as PLn. pose proof sample_count as SC. pose proof pair_low as [PL PB]. pose proof (lowM_nonneg _ PL) as M0.
    destruct (sample_pairs (length ss)) as [|q l]; [contradiction|]. cbn [accumulate]. cbn [length] in PLn.
    destruct (Hin q (or_introl eq_refl)) as (v & Hv & Av). rewrite Hv. cbn [rbind].
    destruct (accumulate_apx _ (fun q => pair_exact (fst q) (snd q)) l (fun q' Hq' => Hin q' (or_intror Hq')) 1 v (pair_exact (fst q) (snd q))) as (w & Hw & Aw); [lia|nia| |].
    - cbn [INR]. rewrite Rmult_1_l. apply (apx_k (p + N * N + 14)); auto. lia.
    - rewrite Hw. cbn [rbind of_option]. exists w. split; [reflexivity|]. cbn [map lsum fold_right].
      apply (apx_weaken (p + N * N + 14 + (1 + length l)) _ (INR (1 + length l) * (INR N * D))); [exact Aw|nia| | |].
      + apply Rmult_le_compat_r; auto. apply le_INR. lia.
      + apply lowM_mul; auto. replace 1 with (INR 1) by reflexivity. apply le_INR. nia.
      + apply Rle_trans with (2 ^ 36 * 2 ^ 218); [|rewrite <- pow_add; apply pow2_le; lia].
        apply Rmult_le_compat; auto; [apply pos_INR|]. apply small_INR. change (Z.of_nat 36) with 36%Z. nia.
  Qed.
End Statistic.

(** ** The test *)

Lemma nth_shape (samples : list (array R)) d i : (i < length samples)%nat -> shape0 (nth i samples d) = nth i (map shape0 samples) 0%nat.
Proof. intros Hi. rewrite (nth_indep _ 0%nat (shape0 d)) by (rewrite map_length; auto). rewrite map_nth. reflexivity. Qed.

Lemma within_mean_ext st n a b : (forall i j, (i < n)%nat -> (j < n)%nat -> a i j = b i j) -> within_mean st n a = within_mean st n b.
Proof.
  intros H. destruct st; cbn [within_mean]; unfold upper_mean; f_equal; apply rsum2_ext; intros i j Hi Hj; [destruct (Nat.ltb i j); auto|auto].
Qed.

(** The exact statistic of samples [rs] whose pooled observations are those of [ss] in the order [q]. *)
Lemma energy_statistic_pooled st p q ss rs a : map shape0 rs = map shape0 ss ->
  (forall i k, (i < total ss)%nat -> (k < p)%nat -> pooled rs i k = pooled ss (nth i q 0%nat) k) ->
  (forall i j, (i < total ss)%nat -> (j < total ss)%nat -> a i j = dist p (pooled ss (nth i q 0%nat)) (pooled ss (nth j q 0%nat))) ->
  energy_statistic st p rs = rsum2 (length ss) (length ss) (fun i j => if Nat.ltb i j then pair_exact st ss a i j else 0).
Proof.
  intros R1 R3 Ha.
  assert (L : length rs = length ss) by (rewrite <- (map_length shape0 rs), R1, map_length; reflexivity).
  assert (Sh : forall i, (i < length ss)%nat -> shape0 (sample rs i) = shape0 (sample ss i)).
  { intros i Hi. unfold sample. rewrite !nth_shape, R1 by (auto; lia). reflexivity. }
  assert (Of : forall i, off rs i = off ss i).
  { intros i. unfold off, total. rewrite <- !firstn_map, R1. reflexivity. }
  assert (Bd : forall i r, (i < length ss)%nat -> (r < shape0 (sample ss i))%nat -> (off ss i + r < total ss)%nat).
  { intros i r Hi Hr. pose proof (off_le ss none i Hi) as O. fold (sample ss i) in O. lia. }
  assert (Ob : forall i r k, (i < length ss)%nat -> (r < shape0 (sample ss i))%nat -> (k < p)%nat -> obs (sample rs i) r k = pooled ss (nth (off ss i + r) q 0%nat) k).
  { intros i r k Hi Hr Hk. unfold sample. rewrite <- (pooled_off rs none i r k) by (try lia; fold (sample rs i); rewrite Sh; auto). rewrite Of. apply R3; auto. }
  unfold energy_statistic. cbv zeta. rewrite L. apply rsum2_ext. intros i j Hi Hj. destruct (Nat.ltb i j); [|reflexivity].
  unfold pair_exact. cbv zeta. rewrite !Sh by auto. f_equal.
  assert (D : forall i' j' r s, (i' < length ss)%nat -> (j' < length ss)%nat -> (r < shape0 (sample ss i'))%nat -> (s < shape0 (sample ss j'))%nat ->
    a (off ss i' + r)%nat (off ss j' + s)%nat = rpow (dist p (obs (sample rs i') r) (obs (sample rs j') s)) 1).
  { intros. rewrite rpow_1 by apply dist_nonneg. rewrite Ha by auto. symmetry. apply SpecFacts.dist_ext; intros; apply Ob; auto. }
  rewrite (rsum2_ext _ _ _ (fun r s => rpow (dist p (obs (sample rs i) r) (obs (sample rs j) s)) 1)) by (intros; apply D; auto).
  rewrite (within_mean_ext st (shape0 (sample ss i)) _ (fun r s => rpow (dist p (obs (sample rs i) r) (obs (sample rs i) s)) 1)) by (intros; apply D; auto).
  rewrite (within_mean_ext st (shape0 (sample ss j)) _ (fun r s => rpow (dist p (obs (sample rs j) r) (obs (sample rs j) s)) 1)) by (intros; apply D; auto).
  unfold exact_energy, energy, uenergy, within_mean, dmat. destruct st; reflexivity.
Qed.

Lemma gam_test k N p D : few (p + 2 * (N * N) + 14) -> 0 <= D -> gam (p + 2 * (N * N) + 14) * (INR (k * k) * (INR N * D)) <= energy_test_error k N p D.
Proof.
  intros fw D0. pose proof (gam_lin (p + 2 * (N * N) + 14)) as H. unfold few in fw.
  set (K := INR (p + 2 * (N * N) + 14)) in *.
  assert (HK : K = 2 * INR N ^ 2 + INR p + 14).
  { unfold K. repeat (rewrite ?plus_INR, ?mult_INR). cbn [INR]. ring. }
  assert (H1 : K * ulp1 <= / 2).
  { apply Rle_trans with (2 ^ 40 * ulp1); [apply Rmult_le_compat_r; auto; pose proof ulp1_pos; lra|unfold ulp1; lra]. }
  specialize (H H1). rewrite mult_INR. set (M := INR k * INR k * (INR N * D)).
  assert (M0 : 0 <= M) by (unfold M; repeat apply Rmult_le_pos; auto using pos_INR).
  apply Rle_trans with (2 * K * ulp1 * M); [apply Rmult_le_compat_r; auto|].
  replace (energy_test_error k N p D) with ((K + 6) * M / 2 ^ 52) by (unfold energy_test_error, M; rewrite HK; field).
  unfold ulp1. apply Rle_trans with (K * M / 2 ^ 52); [apply Req_le; field|]. unfold Rdiv. apply Rmult_le_compat_r; [lra|]. apply Rmult_le_compat_r; lra.
Qed.

(** The energy test: the statistic is close to the exact one, and the p-value is the double nearest to the exact p-value,
    unless a drawn permutation moves the exact statistic by less than twice the error bound. *)
Theorem C63_energy_test {S} lib E (G : Rng S) p st es samples D b rs :
  valid_fenv lib E -> permuting G -> double_group p st samples -> to_estimation es = Ok st ->
  let ss := map freals samples in
  let n := total ss in
  (Z.of_nat n <= 2 ^ 18)%Z -> (Z.of_nat p <= 2 ^ 30)%Z -> / 2 ^ 100 <= D <= 2 ^ 200 -> (Z.of_nat b + 1 <= 2 ^ 53)%Z ->
  (forall i j k, (i < n)%nat -> (j < n)%nat -> (k < p)%nat -> pooled ss i k = pooled ss j k \/ / 2 ^ 100 <= Rabs (pooled ss i k - pooled ss j k) <= 2 ^ 100) ->
  (forall i j, (i < n)%nat -> (j < n)%nat -> dist p (pooled ss i) (pooled ss j) <= D) ->
  let d := draw_permutations G b n (random_state_init G rs) in
  let exact q := energy_statistic st p (regroup p q ss) in
  let err := energy_test_error (length samples) n p D in
  exists t, outcome (energy_test E G samples (Z.of_nat b) (b64_ofZ 1) rs None es) = Ok (t, snd d) /\
    is_finite (statistic t) = true /\ Rabs (B2R (statistic t) - energy_statistic st p ss) <= err /\
    ((forall q, In q (fst d) -> q = seq 0 n \/ 2 * err < Rabs (exact q - energy_statistic st p ss)) ->
      is_finite (pvalue t) = true /\ B2R (pvalue t) = b64_round (p_value (energy_statistic st p ss) (map exact (fst d)))).
Proof.
  intros HE HG [Hk Hs] Hst ss n N18 P30 BD Hb SP HD d exact err. pose proof HE as [EN GL _ _ _].
  assert (Hs' : Forall (fun s : array b64 => wf s /\ ncols s = p /\ adt s = F64 /\ Forall (fun v => is_finite v = true) (entries s)) samples).
  { apply Forall_impl with (2 := Hs). intros s (? & ? & ? & ? & ?). auto. }
  assert (Hne : samples <> []) by (intros ->; cbn in Hk; lia).
  pose proof (group_wf p samples Hs') as Hw. fold ss in Hw.
  assert (Lss : length ss = length samples) by apply map_length.
  assert (Hmin : Forall (fun s => (least st <= shape0 s)%nat) ss).
  { unfold ss. apply Forall_map. apply Forall_impl with (2 := Hs). intros s (? & ? & ? & ? & ?). rewrite freals_shape0. auto. }
  set (w := pooled_doubles p samples). destruct (pool_wf p samples Hs') as (Ww & Lw & Cw). fold w in Ww, Lw, Cw. fold ss n in Lw.
  assert (OB : forall i k, (i < n)%nat -> (k < p)%nat -> obs (freals w) i k = pooled ss i k) by (intros; apply (pool_obs p samples Hs'); auto).
  assert (DI : forall i j, (i < n)%nat -> (j < n)%nat -> distances 1 (freals w) i j = dist p (pooled ss i) (pooled ss j)).
  { intros i j Hi Hj. unfold distances, dmat. rewrite rpow_1 by apply dist_nonneg. rewrite freals_ncols, Cw. apply SpecFacts.dist_ext; auto. }
  destruct (within_matrix lib E HE n w D) as [PW AW]; auto.
  { apply (pool_finite p samples Hs'). }
  { intros i j k Hi Hj Hkk. rewrite Cw in Hkk. rewrite !OB by auto. apply SP; auto. }
  { intros. rewrite DI by auto. auto. }
  rewrite Cw in AW.
  assert (Hid : is_perm n (seq 0 n)) by (unfold is_perm; auto).
  assert (ES : forall q, is_perm n q -> exists v,
    energy_statistic_multivariate E (tab2 n n (fun i j => fdists E w (nth i q 0%nat) (nth j q 0%nat))) (sample_indexes (map shape0 ss)) (map shape0 ss) None es = Ok v /\
    is_finite v = true /\ Rabs (B2R v - exact q) <= err).
  { intros q Hq. pose proof (is_perm_length _ _ Hq) as Lq.
    assert (Bq : forall i, (i < n)%nat -> (nth i q 0 < n)%nat) by (intros; apply is_perm_lt; auto).
    destruct (statistic_apx lib E HE es st Hst ss p D ltac:(lia) Hmin N18 P30 BD (fun i j => fdists E w (nth i q 0%nat) (nth j q 0%nat))
      (fun i j => distances 1 (freals w) (nth i q 0%nat) (nth j q 0%nat))) as (v & Hv & Av).
    { intros i j Hi Hj. apply AW; apply Bq; auto. }
    exists v. split; [exact Hv|]. destruct Av as ((Fv & Ev & _) & _). split; [exact Fv|].
    destruct (regroup_props p q ss Hw Hq) as (R1 & R2 & R3).
    unfold exact. rewrite (energy_statistic_pooled st p q ss (regroup p q ss) (fun i j => distances 1 (freals w) (nth i q 0%nat) (nth j q 0%nat)) R1 R3)
      by (intros; apply DI; apply Bq; auto).
    apply Rle_trans with (1 := Ev). unfold err. rewrite <- Lss. fold n. apply gam_test; [|assert (0 < / 2 ^ 100) by (apply Rinv_0_lt_compat, pow_lt; lra); lra].
    eapply stat_few; eauto; lia. }
  assert (X0 : exact (seq 0 n) = energy_statistic st p ss).
  { unfold exact. destruct (regroup_props p (seq 0 n) ss Hw Hid) as (R1 & R2 & R3).
    rewrite (energy_statistic_pooled st p (seq 0 n) ss (regroup p (seq 0 n) ss) (fun i j => distances 1 (freals w) i j) R1 R3)
      by (intros; rewrite !seq_nth by auto; apply DI; auto).
    symmetry. apply (energy_statistic_pooled st p (seq 0 n)); auto; intros; rewrite !seq_nth by auto; [reflexivity|apply DI; auto]. }
  set (V := fun q => match energy_statistic_multivariate E (tab2 n n (fun i j => fdists E w (nth i q 0%nat) (nth j q 0%nat))) (sample_indexes (map shape0 ss)) (map shape0 ss) None es with
    Ok v => v | Err _ => b64_ofZ 0 end).
  destruct (gap_test lib G n (fdists E w) (fun m => energy_statistic_multivariate E m (sample_indexes (map shape0 ss)) (map shape0 ss) None es) V exact err b rs HG Hb) as (t & Ht & Ft & At & Pt).
  - intros q Hq. destruct (ES q Hq) as (v & Hv & _). unfold V. rewrite Hv. reflexivity.
  - intros q Hq. destruct (ES q Hq) as (v & Hv & Fv & Ev). unfold V. rewrite Hv. auto.
  - exists t. rewrite X0 in *. split; [|split; [exact Ft|split; [exact At|exact Pt]]].
    fold d in Ht. rewrite <- Ht. unfold energy_test. cbv zeta. rewrite outcome_bind, (energy_exponent_F E). rewrite outcome_bind. cbn [outcome lift snd].
    rewrite (pool_doubles p samples Hne Hs'). cbn [fst snd].
    assert (map (fun s => length (snd s)) (map (fun a : array b64 => transform_to_2d (adata a)) samples) = map shape0 ss) as ->.
    { unfold ss. rewrite freals_sizes, map_map. apply map_ext. intros s. destruct s as [ns dt [v|c r]]; cbn; [apply map_length|reflexivity]. }
    set (w' := mkArr _ _ _). assert (w' = w) as ->.
    { unfold w', w, pooled_doubles, pool_ns. destruct samples as [|s l]; [congruence|]. inversion Hs' as [|? ? (_ & _ & Fs & _) _]. rewrite Fs. reflexivity. }
    rewrite outcome_bind. cbn [outcome lift snd]. rewrite PW. rewrite EN. reflexivity.
Qed.

(** Three samples of sizes 2, 1 and 1, and the permutation that reverses the pooled sample: (0, 1), (10), (3) becomes (3, 10), (1), (0). *)
Definition g3 : list (array b64) := [ints [0; 1]%Z; ints [10]%Z; ints [3]%Z].
Definition r3 : list (array R) := [mkArr Numpy F64 (Vec [0; 1]); mkArr Numpy F64 (Vec [10]); mkArr Numpy F64 (Vec [3])].
Lemma g3_r3 : map freals g3 = r3.
Proof.
  unfold g3, r3. cbn [map]. rewrite !ints_freals by (repeat constructor; cbn; lia). reflexivity.
Qed.
Lemma g3_group : double_group 1 VStatistic g3.
Proof.
  assert (F : forall l, Forall (fun z => (Z.abs z <= 2 ^ 53)%Z) l -> Forall (fun v : b64 => is_finite v = true) (map b64_ofZ l)).
  { intros l H. induction H as [|z l Hz H IH]; cbn [map]; constructor; auto. apply (rep_ofZ z Hz). }
  split; [cbn; lia|]. unfold g3.
  assert (X : forall l, Forall (fun z => (Z.abs z <= 2 ^ 53)%Z) l -> (1 <= length l)%nat ->
    let s := ints l in wf s /\ ncols s = 1%nat /\ adt s = F64 /\ (least VStatistic <= shape0 s)%nat /\ Forall (fun v => is_finite v = true) (entries s)).
  { intros l Hl Hn s. split; [exact I|]. split; [reflexivity|]. split; [reflexivity|]. split; [cbn [least]; unfold s, shape0, ints; cbn [adata]; rewrite map_length; exact Hn|].
    exact (F l Hl). }
  repeat constructor; apply X; repeat constructor; cbn; lia.
Qed.
Lemma g3_values i : (i < 4)%nat -> exists z, pooled r3 i 0 = IZR z /\ (0 <= z <= 10)%Z.
Proof.
  intros Hi. destruct i as [|[|[|[|i]]]]; [exists 0%Z|exists 1%Z|exists 10%Z|exists 3%Z|lia]; (split; [reflexivity|lia]).
Qed.
Lemma g3_exact : energy_statistic VStatistic 1 r3 = 67 / 3 /\ energy_statistic VStatistic 1 (regroup 1 (rev (seq 0 4)) r3) = 37 / 3.
Proof.
  split; unfold energy_statistic, exact_energy, energy, rsum2; cbn -[Rabs dist]; rewrite !rpow_1 by apply dist_nonneg; rewrite !dist_1; cbn -[Rabs];
  repeat first [rewrite Rabs_pos_eq by lra | rewrite Rabs_left by lra]; lra.
Qed.

Example C63_meets : exists t, outcome (energy_test env_F reversing g3 1 (b64_ofZ 1) (RSeed 0) None (EstEnum VStatistic)) = Ok (t, tt) /\
  is_finite (statistic t) = true /\ Rabs (B2R (statistic t) - 67 / 3) <= energy_test_error 3 4 1 10 /\ energy_test_error 3 4 1 10 <= / 10 ^ 10 /\
  B2R (pvalue t) = 1 / 2.
Proof.
  destruct g3_exact as [X1 X2].
  assert (P : 1 <= 2 ^ 100) by (apply pow_R1_Rle; lra).
  assert (P' : / 2 ^ 100 <= 1) by (rewrite <- Rinv_1; apply Rinv_le_contravar; [lra|exact P]).
  assert (P5 : 10 <= 2 ^ 100) by (apply Rle_trans with (2 ^ 4); [lra|apply Rle_pow; [lra|lia]]).
  assert (P6 : 10 <= 2 ^ 200) by (apply Rle_trans with (2 ^ 4); [lra|apply Rle_pow; [lra|lia]]).
  assert (TE : energy_test_error 3 4 1 10 <= / 10 ^ 10) by (unfold energy_test_error; cbn [INR]; lra).
  pose proof (C63_energy_test plain env_F reversing 1 VStatistic (EstEnum VStatistic) g3 10 1 (RSeed 0) env_F_valid reversing_permuting g3_group eq_refl) as T.
  cbv zeta in T. rewrite g3_r3 in T. change (total r3) with 4%nat in T. change (length g3) with 3%nat in T. rewrite X1 in T.
  destruct T as (t & T1 & T2 & T3 & T4).
  - lia.
  - lia.
  - lra.
  - lia.
  - intros i j k Hi Hj Hk. assert (k = 0%nat) as -> by lia. destruct (g3_values i Hi) as (u & -> & Hu). destruct (g3_values j Hj) as (v & -> & Hv).
    destruct (Z.eq_dec u v) as [->|Ne]; [left; reflexivity|right]. rewrite <- minus_IZR, <- abs_IZR.
    assert (H1 : 1 <= IZR (Z.abs (u - v))) by (apply (IZR_le 1); lia).
    assert (H2 : IZR (Z.abs (u - v)) <= 10) by (apply (IZR_le _ 10); lia). lra.
  - intros i j Hi Hj. rewrite dist_1. destruct (g3_values i Hi) as (u & -> & Hu). destruct (g3_values j Hj) as (v & -> & Hv).
    rewrite <- minus_IZR, <- abs_IZR. apply (IZR_le _ 10); lia.
  - exists t. split; [exact T1|]. split; [exact T2|]. split; [exact T3|]. split; [exact TE|].
    destruct T4 as [_ T4].
    + intros q [<-|[]]. right. rewrite X2. replace (37 / 3 - 67 / 3) with (-10) by lra. rewrite Rabs_left by lra. lra.
    + rewrite T4. change (fst (draw_permutations reversing 1 4 (random_state_init reversing (RSeed 0)))) with [rev (seq 0 4)]. cbn [map]. rewrite X2.
      assert (p_value (67 / 3) [37 / 3] = 1 / 2) as ->.
      { unfold p_value. cbn [filter length INR]. destruct (Rlt_dec (67 / 3) (37 / 3)); [lra|]. cbn. lra. }
      change (1 / 2) with (1 * bpow radix2 (-1)). rewrite Rmult_1_l. apply round_generic; [apply valid_rnd_N|]. apply generic_format_bpow. cbn. unfold FLT_exp. lia.
Qed.

(** With ties the p-value can be another one. Reversing the pooled sample of (0, 0, 1) and (0, 1, 3) exchanges the two samples: the exact statistic
    stays 1 and the exact p-value is 1/2, but the computed statistic grows in the last place and the computed p-value is 1. *)
Definition g2 : list (array b64) := [ints [0; 0; 1]%Z; ints [0; 1; 3]%Z].
Definition r2 : list (array R) := [mkArr Numpy F64 (Vec [0; 0; 1]); mkArr Numpy F64 (Vec [0; 1; 3])].
Lemma g2_r2 : map freals g2 = r2.
Proof. unfold g2, r2. cbn [map]. rewrite !ints_freals by (repeat constructor; cbn; lia). reflexivity. Qed.
Lemma g2_exact : energy_statistic VStatistic 1 r2 = 1 /\ energy_statistic VStatistic 1 (regroup 1 (rev (seq 0 6)) r2) = 1.
Proof.
  split; unfold energy_statistic, exact_energy, energy, rsum2; cbn -[Rabs dist]; rewrite !rpow_1 by apply dist_nonneg; rewrite !dist_1; cbn -[Rabs];
  repeat first [rewrite Rabs_pos_eq by lra | rewrite Rabs_left by lra]; lra.
Qed.
Theorem C63_ties_refuted : exists t, outcome (energy_test env_F reversing g2 1 (b64_ofZ 1) (RSeed 0) None (EstEnum VStatistic)) = Ok (t, tt) /\
  is_finite (pvalue t) = true /\ B2R (pvalue t) = 1 /\
  p_value (energy_statistic VStatistic 1 (map freals g2))
    (map (fun q => energy_statistic VStatistic 1 (regroup 1 q (map freals g2))) (fst (draw_permutations reversing 1 6 (random_state_init reversing (RSeed 0))))) = 1 / 2.
Proof.
  assert (V : sf_pvalue (outcome (energy_test env_F reversing g2 1 (b64_ofZ 1) (RSeed 0) None (EstEnum VStatistic))) = Ok (SpecFloat.S754_finite false 4503599627370496 (-52))) by (vm_compute; reflexivity).
  destruct (outcome (energy_test env_F reversing g2 1 (b64_ofZ 1) (RSeed 0) None (EstEnum VStatistic))) as [[t []]|] eqn:H; [|discriminate]. cbn in V. injection V as V.
  exists t. split; [reflexivity|]. split; [rewrite <- is_finite_SF_B2SF, V; reflexivity|]. split.
  - rewrite (B2SF_real _ _ _ _ V). unfold F2R. cbn [Fnum Fexp cond_Zopp]. change (bpow radix2 (-52)) with (/ 4503599627370496). lra.
  - rewrite g2_r2. change (fst (draw_permutations reversing 1 6 (random_state_init reversing (RSeed 0)))) with [rev (seq 0 6)]. cbn [map].
    destruct g2_exact as [-> ->]. unfold p_value. cbn [filter length INR]. destruct (Rlt_dec 1 1); [lra|]. cbn. lra.
Qed.
