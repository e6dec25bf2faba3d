(** C87, the energy test: changing the unit of measurement by a power of two, in double precision.

    [rescaled]: PFloatScale.v. [double_group]: PFloatEnergyTest.v. [total], [pooled]: the pooled sample, RefHomogeneity.v. *)
From Coq Require Import Reals Lra Lia List Arith Bool ZArith Psatz.
From Flocq Require Import Core IEEE754.BinarySingleNaN.
From Verif Require Import Num Numpy MUtils MDistances MInternals MDcor MEnergy MHypothesis MHomogeneity MFloat Sums Spec Centering Tab Samples Api RefDist RefCenter
  RefEnergy RefTests RefHomogeneity MInteger RefInteger RefFloat FloatAvl FloatApi FloatSum FloatError FloatAccuracy FloatNaive FloatAvlErr FloatAvlForm FloatCenter
  FloatEnergy FloatEnv FloatCorr EnergyMath PFloat PNaiveFloat PTests Witness PEnergy PFloatCorr PFloatTests PFloatEnergy PFloatEnergyTest
  FloatScale PFloatScale PFloatScaleTest PFloatScaleEnergy.
Import List ListNotations.
Local Open Scope R_scope.
Local Notation p2 := (bpow radix2).

(** ** The pooled sample *)

Lemma least_pos st : (1 <= least st)%nat.
Proof. destruct st; cbn; lia. Qed.

Lemma fobs_entries x : wf x -> (forall i j, (i < shape0 x)%nat -> (j < ncols x)%nat -> is_finite (fobs x i j) = true) ->
  Forall (fun v : b64 => is_finite v = true) (entries x).
Proof.
  destruct x as [s d [v|c rows]]; unfold wf, shape0, ncols, fobs, entries; cbn; intros W H; apply Forall_forall; intros u Hu.
  - destruct (In_nth _ _ (B754_zero false) Hu) as (i & Hi & <-). apply (H i 0%nat); auto.
  - apply in_concat in Hu as (r & Hr & Hu). destruct (In_nth _ _ [] Hr) as (i & Hi & <-). destruct (In_nth _ _ (B754_zero false) Hu) as (j & Hj & <-).
    apply H; auto. rewrite Forall_forall in W. rewrite <- (W _ Hr). exact Hj.
Qed.

Lemma group_rescaled p st k l l' : double_group p st l -> Forall2 (rescaled k) l l' -> double_group p st l'.
Proof.
  intros [H1 H2] H. split; [rewrite <- (Forall2_len _ _ _ H); exact H1|]. clear H1.
  induction H as [|x x' l l' (_ & D & W & S & C & F) H IH]; [constructor|]. inversion H2 as [|? ? (_ & Cx & _ & Lx & _) Hl]; subst. constructor; [|apply IH; exact Hl].
  split; [exact W|]. split; [exact C|]. split; [exact D|]. split; [rewrite S; exact Lx|]. apply fobs_entries; auto.
  intros i j Hi Hj. rewrite S in Hi. rewrite C in Hj. apply F; auto.
Qed.
Lemma rescaled_sizes k l l' : Forall2 (rescaled k) l l' -> map shape0 (map freals l') = map shape0 (map freals l).
Proof. rewrite !freals_sizes. induction 1 as [|x x' l l' (_ & _ & _ & S & _) H IH]; cbn [map]; auto. rewrite S, IH. reflexivity. Qed.
Lemma rescaled_pooled p k l l' : Forall2 (rescaled k) l l' -> Forall (fun x : array b64 => ncols x = p) l -> forall i j, (i < total (map freals l))%nat -> (j < p)%nat ->
  pooled (map freals l') i j = powerRZ 2 k * pooled (map freals l) i j.
Proof.
  induction 1 as [|x x' l l' (_ & _ & _ & S & C & F) H IH]; intros Hp i j Hi Hj; [cbn in Hi; lia|].
  inversion Hp as [|? ? Cx Hl]; subst. cbn [map pooled]. rewrite !freals_shape0, S. change (total (map freals (x :: l))) with (shape0 (freals x) + total (map freals l))%nat in Hi.
  rewrite freals_shape0 in Hi. destruct (Nat.ltb_spec i (shape0 x)); [apply F; auto|]. apply IH; auto. lia.
Qed.

Definition plain_group (p : nat) (samples : list (array b64)) : Prop :=
  Forall (fun s : array b64 => wf s /\ ncols s = p /\ adt s = F64 /\ Forall (fun v => is_finite v = true) (entries s)) samples.
Lemma group_plain p st l : double_group p st l -> plain_group p l.
Proof. intros [_ H]. apply Forall_impl with (2 := H). intros s (? & ? & ? & ? & ?). auto. Qed.

Section Pooled.
  Context (p : nat) (st : estimation_stat) (k : Z) (l l' : list (array b64)) (Hg : double_group p st l) (R : Forall2 (rescaled k) l l').
  Let n := total (map freals l).
  Context (N18 : (Z.of_nat n <= 2 ^ 18)%Z) (P30 : (Z.of_nat p <= 2 ^ 30)%Z).
  Context (SP : forall i j c, (i < n)%nat -> (j < n)%nat -> (c < p)%nat -> pooled (map freals l) i c = pooled (map freals l) j c \/
    / 2 ^ 40 <= Rabs (pooled (map freals l) i c - pooled (map freals l) j c) <= 2 ^ 40).

  Lemma total_rescaled : total (map freals l') = n.
  Proof. unfold n, total. rewrite (rescaled_sizes k l l' R). reflexivity. Qed.
  Lemma pool_ordinary : ordinary n (pooled_doubles p l).
  Proof.
    pose proof (group_plain _ _ _ Hg) as Hp. destruct (pool_wf p l Hp) as (W & L & C). fold n in L.
    split; [exact W|]. split; [exact L|]. split.
    - destruct Hg as [H2 Hs]. unfold n. destruct l as [|s r]; [cbn in H2; lia|]. inversion Hs as [|? ? (_ & _ & _ & Ls & _) _]; subst.
      change (total (map freals (s :: r))) with (shape0 (freals s) + total (map freals r))%nat. rewrite freals_shape0. pose proof (least_pos st). lia.
    - split; [exact N18|]. split; [rewrite C; exact P30|]. split; [reflexivity|]. split; [apply (pool_finite p l Hp)|].
      intros i j c Hi Hj Hc. rewrite C in Hc. rewrite !(pool_obs p l Hp) by auto. apply SP; auto.
  Qed.
  Lemma pool_rescaled : rescaled k (pooled_doubles p l) (pooled_doubles p l').
  Proof.
    pose proof (group_plain _ _ _ Hg) as Hp. pose proof (group_plain _ _ _ (group_rescaled p st k l l' Hg R)) as Hp'.
    destruct (pool_wf p l Hp) as (W & L & C). destruct (pool_wf p l' Hp') as (W' & L' & C'). rewrite total_rescaled in L'. fold n in L.
    split; [|split; [reflexivity|split; [exact W'|split; [congruence|split; [congruence|]]]]].
    - cbn [ans pooled_doubles]. unfold pool_ns. destruct R as [|x x' r r' (A & _) _]; auto.
    - intros i j Hi Hj. rewrite L in Hi. rewrite C in Hj. split.
      + apply (entries_fin n (pooled_doubles p l')); auto. apply (pool_finite p l' Hp').
      + rewrite (pool_obs p l' Hp') by (try rewrite total_rescaled; auto). rewrite (pool_obs p l Hp) by auto. apply (rescaled_pooled p k l l' R); auto.
        apply Forall_impl with (2 := Hp). intros s (_ & ? & _). auto.
  Qed.
End Pooled.

(** ** The statistic *)

Section ScaleStatistic.
  Context (lib : flib) (E : Env b64) (HE : valid_fenv lib E).
  Let EN : e_num E = B64Num lib := vf_num _ _ HE.
  Context (es : estimation_like) (st : estimation_stat) (Hes : to_estimation es = Ok st).
  Context (ss : list (array R)) (Hk : (2 <= length ss)%nat) (Hmin : Forall (fun s => least st <= shape0 s)%nat ss).
  Let N := total ss.
  Context (N18 : (Z.of_nat N <= 2 ^ 18)%Z) (k : Z) (K : (-40 <= k <= 40)%Z).
  Context (F F' : nat -> nat -> b64) (A : forall i j, (i < N)%nat -> (j < N)%nat -> scaled k 118 (p2 55) (F i j) (F' i j)).

  Lemma coefficient_scaled n m : (1 <= n)%nat -> (1 <= m)%nat -> (n + m <= N)%nat -> exists c, energy_coefficient E n m = Ok c /\ scaled 0 71 (p2 36) c c.
  Proof.
    intros Hn Hm HN. unfold energy_coefficient. cbv zeta. destruct (Z.eqb_spec (Z.of_nat n + Z.of_nat m) 0); [lia|]. eexists. split; [reflexivity|].
    rewrite EN. cbn [ndiv nofZ B64Num].
    assert (Hp : (1 <= Z.of_nat n * Z.of_nat m <= 2 ^ 36)%Z) by (change (2 ^ 36)%Z with (2 ^ 18 * 2 ^ 18)%Z; split; [nia|apply Z.mul_le_mono_nonneg; lia]).
    destruct (ofZ_between (Z.of_nat n + Z.of_nat m) 19 ltac:(lia) ltac:(lia) ltac:(lia)) as (F2 & B2).
    destruct (scaled_div 0 0 19 (p2 36) _ _ (b64_ofZ (Z.of_nat n + Z.of_nat m)) ltac:(unfold calm; lia)
      (scaled_const (Z.of_nat n * Z.of_nat m) 36 ltac:(lia) ltac:(lia) ltac:(lia))) as [T _]; auto; apply fm; lia.
  Qed.

  Lemma matrices_scaled n m f f' g g' h h' : (least st <= n)%nat -> (least st <= m)%nat -> (Z.of_nat n <= 2 ^ 18)%Z -> (Z.of_nat m <= 2 ^ 18)%Z ->
    (forall i j, (i < n)%nat -> (j < n)%nat -> scaled k 118 (p2 55) (f i j) (f' i j)) ->
    (forall i j, (i < m)%nat -> (j < m)%nat -> scaled k 118 (p2 55) (g i j) (g' i j)) ->
    (forall i j, (i < n)%nat -> (j < m)%nat -> scaled k 118 (p2 55) (h i j) (h' i j)) ->
    exists v v', energy_distance_from_distance_matrices E (tab2 n n f) (tab2 m m g) (tab2 n m h) None es = Ok v /\
      energy_distance_from_distance_matrices E (tab2 n n f') (tab2 m m g') (tab2 n m h') None es = Ok v' /\ scaled k 206 (p2 94) v v'.
  Proof.
    intros Hn Hm N2 M2 Hf Hg Hh. pose proof (least_pos st) as L1.
    assert (T : forall U W D, energy_distance_from_distance_matrices E U W D None es = Ok (b64_sub (b64_sub (b64_mul (b64_ofZ 2) (np_mean (B64Num lib) (concat D)))
      (np_mean (B64Num lib) (fflat st U))) (np_mean (B64Num lib) (fflat st W)))).
    { intros U W D. unfold energy_distance_from_distance_matrices. rewrite Hes. cbn [rbind]. unfold apply_average. rewrite EN. destruct st; reflexivity. }
    eexists _, _. split; [apply T|]. split; [apply T|]. apply combine_scaled; auto.
    - apply (between_scaled lib E HE); auto; lia.
    - apply (within_scaled lib E HE); auto.
    - apply (within_scaled lib E HE); auto.
  Qed.

  Definition pair_of (D : nat -> nat -> b64) : nat * nat -> res b64 := pair_statistic E (tab2 N N D) (sample_indexes (map shape0 ss)) (map shape0 ss) None es.

  Lemma pair_scaled i j : (i < j < length ss)%nat -> exists v v', pair_of F (i, j) = Ok v /\ pair_of F' (i, j) = Ok v' /\ scaled k 277 (p2 130) v v'.
  Proof.
    intros Hij. unfold pair_of, pair_statistic. rewrite sample_indexes_tab, !tab_nth by lia.
    rewrite (nth_indep (map shape0 ss) (n := i) 0%nat (shape0 none)) by (rewrite map_length; lia).
    rewrite (nth_indep (map shape0 ss) (n := j) 0%nat (shape0 none)) by (rewrite map_length; lia).
    rewrite !(map_nth shape0). fold (sample ss i) (sample ss j).
    pose proof (off_le ss none i ltac:(lia)) as Oi. pose proof (off_le ss none j ltac:(lia)) as Oj. fold (sample ss i) in Oi. fold (sample ss j) in Oj.
    pose proof (pair_sizes ss none i j Hij) as Onm. fold (sample ss i) (sample ss j) in Onm. fold N in Oi, Oj, Onm.
    pose proof (sizes_pos st ss Hmin i ltac:(lia)) as Hn. pose proof (sizes_pos st ss Hmin j ltac:(lia)) as Hm. pose proof (least_pos st) as L1.
    cbv zeta. set (n := shape0 (sample ss i)) in *. set (m := shape0 (sample ss j)) in *. set (oi := off ss i) in *. set (oj := off ss j) in *. clearbody n m oi oj.
    rewrite !submatrix_tab by auto. unfold energy_test_statistic_from_distance_matrices.
    destruct (matrices_scaled n m (fun r s => F (oi + r) (oi + s))%nat (fun r s => F' (oi + r) (oi + s))%nat (fun r s => F (oj + r) (oj + s))%nat
      (fun r s => F' (oj + r) (oj + s))%nat (fun r s => F (oi + r) (oj + s))%nat (fun r s => F' (oi + r) (oj + s))%nat) as (e & e' & He & He' & Se); auto;
      try lia; try (intros; apply A; lia).
    destruct (coefficient_scaled n m) as (c & Hc & Sc); try lia.
    eexists _, _. split; [etransitivity; [apply f_equal2 with (f := fun a b => rbind a b); [exact He|reflexivity]|cbn [rbind]; rewrite Hc; reflexivity]|].
    split; [etransitivity; [apply f_equal2 with (f := fun a b => rbind a b); [exact He'|reflexivity]|cbn [rbind]; rewrite Hc; reflexivity]|].
    rewrite EN. cbn [nmul B64Num].
    pose proof (scaled_mul 0 k 71 206 (p2 36) (p2 94) _ _ _ _ ltac:(unfold calm; lia) Sc Se) as U. rewrite <- bpow_plus in U. apply U; apply fm; lia.
  Qed.

  Lemma accumulate_scaled l : (forall q, In q l -> exists v v', pair_of F q = Ok v /\ pair_of F' q = Ok v' /\ scaled k 277 (p2 130) v v') ->
    forall c v v', (1 <= c)%nat -> (Z.of_nat (c + length l) < 2 ^ 53)%Z -> scaled k 277 (INR c * p2 130) v v' ->
    exists w w', accumulate E (pair_of F) l (Some v) = Ok (Some w) /\ accumulate E (pair_of F') l (Some v') = Ok (Some w') /\
      scaled k 277 (INR (c + length l) * p2 130) w w'.
  Proof.
    induction l as [|q l IH]; intros Hf c v v' Hc Hl S; cbn [accumulate].
    - exists v, v'. cbn [length]. rewrite Nat.add_0_r. auto.
    - destruct (Hf q (or_introl eq_refl)) as (u & u' & Hu & Hu' & Su). rewrite Hu, Hu'. cbn [rbind]. cbn [length] in *.
      destruct (IH (fun q' H' => Hf q' (or_intror H')) (Datatypes.S c) (nadd (e_num E) v u) (nadd (e_num E) v' u')) as (w & w' & H1 & H2 & H3); [lia|lia| |].
      + rewrite EN. cbn [nadd B64Num]. rewrite S_INR, Rmult_plus_distr_r, Rmult_1_l. apply scaled_add; auto; [unfold calm; lia| |].
        * replace (INR c * p2 130 + p2 130) with (INR (Datatypes.S c) * p2 130) by (rewrite S_INR; ring). apply format_count; lia.
        * replace (INR c * p2 130 + p2 130) with (INR (Datatypes.S c) * p2 130) by (rewrite S_INR; ring).
          apply Rle_trans with (p2 53 * p2 130); [|rewrite <- bpow_plus; apply p2_le; lia]. apply Rmult_le_compat_r; [apply bpow_ge_0|].
          rewrite INR_IZR_INZ. change (p2 53) with (IZR (2 ^ 53)). apply IZR_le. lia.
      + exists w, w'. split; [exact H1|]. split; [exact H2|]. replace (c + Datatypes.S (length l))%nat with (Datatypes.S c + length l)%nat by lia. exact H3.
  Qed.

  Lemma statistic_scaled : exists v v' B,
    energy_statistic_multivariate E (tab2 N N F) (sample_indexes (map shape0 ss)) (map shape0 ss) None es = Ok v /\
    energy_statistic_multivariate E (tab2 N N F') (sample_indexes (map shape0 ss)) (map shape0 ss) None es = Ok v' /\ scaled k 277 B v v'.
  Proof.
    unfold energy_statistic_multivariate. fold (pair_of F) (pair_of F').
    assert (length (sample_indexes (map shape0 ss)) = length ss) as -> by (rewrite sample_indexes_tab; apply tab_length).
    assert (Hin : forall q, In q (sample_pairs (length ss)) -> exists v v', pair_of F q = Ok v /\ pair_of F' q = Ok v' /\ scaled k 277 (p2 130) v v').
    { intros [i j] Hq. apply in_pairs in Hq. apply pair_scaled. auto. }
    assert (H01 : In (0, 1)%nat (sample_pairs (length ss))) by (apply in_pairs; lia).
    pose proof (pairs_length (length ss)) as PLn. assert (SC : (length ss <= N)%nat) by (apply count_samples; apply Forall_impl with (2 := Hmin); intros s; pose proof (least_pos st); lia).
    destruct (sample_pairs (length ss)) as [|q l]; [contradiction|]. cbn [accumulate]. cbn [length] in PLn.
    destruct (Hin q (or_introl eq_refl)) as (v & v' & Hv & Hv' & Sv). rewrite Hv, Hv'. cbn [rbind].
    destruct (accumulate_scaled l (fun q' H' => Hin q' (or_intror H')) 1 v v') as (w & w' & H1 & H2 & H3); [lia| | |].
    - assert (Z.of_nat (length ss * length ss) <= 2 ^ 36)%Z; [|lia]. rewrite Nat2Z.inj_mul. change (2 ^ 36)%Z with (2 ^ 18 * 2 ^ 18)%Z. apply Z.mul_le_mono_nonneg; lia.
    - cbn [INR]. rewrite Rmult_1_l. exact Sv.
    - rewrite H1, H2. cbn [rbind of_option]. eexists _, _, _. split; [reflexivity|]. split; [reflexivity|exact H3].
  Qed.
End ScaleStatistic.

(** A permutation test on two matrices whose statistics are in the ratio 2^k. *)
Lemma scaled_test {S} lib (G : Rng S) n (f f' : nat -> nat -> b64) stat (v v' : list nat -> b64) k b rs : permuting G ->
  (forall q, is_perm n q -> stat (tab2 n n (fun i j => f (nth i q 0%nat) (nth j q 0%nat))) = Ok (v q)) ->
  (forall q, is_perm n q -> stat (tab2 n n (fun i j => f' (nth i q 0%nat) (nth j q 0%nat))) = Ok (v' q)) ->
  (forall q, is_perm n q -> exists h B, scaled k h B (v q) (v' q)) ->
  exists t t' s, permutation_test_with_sym_matrix (B64Num lib) G (tab2 n n f) stat (Z.of_nat b) rs = Ok (t, s) /\
    permutation_test_with_sym_matrix (B64Num lib) G (tab2 n n f') stat (Z.of_nat b) rs = Ok (t', s) /\
    pvalue t' = pvalue t /\ is_finite (statistic t) = true /\ is_finite (statistic t') = true /\ B2R (statistic t') = p2 k * B2R (statistic t).
Proof.
  intros HG V V' Sc. set (d := draw_permutations G b n (random_state_init G rs)).
  assert (Hid : is_perm n (seq 0 n)) by (unfold is_perm; auto).
  assert (Hd : forall q, In q (fst d) -> is_perm n q) by (intros; eapply draw_perm; eauto).
  assert (T : forall (g : nat -> nat -> b64) w, (forall q, is_perm n q -> stat (tab2 n n (fun i j => g (nth i q 0%nat) (nth j q 0%nat))) = Ok (w q)) ->
    permutation_test_with_sym_matrix (B64Num lib) G (tab2 n n g) stat (Z.of_nat b) rs =
      Ok (mkTest (b64_div (b64_add (b64_ofZ (Z.of_nat (length (filter (fun q => Bltb (w (seq 0 n)) (w q)) (fst d))))) (b64_ofZ 1)) (b64_ofZ (Z.of_nat b + 1)))
        (w (seq 0 n)), snd d)).
  { intros g w W. unfold permutation_test_with_sym_matrix. rewrite Nat2Z.id, tab2_length.
    assert (stat (tab2 n n g) = Ok (w (seq 0 n))) as ->.
    { rewrite <- W by auto. f_equal. apply tab2_ext. intros i j Hi Hj. rewrite !seq_nth by auto. reflexivity. }
    cbn [rbind]. fold d. rewrite (surjective_pairing d) at 1.
    rewrite (mapM_ok _ w) by (intros q Hq; rewrite permuted_tab by auto; apply W; auto). cbn [rbind].
    unfold permutation_pvalue. destruct (Z.eqb_spec (Z.of_nat b + 1) 0); [lia|]. cbn [rbind nltb ndiv nadd nofZ nunit B64Num].
    rewrite filter_map_length. reflexivity. }
  assert (C : length (filter (fun q => Bltb (v' (seq 0 n)) (v' q)) (fst d)) = length (filter (fun q => Bltb (v (seq 0 n)) (v q)) (fst d))).
  { apply count_same. intros q Hq. destruct (Sc q (Hd q Hq)) as (h1 & B1 & F1 & F1' & S1 & _). destruct (Sc _ Hid) as (h0 & B0 & F0 & F0' & S0 & _).
    rewrite !Bltb_correct by auto. rewrite S0, S1. pose proof (bpow_gt_0 radix2 k) as P.
    destruct (Rlt_bool_spec (B2R (v (seq 0 n))) (B2R (v q))) as [H|H].
    - apply Rlt_bool_true. apply Rmult_lt_compat_l; auto.
    - apply Rlt_bool_false. apply Rmult_le_compat_l; lra. }
  eexists _, _, _. split; [apply (T f v V)|]. split; [rewrite (T f' v' V'), C; reflexivity|]. cbn [pvalue statistic].
  destruct (Sc _ Hid) as (h0 & B0 & F0 & F0' & S0 & _). auto.
Qed.

(** With the same random generator, the statistic of the energy test of any number of samples is multiplied by exactly 2^k when all
    samples are, and the p-value is the very same number. *)
Theorem C87_energy_test lib E {S} (G : Rng S) p st es k samples samples' b rs : valid_fenv lib E -> permuting G ->
  double_group p st samples -> to_estimation es = Ok st -> (-40 <= k <= 40)%Z -> Forall2 (rescaled k) samples samples' ->
  let ss := map freals samples in
  let n := total ss in
  (Z.of_nat n <= 2 ^ 18)%Z -> (Z.of_nat p <= 2 ^ 30)%Z ->
  (forall i j c, (i < n)%nat -> (j < n)%nat -> (c < p)%nat -> pooled ss i c = pooled ss j c \/ / 2 ^ 40 <= Rabs (pooled ss i c - pooled ss j c) <= 2 ^ 40) ->
  exists t t' s, outcome (energy_test E G samples (Z.of_nat b) (b64_ofZ 1) rs None es) = Ok (t, s) /\
    outcome (energy_test E G samples' (Z.of_nat b) (b64_ofZ 1) rs None es) = Ok (t', s) /\
    pvalue t' = pvalue t /\ is_finite (statistic t) = true /\ is_finite (statistic t') = true /\ B2R (statistic t') = powerRZ 2 k * B2R (statistic t).
Proof.
  intros HE HG Hg Hes K R ss n N18 P30 SP. pose proof (vf_num _ _ HE) as EN. pose proof (group_rescaled p st k samples samples' Hg R) as Hg'.
  pose proof (pool_ordinary p st k samples samples' Hg R N18 P30 SP) as Ow. pose proof (pool_rescaled p st k samples samples' Hg R N18 SP) as Rw. fold ss n in Ow.
  destruct (pairwise_scaled lib E HE n k _ _ Ow Rw) as (PW & PW'). pose proof (fdists_scaled lib E HE n k _ _ K Ow Rw) as FD.
  set (w := pooled_doubles p samples) in *. set (w' := pooled_doubles p samples') in *.
  assert (Lss : (2 <= length ss)%nat) by (unfold ss; rewrite map_length; apply Hg).
  assert (Hmin : Forall (fun s => (least st <= shape0 s)%nat) ss).
  { unfold ss. apply Forall_map. destruct Hg as [_ Hs]. apply Forall_impl with (2 := Hs). intros s (? & ? & ? & ? & ?). rewrite freals_shape0. auto. }
  set (stat := fun m => energy_statistic_multivariate E m (sample_indexes (map shape0 ss)) (map shape0 ss) None es).
  set (V := fun q => result_of (stat (tab2 n n (fun i j => fdists E w (nth i q 0%nat) (nth j q 0%nat))))).
  set (V' := fun q => result_of (stat (tab2 n n (fun i j => fdists E w' (nth i q 0%nat) (nth j q 0%nat))))).
  assert (ES : forall q, is_perm n q -> exists v v' B, stat (tab2 n n (fun i j => fdists E w (nth i q 0%nat) (nth j q 0%nat))) = Ok v /\
    stat (tab2 n n (fun i j => fdists E w' (nth i q 0%nat) (nth j q 0%nat))) = Ok v' /\ scaled k 277 B v v').
  { intros q Hq. assert (Bq : forall i, (i < n)%nat -> (nth i q 0 < n)%nat) by (intros; apply is_perm_lt; auto).
    apply (statistic_scaled lib E HE es st Hes ss Lss Hmin N18 k K). intros i j Hi Hj. apply FD; apply Bq; auto. }
  destruct (scaled_test lib G n (fdists E w) (fdists E w') stat V V' k b rs HG) as (t & t' & s & T & T' & Pv & F & F' & Sc).
  - intros q Hq. destruct (ES q Hq) as (v & v' & B & H & _). unfold V. rewrite H. reflexivity.
  - intros q Hq. destruct (ES q Hq) as (v & v' & B & _ & H & _). unfold V'. rewrite H. reflexivity.
  - intros q Hq. destruct (ES q Hq) as (v & v' & B & H & H' & S0). unfold V, V'. rewrite H, H'. cbn [result_of]. eauto.
  - exists t, t', s.
    assert (Run : forall l, double_group p st l -> map shape0 (map freals l) = map shape0 ss -> pairwise_distances E (pooled_doubles p l) None (b64_ofZ 1) = Ok (tab2 n n (fdists E (pooled_doubles p l))) ->
      outcome (energy_test E G l (Z.of_nat b) (b64_ofZ 1) rs None es) = permutation_test_with_sym_matrix (B64Num lib) G (tab2 n n (fdists E (pooled_doubles p l))) stat (Z.of_nat b) rs).
    { intros l Hl Sl PL. pose proof (group_plain _ _ _ Hl) as Hp. assert (Hne : l <> []) by (intros ->; destruct Hl as [Hl _]; cbn in Hl; lia).
      unfold energy_test. cbv zeta. rewrite outcome_bind, (energy_exponent_F E). rewrite outcome_bind. cbn [outcome lift snd].
      rewrite (pool_doubles p l Hne Hp). cbn [fst snd].
      assert (map (fun s => length (snd s)) (map (fun a : array b64 => transform_to_2d (adata a)) l) = map shape0 ss) as ->.
      { rewrite <- Sl, freals_sizes, map_map. apply map_ext. intros a. destruct a as [ns dt [u|c r]]; cbn; [apply map_length|reflexivity]. }
      set (z := mkArr _ _ _). assert (z = pooled_doubles p l) as ->.
      { unfold z, pooled_doubles, pool_ns. destruct l as [|a r]; [congruence|]. inversion Hp as [|? ? (_ & _ & Fs & _) _]. rewrite Fs. reflexivity. }
      rewrite outcome_bind. cbn [outcome lift snd]. rewrite PL. rewrite EN. reflexivity. }
    split; [rewrite Run; auto|]. split; [rewrite Run; auto; apply (rescaled_sizes k); exact R|].
    split; [exact Pv|]. split; [exact F|]. split; [exact F'|]. rewrite Sc, bpow_powerRZ. reflexivity.
Qed.

(** (0, 1), (10) and (3), and eight times these numbers: the p-value is 1/2 in both units (C63_meets). *)
Example C87_energy_test_meets : exists t t', outcome (energy_test env_F reversing g3 1 (b64_ofZ 1) (RSeed 0) None (EstEnum VStatistic)) = Ok (t, tt) /\
  outcome (energy_test env_F reversing (map (times eight) g3) 1 (b64_ofZ 1) (RSeed 0) None (EstEnum VStatistic)) = Ok (t', tt) /\
  B2R (pvalue t') = 1 / 2 /\ B2R (statistic t') = 8 * B2R (statistic t).
Proof.
  destruct C63_meets as (t0 & T0 & _ & _ & _ & P). destruct eight_real as (F8 & R8).
  assert (Rs : forall l, l <> [] -> (length l <= 100)%nat -> Forall (fun z => (Z.abs z <= 100)%Z) l -> rescaled 3 (ints l) (times eight (ints l))).
  { intros l H1 H2 H3. apply (C87_times (length l)); auto; try lia; [apply small_ordinary; auto|]. intros. apply small_range; auto. }
  destruct (C87_energy_test plain env_F reversing 1 VStatistic (EstEnum VStatistic) 3 g3 (map (times eight) g3) 1 (RSeed 0) env_F_valid reversing_permuting g3_group eq_refl)
    as (t & t' & [] & T & T' & Hp & _ & _ & Hs).
  - lia.
  - unfold g3. cbn [map]. apply Forall2_cons; [|apply Forall2_cons; [|apply Forall2_cons; [|apply Forall2_nil]]];
      apply Rs; try discriminate; try (cbn; lia); repeat constructor; cbn; lia.
  - rewrite g3_r3. change (total r3) with 4%nat. lia.
  - lia.
  - rewrite g3_r3. change (total r3) with 4%nat. intros i j c Hi Hj Hc. assert (c = 0%nat) as -> by lia.
    destruct (g3_values i Hi) as (u & -> & Hu). destruct (g3_values j Hj) as (v & -> & Hv).
    destruct (Z.eq_dec u v) as [->|Ne]; [left; reflexivity|right]. rewrite <- minus_IZR, <- abs_IZR.
    assert (2 ^ 40 = 1099511627776) by (cbn; lra). assert (/ 2 ^ 40 <= 1) by (rewrite <- Rinv_1; apply Rinv_le_contravar; lra).
    assert (H1 : 1 <= IZR (Z.abs (u - v))) by (apply (IZR_le 1); lia).
    assert (H2 : IZR (Z.abs (u - v)) <= 10) by (apply (IZR_le _ 10); lia). lra.
  - change (Z.of_nat 1) with 1%Z in T, T'. rewrite T0 in T. injection T as <-. exists t0, t'. split; [exact T0|]. split; [exact T'|].
    split; [rewrite Hp; exact P|]. rewrite Hs. unfold powerRZ. change (Pos.to_nat 3) with 3%nat. lra.
Qed.
