(** C78: the level of the energy test in double precision.

    The matrix of the distances of the regrouped observations is, entry by entry, the regrouped matrix of the distances, also in
    double precision: the resampled statistics are exactly those of regrouped samples, so that the observed and the resampled
    statistics are exchangeable without any error term. *)
From Coq Require Import Reals Lra Lia List Arith Bool ZArith Permutation.
From Flocq Require Import Core IEEE754.BinarySingleNaN.
From Verif Require Import Num Numpy MUtils MDistances MMergesort MInternals MDcor MEnergy MHypothesis MHomogeneity MIndependence MFloat MInteger
  Sums Spec Centering Tab Samples Api RefDist RefDcor RefCenter RefApi RefInteger RefFloat FloatApi FloatSum FloatEnv FloatError FloatNaive FloatTStat
  RefEnergy RefTests RefHomogeneity Exchange PermMean Expect Consist PopIndep PUnbiased PNaiveFloat Witness NanTest PEnergy PTests PFloatTests PExact PValidity PPower PLevel.
Import List ListNotations.
Local Open Scope R_scope.

(** ** Statistics without ties *)

(** Any two of the doubles compare strictly (in particular none of two or more of them is NaN). *)
Fixpoint distinct (l : list b64) : bool :=
  match l with [] => true | a :: l' => forallb (fun c => Bltb a c || Bltb c a) l' && distinct l' end.

Lemma distinct_perm l l' : Permutation l l' -> distinct l = distinct l'.
Proof.
  induction 1 as [|x l l' H IH|x y l|l1 l2 l3 H1 IH1 H2 IH2]; cbn [distinct forallb]; auto.
  - f_equal; auto. clear IH. induction H; cbn [forallb]; auto; [congruence|rewrite !andb_assoc; f_equal; apply andb_comm|congruence].
  - rewrite (orb_comm (Bltb x y)). destruct (Bltb y x || Bltb x y), (forallb (fun c => Bltb x c || Bltb c x) l), (forallb (fun c => Bltb y c || Bltb c y) l); reflexivity.
  - congruence.
Qed.

Lemma Bltb_not_nan (a c : b64) : Bltb a c = true -> is_nan a = false /\ is_nan c = false.
Proof. unfold Bltb, SpecFloat.SFltb. destruct a, c; cbn; auto; discriminate. Qed.

Lemma ext_lt (a c : b64) : is_nan a = false -> is_nan c = false -> Bltb a c = true <-> ext a < ext c.
Proof.
  intros Na Nc. pose proof Omega_gt1 as HO. destruct (is_finite a) eqn:Fa, (is_finite c) eqn:Fc.
  - rewrite !ext_finite by auto. rewrite Bltb_correct by auto. destruct (Rlt_bool_spec (B2R a) (B2R c)); split; auto; try discriminate; lra.
  - rewrite (ext_finite a) by auto. pose proof (finite_small a) as H1. apply Rabs_lt_inv in H1. destruct c as [s|s| |s m e h]; try discriminate.
    assert (Bltb a (B754_infinity s) = negb s) as -> by (destruct a as [u|u| |[] m' e' h'], s; try discriminate; reflexivity).
    change (ext (B754_infinity s)) with (if s then - Omega else Omega). destruct s; cbn [negb]; split; intros; auto; try discriminate; lra.
  - rewrite (ext_finite c) by auto. pose proof (finite_small c) as H1. apply Rabs_lt_inv in H1. destruct a as [s|s| |s m e h]; try discriminate.
    assert (Bltb (B754_infinity s) c = s) as -> by (destruct c as [u|u| |[] m' e' h'], s; try discriminate; reflexivity).
    change (ext (B754_infinity s)) with (if s then - Omega else Omega). destruct s; split; intros; auto; try discriminate; lra.
  - destruct a as [s|s| |s m e h], c as [s'|s'| |s' m' e' h']; try discriminate. destruct s, s'; cbn -[Omega]; split; auto; try discriminate; lra.
Qed.

Lemma distinct_not_nan l : (2 <= length l)%nat -> distinct l = true -> Forall (fun a => is_nan a = false) l.
Proof.
  destruct l as [|a [|c l]]; cbn [length]; intros L H; try lia. cbn [distinct] in H. apply andb_prop in H as [H _].
  rewrite forallb_forall in H.
  assert (G : forall d, In d (c :: l) -> is_nan a = false /\ is_nan d = false).
  { intros d Hd. specialize (H d Hd). apply orb_prop in H as [H|H]; apply Bltb_not_nan in H; tauto. }
  constructor; [apply (G c); left; auto|]. apply Forall_forall. intros d Hd. apply (G d Hd).
Qed.

Lemma distinct_tie_free l : distinct l = true -> tie_free (map ext l) = true.
Proof.
  intros H. unfold tie_free. destruct (ListDec.NoDup_dec _ _) as [|N]; auto. exfalso. apply N. clear N.
  induction l as [|a l IH]; cbn [map]; constructor; cbn [distinct] in H; apply andb_prop in H as [H1 H2]; auto.
  intros Hin. apply in_map_iff in Hin as (c & Ec & Hc). rewrite forallb_forall in H1. specialize (H1 c Hc).
  apply orb_prop in H1 as [H1|H1]; pose proof (Bltb_not_nan _ _ H1) as [N1 N2]; apply ext_lt in H1; auto; lra.
Qed.

(** The vectors of the computed statistics without ties are exchangeable ([f q]: the computed statistic of the rearrangement [q]). *)
Lemma doubles_exchangeable n b (f : list nat -> b64) :
  let stats l := map f (relative l) in
  let runs := words (S b) (all_perms n) in
  exists W : list (list R), (forall w, In w W -> length w = S b) /\ (forall k, (k <= b)%nat -> Permutation (map (swap0 0 k) W) W) /\
    forall g : list R -> bool, count_if (fun l => distinct (stats l) && g (map ext (stats l))) runs = count_if (fun w => tie_free w && g w) W.
Proof.
  intros stats runs.
  set (V := filter distinct (map (map f) runs)).
  assert (HW : forall g : list b64 -> bool, count_if (fun l => distinct (stats l) && g (stats l)) runs = count_if g V).
  { intros g. unfold V.
    transitivity (count_if (fun w => distinct w && g w) (map (map f) runs)).
    - rewrite count_if_map. unfold stats. rewrite <- (count_if_map relative (fun l => distinct (map f l) && g (map f l)) runs). apply count_if_perm, relative_perm.
    - unfold count_if. generalize (map (map f) runs). intros W. induction W as [|w W IH]; cbn [filter]; auto. destruct (distinct w); cbn [andb filter]; auto.
      destruct (g w); cbn [length]; auto. }
  exists (map (map ext) V). split; [|split].
  - intros w Hw. apply in_map_iff in Hw as (w' & <- & Hw). apply filter_In in Hw as [Hw _]. apply in_map_iff in Hw as (l & <- & H).
    apply in_words in H as [L _]. rewrite !map_length. auto.
  - intros k Hk. set (z := B754_zero false : b64). set (d := @nil nat).
    assert (HL : forall w, In w V -> (k < length w)%nat).
    { intros w Hw. apply filter_In in Hw as [Hw _]. apply in_map_iff in Hw as (l & <- & H). apply in_words in H as [L _]. rewrite map_length. lia. }
    assert (map (swap0 0 k) (map (map ext) V) = map (map ext) (map (swap0 z k) V)) as ->.
    { rewrite !map_map. apply map_ext_in. intros w Hw. rewrite swap0_map. change (ext z) with 0. reflexivity. }
    apply Permutation_map. unfold V.
    assert (F : forall W, (forall w, In w W -> (k < length w)%nat) -> map (swap0 z k) (filter distinct W) = filter distinct (map (swap0 z k) W)).
    { induction W as [|w W IH]; intros HLW; cbn [filter map]; auto. rewrite (distinct_perm (swap0 z k w) w) by (apply swap0_perm; apply HLW; left; auto).
      destruct (distinct w); cbn [map]; rewrite IH by (intros; apply HLW; right; auto); auto. }
    rewrite F.
    + assert (FP : forall (W W' : list (list b64)), Permutation W W' -> Permutation (filter distinct W) (filter distinct W')).
      { induction 1 as [|x W W' H IH|x y W|W1 W2 W3 H1 IH1 H2 IH2]; cbn [filter]; auto.
        - destruct (distinct x); auto.
        - destruct (distinct x), (distinct y); auto. apply perm_swap.
        - eapply Permutation_trans; eauto. }
      apply FP.
      assert (map (swap0 z k) (map (map f) runs) = map (map f) (map (swap0 d k) runs)) as ->.
      { rewrite !map_map. apply map_ext_in. intros l Hin. rewrite swap0_map. apply in_words in Hin as [L _].
        destruct k as [|k]; [reflexivity|]. destruct (map f l) as [|a r] eqn:Hm; [reflexivity|]. cbn. f_equal.
        apply nth_indep. apply (f_equal (@length _)) in Hm. rewrite map_length in Hm. cbn in Hm. lia. }
      apply Permutation_map, swap_words; auto. apply NoDup_all_perms.
    + intros w Hw. apply in_map_iff in Hw as (l & <- & H). apply in_words in H as [L _]. rewrite map_length. lia.
  - intros g. rewrite (HW (fun w => g (map ext w))), count_if_map. apply count_if_ext. intros w Hw.
    apply filter_In in Hw as [_ Hw]. rewrite (distinct_tie_free w Hw). reflexivity.
Qed.

(** Among all choices of the rearrangement of the data and of the [b] resampled ones. *)
Lemma doubles_valid n b (f : list nat -> b64) t : 0 <= t ->
  let stats l := map f (relative l) in
  let runs := words (S b) (all_perms n) in
  INR (count_if (fun l => distinct (stats l) && leb (vector_p (map ext (stats l))) t) runs) <= t * INR (count_if (fun l => distinct (stats l)) runs).
Proof.
  intros Ht stats runs. destruct (doubles_exchangeable n b f) as (W & HL & HX & HC). fold runs in HC. unfold stats.
  rewrite (HC (fun w => leb (vector_p w) t)).
  rewrite (count_if_ext (fun l => distinct (map f (relative l))) (fun l => distinct (map f (relative l)) && true)) by (intros; rewrite andb_true_r; reflexivity).
  rewrite (HC (fun _ => true)), (count_if_ext (fun w => tie_free w && true) tie_free W) by (intros; apply andb_true_r).
  apply (exchangeable_valid b); auto.
Qed.

(** ** The decision *)

(** The p-value as it is computed from the observed and the resampled statistics. *)
Definition double_p (v : b64) (l : list b64) : b64 :=
  b64_div (b64_add (b64_ofZ (Z.of_nat (length (filter (fun u => Bltb v u) l)))) (b64_ofZ 1)) (b64_ofZ (Z.of_nat (length l) + 1)).

Lemma decision k b i d : (k <= b)%nat -> (1 <= i <= d)%Z -> ((Z.of_nat b + 1) * d <= 2 ^ 52)%Z ->
  Bleb (b64_div (b64_add (b64_ofZ (Z.of_nat k)) (b64_ofZ 1)) (b64_ofZ (Z.of_nat b + 1))) (b64_div (b64_ofZ i) (b64_ofZ d))
  = leb (INR (1 + k) / INR (1 + b)) (IZR i / IZR d).
Proof.
  intros Hk Hi Hd. assert (Hb : (Z.of_nat b + 1 <= 2 ^ 53)%Z) by nia. assert (Hd' : (d <= 2 ^ 53)%Z) by nia.
  destruct (quotient (b64_ofZ i) (b64_ofZ d) i d) as [Fq Vq]; auto; try (eapply rep_weaken; [apply rep_ofZ; lia|lia]).
  destruct (quotient (b64_add (b64_ofZ (Z.of_nat k)) (b64_ofZ 1)) (b64_ofZ (Z.of_nat b + 1)) (Z.of_nat k + 1) (Z.of_nat b + 1)) as [F V].
  - eapply rep_weaken; [apply (rep_add (Z.abs (Z.of_nat k)) (Z.abs 1)); [apply rep_ofZ; lia|apply rep_ofZ; lia|lia]|lia].
  - eapply rep_weaken; [apply rep_ofZ; lia|lia].
  - lia.
  - rewrite Bleb_correct, V, Vq by auto.
    assert (R1 : (1 <= Z.of_nat k + 1 <= Z.of_nat b + 1)%Z) by lia.
    assert (E : INR (1 + k) / INR (1 + b) = ratio (Z.of_nat k + 1) (Z.of_nat b + 1)).
    { unfold ratio. rewrite !INR_IZR_INZ. do 2 f_equal; try f_equal; lia. }
    rewrite E. change (IZR i / IZR d) with (ratio i d).
    assert (P1 : 1 <= IZR (Z.of_nat b + 1)) by (apply IZR_le; lia). assert (P2 : 1 <= IZR d) by (apply IZR_le; lia).
    assert (C : forall a c a' c', 1 <= IZR c -> 1 <= IZR c' -> (a * c' <= a' * c)%Z -> ratio a c <= ratio a' c').
    { intros a c a' c' H1 H2 H. unfold ratio. apply IZR_le in H. rewrite !mult_IZR in H. apply (Rmult_le_reg_r (IZR c * IZR c')); [nra|].
      replace (IZR a / IZR c * (IZR c * IZR c')) with (IZR a * IZR c') by (field; lra).
      replace (IZR a' / IZR c' * (IZR c * IZR c')) with (IZR a' * IZR c) by (field; lra). exact H. }
    unfold leb. destruct (Z.le_gt_cases ((Z.of_nat k + 1) * d) (i * (Z.of_nat b + 1))) as [Hle|Hgt].
    + pose proof (C _ _ _ _ P1 P2 Hle) as G. destruct (Rle_dec _ _) as [_|N]; [|contradiction]. apply Rle_bool_true. apply round_mono. exact G.
    + assert (Hd2 : (d * (Z.of_nat b + 1) <= 2 ^ 52)%Z) by lia.
      pose proof (ratio_lt_round i d (Z.of_nat k + 1) (Z.of_nat b + 1) Hi R1 Hd2 Hgt) as G.
      destruct (Rle_dec _ _) as [N|_].
      * exfalso. apply round_mono in N. lra.
      * apply Rle_bool_false. exact G.
Qed.

Lemma double_p_decides v l i d : distinct (v :: l) = true -> (1 <= i <= d)%Z -> ((Z.of_nat (length l) + 1) * d <= 2 ^ 52)%Z ->
  Bleb (double_p v l) (b64_div (b64_ofZ i) (b64_ofZ d)) = leb (vector_p (map ext (v :: l))) (IZR i / IZR d).
Proof.
  intros H Hi Hd. unfold double_p. rewrite decision by (auto; apply filter_length_le).
  unfold vector_p. cbn [map nth tl]. unfold p_value. rewrite map_length, (plus_INR 1 (length l)). do 2 f_equal.
  - rewrite plus_INR. f_equal. f_equal. rewrite filter_map_length. apply count_same. intros u Hu.
    pose proof (distinct_not_nan (v :: l)) as NN. rewrite Forall_forall in NN.
    assert (2 <= length (v :: l))%nat as L2 by (destruct l; [contradiction|cbn; lia]).
    assert (Nv : is_nan v = false) by (apply NN; auto; left; auto). assert (Nu : is_nan u = false) by (apply NN; auto; right; auto).
    pose proof (ext_lt v u Nv Nu) as X. destruct (Rlt_dec (ext v) (ext u)) as [G|G]; [apply X; auto|].
    destruct (Bltb v u); auto. exfalso. apply G, X. reflexivity.
Qed.

(** ** Samples of doubles *)

(** The observations of a sample, one row each. *)
Definition double_rows (a : array b64) : list (list b64) := snd (transform_to_2d (adata a)).
(** The pooled observations in the order [q], cut into samples of the original sizes. *)
Fixpoint cut_doubles (p : nat) (samples : list (array b64)) (rows : list (list b64)) : list (array b64) :=
  match samples with
  | [] => []
  | s :: l => mkArr (ans s) (adt s) (Mat p (firstn (shape0 s) rows)) :: cut_doubles p l (skipn (shape0 s) rows)
  end.
Definition regroup_doubles (p : nat) (q : list nat) (samples : list (array b64)) : list (array b64) :=
  cut_doubles p samples (map (fun i => nth i (concat (map double_rows samples)) []) q).

(** Two or more samples of double precision numbers (of any value, also infinite or NaN) with [p] columns. *)
Definition several_doubles (p : nat) (samples : list (array b64)) : Prop :=
  (2 <= length samples)%nat /\ Forall (fun s => wf s /\ ncols s = p /\ (1 <= shape0 s)%nat) samples.
(** The number of observations. *)
Definition count_rows (samples : list (array b64)) : nat := list_sum (map shape0 samples).

Definition double_test_on (E : Env b64) (e : b64) (av : average_fn (T:=b64)) (es : estimation_like) (samples : list (array b64)) (B : Z)
    (r : list (list nat)) := outcome (energy_test E replay samples B e (RState r) av es).

Lemma double_rows_length a : length (double_rows a) = shape0 a.
Proof. destruct a as [ns d [v|c r]]; cbn; [apply map_length|reflexivity]. Qed.
Lemma double_rows_width p a : wf a -> ncols a = p -> Forall (fun r => length r = p) (double_rows a).
Proof.
  destruct a as [ns d [v|c r]]; unfold wf; cbn; intros H <-; auto. apply Forall_map. apply Forall_forall. reflexivity.
Qed.
Lemma pooled_length samples : length (concat (map double_rows samples)) = count_rows samples.
Proof. induction samples as [|a l IH]; [reflexivity|]. cbn [map concat]. rewrite app_length, double_rows_length, IH. reflexivity. Qed.
Lemma pooled_width p samples : several_doubles p samples -> Forall (fun r => length r = p) (concat (map double_rows samples)).
Proof.
  intros [_ H]. apply Forall_concat. apply Forall_map. eapply Forall_impl; [|exact H]. intros a (W & C & _). apply double_rows_width; auto.
Qed.

Lemma cut_doubles_props p samples : forall rows, length rows = count_rows samples -> Forall (fun r => length r = p) rows ->
  Forall (fun s => 1 <= shape0 s)%nat samples ->
  map shape0 (cut_doubles p samples rows) = map shape0 samples /\
  Forall (fun s => wf s /\ ncols s = p /\ (1 <= shape0 s)%nat) (cut_doubles p samples rows) /\
  concat (map double_rows (cut_doubles p samples rows)) = rows.
Proof.
  induction samples as [|s l IH]; intros rows Hl Hr Hp.
  - cbn in *. destruct rows; [|discriminate]. repeat split. constructor.
  - change (count_rows (s :: l)) with (shape0 s + count_rows l)%nat in Hl. cbn [cut_doubles map concat].
    assert (Forall (fun r => length r = p) (firstn (shape0 s) rows) /\ Forall (fun r => length r = p) (skipn (shape0 s) rows)) as [H1 H2].
    { rewrite <- (firstn_skipn (shape0 s) rows) in Hr. apply Forall_app in Hr. exact Hr. }
    inversion Hp as [|? ? P0 P1]; subst.
    destruct (IH (skipn (shape0 s) rows)) as (Hs & Hw & Hc); [rewrite skipn_length; lia|auto|auto|].
    assert (S1 : shape0 (mkArr (ans s) (adt s) (Mat p (firstn (shape0 s) rows))) = shape0 s).
    { unfold shape0 at 1; cbn [adata]. apply firstn_length_le. lia. }
    split; [|split].
    + rewrite Hs, S1. reflexivity.
    + constructor; auto. split; [exact H1|]. split; [reflexivity|]. rewrite S1. auto.
    + rewrite Hc. unfold double_rows at 1. cbn. apply firstn_skipn.
Qed.
Lemma cut_doubles_length p samples : forall rows, length (cut_doubles p samples rows) = length samples.
Proof. induction samples as [|s l IH]; intros rows; cbn; auto. Qed.

Lemma cut_doubles_kind p samples rows : map (fun a => (ans a, adt a)) (cut_doubles p samples rows) = map (fun a => (ans a, adt a)) samples.
Proof. revert rows. induction samples as [|s l IH]; intros rows; cbn [cut_doubles map]; auto. f_equal. apply IH. Qed.

Lemma regroup_doubles_props p q samples : several_doubles p samples -> is_perm (count_rows samples) q ->
  several_doubles p (regroup_doubles p q samples) /\ map shape0 (regroup_doubles p q samples) = map shape0 samples /\
  map (fun a => (ans a, adt a)) (regroup_doubles p q samples) = map (fun a => (ans a, adt a)) samples /\
  concat (map double_rows (regroup_doubles p q samples)) = map (fun i => nth i (concat (map double_rows samples)) []) q.
Proof.
  intros H Hq. pose proof (pooled_width p samples H) as W. pose proof (pooled_length samples) as L.
  destruct (cut_doubles_props p samples (map (fun i => nth i (concat (map double_rows samples)) []) q)) as (H1 & H2 & H3).
  - rewrite map_length. apply is_perm_length; auto.
  - apply Forall_map. apply Forall_forall. intros i Hi. rewrite Forall_forall in W. apply W. apply nth_In. rewrite L. apply (is_perm_In _ q); auto.
  - destruct H as [_ H]. eapply Forall_impl; [|exact H]. cbn. tauto.
  - split; [split; [unfold regroup_doubles; rewrite cut_doubles_length; apply H|exact H2]|]. split; [exact H1|]. split; [apply cut_doubles_kind|exact H3].
Qed.

Lemma multivariate_runs (E : Env b64) m sizes av es st : to_estimation es = Ok st -> (2 <= length sizes)%nat -> Forall (fun n => 1 <= n)%nat sizes ->
  exists v, energy_statistic_multivariate E m (sample_indexes sizes) sizes av es = Ok v.
Proof.
  intros Hst H2 HF. unfold energy_statistic_multivariate. rewrite indexes_length.
  assert (A : forall l, (forall ij, In ij l -> (fst ij < snd ij < length sizes)%nat) -> forall acc, (acc <> None \/ l <> []) ->
    exists v, accumulate E (pair_statistic E m (sample_indexes sizes) sizes av es) l acc = Ok (Some v)).
  { induction l as [|[i j] l IH]; intros Hl acc Hacc.
    - destruct acc as [v|]; [eexists; reflexivity|]. destruct Hacc; congruence.
    - cbn [accumulate]. specialize (Hl (i, j) (or_introl eq_refl)) as Hij. cbn [fst snd] in Hij.
      unfold pair_statistic at 1. unfold energy_test_statistic_from_distance_matrices, energy_distance_from_distance_matrices. rewrite Hst. cbn [rbind].
      unfold energy_coefficient.
      assert (1 <= nth i sizes 0)%nat by (rewrite Forall_forall in HF; apply HF, nth_In; lia).
      destruct (Z.eqb_spec (Z.of_nat (nth i sizes 0%nat) + Z.of_nat (nth j sizes 0%nat)) 0); [lia|]. cbn [rbind].
      apply IH; [intros; apply Hl; right; auto|left; discriminate]. }
  destruct (A (sample_pairs (length sizes))) with (acc := @None b64) as (v & Hv).
  - intros [i j] H. apply in_pairs in H. exact H.
  - right. intros E0. assert (In (0, 1)%nat (sample_pairs (length sizes))) as Hin by (apply in_pairs; lia). rewrite E0 in Hin. contradiction.
  - rewrite Hv. cbn [rbind of_option]. eexists. reflexivity.
Qed.

(** The computed statistic of the samples, as a function of the matrix of distances. *)
Definition double_statistic (E : Env b64) (av : average_fn (T:=b64)) (es : estimation_like) (sizes : list nat) (m : list (list b64)) : b64 :=
  match energy_statistic_multivariate E m (sample_indexes sizes) sizes av es with Ok v => v | Err _ => B754_nan end.

Lemma double_test_eval lib E p samples e av es st r : valid_fenv lib E -> several_doubles p samples -> to_estimation es = Ok st ->
  let n := count_rows samples in let P := concat (map double_rows samples) in
  Forall (is_perm n) r ->
  let a0 := match samples with a :: _ => a | [] => mkArr Numpy F64 (Vec []) end in
  let f q := double_statistic E av es (map shape0 samples) (tab2 n n (fun i j => fdist_of lib E a0 e (nth (nth i q 0%nat) P []) (nth (nth j q 0%nat) P []))) in
  double_test_on E e av es samples (Z.of_nat (length r)) r = Ok (mkTest (double_p (f (seq 0 n)) (map f r)) (f (seq 0 n)), []).
Proof.
  intros HE H Hst n P Hr a0 f. pose proof (vf_num _ _ HE) as EN. pose proof (pooled_width p samples H) as W. fold P in W.
  assert (L : length P = n) by apply pooled_length. destruct H as [H2 HF].
  assert (Hsz : map (fun s : nat * list (list b64) => length (snd s)) (map (fun a => transform_to_2d (adata a)) samples) = map shape0 samples).
  { rewrite map_map. apply map_ext. intros a. apply double_rows_length. }
  assert (Hpool : pool (map (fun a => transform_to_2d (adata a)) samples) = Ok (p, P)).
  { destruct samples as [|a l]; [cbn in H2; lia|]. unfold pool. cbn [map]. destruct (transform_to_2d (adata a)) as [c rows] eqn:Ea.
    assert (Hc : c = p).
    { inversion HF as [|? ? (_ & Ca & _) _]; subst. rewrite <- (cols_2d a), Ea. reflexivity. }
    subst c. set (g := forallb _ _). assert (g = true) as ->.
    { unfold g. apply forallb_forall. intros t Ht. apply Nat.eqb_eq. change ((p, rows) :: map (fun a => transform_to_2d (adata a)) l) with ([(p, rows)] ++ map (fun a : array b64 => transform_to_2d (adata a)) l) in Ht.
      destruct Ht as [<-|Ht]; [reflexivity|]. apply in_map_iff in Ht as (a' & <- & Ha'). rewrite cols_2d. rewrite Forall_forall in HF. apply HF. right. auto. }
    f_equal. f_equal. unfold P. cbn [map concat]. unfold double_rows at 1. rewrite Ea. cbn [snd]. f_equal. rewrite map_map. reflexivity. }
  assert (Hpos : Forall (fun k => 1 <= k)%nat (map shape0 samples)) by (apply Forall_map; eapply Forall_impl; [|exact HF]; cbn; tauto).
  unfold double_test_on, energy_test. cbv zeta. rewrite Hsz, Hpool.
  rewrite outcome_bind.
  assert (X : outcome (check_valid_energy_exponent E e) = Ok tt) by (unfold check_valid_energy_exponent; destruct (exponent_in_range E e); reflexivity).
  rewrite X, outcome_bind. cbn [outcome lift snd fst].
  fold a0. rewrite outcome_bind. cbn [outcome lift snd].
  rewrite (pairwise_fdist lib E HE) by exact W.
  assert (Sh : shape0 (mkArr (ans a0) (adt a0) (Mat p P)) = n) by exact L. rewrite Sh.
  set (M := tab2 n n _).
  assert (HM : M = tab2 n n (fun i j => fdist_of lib E a0 e (nth i P []) (nth j P []))).
  { unfold M. apply tab2_ext. intros i j Hi Hj. unfold fdist_of. cbn [ans adt].
    assert (RW : forall i, (i < n)%nat -> frow_of (mkArr (ans a0) (adt a0) (Mat p P)) i = nth i P []).
    { intros k Hk. unfold frow_of, fobs. cbn [adata ncols]. symmetry. apply tab_of_list_n. rewrite Forall_forall in W. apply W, nth_In. lia. }
    rewrite !RW by auto. reflexivity. }
  rewrite HM. unfold permutation_test_with_sym_matrix. rewrite Nat2Z.id, tab2_length. cbn [random_state_init].
  rewrite replay_draw by auto.
  assert (ST : forall m, energy_statistic_multivariate E m (sample_indexes (map shape0 samples)) (map shape0 samples) av es = Ok (double_statistic E av es (map shape0 samples) m)).
  { intros m. unfold double_statistic. destruct (multivariate_runs E m (map shape0 samples) av es st) as (v & ->); auto. rewrite map_length. auto. }
  rewrite ST. cbn [rbind].
  rewrite (mapM_ok _ f).
  - cbn [rbind]. unfold permutation_pvalue. destruct (Z.eqb_spec (Z.of_nat (length r) + 1) 0); [lia|]. cbn [rbind].
    rewrite EN. cbn [nltb ndiv nadd nofZ nunit B64Num].
    assert (F0 : double_statistic E av es (map shape0 samples) (tab2 n n (fun i j => fdist_of lib E a0 e (nth i P []) (nth j P []))) = f (seq 0 n)).
    { unfold f. f_equal. apply tab2_ext. intros i j Hi Hj. rewrite !seq_nth by auto. reflexivity. }
    rewrite F0. unfold double_p. rewrite map_length. reflexivity.
  - intros q Hq. rewrite Forall_forall in Hr. rewrite permuted_tab by auto. apply ST.
Qed.

(** The statistic of the regrouped samples and, with the regrouped samples, of their regroupings. *)
Lemma double_test_orders lib E p samples e av es st : valid_fenv lib E -> several_doubles p samples -> to_estimation es = Ok st ->
  let n := count_rows samples in
  exists f : list nat -> b64,
    (forall r, Forall (is_perm n) r -> double_test_on E e av es samples (Z.of_nat (length r)) r = Ok (mkTest (double_p (f (seq 0 n)) (map f r)) (f (seq 0 n)), [])) /\
    (forall s r, is_perm n s -> Forall (is_perm n) r ->
      double_test_on E e av es (regroup_doubles p s samples) (Z.of_nat (length r)) r = Ok (mkTest (double_p (f s) (map (fun q => f (compose s q)) r)) (f s), [])) /\
    (forall s q r, is_perm n s -> is_perm n q -> Forall (is_perm n) r ->
      double_test_on E e av es (regroup_doubles p q (regroup_doubles p s samples)) (Z.of_nat (length r)) r
      = Ok (mkTest (double_p (f (compose s q)) (map (fun u => f (compose (compose s q) u)) r)) (f (compose s q)), [])).
Proof.
  intros HE H Hst n. set (P := concat (map double_rows samples)).
  set (a0 := match samples with a :: _ => a | [] => mkArr Numpy F64 (Vec []) end).
  set (f := fun q => double_statistic E av es (map shape0 samples) (tab2 n n (fun i j => fdist_of lib E a0 e (nth (nth i q 0%nat) P []) (nth (nth j q 0%nat) P [])))).
  assert (CS : forall s q i, is_perm n s -> is_perm n q -> (i < n)%nat -> nth i (compose s q) 0%nat = nth (nth i q 0%nat) s 0%nat).
  { intros s q i Hs Hq Hi. unfold compose. rewrite (nth_indep (map _ q) 0%nat (nth 0 s 0%nat)) by (rewrite map_length, (is_perm_length _ _ Hq); lia).
    rewrite (map_nth (fun i => nth i s 0%nat)). reflexivity. }
  (* any samples that are the pooled rows in the order s *)
  assert (G : forall ss s r, several_doubles p ss -> map shape0 ss = map shape0 samples -> map (fun a => (ans a, adt a)) ss = map (fun a => (ans a, adt a)) samples ->
    is_perm n s -> concat (map double_rows ss) = map (fun i => nth i P []) s -> Forall (is_perm n) r ->
    double_test_on E e av es ss (Z.of_nat (length r)) r = Ok (mkTest (double_p (f s) (map (fun q => f (compose s q)) r)) (f s), [])).
  { intros ss s r Hss Hsh Hk Hs HP Hr.
    assert (Hn : count_rows ss = n) by (unfold count_rows; rewrite Hsh; reflexivity).
    pose proof (double_test_eval lib E p ss e av es st r HE Hss Hst) as T. cbv zeta in T. rewrite Hn, HP, Hsh in T. specialize (T Hr). rewrite T.
    set (a1 := match ss with a :: _ => a | [] => _ end).
    assert (FD : forall u v, fdist_of lib E a1 e u v = fdist_of lib E a0 e u v).
    { intros u v. unfold fdist_of. assert (ans a1 = ans a0 /\ adt a1 = adt a0) as [-> ->]; [|reflexivity]. unfold a1, a0.
      destruct ss as [|x l], samples as [|y l']; try discriminate; auto. cbn [map] in Hk. injection Hk. auto. }
    assert (NP : forall i, (i < n)%nat -> nth i (map (fun i => nth i P []) s) [] = nth (nth i s 0%nat) P []).
    { intros i Hi. rewrite (nth_indep _ [] (nth 0 P [])) by (rewrite map_length, (is_perm_length _ _ Hs); lia). apply (map_nth (fun i => nth i P [])). }
    assert (V : forall q, is_perm n q -> double_statistic E av es (map shape0 samples)
       (tab2 n n (fun i j => fdist_of lib E a1 e (nth (nth i q 0%nat) (map (fun i => nth i P []) s) []) (nth (nth j q 0%nat) (map (fun i => nth i P []) s) []))) = f (compose s q)).
    { intros q Hq. unfold f. f_equal. apply tab2_ext. intros i j Hi Hj. rewrite FD, !NP, !CS by (auto; apply is_perm_lt; auto). reflexivity. }
    assert (V0 : f (compose s (seq 0 n)) = f s).
    { f_equal. unfold compose. rewrite <- (is_perm_length _ _ Hs). clear. apply nth_ext with (d := 0%nat) (d' := 0%nat); [rewrite map_length, seq_length; reflexivity|].
      intros i Hi. rewrite map_length, seq_length in Hi. rewrite (nth_indep _ 0%nat (nth 0 s 0%nat)) by (rewrite map_length, seq_length; auto).
      rewrite (map_nth (fun i => nth i s 0%nat)), seq_nth by auto. reflexivity. }
    rewrite (V (seq 0 n)), V0 by (unfold is_perm; auto). do 4 f_equal. apply map_ext_in. intros q Hq. apply V. rewrite Forall_forall in Hr. auto. }
  assert (I : is_perm n (seq 0 n)) by (unfold is_perm; auto).
  exists f. split; [|split].
  - intros r Hr. apply (double_test_eval lib E p samples e av es st r); auto.
  - intros s r Hs Hr. destruct (regroup_doubles_props p s samples H Hs) as (R1 & R2 & R3 & R4). apply G; auto.
  - intros s q r Hs Hq Hr. destruct (regroup_doubles_props p s samples H Hs) as (R1 & R2 & R3 & R4).
    assert (Hn : count_rows (regroup_doubles p s samples) = n) by (unfold count_rows; rewrite R2; reflexivity).
    destruct (regroup_doubles_props p q (regroup_doubles p s samples) R1) as (Q1 & Q2 & Q3 & Q4); [rewrite Hn; auto|].
    apply G; auto; try congruence; [apply compose_perm; auto|].
    rewrite Q4, R4. fold P. unfold compose. rewrite map_map. apply map_ext_in. intros i Hi.
    rewrite (nth_indep _ [] (nth 0 P [])) by (rewrite map_length, (is_perm_length _ _ Hs); apply (is_perm_In _ q); auto). apply (map_nth (fun i => nth i P [])).
Qed.

(** ** The level *)

(** The computed statistic of the samples. *)
Definition double_stat (E : Env b64) (e : b64) (av : average_fn (T:=b64)) (es : estimation_like) (samples : list (array b64)) : b64 :=
  match double_test_on E e av es samples 0 [] with Ok (t, _) => statistic t | Err _ => B754_nan end.
(** The computed statistics of the samples and of the samples regrouped by the orders [r]. *)
Definition double_statistics (E : Env b64) (e : b64) (av : average_fn (T:=b64)) (es : estimation_like) (p : nat) (samples : list (array b64))
    (r : list (list nat)) : list b64 :=
  double_stat E e av es samples :: map (fun q => double_stat E e av es (regroup_doubles p q samples)) r.

Lemma double_statistics_orders lib E p samples e av es st b i d : valid_fenv lib E -> several_doubles p samples -> to_estimation es = Ok st ->
  (1 <= i <= d)%Z -> ((Z.of_nat b + 1) * d <= 2 ^ 52)%Z ->
  let n := count_rows samples in let level := b64_div (b64_ofZ i) (b64_ofZ d) in
  exists f : list nat -> b64, forall s r, is_perm n s -> length r = b -> Forall (is_perm n) r ->
    double_statistics E e av es p (regroup_doubles p s samples) r = map f (relative (s :: r)) /\
    exists t g, double_test_on E e av es (regroup_doubles p s samples) (Z.of_nat b) r = Ok (t, g) /\
      (distinct (map f (relative (s :: r))) = true -> Bleb (pvalue t) level = leb (vector_p (map ext (map f (relative (s :: r))))) (IZR i / IZR d)).
Proof.
  intros HE H Hst Hi Hd n level. destruct (double_test_orders lib E p samples e av es st HE H Hst) as (f & F0 & F1 & F2). fold n in F0, F1, F2.
  exists f. intros s r Hs Lr Hr. split.
  - unfold double_statistics. cbn [relative map]. rewrite map_map. f_equal.
    + unfold double_stat. change 0%Z with (Z.of_nat (length (@nil (list nat)))). rewrite (F1 s []) by auto. reflexivity.
    + apply map_ext_in. intros q Hq. rewrite Forall_forall in Hr. unfold double_stat. change 0%Z with (Z.of_nat (length (@nil (list nat)))).
      rewrite (F2 s q []) by auto. reflexivity.
  - rewrite <- Lr, (F1 s r) by auto. eexists _, _. split; [reflexivity|]. cbn [pvalue]. cbn [relative map]. rewrite map_map. intros HD. unfold level.
    apply (double_p_decides (f s) (map (fun q => f (compose s q)) r)); auto. rewrite map_length, Lr. exact Hd.
Qed.

(** Samples with the computed distances, any exponent, average and estimator, and any number of resamples: among all equally
    likely assignments of the observations to the samples and orders of the resamples, in the runs in which no two of the
    computed statistics are equal (and none is NaN) the computed p-value is at most the computed level i / d in a proportion of
    at most i / d. *)
Theorem C78_energy_test lib E p samples e av es st b i d : valid_fenv lib E -> several_doubles p samples -> to_estimation es = Ok st ->
  (1 <= i <= d)%Z -> ((Z.of_nat b + 1) * d <= 2 ^ 52)%Z ->
  let n := count_rows samples in
  let level := b64_div (b64_ofZ i) (b64_ofZ d) in
  let free s r := distinct (double_statistics E e av es p (regroup_doubles p s samples) r) in
  let share (good : list nat -> list (list nat) -> bool) := share_of_runs n (1 + b) (fun l => match l with [] => false | s :: r => good s r end) in
  exists t, (forall s r, is_perm n s -> length r = b -> Forall (is_perm n) r ->
      exists g, double_test_on E e av es (regroup_doubles p s samples) (Z.of_nat b) r = Ok (t s r, g)) /\
  share (fun s r => free s r && Bleb (pvalue (t s r)) level) <= IZR i / IZR d * share free /\
  share (fun s r => Bleb (pvalue (t s r)) level) <= IZR i / IZR d + share (fun s r => negb (free s r)).
Proof.
  intros HE H Hst Hi Hd n level free share.
  destruct (double_statistics_orders lib E p samples e av es st b i d HE H Hst Hi Hd) as (f & Hf). fold n level in Hf.
  set (t := fun s r => match double_test_on E e av es (regroup_doubles p s samples) (Z.of_nat b) r with Ok (t, _) => t | Err _ => mkTest B754_nan B754_nan end).
  assert (T0 : 0 <= IZR i / IZR d).
  { assert (1 <= IZR i) by (apply IZR_le; lia). assert (1 <= IZR d) by (apply IZR_le; lia). apply Rmult_le_pos; [lra|]. left. apply Rinv_0_lt_compat. lra. }
  exists t. split; [|assert (L : share (fun s r => free s r && Bleb (pvalue (t s r)) level) <= IZR i / IZR d * share free)].
  - intros s r Hs Lr Hr. destruct (Hf s r Hs Lr Hr) as (_ & t' & g & E' & _). unfold t. rewrite E'. eexists. reflexivity.
  - unfold share, share_of_runs. pose proof (runs_pos n (S b)) as RP. cbn [plus]. unfold Rdiv at 1 3. rewrite <- Rmult_assoc.
    apply Rmult_le_compat_r; [left; apply Rinv_0_lt_compat; auto|].
    pose proof (doubles_valid n b f (IZR i / IZR d) T0) as V. cbv zeta in V.
    assert (S1 : forall l, In l (words (S b) (all_perms n)) -> exists s r, l = s :: r /\ is_perm n s /\ length r = b /\ Forall (is_perm n) r).
    { intros l Hl. apply in_words in Hl as [Ll Hin]. destruct l as [|s r]; [discriminate|]. exists s, r. split; [reflexivity|]. split; [apply in_all_perms, Hin; left; auto|].
      split; [cbn in Ll; lia|]. apply Forall_forall. intros q Hq. apply in_all_perms, Hin. right. auto. }
    rewrite (count_if_ext (fun l => match l with [] => false | s :: r => free s r end) (fun l => distinct (map f (relative l)))).
    + eapply Rle_trans; [|exact V]. right. f_equal. apply count_if_ext. intros l Hl. destruct (S1 l Hl) as (s & r & -> & Hs & Lr & Hr).
      destruct (Hf s r Hs Lr Hr) as (E1 & t' & g & E' & D'). unfold free, t. rewrite E1, E'.
      destruct (distinct (map f (relative (s :: r)))) eqn:DD; [|reflexivity]. cbn [andb]. apply D'. reflexivity.
    + intros l Hl. destruct (S1 l Hl) as (s & r & -> & Hs & Lr & Hr). destruct (Hf s r Hs Lr Hr) as (E1 & _). unfold free. rewrite E1. reflexivity.
  - split; [exact L|].
    assert (G : share (fun s r => Bleb (pvalue (t s r)) level) <= share (fun s r => free s r && Bleb (pvalue (t s r)) level) + share (fun s r => negb (free s r))).
    { unfold share, share_of_runs. cbn [plus]. pose proof (runs_pos n (S b)) as RP. rewrite <- Rdiv_plus_distr. unfold Rdiv. apply Rmult_le_compat_r; [left; apply Rinv_0_lt_compat; auto|].
      rewrite <- plus_INR. apply le_INR. generalize (words (S b) (all_perms n)). intros W. unfold count_if. induction W as [|l W IH]; [auto|]. cbn [filter].
      destruct l as [|s r]; auto. destruct (free s r), (Bleb (pvalue (t s r)) level); cbn [andb negb length]; lia. }
    assert (share free <= 1) by apply share_range. nra.
Qed.

(** Samples of the given libraries, number types and sizes from the draws [s], one after the other. *)
Definition drawn_doubles (ns : nspace) (dt : dtype) (n p : nat) (X : nat -> nat -> b64) (s : nat -> nat) : array b64 :=
  mkArr ns dt (Mat p (tab n (fun i => tab p (X (s i))))).
Fixpoint double_groups (p : nat) (X : nat -> nat -> b64) (kinds : list (nspace * dtype * nat)) (s : nat -> nat) : list (array b64) :=
  match kinds with
  | [] => []
  | (ns, dt, n) :: l => drawn_doubles ns dt n p X s :: double_groups p X l (fun i => s (n + i)%nat)
  end.

Lemma drawn_doubles_shape ns dt n p X s : shape0 (drawn_doubles ns dt n p X s) = n.
Proof. apply tab_length. Qed.
Lemma drawn_doubles_ext ns dt n p X s s' : (forall i, (i < n)%nat -> s i = s' i) -> drawn_doubles ns dt n p X s = drawn_doubles ns dt n p X s'.
Proof. intros H. unfold drawn_doubles. do 2 f_equal. apply tab_ext. intros i Hi. rewrite H by auto. reflexivity. Qed.
Lemma double_groups_total p X kinds : forall s, count_rows (double_groups p X kinds s) = size kinds.
Proof.
  induction kinds as [|[[ns dt] n] l IH]; intros s; [reflexivity|]. cbn [double_groups].
  change (shape0 (drawn_doubles ns dt n p X s) + count_rows (double_groups p X l (fun i => s (n + i)%nat)) = n + size l)%nat.
  rewrite IH, drawn_doubles_shape. reflexivity.
Qed.
Lemma double_groups_rows p X kinds : forall s, concat (map double_rows (double_groups p X kinds s)) = tab (size kinds) (fun i => tab p (X (s i))).
Proof.
  induction kinds as [|[[ns dt] n] l IH]; intros s; [reflexivity|]. cbn [double_groups map concat]. change (size ((ns, dt, n) :: l)) with (n + size l)%nat.
  rewrite IH, tab_app. reflexivity.
Qed.
Lemma double_groups_cut p X kinds : forall s s', cut_doubles p (double_groups p X kinds s) (tab (size kinds) (fun i => tab p (X (s' i)))) = double_groups p X kinds s'.
Proof.
  induction kinds as [|[[ns dt] n] l IH]; intros s s'; [reflexivity|]. cbn [double_groups cut_doubles]. change (size ((ns, dt, n) :: l)) with (n + size l)%nat.
  rewrite drawn_doubles_shape, tab_app, firstn_app, skipn_app, tab_length, Nat.sub_diag.
  rewrite firstn_all2, skipn_all2 by (rewrite tab_length; auto). cbn [firstn skipn app]. rewrite app_nil_r. f_equal. apply IH.
Qed.
Lemma double_groups_regroup p X kinds s q : is_perm (size kinds) q -> regroup_doubles p q (double_groups p X kinds s) = double_groups p X kinds (fun i => s (nth i q 0%nat)).
Proof. intros Hq. unfold regroup_doubles. rewrite double_groups_rows, rows_in_order by auto. apply (double_groups_cut p X kinds s (fun i => s (nth i q 0%nat))). Qed.
Lemma double_groups_ext p X kinds : forall s s', (forall i, (i < size kinds)%nat -> s i = s' i) -> double_groups p X kinds s = double_groups p X kinds s'.
Proof.
  induction kinds as [|[[ns dt] n] l IH]; intros s s' H; [reflexivity|]. cbn [double_groups]. change (size ((ns, dt, n) :: l)) with (n + size l)%nat in H. f_equal.
  - apply drawn_doubles_ext. intros i Hi. apply H. lia.
  - apply IH. intros i Hi. apply H. lia.
Qed.
Lemma double_groups_several p X kinds s : (2 <= length kinds)%nat -> Forall (fun n => 1 <= n)%nat (sizes kinds) -> several_doubles p (double_groups p X kinds s).
Proof.
  intros H2 HF. split.
  - clear HF. revert s H2. assert (G : forall s, length (double_groups p X kinds s) = length kinds); [|intros s; rewrite G; auto].
    induction kinds as [|[[ns dt] n] l IH]; intros s; cbn [double_groups length]; auto.
  - clear H2. revert s. induction kinds as [|[[ns dt] n] l IH]; intros s; cbn [double_groups]; [constructor|]. inversion HF; subst. constructor; auto.
    split; [|split; [reflexivity|rewrite drawn_doubles_shape; auto]]. unfold wf, drawn_doubles. cbn [adata]. apply Forall_forall. intros r Hr.
    unfold tab at 1 in Hr. apply in_map_iff in Hr as (k & <- & _). apply tab_length.
Qed.

(** Samples of doubles drawn from one distribution ([K] points [X] with the probabilities [w]): the probability over the draws
    and the orders that the computed statistics have no ties and the computed p-value is at most the computed level i / d is at
    most i / d times the probability that they have no ties. *)
Theorem C78_energy_level lib E K w X p kinds e av es st b i d : valid_fenv lib E -> distribution K w -> to_estimation es = Ok st ->
  (2 <= length kinds)%nat -> Forall (fun n => 1 <= n)%nat (sizes kinds) -> (1 <= i <= d)%Z -> ((Z.of_nat b + 1) * d <= 2 ^ 52)%Z ->
  let n := size kinds in
  let level := b64_div (b64_ofZ i) (b64_ofZ d) in
  let x s := double_groups p X kinds s in
  let free s r := distinct (double_statistics E e av es p (x s) r) in
  let pr (good : (nat -> nat) -> list (list nat) -> bool) := expect K w n (fun s => share_of_runs n b (good s)) in
  exists t, (forall s r, length r = b -> Forall (is_perm n) r -> exists g, double_test_on E e av es (x s) (Z.of_nat b) r = Ok (t s r, g)) /\
  pr (fun s r => free s r && Bleb (pvalue (t s r)) level) <= IZR i / IZR d * pr free /\
  pr (fun s r => Bleb (pvalue (t s r)) level) <= IZR i / IZR d + pr (fun s r => negb (free s r)).
Proof.
  intros HE HD Hst H2 HF Hi Hd n level x free pr.
  assert (HS : forall s, several_doubles p (x s)) by (intros s; apply double_groups_several; auto).
  assert (HN : forall s, count_rows (x s) = n) by (intros s; apply double_groups_total).
  set (tt := fun (ss : list (array b64)) r => match double_test_on E e av es ss (Z.of_nat b) r with Ok (t, _) => t | Err _ => mkTest B754_nan B754_nan end).
  assert (T0 : 0 <= IZR i / IZR d).
  { assert (1 <= IZR i) by (apply IZR_le; lia). assert (1 <= IZR d) by (apply IZR_le; lia). apply Rmult_le_pos; [lra|]. left. apply Rinv_0_lt_compat. lra. }
  exists (fun s r => tt (x s) r). split.
  { intros s r Lr Hr. destruct (double_test_orders lib E p (x s) e av es st HE (HS s) Hst) as (f & F0 & _). rewrite HN in F0. unfold tt.
    rewrite <- Lr, F0 by auto. eexists. reflexivity. }
  assert (G : forall g : list (array b64) -> list (list nat) -> bool, pr (fun s r => g (x s) r)
    = expect K w n (fun s => share_of_runs n (S b) (fun l => match l with [] => false | q :: r => g (regroup_doubles p q (x s)) r end))).
  { intros g. unfold pr. rewrite expect_orders; auto; [|intros s s' H; unfold x; rewrite (double_groups_ext p X kinds s s' H); reflexivity].
    apply expect_ext. intros s. rewrite share_step. apply perm_average_ext. intros q Hq. unfold x. rewrite double_groups_regroup by auto. reflexivity. }
  assert (L : pr (fun s r => free s r && Bleb (pvalue (tt (x s) r)) level) <= IZR i / IZR d * pr free).
  { unfold free. rewrite (G (fun ss r => distinct (double_statistics E e av es p ss r) && Bleb (pvalue (tt ss r)) level)), (G (fun ss r => distinct (double_statistics E e av es p ss r))).
    rewrite <- expect_scal. apply expect_mono; auto. intros s.
    destruct (C78_energy_test lib E p (x s) e av es st b i d HE (HS s) Hst Hi Hd) as (t & Ht & T1 & _). cbv zeta in T1. rewrite HN in T1, Ht. fold level in T1.
    eapply Rle_trans; [right|exact T1]. cbn [plus]. unfold share_of_runs. f_equal. f_equal. apply count_if_ext. intros l Hl. apply in_words in Hl as [Ll Hin].
    destruct l as [|q r]; [reflexivity|]. cbn in Ll.
    destruct (Ht q r) as (g & Hg); [apply in_all_perms, Hin; left; auto|lia|apply Forall_forall; intros u Hu; apply in_all_perms, Hin; right; auto|].
    unfold tt. rewrite Hg. reflexivity. }
  split; [exact L|].
  assert (G2 : pr (fun s r => Bleb (pvalue (tt (x s) r)) level) <= pr (fun s r => free s r && Bleb (pvalue (tt (x s) r)) level) + pr (fun s r => negb (free s r))).
  { unfold pr. rewrite <- expect_plus. apply expect_mono; auto. intros s. unfold share_of_runs. rewrite <- Rdiv_plus_distr. unfold Rdiv.
    apply Rmult_le_compat_r; [left; apply Rinv_0_lt_compat, runs_pos|]. rewrite <- plus_INR. apply le_INR. generalize (words b (all_perms n)). intros W. unfold count_if.
    induction W as [|r W IH]; [auto|]. cbn [filter]. destruct (free s r), (Bleb (pvalue (tt (x s) r)) level); cbn [andb negb length]; lia. }
  assert (pr free <= 1).
  { unfold pr. rewrite <- (expect_const K w (proj2 HD) n 1). apply expect_mono; auto. intros. apply share_range. }
  nra.
Qed.

(** ** The independence test *)

(** Its resampled statistics are not exactly the statistics of rearranged samples, because the matrices are centred with rounding
    errors in the order of the data; the decision is the exact one in the runs whose statistics are separated by more than the
    rounding error. *)

Lemma decision_of (pv : b64) k b i d : is_finite pv = true -> B2R pv = b64_round (INR (1 + k) / INR (1 + b)) -> (k <= b)%nat -> (1 <= i <= d)%Z ->
  ((Z.of_nat b + 1) * d <= 2 ^ 52)%Z -> Bleb pv (b64_div (b64_ofZ i) (b64_ofZ d)) = leb (INR (1 + k) / INR (1 + b)) (IZR i / IZR d).
Proof.
  intros F V Hk Hi Hd. rewrite <- (decision k b i d Hk Hi Hd).
  assert (Hb : (Z.of_nat b + 1 <= 2 ^ 53)%Z) by nia. assert (Hd' : (d <= 2 ^ 53)%Z) by nia.
  destruct (quotient (b64_ofZ i) (b64_ofZ d) i d) as [Fq Vq]; auto; try (eapply rep_weaken; [apply rep_ofZ; lia|lia]).
  destruct (quotient (b64_add (b64_ofZ (Z.of_nat k)) (b64_ofZ 1)) (b64_ofZ (Z.of_nat b + 1)) (Z.of_nat k + 1) (Z.of_nat b + 1)) as [F' V'].
  - eapply rep_weaken; [apply (rep_add (Z.abs (Z.of_nat k)) (Z.abs 1)); [apply rep_ofZ; lia|apply rep_ofZ; lia|lia]|lia].
  - eapply rep_weaken; [apply rep_ofZ; lia|lia].
  - lia.
  - rewrite !Bleb_correct, V, V' by auto. do 2 f_equal. unfold ratio. rewrite !INR_IZR_INZ. do 2 f_equal; lia.
Qed.

(** The exact statistics of the samples, and of the first sample in the orders [r]. *)
Definition exact_statistics (n : nat) (x y : array b64) (r : list (list nat)) : list R :=
  dcov_statistic n (freals x) (freals y) :: map (fun q => dcov_statistic n (permute_sample q (freals x)) (freals y)) r.
(** All of the others differ from the first one by more than [g]. *)
Definition separated (g : R) (l : list R) : bool := forallb (fun u => negb (leb (Rabs (u - nth 0 l 0)) g)) (tl l).

(** Points with [p] finite coordinates that are equal or differ by between 2^-100 and 2^100, at distances of at most [D]. *)
Definition moderate (K p : nat) (X : nat -> nat -> b64) (D : R) : Prop :=
  (forall k c, (k < K)%nat -> (c < p)%nat -> is_finite (X k c) = true) /\
  (forall k l c, (k < K)%nat -> (l < K)%nat -> (c < p)%nat -> B2R (X k c) = B2R (X l c) \/ / 2 ^ 100 <= Rabs (B2R (X k c) - B2R (X l c)) <= 2 ^ 100) /\
  (forall k l, (k < K)%nat -> (l < K)%nat -> dist p (fun c => B2R (X k c)) (fun c => B2R (X l c)) <= D).

Lemma freals_drawn ns dt n p X s : freals (drawn_doubles ns dt n p X s) = drawn ns dt n p (fun k c => B2R (X k c)) s.
Proof. unfold freals, drawn_doubles, drawn, amap. cbn [ans adt adata]. do 2 f_equal. rewrite tab_map. apply tab_ext. intros. rewrite tab_map. reflexivity. Qed.

Lemma drawn_moderate K p X D ns n s : moderate K p X D -> (forall i, (s i < K)%nat) -> (1 <= n)%nat ->
  let x := drawn_doubles ns F64 n p X s in
  Forall (fun v => is_finite v = true) (entries x) /\ spread n x /\ (forall i j, (i < n)%nat -> (j < n)%nat -> distances 1 (freals x) i j <= D).
Proof.
  intros (M1 & M2 & M3) Hs Hn x. split; [|split].
  - unfold x, entries, drawn_doubles. cbn [adata]. apply Forall_concat. apply Forall_forall. intros r Hr. unfold tab at 1 in Hr. apply in_map_iff in Hr as (i & <- & _).
    unfold tab. apply Forall_map. apply Forall_forall. intros c Hc. apply in_seq in Hc. apply M1; auto. lia.
  - intros i j k Hi Hj Hk. change (ncols x) with p in Hk. unfold x. rewrite freals_drawn, !drawn_obs by auto. apply M2; auto.
  - intros i j Hi Hj. unfold x. rewrite freals_drawn. unfold distances, dmat. rewrite rpow_1 by apply dist_nonneg.
    eapply Rle_trans; [right|apply (M3 (s i) (s j)); auto]. change (ncols (drawn ns F64 n p (fun k c => B2R (X k c)) s)) with p. unfold dist. f_equal. apply rsum_ext.
    intros c Hc. rewrite !drawn_obs by auto. reflexivity.
Qed.

Definition double_dcov_test_on (E : Env b64) (x y : array b64) (B : Z) (r : list (list nat)) :=
  outcome (distance_covariance_test E replay x y B (b64_ofZ 1) (RState r)).

(** Draws of a pair of independent variables with values in the doubles. *)
Theorem C78_dcov_level lib E K w X Y p q ns ns' n Dx Dy b i d : valid_fenv lib E -> distribution K w ->
  independent K w p q (fun k c => B2R (X k c)) (fun k c => B2R (Y k c)) -> moderate K p X Dx -> moderate K q Y Dy ->
  (1 <= n)%nat -> (Z.of_nat n <= 2 ^ 18)%Z -> (Z.of_nat p <= 2 ^ 30)%Z -> (Z.of_nat q <= 2 ^ 30)%Z ->
  / 2 ^ 100 <= Dx <= 2 ^ 200 -> / 2 ^ 100 <= Dy <= 2 ^ 200 -> (1 <= i <= d)%Z -> ((Z.of_nat b + 1) * d <= 2 ^ 52)%Z ->
  let level := b64_div (b64_ofZ i) (b64_ofZ d) in
  let x s := drawn_doubles ns F64 n p X s in let y s := drawn_doubles ns' F64 n q Y s in
  let err := test_error n p q Dx Dy in
  let free s r := tie_free (exact_statistics n (x s) (y s) r) in
  let clear s r := free s r && separated (2 * err) (exact_statistics n (x s) (y s) r) in
  let pr (good : (nat -> nat) -> list (list nat) -> bool) := expect K w n (fun s => share_of_runs n b (good s)) in
  exists t, (forall s r, (forall i, (s i < K)%nat) -> length r = b -> Forall (is_perm n) r -> exists g, double_dcov_test_on E (x s) (y s) (Z.of_nat b) r = Ok (t s r, g)) /\
  pr (fun s r => clear s r && Bleb (pvalue (t s r)) level) <= IZR i / IZR d * pr free /\
  pr (fun s r => Bleb (pvalue (t s r)) level) <= IZR i / IZR d + pr (fun s r => negb (clear s r)).
Proof.
  intros HE HD HI MX MY Hn N18 P30 Q30 BX BY Hi Hd level x y err free clear pr.
  set (t := fun s r => match double_dcov_test_on E (x s) (y s) (Z.of_nat b) r with Ok (t, _) => t | Err _ => mkTest B754_nan B754_nan end).
  assert (T0 : 0 <= IZR i / IZR d).
  { assert (1 <= IZR i) by (apply IZR_le; lia). assert (1 <= IZR d) by (apply IZR_le; lia). apply Rmult_le_pos; [lra|]. left. apply Rinv_0_lt_compat. lra. }
  assert (Hb : (Z.of_nat b + 1 <= 2 ^ 53)%Z) by nia.
  set (ex := fun s r => exact_statistics n (x s) (y s) r).
  assert (F : forall s r, (forall i, (s i < K)%nat) -> length r = b -> Forall (is_perm n) r ->
    exists t', double_dcov_test_on E (x s) (y s) (Z.of_nat b) r = Ok (t', []) /\
    (clear s r = true -> Bleb (pvalue t') level = leb (vector_p (ex s r)) (IZR i / IZR d))).
  { intros s r Hs Lr Hr. destruct (drawn_moderate K p X Dx ns n s MX Hs Hn) as (F1 & S1 & D1). destruct (drawn_moderate K q Y Dy ns' n s MY Hs Hn) as (F2 & S2 & D2).
    fold (x s) in F1, S1, D1. fold (y s) in F2, S2, D2.
    assert (DP : double_pair n (x s) (y s)).
    { unfold double_pair. split; [|auto]. unfold x, y. rewrite !freals_drawn. apply drawn_paired. auto. }
    destruct (C61_dcov_test lib E replay n (x s) (y s) Dx Dy b (RState r) HE replay_permuting DP S1 S2 N18 P30 Q30 BX BY D1 D2 Hb) as (t' & T1 & _ & _ & T2).
    cbn [random_state_init] in T1, T2. rewrite <- Lr, replay_draw in T1, T2 by auto. cbn [fst snd] in T1, T2. exists t'. rewrite <- Lr. split; [exact T1|].
    intros C. unfold clear in C. apply andb_prop in C as [C1 C2].
    destruct T2 as [FT VT].
    { intros o Ho. right. unfold separated, exact_statistics in C2. cbn [tl nth] in C2. rewrite forallb_forall in C2.
      specialize (C2 _ (in_map (fun q => dcov_statistic n (permute_sample q (freals (x s))) (freals (y s))) r o Ho)). unfold leb in C2. cbn beta in C2.
      change (ncols (x s)) with p. change (ncols (y s)) with q. fold err. destruct (Rle_dec _ _) as [|N] in C2; [discriminate|]. apply Rnot_le_lt. exact N. }
    unfold vector_p, ex, exact_statistics. cbn [nth tl]. unfold p_value in *. rewrite map_length in *.
    set (k := length (filter _ _)) in *.
    assert (Hk : (k <= length r)%nat) by (unfold k; eapply Nat.le_trans; [apply filter_length_le|rewrite map_length; lia]).
    assert (E1 : (1 + INR k) / (1 + INR (length r)) = INR (1 + k) / INR (1 + length r)) by (rewrite !plus_INR; reflexivity).
    rewrite E1 in *. apply decision_of; auto. rewrite Lr. exact Hd. }
  destruct (C76_dcov_level (env_R true) K w (fun k c => B2R (X k c)) (fun k c => B2R (Y k c)) p q ns F64 ns' F64 n 1 b (IZR i / IZR d)) as (tr & Ht & HL & _);
    auto using env_R_valid; [lra|]. cbv zeta in HL, Ht.
  assert (ST : forall s r, length r = b -> Forall (is_perm n) r ->
    statistics permute_sample (dcov_test_on (env_R true) (drawn ns' F64 n q (fun k c => B2R (Y k c)) s) 1) (drawn ns F64 n p (fun k c => B2R (X k c)) s) r = ex s r /\
    pvalue (tr s r) = vector_p (ex s r)).
  { intros s r Lr Hr. unfold ex, exact_statistics, x, y. rewrite !freals_drawn.
    set (xr := drawn ns F64 n p _ s). set (yr := drawn ns' F64 n q _ s).
    assert (PA : paired n xr yr) by (apply drawn_paired; auto).
    split.
    - unfold statistics. f_equal.
      + unfold stat_of, dcov_test_on. change 0%Z with (Z.of_nat 0). rewrite (dcov_test_eval (env_R true) replay xr yr n) by (auto using env_R_valid, replay_permuting; lra). reflexivity.
      + apply map_ext_in. intros o Ho. rewrite Forall_forall in Hr. specialize (Hr o Ho). unfold xr. rewrite permute_drawn by auto. unfold stat_of, dcov_test_on. change 0%Z with (Z.of_nat 0).
        rewrite (dcov_test_eval (env_R true) replay _ yr n) by (auto using env_R_valid, replay_permuting; try lra; unfold paired, yr; auto 8 using drawn_wf, drawn_shape). reflexivity.
    - destruct (Ht s r Lr Hr) as (g & Hg). fold xr yr in Hg. unfold dcov_test_on in Hg. rewrite (dcov_test_eval (env_R true) replay xr yr n) in Hg by (auto using env_R_valid, replay_permuting; lra).
      cbn [random_state_init] in Hg. rewrite <- Lr, replay_draw in Hg by auto. cbn [fst snd] in Hg. injection Hg as Hg _. rewrite <- Hg. cbn [pvalue].
      unfold vector_p. cbn [nth tl]. f_equal. apply map_ext_in. intros o Ho. rewrite Forall_forall in Hr. symmetry. apply permuted_exact; auto; [apply PA|apply PA]. }
  assert (L : pr (fun s r => clear s r && Bleb (pvalue (t s r)) level) <= IZR i / IZR d * pr free).
  { eapply Rle_trans; [|eapply Rle_trans; [exact HL|right]].
    - unfold pr. apply expect_le; auto. intros s Hs. set (al := IZR i / IZR d) in *. unfold share_of_runs, Rdiv. apply Rmult_le_compat_r; [left; apply Rinv_0_lt_compat, runs_pos|]. apply le_INR.
      assert (G : forall r, In r (words b (all_perms n)) -> clear s r && Bleb (pvalue (t s r)) level = true ->
        tie_free (statistics permute_sample (dcov_test_on (env_R true) (drawn ns' F64 n q (fun k c => B2R (Y k c)) s) 1) (drawn ns F64 n p (fun k c => B2R (X k c)) s) r)
        && leb (pvalue (tr s r)) al = true).
      { intros r Hr HC. apply in_words in Hr as [Lr Hin]. assert (Fr : Forall (is_perm n) r) by (apply Forall_forall; intros u Hu; apply in_all_perms, Hin; auto).
        destruct (ST s r Lr Fr) as [-> ->]. destruct (F s r Hs Lr Fr) as (t' & E1 & E2). apply andb_prop in HC as [C1 C2]. unfold t in C2. rewrite E1 in C2. rewrite (E2 C1) in C2.
        unfold clear in C1. apply andb_prop in C1 as [C1 _]. unfold free in C1. fold (ex s r) in C1. rewrite C1. exact C2. }
      revert G. unfold count_if. generalize (words b (all_perms n)). intros W G. induction W as [|r W IH]; [auto|]. cbn [filter].
      specialize (IH (fun r' Hr' => G r' (or_intror Hr'))). specialize (G r (or_introl eq_refl)).
      destruct (clear s r && Bleb (pvalue (t s r)) level); [rewrite G by auto; cbn [length]; lia|]. destruct (_ && _); cbn [length]; lia.
    - f_equal. unfold pr. apply expect_ext. intros s. unfold share_of_runs. f_equal. f_equal. apply count_if_ext. intros r Hr. apply in_words in Hr as [Lr Hin].
      destruct (ST s r Lr) as [-> _]; [apply Forall_forall; intros u Hu; apply in_all_perms, Hin; auto|]. reflexivity. }
  exists t. split; [|split; [exact L|]].
  - intros s r Hs Lr Hr. destruct (F s r Hs Lr Hr) as (t' & E1 & _). unfold t. rewrite E1. eexists. reflexivity.
  - assert (G2 : pr (fun s r => Bleb (pvalue (t s r)) level) <= pr (fun s r => clear s r && Bleb (pvalue (t s r)) level) + pr (fun s r => negb (clear s r))).
    { unfold pr. rewrite <- expect_plus. apply expect_mono; auto. intros s. unfold share_of_runs. rewrite <- Rdiv_plus_distr. unfold Rdiv.
      apply Rmult_le_compat_r; [left; apply Rinv_0_lt_compat, runs_pos|]. rewrite <- plus_INR. apply le_INR. generalize (words b (all_perms n)). intros W. unfold count_if.
      induction W as [|r W IH]; [auto|]. cbn [filter]. destruct (clear s r), (Bleb (pvalue (t s r)) level); cbn [andb negb length]; lia. }
    assert (pr free <= 1).
    { unfold pr. rewrite <- (expect_const K w (proj2 HD) n 1). apply expect_mono; auto. intros. apply share_range. }
    nra.
Qed.

(** Ties have to be excluded: if all observations are equal the p-value is always the smallest possible one, 1 / (b + 1). *)
Theorem C78_constant_refuted lib E K w c p kinds e av es st b : valid_fenv lib E -> distribution K w -> to_estimation es = Ok st ->
  (2 <= length kinds)%nat -> Forall (fun n => 1 <= n)%nat (sizes kinds) -> (Z.of_nat b + 1 <= 2 ^ 26)%Z ->
  let n := size kinds in
  let level := b64_div (b64_ofZ 1) (b64_ofZ (Z.of_nat b + 1)) in
  let x s := double_groups p (fun _ => c) kinds s in
  exists t, (forall s r, length r = b -> Forall (is_perm n) r -> exists g, double_test_on E e av es (x s) (Z.of_nat b) r = Ok (t s r, g)) /\
  expect K w n (fun s => share_of_runs n b (fun r => Bleb (pvalue (t s r)) level)) = 1.
Proof.
  intros HE HD Hst H2 HF Hb n level x.
  assert (HS : forall s, several_doubles p (x s)) by (intros s; apply double_groups_several; auto).
  assert (HN : forall s, count_rows (x s) = n) by (intros s; apply double_groups_total).
  assert (X0 : forall s s', x s = x s').
  { unfold x. clear. induction kinds as [|[[ns dt] k] l IH]; intros s s'; [reflexivity|]. cbn [double_groups]. f_equal. apply IH. }
  set (t := fun s r => match double_test_on E e av es (x s) (Z.of_nat b) r with Ok (t, _) => t | Err _ => mkTest B754_nan B754_nan end).
  assert (T : forall s r, length r = b -> Forall (is_perm n) r -> exists v, double_test_on E e av es (x s) (Z.of_nat b) r = Ok (mkTest (double_p v (map (fun _ => v) r)) v, [])).
  { intros s r Lr Hr. destruct (double_test_orders lib E p (x s) e av es st HE (HS s) Hst) as (f & F0 & F1 & _). rewrite HN in F0, F1.
    exists (f (seq 0 n)). rewrite <- Lr, F0 by auto. do 4 f_equal. apply map_ext_in. intros q Hq. rewrite Forall_forall in Hr.
    pose proof (F1 q [] (Hr q Hq) (Forall_nil _)) as A. pose proof (F0 [] (Forall_nil _)) as B. unfold x in A, B. rewrite double_groups_regroup in A by (apply Hr; auto).
    fold (x (fun i => s (nth i q 0%nat))) in A. rewrite (X0 (fun i => s (nth i q 0%nat)) s) in A. unfold x in A. rewrite A in B. injection B. auto. }
  exists t. split.
  - intros s r Lr Hr. destruct (T s r Lr Hr) as (v & Hv). unfold t. rewrite Hv. eexists. reflexivity.
  - rewrite <- (expect_const K w (proj2 HD) n 1). apply expect_ext. intros s. unfold share_of_runs. pose proof (runs_pos n b) as RP.
    rewrite (count_if_ext _ (fun _ => true)).
    + unfold count_if. replace (filter (fun _ => true) (words b (all_perms n))) with (words b (all_perms n)); [field; lra|].
      generalize (words b (all_perms n)). intros W. induction W as [|r W IH]; cbn [filter]; congruence.
    + intros r Hr. apply in_words in Hr as [Lr Hin].
      destruct (T s r Lr) as (v & Hv); [apply Forall_forall; intros u Hu; apply in_all_perms, Hin; auto|]. unfold t. rewrite Hv. cbn [pvalue]. unfold double_p, level.
      rewrite map_length, Lr, filter_map_length.
      assert (length (filter (fun _ : list nat => Bltb v v) r) = 0%nat) as ->.
      { assert (Bltb v v = false) as ->.
        { destruct (Bltb v v) eqn:B; auto. destruct (Bltb_not_nan v v B) as [N _]. apply (ext_lt v v N N) in B. lra. }
        clear. induction r; cbn; auto. }
      rewrite decision by (try lia; nia). unfold leb. destruct (Rle_dec _ _) as [|N]; auto. exfalso. apply N. right. rewrite (plus_INR 1 b), plus_IZR, <- INR_IZR_INZ. change (INR (1 + 0)) with 1. change (INR 1) with 1. f_equal. ring.
Qed.

(** Two samples of two observations from the uniform distribution on the points 0, 1, 3 and 10, one resample, level 1/2. *)
Definition four (k : nat) (_ : nat) : b64 := nth k (map b64_ofZ [0; 1; 3; 10]%Z) (b64_ofZ 0).
Definition two_pairs_of_doubles : list (nspace * dtype * nat) := [(Numpy, F64, 2%nat); (Numpy, F64, 2%nat)].
Example C78_meets : exists t,
  let x s := double_groups 1 four two_pairs_of_doubles s in
  let free s r := distinct (double_statistics env_F (b64_ofZ 1) None (EstEnum VStatistic) 1 (x s) r) in
  let pr (good : (nat -> nat) -> list (list nat) -> bool) := expect 4 (fun _ => 1 / 4) 4 (fun s => share_of_runs 4 1 (good s)) in
  (forall s r, length r = 1%nat -> Forall (is_perm 4) r -> exists g, double_test_on env_F (b64_ofZ 1) None (EstEnum VStatistic) (x s) 1 r = Ok (t s r, g)) /\
  0 < pr free /\ pr (fun s r => free s r && Bleb (pvalue (t s r)) (b64_div (b64_ofZ 1) (b64_ofZ 2))) <= 1 / 2 * pr free.
Proof.
  assert (HD : distribution 4 (fun _ => 1 / 4)) by (split; [intros; lra|cbn; lra]).
  destruct (C78_energy_level plain env_F 4 (fun _ => 1 / 4) four 1 two_pairs_of_doubles (b64_ofZ 1) None (EstEnum VStatistic) VStatistic 1 1 2 env_F_valid HD eq_refl) as (t & Ht & H1 & _);
    [cbn; lia|repeat constructor|lia|cbn; lia|].
  exists t. cbv zeta. split; [exact Ht|]. split; [|exact H1].
  apply (expect_positive 4 (fun _ => 1 / 4) HD 4 (fun i => i)).
  - intros i Hi. split; [lia|lra].
  - intros s. apply share_range.
  - intros s Hs. assert (Hq : is_perm 4 [0; 2; 1; 3]%nat) by (apply perm_skip, perm_swap).
    apply (share_positive 4 1 _ [[0; 2; 1; 3]]%nat); auto. rewrite (double_groups_ext 1 four two_pairs_of_doubles s (fun i => i)) by exact Hs.
    vm_compute. reflexivity.
Qed.

(** Two independent coins thrown four times, one resample, level 1/2. *)
Definition double_coin (k : nat) (_ : nat) : b64 := b64_ofZ (if Nat.ltb k 2 then 0 else 1)%Z.
Definition double_other (k : nat) (_ : nat) : b64 := b64_ofZ (if Nat.even k then 0 else 1)%Z.
Lemma ofZ_real z : (Z.abs z <= 2 ^ 53)%Z -> is_finite (b64_ofZ z) = true /\ B2R (b64_ofZ z) = IZR z.
Proof. intros H. destruct (rep_ofZ z H) as (F & R1 & _). auto. Qed.
Lemma bits_moderate K (c : nat -> bool) : moderate K 1 (fun k _ => b64_ofZ (if c k then 0 else 1)%Z) 1.
Proof.
  assert (V : forall k, is_finite (b64_ofZ (if c k then 0 else 1)) = true /\ B2R (b64_ofZ (if c k then 0 else 1)) = if c k then 0 else 1).
  { intros k. destruct (ofZ_real (if c k then 0 else 1)%Z) as [F1 F2]; [destruct (c k); cbn; lia|]. split; auto. rewrite F2. destruct (c k); reflexivity. }
  assert (A : forall k l, (if c k then 0 else 1) - (if c l then 0 else 1) = 0 \/ Rabs ((if c k then 0 else 1) - (if c l then 0 else 1)) = 1).
  { intros k l. destruct (c k), (c l); [left; ring|right|right|left; ring].
    - rewrite Rminus_0_l, Rabs_Ropp. apply Rabs_R1.
    - rewrite Rminus_0_r. apply Rabs_R1. }
  assert (P : 1 <= 2 ^ 100) by (apply pow_R1_Rle; lra). assert (P' : / 2 ^ 100 <= 1) by (rewrite <- (Rinv_1) at 1; apply Rinv_le_contravar; lra).
  split; [|split].
  - intros k j _ _. apply V.
  - intros k l j _ _ _. destruct (V k) as [_ ->], (V l) as [_ ->]. destruct (A k l) as [H|H]; [left; lra|right; rewrite H; lra].
  - intros k l _ _. rewrite dist_1. cbn beta. destruct (V k) as [_ ->], (V l) as [_ ->]. destruct (A k l) as [H|H]; rewrite H; [rewrite Rabs_R0|]; lra.
Qed.

Example C78_dcov_meets : exists t,
  let x s := drawn_doubles Numpy F64 4 1 double_coin s in let y s := drawn_doubles Numpy F64 4 1 double_other s in
  let free s r := tie_free (exact_statistics 4 (x s) (y s) r) in
  let clear s r := free s r && separated (2 * test_error 4 1 1 1 1) (exact_statistics 4 (x s) (y s) r) in
  let pr (good : (nat -> nat) -> list (list nat) -> bool) := expect 4 (fun _ => 1 / 4) 4 (fun s => share_of_runs 4 1 (good s)) in
  (forall s r, (forall i, (s i < 4)%nat) -> length r = 1%nat -> Forall (is_perm 4) r -> exists g, double_dcov_test_on env_F (x s) (y s) 1 r = Ok (t s r, g)) /\
  0 < pr clear /\ pr (fun s r => clear s r && Bleb (pvalue (t s r)) (b64_div (b64_ofZ 1) (b64_ofZ 2))) <= 1 / 2 * pr free.
Proof.
  assert (HD : distribution 4 (fun _ => 1 / 4)) by (split; [intros; lra|cbn; lra]).
  assert (C1 : (fun k c => B2R (double_coin k c)) = (fun k c => if Nat.ltb k 2 then 0 else 1)).
  { apply FunctionalExtensionality.functional_extensionality. intros k. apply FunctionalExtensionality.functional_extensionality. intros c. unfold double_coin.
    destruct (ofZ_real (if Nat.ltb k 2 then 0 else 1)%Z) as [_ F2]; [destruct (Nat.ltb k 2); cbn; lia|]. rewrite F2. destruct (Nat.ltb k 2); reflexivity. }
  assert (C2 : (fun k c => B2R (double_other k c)) = (fun k c => if Nat.even k then 0 else 1)).
  { apply FunctionalExtensionality.functional_extensionality. intros k. apply FunctionalExtensionality.functional_extensionality. intros c. unfold double_other.
    destruct (ofZ_real (if Nat.even k then 0 else 1)%Z) as [_ F2]; [destruct (Nat.even k); cbn; lia|]. rewrite F2. destruct (Nat.even k); reflexivity. }
  assert (P2 : / 2 ^ 100 <= 1 <= 2 ^ 200).
  { split; [rewrite <- (Rinv_1) at 1; apply Rinv_le_contravar; [lra|]|]; apply pow_R1_Rle; lra. }
  destruct (C78_dcov_level plain env_F 4 (fun _ => 1 / 4) double_coin double_other 1 1 Numpy Numpy 4 1 1 1 1 2 env_F_valid HD) as (t & Ht & H1 & _);
    [|apply (bits_moderate 4 (fun k => Nat.ltb k 2))|apply (bits_moderate 4 (fun k => Nat.even k))|lia|cbn; lia|cbn; lia|cbn; lia|exact P2|exact P2|lia|cbn; lia|].
  { rewrite C1, C2. intros u v. unfold prob_both, prob_at, same_pointb. cbn. repeat match goal with |- context [Req_EM_T ?a ?b] => destruct (Req_EM_T a b) end; cbn; lra. }
  exists t. cbv zeta. split; [exact Ht|]. split; [|exact H1].
  apply (expect_positive 4 (fun _ => 1 / 4) HD 4 (fun i => if Nat.ltb i 2 then 0 else 3)%nat).
  - intros i Hi. split; [destruct (Nat.ltb i 2); lia|lra].
  - intros s. apply share_range.
  - intros s Hs. assert (Hq : is_perm 4 [0; 2; 1; 3]%nat) by (apply perm_skip, perm_swap).
    apply (share_positive 4 1 _ [[0; 2; 1; 3]]%nat); auto.
    set (bit := fun i : nat => if Nat.ltb i 2 then 0 else 1). set (mix := fun i : nat => if Nat.even i then 0 else 1).
    assert (A : forall i j, (i < 4)%nat -> (j < 4)%nat -> distances 1 (freals (drawn_doubles Numpy F64 4 1 double_coin s)) i j = Rabs (bit i - bit j)).
    { intros i j Hi Hj. rewrite freals_drawn, C1. rewrite distances_1, !drawn_obs, !Hs by first [reflexivity|lia]. unfold bit. destruct (Nat.ltb i 2), (Nat.ltb j 2); reflexivity. }
    assert (B : forall i j, (i < 4)%nat -> (j < 4)%nat -> distances 1 (freals (drawn_doubles Numpy F64 4 1 double_other s)) i j = Rabs (bit i - bit j)).
    { intros i j Hi Hj. rewrite freals_drawn, C2. rewrite distances_1, !drawn_obs, !Hs by first [reflexivity|lia]. unfold bit. destruct (Nat.ltb i 2), (Nat.ltb j 2); reflexivity. }
    assert (C : forall i j, (i < 4)%nat -> (j < 4)%nat -> distances 1 (permute_sample [0; 2; 1; 3]%nat (freals (drawn_doubles Numpy F64 4 1 double_coin s))) i j = Rabs (mix i - mix j)).
    { intros i j Hi Hj. rewrite freals_drawn, C1, permute_drawn by auto. rewrite distances_1, !drawn_obs, !Hs by first [reflexivity|lia|apply (is_perm_lt _ _ _ Hq); lia]. unfold mix.
      destruct i as [|[|[|[|i]]]]; try lia; destruct j as [|[|[|[|j]]]]; try lia; reflexivity. }
    unfold exact_statistics, dcov_statistic. cbn [map].
    rewrite (dcov2_ext 4 (distances 1 (permute_sample _ _)) _ (fun i j => Rabs (mix i - mix j)) (fun i j => Rabs (bit i - bit j))) by auto.
    rewrite (dcov2_ext 4 (distances _ _) _ (fun i j => Rabs (bit i - bit j)) (fun i j => Rabs (bit i - bit j))) by auto.
    assert (R0 : Rabs 0 = 0) by apply Rabs_R0. assert (R1 : Rabs 1 = 1) by apply Rabs_R1.
    assert (V1 : dcov2 4 (fun i j => Rabs (mix i - mix j)) (fun i j => Rabs (bit i - bit j)) = 0).
    { unfold dcov2, dcenter, mean, rsum2. cbn [rsum]. unfold bit, mix. cbn [Nat.ltb Nat.leb Nat.even]. rewrite !Rminus_eq_0, !Rminus_0_l, !Rminus_0_r, !R0, !R1. change (- (1)) with (Ropp 1).
      rewrite ?Rabs_Ropp, ?R1. cbn [INR]. lra. }
    assert (V2 : dcov2 4 (fun i j => Rabs (bit i - bit j)) (fun i j => Rabs (bit i - bit j)) = 1 / 4).
    { unfold dcov2, dcenter, mean, rsum2. cbn [rsum]. unfold bit. cbn [Nat.ltb Nat.leb Nat.even]. rewrite !Rminus_eq_0, !Rminus_0_l, !Rminus_0_r, !R0, !R1. change (- (1)) with (Ropp 1).
      rewrite ?Rabs_Ropp, ?R1. cbn [INR]. lra. }
    rewrite V1, V2. apply andb_true_intro. split.
    + unfold tie_free. destruct (ListDec.NoDup_dec _ _) as [|N]; auto. exfalso. apply N. constructor; [|constructor; [intros []|constructor]]. intros [Heq|[]]. cbn [INR] in Heq. lra.
    + unfold separated, leb. cbn [tl nth forallb]. destruct (Rle_dec _ _) as [G|_]; [|reflexivity]. exfalso. revert G. unfold test_error. cbn [INR plus].
      replace ((1 + 1 + 1 + 1) * 0 - (1 + 1 + 1 + 1) * (1 / 4)) with (- (1)) by lra. rewrite Rabs_Ropp, R1. lra.
Qed.
