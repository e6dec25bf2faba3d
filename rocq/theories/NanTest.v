(** NaN and infinities in the data of the energy test and of the affinely invariant correlations. *)
From Coq Require Import Lia List Arith Bool ZArith.
From Verif Require Import Num Numpy MUtils MDistances MInternals MMergesort MAvl MDcor MPartial MEnergy MHypothesis MHomogeneity
  MIndependence MRowwise Sums Tab Samples Api RefDist AvlGeneric RefInteger TransferMore Calls RefHomogeneity NanGeneric NanMore.
Import ListNotations.
Local Open Scope monad_scope.

Lemma slice_all {A} (l k : list A) : slice (l ++ k) 0 (length l) = l.
Proof. unfold slice. rewrite Nat.sub_0_r. cbn [skipn]. rewrite firstn_app, Nat.sub_diag, firstn_all. cbn. apply app_nil_r. Qed.
Lemma slice_app {A} (l k : list A) a b : slice (l ++ k) (length l + a) (length l + a + b) = slice k a (a + b).
Proof.
  unfold slice. rewrite skipn_app, (skipn_all2 l) by lia. cbn [app]. f_equal; [lia|f_equal; lia].
Qed.
Lemma slice_concat {A} (rs : list (list A)) : forall i, i < length rs ->
  slice (concat rs) (list_sum (firstn i (map (@length A) rs))) (list_sum (firstn i (map (@length A) rs)) + length (nth i rs [])) = nth i rs [].
Proof.
  induction rs as [|r rs IH]; intros [|i] Hi; cbn [length] in Hi; try lia.
  - cbn [firstn map list_sum fold_right nth concat plus]. apply slice_all.
  - cbn [map firstn nth concat]. change (list_sum (length r :: firstn i (map (@length A) rs))) with (length r + list_sum (firstn i (map (@length A) rs))).
    rewrite slice_app. apply IH. lia.
Qed.
Lemma indexes_nth sizes i : i < length sizes -> nth i (sample_indexes sizes) 0 = list_sum (firstn i sizes).
Proof.
  destruct sizes as [|s l]; cbn [length]; [lia|]. intros Hi. unfold sample_indexes. rewrite nat_cumsum_tab. cbn [length].
  rewrite removelast_tab. destruct i as [|i]; [reflexivity|]. cbn [nth]. rewrite tab_nth by lia. cbn [plus]. reflexivity.
Qed.
Lemma indexes_length sizes : length (sample_indexes sizes) = length sizes.
Proof.
  destruct sizes as [|s l]; [reflexivity|]. unfold sample_indexes. rewrite nat_cumsum_tab. cbn [length]. rewrite removelast_tab, tab_length. reflexivity.
Qed.
Lemma nth_error_slice {A} (l : list A) a b i v : nth_error (slice l a b) i = Some v -> nth_error l (a + i) = Some v.
Proof.
  unfold slice. revert l. induction a as [|a IH]; intros l; cbn [plus].
  - rewrite Nat.sub_0_r. cbn [skipn]. revert l i. induction b as [|b IH]; intros [|x l] [|i]; cbn; try discriminate; auto.
  - destruct l as [|x l]; [destruct (b - S a), i; discriminate|]. cbn [skipn nth_error]. intros H. apply IH.
    revert H. generalize (skipn a l). intros k H. rewrite firstn_nth_error in H || idtac.
    assert (G : forall n m (k : list A), n <= m -> nth_error (firstn n k) i = Some v -> nth_error (firstn m k) i = Some v).
    { clear. induction i as [|i IH]; intros n m [|y k] Hnm; destruct n, m; cbn; try discriminate; try lia; auto. apply IH. lia. }
    eapply (G _ (b - a)); [|exact H]. lia.
Qed.

Section EnergyTest.
  Context {T : Type} (E : Env T) (bad big nn : T -> Prop) {S : Type} (G : Rng S).
  Let N := e_num E.
  Hypothesis SP : special N bad.
  Hypothesis SQ : special_pos N bad big nn.
  Notation nan v := (nisnan N v = true).
  Notation dm := (dist_matrix bad big nn).

  Lemma submatrix_matrix m r a b c d : dm m r r -> b <= length r -> d <= length r -> dm (submatrix m a b c d) (slice r a b) (slice r c d).
  Proof.
    intros [H1 H2] Hb Hd. unfold submatrix. split; [rewrite map_length; unfold slice; rewrite !firstn_length, !skipn_length; lia|].
    intros i row. rewrite nth_error_map. destruct (nth_error (slice m a b) i) as [q|] eqn:Q; [|discriminate]. intros [= <-].
    apply nth_error_slice in Q. destruct (H2 _ _ Q) as [H3 H4]. split; [unfold slice; rewrite !firstn_length, !skipn_length; lia|].
    intros j v Hv. apply nth_error_slice in Hv. destruct (H4 _ _ Hv) as [H5 H6]. split; auto.
    intros u w Hu Hw. apply nth_error_slice in Hu, Hw. eauto.
  Qed.

  Lemma firstn_sum_le l : forall i, i < length l -> list_sum (firstn i l) + nth i l 0 <= list_sum l.
  Proof.
    induction l as [|a l IH]; intros [|i] Hi; cbn [length] in Hi; try lia; cbn [firstn nth].
    - cbn. lia.
    - change (list_sum (a :: firstn i l)) with (a + list_sum (firstn i l)). change (list_sum (a :: l)) with (a + list_sum l).
      specialize (IH i). lia.
  Qed.

  (** One pair of samples [i < j], one of them with a NaN or infinity. *)
  Lemma pair_nan rs m es i j v : dm m (concat rs) (concat rs) -> i < length rs -> j < length rs ->
    (forall r, In r rs -> r <> []) -> Exists (Exists bad) (nth i rs []) \/ Exists (Exists bad) (nth j rs []) ->
    pair_statistic E m (sample_indexes (map (@length _) rs)) (map (@length _) rs) None es (i, j) = Ok v -> nan v.
  Proof.
    intros Hm Hi Hj Hne Hb. set (sizes := map (@length (list T)) rs). unfold pair_statistic.
    assert (Ls : length sizes = length rs) by apply map_length.
    assert (K : forall i, i < length rs -> nth i sizes 0 = length (nth i rs [])).
    { intros k Hk. unfold sizes. rewrite (nth_indep _ 0 (length (@nil (list T)))) by (rewrite map_length; auto). apply (map_nth (@length (list T))). }
    rewrite !indexes_nth by lia. unfold energy_test_statistic_from_distance_matrices.
    destruct (energy_distance_from_distance_matrices _ _ _ _ _ _) as [ed|] eqn:ED; cbn [rbind]; [|discriminate].
    destruct (energy_coefficient E _ _) as [c|]; cbn [rbind]; [|discriminate]. intros [= <-]. apply (sp_mul _ _ SP). right.
    assert (Lc : length (concat rs) = list_sum sizes) by (unfold sizes; clear; induction rs as [|r l IH]; cbn; rewrite ?app_length, ?IH; reflexivity).
    pose proof (firstn_sum_le sizes i ltac:(lia)) as Bi. pose proof (firstn_sum_le sizes j ltac:(lia)) as Bj. rewrite !K in * by auto.
    assert (Q : forall k l, k < length rs -> l < length rs ->
      list_sum (firstn k sizes) + length (nth k rs []) <= list_sum sizes -> list_sum (firstn l sizes) + length (nth l rs []) <= list_sum sizes ->
      dm (submatrix m (list_sum (firstn k sizes)) (list_sum (firstn k sizes) + length (nth k rs []))
            (list_sum (firstn l sizes)) (list_sum (firstn l sizes) + length (nth l rs []))) (nth k rs []) (nth l rs [])).
    { intros k l Hk Hl Bk Bl. 
      pose proof (submatrix_matrix m (concat rs) (list_sum (firstn k sizes)) (list_sum (firstn k sizes) + length (nth k rs []))
        (list_sum (firstn l sizes)) (list_sum (firstn l sizes) + length (nth l rs [])) Hm ltac:(lia) ltac:(lia)) as J.
      unfold sizes in J at 5 6 7 8. rewrite !slice_concat in J by auto. exact J. }
    eapply (energy_from_nan E bad big nn SP SQ _ _ _ (nth i rs []) (nth j rs [])); [| | | | | |exact ED]; auto.
    - apply Hne, nth_In; auto.
    - apply Hne, nth_In; auto.
  Qed.

  Lemma accumulate_nan f p l : In p l -> (forall v, f p = Ok v -> nan v) -> forall acc r, accumulate E f l acc = Ok (Some r) -> nan r.
  Proof.
    intros Hin Hf.
    assert (K : forall l a r, nan a -> accumulate E f l (Some a) = Ok (Some r) -> nan r).
    { clear l Hin. induction l as [|q l IH]; intros a r Ha; cbn [accumulate]; [intros [= <-]; auto|].
      destruct (f q) as [v|]; cbn [rbind]; [|discriminate]. fold N. apply IH. apply (sp_add _ _ SP). auto. }
    induction l as [|q l IH]; [contradiction|]. intros acc r. cbn [accumulate]. destruct (f q) as [v|] eqn:V; cbn [rbind]; [|discriminate].
    destruct Hin as [->|Hin]; [|apply IH; auto]. apply K. specialize (Hf v V). destruct acc; auto. apply (sp_add _ _ SP). auto.
  Qed.

  Lemma multivariate_nan rs m es v : dm m (concat rs) (concat rs) -> 2 <= length rs ->
    (forall r, In r rs -> r <> []) -> Exists (Exists (Exists bad)) rs ->
    energy_statistic_multivariate E m (sample_indexes (map (@length _) rs)) (map (@length _) rs) None es = Ok v -> nan v.
  Proof.
    intros Hm H2 Hne Hb. unfold energy_statistic_multivariate. rewrite indexes_length, map_length.
    destruct (accumulate E _ _ None) as [[r|]|] eqn:A; cbn [rbind of_option]; try discriminate. intros [= <-].
    apply Exists_exists in Hb. destruct Hb as (r0 & Hr & Hb). apply (In_nth _ _ []) in Hr. destruct Hr as (i & Hi & <-).
    destruct i as [|i].
    - eapply (accumulate_nan _ (0, 1) (sample_pairs (length rs))); [apply in_pairs; lia| |exact A]. intros u. apply pair_nan; auto.
    - eapply (accumulate_nan _ (0, Datatypes.S i) (sample_pairs (length rs))); [apply in_pairs; lia| |exact A]. intros u. apply pair_nan; auto. lia.
  Qed.

  Lemma energy_test_nan samples B e es rs r s' : Forall wf samples -> Forall (fun x => 1 <= shape0 x) samples -> 2 <= length samples ->
    Forall (fun x => dist_pos E big nn (adt x) e) samples -> Exists (tainted bad) samples ->
    outcome (energy_test E G samples B e rs None es) = Ok (r, s') -> nan (statistic r) /\ pvalue r = smallest E B.
  Proof.
    intros W L H2 D Hb. unfold energy_test, check_valid_energy_exponent.
    rewrite outcome_bind. assert (exists u, outcome (if exponent_in_range E e then ret tt else emit WEnergyExponent) = Ok u) as [u ->]
      by (destruct (exponent_in_range E e); eexists; reflexivity). cbn [rbind].
    rewrite outcome_bind, outcome_lift.
    set (samples2 := map (fun a => transform_to_2d (adata a)) samples).
    destruct (pool samples2) as [[c pl]|] eqn:P; cbn [rbind]; [|discriminate]. rewrite outcome_bind, outcome_lift.
    destruct samples as [|x0 samples']; [cbn in H2; lia|]. set (samples := x0 :: samples') in *. cbv iota. cbn [fst snd].
    assert (P' : pl = concat (map snd samples2) /\ Forall (fun s => fst s = c) samples2).
    { unfold pool in P. unfold samples2, samples in P. cbn [map] in P. destruct (transform_to_2d (adata x0)) as [c0 r0] eqn:R0.
      destruct (forallb _ _) eqn:F; [|discriminate]. injection P as <- <-. unfold samples2, samples. cbn [map]. rewrite R0.
      split; [reflexivity|]. rewrite forallb_forall in F. apply Forall_forall. intros q Hq. apply Nat.eqb_eq, F. auto. }
    destruct P' as [-> Hc]. clear P.
    assert (Wp : Forall (fun row => length row = c) (concat (map snd samples2))).
    { apply Forall_forall. intros row Hr. apply in_concat in Hr. destruct Hr as (q & Hq & Hr). apply in_map_iff in Hq.
      destruct Hq as (p & <- & Hp). rewrite Forall_forall in Hc. rewrite <- (Hc p Hp). unfold samples2 in Hp. apply in_map_iff in Hp.
      destruct Hp as (x & <- & Hx). rewrite Forall_forall in W. pose proof (wf_2d x (W x Hx)) as H. rewrite Forall_forall in H. auto. }
    unfold pairwise_distances. cbn [adata ans adt transform_to_2d].
    destruct (pdist E (ans x0) (adt x0) c (concat (map snd samples2)) e) as [d|] eqn:Pd; cbn [rbind]; [|discriminate]. rewrite outcome_lift.
    assert (D0 : dist_pos E big nn (adt x0) e) by (inversion D; auto).
    pose proof (pdist_matrix E bad big nn SP SQ _ _ _ _ _ _ D0 Wp Pd) as Hm.
    apply (permutation_nan E bad SP G). intros v.
    replace (map (fun s : nat * list (list T) => length (snd s)) samples2) with (map (@length (list T)) (map snd samples2)) by apply map_map.
    apply multivariate_nan; auto.
    - unfold samples2. rewrite !map_length. auto.
    - intros q Hq. apply in_map_iff in Hq. destruct Hq as (p & <- & Hp). unfold samples2 in Hp. apply in_map_iff in Hp.
      destruct Hp as (x & <- & Hx). rewrite Forall_forall in L. specialize (L x Hx). pose proof (rows_2d x) as R.
      destruct (snd (transform_to_2d (adata x))); [cbn in R; lia|discriminate].
    - apply Exists_exists in Hb. destruct Hb as (x & Hx & Hb). apply Exists_exists. exists (snd (transform_to_2d (adata x))). split.
      + apply in_map. unfold samples2. apply (in_map (fun a => transform_to_2d (adata a))). auto.
      + apply tainted_2d; auto. rewrite Forall_forall in W. auto.
  Qed.

  (** The statistic of two samples. *)
  Lemma energy_statistic_nan x y e es v : wf x -> wf y -> 1 <= shape0 x -> 1 <= shape0 y ->
    fst (transform_to_2d (adata x)) = fst (transform_to_2d (adata y)) ->
    dist_pos E big nn (adt x) e -> dist_pos E big nn (adt y) e -> dist_pos E big nn (promote (adt x) (adt y)) e ->
    tainted bad x \/ tainted bad y -> outcome (energy_test_statistic E x y e None es) = Ok v -> nan v.
  Proof.
    intros Wx Wy Lx Ly Hc Dx Dy Dxy Hb. unfold energy_test_statistic. rewrite outcome_bind, outcome_lift.
    destruct (energy_coefficient E _ _) as [c|]; cbn [rbind]; [|discriminate]. rewrite outcome_bind.
    destruct (outcome (energy_distance E x y e None es)) as [ed|] eqn:ED; cbn [rbind]; [|discriminate]. rewrite outcome_ret. intros [= <-].
    apply (sp_mul _ _ SP). right. eapply (energy_nan E bad big nn SP SQ x y); eauto.
  Qed.
End EnergyTest.

(** ** The affinely invariant correlations *)
Section Affine.
  Context {T : Type} (E : Env T) (bad : T -> Prop).
  Let N := e_num E.
  Hypothesis SP : special N bad.
  Hypothesis HE : shape_env E.
  (** The matrix of eigenvectors has as many rows as the argument of eigh. *)
  Hypothesis Heigh : forall m, length (snd (e_eigh E m)) = length m.
  Notation nan v := (nisnan N v = true).

  Lemma power_length p rows : length (mat_sqrt_inv E p (cov E p rows)) = p.
  Proof.
    unfold mat_sqrt_inv. pose proof (Heigh (cov E p rows)) as H. destruct (e_eigh E (cov E p rows)) as [ev V]. cbn [snd] in H.
    unfold matmul. rewrite !map_length, H. unfold cov, matmul, transpose. rewrite !map_length, seq_length. reflexivity.
  Qed.

  Lemma scaled_shape x : wf (af_inv_scaled E x) /\ shape0 (af_inv_scaled E x) = shape0 x /\ adt (af_inv_scaled E x) = F64.
  Proof.
    unfold af_inv_scaled. pose proof (rows_2d x) as R. destruct (transform_to_2d (adata x)) as [p rows]. cbn [snd] in R.
    unfold wf, shape0. cbn [adata adt]. split; [|split; auto].
    - apply Forall_forall. intros r Hr. unfold matmul in Hr. rewrite map_map in Hr. apply in_map_iff in Hr. destruct Hr as (u & <- & _).
      unfold transpose. rewrite !map_length, seq_length. reflexivity.
    - unfold matmul. rewrite !map_length. rewrite R. unfold shape0. reflexivity.
  Qed.

  Lemma scaled_tainted x : wf x -> tainted bad x -> tainted bad (af_inv_scaled E x).
  Proof.
    intros W H. destruct (tainted_rows bad x W H) as (u & Hu & Hb & _). pose proof (wf_2d x W) as W2. unfold tainted, entries, af_inv_scaled.
    destruct (transform_to_2d (adata x)) as [p rows]. cbn [fst snd adata] in *. rewrite Forall_forall in W2. specialize (W2 u Hu).
    destruct p as [|p]; [destruct u; [inversion Hb|discriminate]|].
    set (power := mat_sqrt_inv E (S p) (cov E (S p) rows)). assert (Lp : length power = S p) by apply power_length.
    apply Exists_exists.
    exists (ndiv N (ndot N u (map (fun r => nth 0 r (nzero N)) power)) (nofZ N (Z.of_nat (length rows) - 1))). split.
    - apply in_concat. exists (map (fun v => ndiv N v (nofZ N (Z.of_nat (length rows) - 1))) (map (fun col => ndot N u col) (transpose E (S p) power))).
      split.
      + apply in_map. unfold matmul. apply (in_map (fun r => map (fun col => ndot (e_num E) r col) (transpose E (S p) power))). auto.
      + unfold transpose. cbn [seq map]. left. reflexivity.
    - apply (sp_bad_div _ _ SP), (sp_bad_dot _ _ SP); auto. rewrite map_length. lia.
  Qed.

  Lemma af_inv_sqr_zero x y m cm v : wf x -> wf y -> shape0 x = shape0 y -> dist_nan E F64 (nunit N) -> tainted bad x \/ tainted bad y ->
    outcome (distance_correlation_af_inv_sqr E x y (MethodEnum m) cm) = Ok v -> v = nzero N.
  Proof.
    intros Wx Wy Hl D Hb. unfold distance_correlation_af_inv_sqr. rewrite outcome_bind.
    destruct (scaled_shape x) as (W1 & S1 & D1). destruct (scaled_shape y) as (W2 & S2 & D2).
    change (outcome (distance_correlation_sqr E (af_inv_scaled E x) (af_inv_scaled E y) (nunit (e_num E)) (MethodEnum m) cm)) with
      (call DcorSqr E (af_inv_scaled E x) (af_inv_scaled E y) (nunit N) m cm).
    destruct (call DcorSqr _ _ _ _ _ _) as [c|] eqn:C; cbn [rbind]; [|discriminate]. rewrite outcome_ret. intros [= <-].
    apply (call_nan E bad SP HE) in C; try congruence.
    - fold N. fold N in C. rewrite C. reflexivity.
    - rewrite D1. auto.
    - rewrite D2. auto.
    - destruct Hb; [left|right]; apply scaled_tainted; auto.
  Qed.
  Lemma af_inv_zero x y m cm v : wf x -> wf y -> shape0 x = shape0 y -> dist_nan E F64 (nunit N) -> tainted bad x \/ tainted bad y ->
    outcome (distance_correlation_af_inv E x y (MethodEnum m) cm) = Ok v -> v = sqrt_clamp N (nzero N).
  Proof.
    intros Wx Wy Hl D Hb. unfold distance_correlation_af_inv. rewrite outcome_bind.
    destruct (outcome (distance_correlation_af_inv_sqr E x y (MethodEnum m) cm)) as [c|] eqn:C; cbn [rbind]; [|discriminate].
    rewrite outcome_ret. intros [= <-]. apply af_inv_sqr_zero in C; auto. rewrite C. reflexivity.
  Qed.
End Affine.

(** ** The optimised row-wise functions *)
Section Rows.
  Context {T : Type} (E : Env T) (bad : T -> Prop).
  Let N := e_num E.
  Hypothesis SP : special N bad.
  Hypothesis HE : shape_env E.
  Notation nan v := (nisnan N v = true).

  Lemma mapM_nth {A B} (f : A -> res B) l : forall r i a, mapM f l = Ok r -> nth_error l i = Some a ->
    exists b, f a = Ok b /\ nth_error r i = Some b.
  Proof.
    induction l as [|c l IH]; intros r i a; cbn [mapM]; [destruct i; discriminate|].
    destruct (f c) as [b|] eqn:F; cbn [rbind]; [|discriminate]. destruct (mapM f l) as [bs|]; cbn [rbind]; [|discriminate].
    intros [= <-]. destruct i as [|i]; cbn [nth_error]; [intros [= <-]; eauto|]. intros H. apply (IH bs); auto.
  Qed.
  Lemma nth_error_combine {A B} (l : list A) : forall (k : list B) i,
    nth_error (combine l k) i = match nth_error l i, nth_error k i with Some a, Some b => Some (a, b) | _, _ => None end.
  Proof. induction l as [|a l IH]; intros [|b k] [|i]; cbn; auto. destruct (nth_error l i); auto. Qed.

  Lemma kernel_nan ub x y v : Exists bad x \/ Exists bad y -> rowwise_kernel E ub x y = Ok v -> nan v.
  Proof.
    intros H. unfold rowwise_kernel. destruct (terms_avl_impl _ _ _ _ _ _ _ _) as [t|] eqn:Ht; cbn [rbind]; [|discriminate].
    apply (avl_impl_nan (seq_env E) bad (special_seq _ _ SP) (seq_shape E HE) _ _ _ _ _ _ _ _ H) in Ht.
    apply (from_terms_nan (seq_env E) bad (special_seq _ _ SP)). exact Ht.
  Qed.

  Lemma generic_nan x y ub cm r : length x = length y -> rowwise_avl_generic E x y ub cm = Ok (Some r) ->
    length r = length x /\ forall i a b, nth_error x i = Some a -> nth_error y i = Some b -> tainted bad a \/ tainted bad b ->
      exists v, nth_error r i = Some v /\ nan v.
  Proof.
    intros Hl. unfold rowwise_avl_generic. destruct (negb (homogeneous x)); [discriminate|]. destruct (negb (homogeneous y)); [discriminate|].
    destruct (mapM _ x) as [xs|] eqn:X; cbn [rbind]; [|discriminate]. destruct (mapM _ y) as [ys|] eqn:Y; cbn [rbind]; [|discriminate].
    pose proof (mapM_length _ _ _ X) as LX. pose proof (mapM_length _ _ _ Y) as LY.
    destruct cm; try discriminate; (destruct (negb (gufunc_types_ok _ _)); [discriminate|];
    unfold bcast_rows; rewrite (proj2 (Nat.eqb_eq (length ys) (length xs))) by lia; cbn [of_option rbind];
    destruct (forallb _ _); [|discriminate]; destruct (mapM _ (combine xs ys)) as [r'|] eqn:R; cbn [rbind]; [|discriminate]; intros [= <-];
    pose proof (mapM_length _ _ _ R) as LR; rewrite combine_length in LR; split; [lia|];
    intros i a b Ha Hb Ht; destruct (mapM_nth _ _ _ _ _ X Ha) as (u & Hu & Hxu); destruct (mapM_nth _ _ _ _ _ Y Hb) as (w & Hw & Hyw);
    destruct (mapM_nth _ _ _ i (u, w) R) as (v & Hv & Hr); [rewrite nth_error_combine, Hxu, Hyw; reflexivity|]; exists v; split; auto;
    cbn [fst snd] in Hv; apply (kernel_nan ub u w); auto; destruct Ht as [Ht|Ht]; [left|right]; eapply tainted_1d; eauto).
  Qed.

  Lemma rowwise_cov_nan ub x y kw r : length x = length y -> rowwise_dcov_sqr E ub x y kw = Ok (Some r) ->
    length r = length x /\ forall i a b, nth_error x i = Some a -> nth_error y i = Some b -> tainted bad a \/ tainted bad b ->
      exists v, nth_error r i = Some v /\ nan v.
  Proof.
    intros Hl. unfold rowwise_dcov_sqr. destruct (of_option IndexError (nth_error x 0)); cbn [rbind]; [|discriminate].
    destruct (of_option IndexError (nth_error y 0)); cbn [rbind]; [|discriminate].
    destruct (negb _); [discriminate|]. destruct (method_auto_or_avl _); [|discriminate]. apply generic_nan; auto.
  Qed.

  Lemma rowwise_cor_zero ub x y kw r i a b : length x = length y -> rowwise_dcor_sqr E ub x y kw = Ok (Some r) ->
    nth_error x i = Some a -> nth_error y i = Some b -> tainted bad a \/ tainted bad b -> nth_error r i = Some (nzero N).
  Proof.
    intros Hl. unfold rowwise_dcor_sqr. destruct (_ && _); [|discriminate].
    destruct (rowwise_dcov_sqr E ub _ _ kw) as [[c|]|] eqn:C; cbn [rbind]; try discriminate. intros [= <-] Ha Hb Ht. fold N.
    assert (Hl' : length (x ++ x ++ y) = length (y ++ x ++ y)) by (rewrite !app_length; lia).
    destruct (rowwise_cov_nan ub (x ++ x ++ y) (y ++ x ++ y) kw c Hl' C) as [L K]. rewrite !app_length in L.
    assert (Hi : i < length x) by (apply nth_error_Some; congruence).
    destruct (K i a b) as (v & Hv & Nv); [rewrite nth_error_app1 by lia; auto..| |]; [auto|].
    assert (H1 : nth_error (firstn (length x) c) i = Some v) by (rewrite <- (firstn_skipn (length x) c) in Hv; rewrite nth_error_app1 in Hv; auto;
      rewrite firstn_length; lia).
    change (length x + (length x + 0)) with (2 * length x). rewrite nth_error_map, !nth_error_map2, H1, !nth_error_map.
    destruct (nth_error (slice c (length x) (2 * length x)) i) as [p|] eqn:P;
      [|apply nth_error_None in P; unfold slice in P; rewrite firstn_length, skipn_length in P; lia].
    destruct (nth_error (skipn (2 * length x) c) i) as [q|] eqn:Q; [|apply nth_error_None in Q; rewrite skipn_length in Q; lia].
    cbn [option_map]. rewrite (sp_div _ _ SP) by (left; apply (sp_div _ _ SP); auto). reflexivity.
  Qed.
End Rows.
