(** The level of the permutation tests on independent draws: C76.

    [tie_free l]: the numbers in [l] are different; [stat_of test d]: the statistic of [test] on the data [d] (PValidity.v);
    [share_of_runs n b good]: the share of the sequences of [b] orders of [n] observations that are [good] (PPower.v). *)
From Coq Require Import Reals Lra Lia List Arith Bool ZArith Permutation FunctionalExtensionality.
From Verif Require Import Num Numpy MUtils MDistances MMergesort MInternals MDcor MEnergy MHypothesis MHomogeneity MIndependence
  Sums Spec Centering Tab Samples Api RefDist RefDcor RefCenter RefApi SpecFacts Invariance RefEnergy RefTests RefHomogeneity Exchange PermMean
  Empirical PEmpirical Expect Consist PopMath PopIndep Nonneg EnergyMath Witness PEnergy PTests PValidity PPermMean PUnbiased PConsist PPower.
Import List ListNotations.
Local Open Scope R_scope.

(** ** Draws are exchangeable *)

Definition swapped (a b i : nat) : nat := if Nat.eqb i a then b else if Nat.eqb i b then a else i.

Lemma redraw_swapped K w a b f s : a <> b ->
  redraw K w a (redraw K w b (fun s => f (fun i => s (swapped a b i)))) s = redraw K w a (redraw K w b f) s.
Proof.
  intros Hab. unfold redraw.
  rewrite (rsum_ext K _ (fun k => rsum K (fun l => w k * (w l * f (fun i => if Nat.eqb i b then k else if Nat.eqb i a then l else s i))))).
  - rewrite rsum_swap. apply rsum_ext. intros k Hk. rewrite <- rsum_scal_l. apply rsum_ext. intros l Hl.
    rewrite <- !Rmult_assoc, (Rmult_comm (w l)). reflexivity.
  - intros k Hk. rewrite <- rsum_scal_l. apply rsum_ext. intros l Hl. do 3 f_equal. apply functional_extensionality. intros i. unfold swapped.
    destruct (Nat.eqb_spec i a) as [->|]; [destruct (Nat.eqb_spec b b), (Nat.eqb_spec a b); try congruence|].
    destruct (Nat.eqb_spec i b) as [->|].
    + destruct (Nat.eqb_spec a b), (Nat.eqb_spec a a); congruence.
    + destruct (Nat.eqb_spec i b), (Nat.eqb_spec i a); congruence.
Qed.

Section Exchangeable.
  Context (K : nat) (w : nat -> R) (n : nat).
  Hypothesis HD : distribution K w.

  Lemma expect_swapped a b f : (a < n)%nat -> (b < n)%nat -> a <> b -> expect K w n (fun s => f (fun i => s (swapped a b i))) = expect K w n f.
  Proof.
    intros Ha Hb Hab. pose proof (proj2 HD) as Hw. rewrite <- (expect_redraw K w Hw n b f) by auto. rewrite <- (expect_redraw K w Hw n a (redraw K w b f)) by auto.
    rewrite <- (expect_redraw K w Hw n b (fun s => f _)), <- (expect_redraw K w Hw n a (redraw K w b (fun s => f _))) by auto.
    apply expect_ext. intros s. apply redraw_swapped. auto.
  Qed.

  Lemma expect_rearranged l l' : Permutation l l' -> forall pre (F : list nat -> R), NoDup (pre ++ l) -> (forall i, In i (pre ++ l) -> (i < n)%nat) ->
    expect K w n (fun s => F (map s (pre ++ l))) = expect K w n (fun s => F (map s (pre ++ l'))).
  Proof.
    induction 1 as [|x l l' HP IH|x y l|l1 l2 l3 H1 IH1 H2 IH2]; intros pre F ND Hlt.
    - reflexivity.
    - change (x :: l) with ([x] ++ l) in *. change (x :: l') with ([x] ++ l'). rewrite !app_assoc in *. apply IH; auto.
    - rewrite <- (expect_swapped x y (fun s => F (map s (pre ++ y :: x :: l)))).
      + apply expect_ext. intros s. f_equal. rewrite !map_app. f_equal.
        * apply map_ext_in. intros i Hi. unfold swapped. destruct (Nat.eqb_spec i x) as [->|].
          { exfalso. apply (NoDup_remove_2 (pre ++ [y]) l x); [rewrite <- app_assoc; exact ND|]. apply in_or_app. left. apply in_or_app. auto. }
          destruct (Nat.eqb_spec i y) as [->|]; auto. exfalso. apply (NoDup_remove_2 pre (x :: l) y ND). apply in_or_app. auto.
        * cbn [map]. f_equal; [unfold swapped; destruct (Nat.eqb_spec y x); [congruence|]; rewrite Nat.eqb_refl; auto|].
          f_equal; [unfold swapped; rewrite Nat.eqb_refl; reflexivity|]. apply map_ext_in. intros i Hi. unfold swapped.
          destruct (Nat.eqb_spec i x) as [->|].
          { exfalso. apply (NoDup_remove_2 (pre ++ [y]) l x); [rewrite <- app_assoc; exact ND|]. apply in_or_app. right. auto. }
          destruct (Nat.eqb_spec i y) as [->|]; auto. exfalso. apply (NoDup_remove_2 pre (x :: l) y ND). apply in_or_app. right. right. auto.
      + apply Hlt. apply in_or_app. right. right. left. auto.
      + apply Hlt. apply in_or_app. right. left. auto.
      + intros ->. apply (NoDup_remove_2 pre (y :: l) y ND). apply in_or_app. right. left. auto.
    - rewrite (IH1 pre F ND Hlt). apply IH2.
      + eapply Permutation_NoDup; [|exact ND]. apply Permutation_app_head; auto.
      + intros i Hi. apply Hlt. eapply Permutation_in; [|exact Hi]. apply Permutation_app_head. symmetry. auto.
  Qed.

  Lemma expect_permuted q (F : (nat -> nat) -> R) : is_perm n q -> (forall s s', (forall i, (i < n)%nat -> s i = s' i) -> F s = F s') ->
    expect K w n (fun s => F (fun i => s (nth i q 0%nat))) = expect K w n F.
  Proof.
    intros Hq HF. set (G := fun l => F (fun i => nth i l O)). pose proof (is_perm_length n q Hq) as Lq.
    transitivity (expect K w n (fun s => G (map s q))).
    - apply expect_ext. intros s. apply HF. intros i Hi. rewrite (nth_indep (map s q) 0%nat (s 0%nat)) by (rewrite map_length; lia).
      rewrite map_nth. reflexivity.
    - transitivity (expect K w n (fun s => G (map s (seq 0 n)))).
      + apply (expect_rearranged q (seq 0 n)) with (pre := @nil nat).
        * apply Hq.
        * eapply Permutation_NoDup; [symmetry; apply Hq|apply seq_NoDup].
        * intros i Hi. cbn in Hi. apply (Permutation_in i Hq) in Hi. apply in_seq in Hi. lia.
      + apply expect_ext. intros s. apply HF. intros i Hi. rewrite (nth_indep (map s (seq 0 n)) 0%nat (s 0%nat)) by (rewrite map_length, seq_length; lia).
        rewrite map_nth, seq_nth by lia. reflexivity.
  Qed.

  Lemma expect_lsum {A} (f : (nat -> nat) -> A -> R) l : expect K w n (fun s => lsum (map (f s) l)) = lsum (map (fun a => expect K w n (fun s => f s a)) l).
  Proof.
    induction l as [|a l IH]; cbn [map]; [apply (expect_const K w (proj2 HD) n)|]. unfold lsum in *. cbn [fold_right].
    rewrite expect_plus. f_equal. exact IH.
  Qed.

  (** A mean over the draws is the mean over the draws and over all their orders. *)
  Lemma expect_orders (F : (nat -> nat) -> R) : (forall s s', (forall i, (i < n)%nat -> s i = s' i) -> F s = F s') ->
    expect K w n F = expect K w n (fun s => perm_average n (fun q => F (fun i => s (nth i q 0%nat)))).
  Proof.
    intros HF. unfold perm_average, Rdiv. pose proof (perm_count_pos n) as Hc. unfold perm_count in Hc.
    symmetry. etransitivity; [apply expect_ext; intros s; apply Rmult_comm|].
    rewrite (expect_scal K w n (/ INR (length (all_perms n)))), (expect_lsum (fun s q => F (fun i => s (nth i q 0%nat)))).
    rewrite (lsum_map_ext (fun q => expect K w n (fun s => F (fun i => s (nth i q 0%nat)))) (fun _ => expect K w n F)).
    - rewrite lsum_map_const. field. lra.
    - intros q Hq. apply expect_permuted; auto. apply in_all_perms. auto.
  Qed.
End Exchangeable.

(** ** Runs *)

Lemma words_step {A} (h : list A -> bool) b (l : list A) : INR (count_if h (words (S b) l)) = lsum (map (fun a => INR (count_if (fun r => h (a :: r)) (words b l))) l).
Proof.
  cbn [words]. generalize (words b l) at 1 2. intros W. induction l as [|a l IH]; [reflexivity|]. cbn [flat_map map]. rewrite lsum_cons, <- IH, count_if_app, count_if_map, plus_INR.
  reflexivity.
Qed.

Lemma share_step n b h : share_of_runs n (S b) h = perm_average n (fun q => share_of_runs n b (fun r => h (q :: r))).
Proof.
  unfold share_of_runs, perm_average. rewrite words_step, (words_count (S b)). rewrite <- tech_pow_Rmult, <- (words_count b).
  pose proof (runs_pos n b) as H1. pose proof (perm_count_pos n) as H2. unfold perm_count in H2.
  rewrite (lsum_map_ext (fun a => INR (count_if (fun r => h (a :: r)) (words b (all_perms n))) / INR (length (words b (all_perms n))))
    (fun a => / INR (length (words b (all_perms n))) * INR (count_if (fun r => h (a :: r)) (words b (all_perms n))))) by (intros; unfold Rdiv; ring).
  rewrite lsum_map_scal. field. lra.
Qed.

Section Level.
  Context {D St : Type}.
  Variable (rearrange : list nat -> D -> D) (test : D -> Z -> list (list nat) -> res (HypothesisTest R * St)).

  (** The observed statistic and the statistics of the data in the orders [r]. *)
  Definition statistics (d : D) (r : list (list nat)) : list R := stat_of test d :: map (fun q => stat_of test (rearrange q d)) r.
  (** The p-value of the test with the resamples [r] (0, the worst case, if the test fails). *)
  Definition p_of (d : D) (r : list (list nat)) : R := match test d (Z.of_nat (length r)) r with Ok (t, _) => pvalue t | Err _ => 0 end.

  Lemma level_generic K w n b alpha (d : (nat -> nat) -> D) : distribution K w ->
    (forall s s', (forall i, (i < n)%nat -> s i = s' i) -> d s = d s') ->
    (forall s q, is_perm n q -> rearrange q (d s) = d (fun i => s (nth i q 0%nat))) ->
    (forall s, valid_test rearrange test n b (d s) alpha) ->
    expect K w n (fun s => share_of_runs n b (fun r => tie_free (statistics (d s) r) && leb (p_of (d s) r) alpha))
    <= alpha * expect K w n (fun s => share_of_runs n b (fun r => tie_free (statistics (d s) r))).
  Proof.
    intros HD Hext Hre Hv.
    assert (G : forall g : D -> list (list nat) -> bool, expect K w n (fun s => share_of_runs n b (g (d s)))
      = expect K w n (fun s => share_of_runs n (S b) (fun l => match l with [] => false | q :: r => g (rearrange q (d s)) r end))).
    { intros g. rewrite expect_orders; auto; [|intros s s' H; rewrite (Hext s s' H); reflexivity].
      apply expect_ext. intros s. rewrite share_step. apply perm_average_ext. intros q Hq. rewrite Hre by auto. reflexivity. }
    rewrite (G (fun d r => tie_free (statistics d r) && leb (p_of d r) alpha)), (G (fun d r => tie_free (statistics d r))).
    rewrite <- expect_scal. apply expect_le; auto. intros s _. specialize (Hv s). unfold valid_test in Hv. cbn [plus] in Hv.
    unfold share_of_runs. pose proof (runs_pos n (S b)) as Hp. unfold Rdiv. rewrite <- Rmult_assoc. apply Rmult_le_compat_r; [left; apply Rinv_0_lt_compat; auto|].
    rewrite (count_if_ext (fun l => match l with [] => false | q :: r => tie_free (statistics (rearrange q (d s)) r) && leb (p_of (rearrange q (d s)) r) alpha end)
      (fun l => tie_free (run_stats rearrange test (d s) l) && leb (run_p rearrange test (d s) b l) alpha)).
    - rewrite (count_if_ext (fun l => match l with [] => false | q :: r => tie_free (statistics (rearrange q (d s)) r) end)
        (fun l => tie_free (run_stats rearrange test (d s) l))); [exact Hv|].
      intros l Hl. apply in_words in Hl. destruct l as [|q r]; [destruct Hl; discriminate|reflexivity].
    - intros l Hl. apply in_words in Hl. destruct l as [|q r]; [destruct Hl; discriminate|]. destruct Hl as [L _]. cbn in L.
      unfold p_of, run_p. replace (length r) with b by lia. reflexivity.
  Qed.

  Lemma level_with_ties K w n b alpha (d : (nat -> nat) -> D) : distribution K w -> 0 <= alpha ->
    expect K w n (fun s => share_of_runs n b (fun r => tie_free (statistics (d s) r) && leb (p_of (d s) r) alpha))
    <= alpha * expect K w n (fun s => share_of_runs n b (fun r => tie_free (statistics (d s) r))) ->
    expect K w n (fun s => share_of_runs n b (fun r => leb (p_of (d s) r) alpha))
    <= alpha + expect K w n (fun s => share_of_runs n b (fun r => negb (tie_free (statistics (d s) r)))).
  Proof.
    intros HD Ha H.
    apply Rle_trans with (expect K w n (fun s => share_of_runs n b (fun r => tie_free (statistics (d s) r) && leb (p_of (d s) r) alpha)
      + share_of_runs n b (fun r => negb (tie_free (statistics (d s) r))))).
    - apply expect_le; auto. intros s _. unfold share_of_runs. rewrite <- Rdiv_plus_distr. unfold Rdiv. apply Rmult_le_compat_r; [left; apply Rinv_0_lt_compat, runs_pos|].
      rewrite <- plus_INR. apply le_INR. generalize (words b (all_perms n)). intros W. unfold count_if. induction W as [|r W IH]; [auto|]. cbn [filter].
      destruct (tie_free (statistics (d s) r)), (leb (p_of (d s) r) alpha); cbn [andb negb length]; lia.
    - rewrite expect_plus. apply Rplus_le_compat_r. eapply Rle_trans; [exact H|]. rewrite <- (Rmult_1_r alpha) at 2. apply Rmult_le_compat_l; auto.
      rewrite <- (expect_const K w (proj2 HD) n 1) at 1. apply expect_le; auto. intros. apply share_range.
  Qed.
End Level.

(** ** Draws of independent variables *)

Lemma independent_split K p q w X Y (H : list R -> list R -> R) : distribution K w -> independent K w p q X Y ->
  rsum K (fun k => w k * H (tab p (X k)) (tab q (Y k))) = rsum2 K K (fun k l => w k * w l * H (tab p (X k)) (tab q (Y l))).
Proof.
  intros HD HI. set (cX := cellX K X). set (cY := cellY K Y). set (Z := glue p cX cY).
  assert (H1 : forall t, (t < K * K)%nat -> rsum (K * K) (fun u => cell K w u * dl (p + q) (Z t) (Z u)) = 0).
  { intros t Ht. rewrite (rsum_ext _ _ (fun u => cell K w u * (dl p (cX u) (cX t) * dl q (cY u) (cY t)))).
    - unfold cX, cY. rewrite cell_independent by auto. rewrite (HI (cellX K X t) (cellY K Y t)). ring.
    - intros u Hu. unfold Z. rewrite glue_dl, (dl_sym p (cX t)), (dl_sym q (cY t)). reflexivity. }
  set (F := fun z : nat -> R => H (tab p z) (tab q (fun k => z (p + k)%nat))).
  pose proof (signed_sum_zero (K * K) (p + q) (cell K w) Z F) as S.
  apply Rminus_diag_uniq. rewrite <- (cell_sum K w (fun k l => H (tab p (X k)) (tab q (Y l)))).
  rewrite <- S; auto.
  - apply rsum_ext. intros t Ht. f_equal. unfold F, Z. f_equal.
    + apply tab_ext. intros k Hk. rewrite glue_l by auto. reflexivity.
    + apply tab_ext. intros k Hk. rewrite glue_r. reflexivity.
  - intros u v Huv. unfold F. f_equal; apply tab_ext; intros k Hk; apply Huv; lia.
Qed.

Lemma decouple K p q w X Y : distribution K w -> independent K w p q X Y -> forall n (Phi : (nat -> list R) -> (nat -> list R) -> R),
  expect K w n (fun s => Phi (fun i => tab p (X (s i))) (fun i => tab q (Y (s i))))
  = expect K w n (fun u => expect K w n (fun s => Phi (fun i => tab p (X (s i))) (fun i => tab q (Y (u i))))).
Proof.
  intros HD HI. induction n as [|n IH]; intros Phi; [reflexivity|].
  set (upd := fun (f : nat -> list R) a i => if Nat.eqb i n then a else f i).
  assert (U : forall T k s, (fun i => tab T (X (if Nat.eqb i n then k else s i))) = upd (fun i => tab T (X (s i))) (tab T (X k)))
    by (intros; apply functional_extensionality; intros i; unfold upd; destruct (Nat.eqb i n); reflexivity).
  assert (V : forall T k s, (fun i => tab T (Y (if Nat.eqb i n then k else s i))) = upd (fun i => tab T (Y (s i))) (tab T (Y k)))
    by (intros; apply functional_extensionality; intros i; unfold upd; destruct (Nat.eqb i n); reflexivity).
  set (H := fun a b => expect K w n (fun u => expect K w n (fun s => Phi (upd (fun i => tab p (X (s i))) a) (upd (fun i => tab q (Y (u i))) b)))).
  transitivity (rsum K (fun k => w k * H (tab p (X k)) (tab q (Y k)))).
  - cbn [expect]. apply rsum_ext. intros k Hk. f_equal. unfold H.
    rewrite <- (IH (fun f g => Phi (upd f (tab p (X k))) (upd g (tab q (Y k))))). apply expect_ext. intros s. rewrite U, V. reflexivity.
  - rewrite (independent_split K p q w X Y H HD HI). unfold rsum2. rewrite rsum_swap. cbn [expect]. apply rsum_ext. intros l Hl.
    rewrite (expect_rsum K w (proj2 HD) n K (fun k u => w k * expect K w n (fun s => Phi (fun i => tab p (X (if Nat.eqb i n then k else s i))) (fun i => tab q (Y (if Nat.eqb i n then l else u i)))))).
    rewrite <- rsum_scal_l. apply rsum_ext. intros k Hk. rewrite expect_scal. rewrite (Rmult_comm (w k)), Rmult_assoc. do 2 f_equal.
    unfold H. apply expect_ext. intros u. apply expect_ext. intros s. rewrite U, V. reflexivity.
Qed.

Lemma rows_in_order {A} (d : A) n (Z : nat -> A) q : is_perm n q -> map (fun i => nth i (tab n Z) d) q = tab n (fun i => Z (nth i q 0%nat)).
Proof.
  intros Hq. rewrite (tab_of_list_n 0%nat n q) at 1 by (apply is_perm_length; auto). rewrite tab_map. apply tab_ext.
  intros i Hi. rewrite tab_nth; auto. apply is_perm_lt; auto.
Qed.

Lemma permute_drawn ns dt n p X s q : is_perm n q -> permute_sample q (drawn ns dt n p X s) = drawn ns dt n p X (fun i => s (nth i q 0%nat)).
Proof. intros Hq. unfold permute_sample, drawn. cbn [ans adt adata]. rewrite rows_in_order by auto. reflexivity. Qed.

Lemma drawn_ext ns dt n p X s s' : (forall i, (i < n)%nat -> s i = s' i) -> drawn ns dt n p X s = drawn ns dt n p X s'.
Proof. intros H. unfold drawn. do 2 f_equal. apply tab_ext. intros i Hi. rewrite H by auto. reflexivity. Qed.

Lemma expect_mono K w n f g : distribution K w -> (forall s, f s <= g s) -> expect K w n f <= expect K w n g.
Proof. intros HD H. apply expect_le; auto. Qed.

(** ** The independence test *)

(** For draws of a pair of independent variables the test of independence with [b] resamples has level [alpha]: the probability,
    over the draws and the orders, that the statistics have no ties and the p-value is at most [alpha] is at most [alpha] times
    the probability that they have no ties.  [t s r] is the result of the test on the draws [s] with the orders [r]. *)
Theorem C76_dcov_level E K w X Y p q ns dt ns' dt' n e b alpha : valid_env E -> distribution K w -> (1 <= n)%nat -> 0 < e -> 0 <= alpha ->
  independent K w p q X Y ->
  let x s := drawn ns dt n p X s in let y s := drawn ns' dt' n q Y s in
  let tie_free_run s r := tie_free (statistics permute_sample (dcov_test_on E (y s) e) (x s) r) in
  exists t, (forall s r, length r = b -> Forall (is_perm n) r ->
      exists st, dcov_test_on E (y s) e (x s) (Z.of_nat b) r = Ok (t s r, st)) /\
  expect K w n (fun s => share_of_runs n b (fun r => tie_free_run s r && leb (pvalue (t s r)) alpha))
  <= alpha * expect K w n (fun s => share_of_runs n b (tie_free_run s)) /\
  expect K w n (fun s => share_of_runs n b (fun r => leb (pvalue (t s r)) alpha))
  <= alpha + expect K w n (fun s => share_of_runs n b (fun r => negb (tie_free_run s r))).
Proof.
  intros HE HD Hn He Ha HI x y tf.
  exists (fun s r => match dcov_test_on E (y s) e (x s) (Z.of_nat (length r)) r with Ok (t, _) => t | Err _ => mkTest 0 0 end).
  split.
  { intros s r Lr Fr. rewrite Lr. unfold dcov_test_on, x, y. rewrite <- Lr. rewrite (dcov_test_eval E replay _ _ n) by (auto using replay_permuting; apply drawn_paired; lia).
    eexists. reflexivity. }
  assert (P : forall s r, pvalue (match dcov_test_on E (y s) e (x s) (Z.of_nat (length r)) r with Ok (t, _) => t | Err _ => mkTest 0 0 end) = p_of (dcov_test_on E (y s) e) (x s) r).
  { intros s r. unfold p_of. destruct (dcov_test_on _ _ _ _ _ _) as [[t st]|]; reflexivity. }
  set (rows := fun (p : nat) (ns : nspace) (dt : dtype) (f : nat -> list R) => mkArr ns dt (Mat p (tab n f))).
  assert (D : forall g : array R -> array R -> R, expect K w n (fun s => g (x s) (y s)) = expect K w n (fun u => expect K w n (fun s => g (x s) (y u)))).
  { intros g. apply (decouple K p q w X Y HD HI n (fun f f' => g (rows p ns dt f) (rows q ns' dt' f'))). }
  assert (L : forall u, expect K w n (fun s => share_of_runs n b (fun r => tie_free (statistics permute_sample (dcov_test_on E (y u) e) (x s) r) && leb (p_of (dcov_test_on E (y u) e) (x s) r) alpha))
    <= alpha * expect K w n (fun s => share_of_runs n b (fun r => tie_free (statistics permute_sample (dcov_test_on E (y u) e) (x s) r)))).
  { intros u. apply (level_generic permute_sample (dcov_test_on E (y u) e) K w n b alpha x); auto.
    - intros s s' H. apply drawn_ext. auto.
    - intros s o Ho. apply permute_drawn. auto.
    - intros s. apply C32_dcov_test; auto. unfold paired, x, y. auto 8 using drawn_wf, drawn_shape. }
  set (yes := fun (xa ya : array R) => share_of_runs n b (fun r => tie_free (statistics permute_sample (dcov_test_on E ya e) xa r) && leb (p_of (dcov_test_on E ya e) xa r) alpha)).
  set (free := fun (xa ya : array R) => share_of_runs n b (fun r => tie_free (statistics permute_sample (dcov_test_on E ya e) xa r))).
  set (low := fun (xa ya : array R) => share_of_runs n b (fun r => leb (p_of (dcov_test_on E ya e) xa r) alpha)).
  set (tied := fun (xa ya : array R) => share_of_runs n b (fun r => negb (tie_free (statistics permute_sample (dcov_test_on E ya e) xa r)))).
  unfold tf. split.
  - rewrite (expect_ext K w n _ (fun s => yes (x s) (y s))) by (intros s; unfold yes, share_of_runs; do 2 f_equal; apply count_if_ext; intros r _; rewrite P; reflexivity).
    change (expect K w n (fun s => yes (x s) (y s)) <= alpha * expect K w n (fun s => free (x s) (y s))).
    rewrite (D yes), (D free), <- expect_scal. apply expect_mono; auto.
  - rewrite (expect_ext K w n _ (fun s => low (x s) (y s))) by (intros s; unfold low, share_of_runs; do 2 f_equal; apply count_if_ext; intros r _; rewrite P; reflexivity).
    change (expect K w n (fun s => low (x s) (y s)) <= alpha + expect K w n (fun s => tied (x s) (y s))).
    rewrite (D low), (D tied).
    apply Rle_trans with (expect K w n (fun u => alpha + expect K w n (fun s => tied (x s) (y u)))).
    + apply expect_mono; auto. intros u. apply (level_with_ties permute_sample (dcov_test_on E (y u) e) K w n b alpha x); auto.
    + rewrite expect_plus, (expect_const K w (proj2 HD)). lra.
Qed.

(** ** The energy test *)

Lemma expect_concat K w n m : distribution K w -> forall f : (nat -> nat) -> (nat -> nat) -> R,
  (forall s s' u u', (forall i, (i < n)%nat -> s i = s' i) -> (forall i, (i < m)%nat -> u i = u' i) -> f s u = f s' u') ->
  expect K w (n + m) (fun s => f s (fun i => s (n + i)%nat)) = expect K w n (fun s => expect K w m (f s)).
Proof.
  intros HD. induction m as [|m IH]; intros f Hf.
  - rewrite Nat.add_0_r. cbn [expect]. apply expect_ext. intros s. apply Hf; auto. intros; lia.
  - rewrite Nat.add_succ_r. cbn [expect].
    rewrite (expect_rsum K w (proj2 HD) n K (fun k s => w k * expect K w m (fun u => f s (fun j => if Nat.eqb j m then k else u j)))).
    apply rsum_ext. intros k Hk. rewrite expect_scal. f_equal.
    rewrite <- (IH (fun s u => f s (fun j => if Nat.eqb j m then k else u j))).
    + apply expect_ext. intros s. apply Hf.
      * intros i Hi. destruct (Nat.eqb_spec i (n + m)); [lia|auto].
      * intros i Hi. destruct (Nat.eqb_spec (n + i) (n + m)), (Nat.eqb_spec i m); auto; lia.
    + intros s s' u u' Hs Hu. apply Hf; auto. intros i Hi. destruct (Nat.eqb_spec i m); auto. apply Hu. lia.
Qed.

Lemma same_law_sum p K L w v X Y (f : list R -> R) : distribution K w -> distribution L v -> same_law p K L w v X Y ->
  rsum L (fun l => v l * f (tab p (Y l))) = rsum K (fun k => w k * f (tab p (X k))).
Proof.
  intros Hw Hv H. symmetry. apply Rminus_diag_uniq.
  rewrite <- (law_sum K L w v X Y (fun z => f (tab p z))).
  apply (signed_sum_zero _ p _ _ (fun z => f (tab p z))).
  - intros u z Huz. f_equal. apply tab_ext. intros k Hk. apply Huz. auto.
  - intros k Hk. pose proof (law_at p K L w v X Y (pool K X Y k)) as G. rewrite H in G. rewrite Rminus_diag_eq in G by reflexivity. rewrite <- G.
    apply rsum_ext. intros i Hi. rewrite dl_sym. reflexivity.
Qed.

Lemma same_law_expect p K L w v X Y : distribution K w -> distribution L v -> same_law p K L w v X Y -> forall m (Phi : (nat -> list R) -> R),
  (forall f g, (forall i, (i < m)%nat -> f i = g i) -> Phi f = Phi g) ->
  expect L v m (fun u => Phi (fun i => tab p (Y (u i)))) = expect K w m (fun u => Phi (fun i => tab p (X (u i)))).
Proof.
  intros Hw Hv H. induction m as [|m IH]; intros Phi HP.
  - cbn [expect]. apply HP. intros; lia.
  - cbn [expect].
    set (upd := fun (f : nat -> list R) a i => if Nat.eqb i m then a else f i).
    assert (U : forall (Z : nat -> nat -> R) k s, (fun i => tab p (Z (if Nat.eqb i m then k else s i))) = upd (fun i => tab p (Z (s i))) (tab p (Z k)))
      by (intros; apply functional_extensionality; intros i; unfold upd; destruct (Nat.eqb i m); reflexivity).
    rewrite (rsum_ext L _ (fun l => v l * expect K w m (fun u => Phi (upd (fun i => tab p (X (u i))) (tab p (Y l)))))).
    + rewrite (same_law_sum p K L w v X Y (fun a => expect K w m (fun u => Phi (upd (fun i => tab p (X (u i))) a)))) by auto.
      apply rsum_ext. intros k Hk. f_equal. apply expect_ext. intros s. rewrite U. reflexivity.
    + intros l Hl. f_equal. rewrite <- (IH (fun f => Phi (upd f (tab p (Y l))))).
      * apply expect_ext. intros s. rewrite U. reflexivity.
      * intros f g Hfg. apply HP. intros i Hi. unfold upd. destruct (Nat.eqb_spec i m); auto. apply Hfg. lia.
Qed.

(** Samples of the given libraries, number types and sizes from the draws [s], one after the other. *)
Fixpoint groups (p : nat) (X : nat -> nat -> R) (kinds : list (nspace * dtype * nat)) (s : nat -> nat) : list (array R) :=
  match kinds with
  | [] => []
  | (ns, dt, n) :: l => drawn ns dt n p X s :: groups p X l (fun i => s (n + i)%nat)
  end.
(** Their sizes, and their size together. *)
Definition sizes (kinds : list (nspace * dtype * nat)) : list nat := map snd kinds.
Definition size (kinds : list (nspace * dtype * nat)) : nat := list_sum (sizes kinds).

Lemma groups_total p X kinds : forall s, total (groups p X kinds s) = size kinds.
Proof.
  induction kinds as [|[[ns dt] n] l IH]; intros s; [reflexivity|]. cbn [groups].
  change (shape0 (drawn ns dt n p X s) + total (groups p X l (fun i => s (n + i)%nat)) = n + size l)%nat.
  rewrite IH, drawn_shape. reflexivity.
Qed.
Lemma groups_rows p X kinds : forall s, concat (map rows_of (groups p X kinds s)) = tab (size kinds) (fun i => tab p (X (s i))).
Proof.
  induction kinds as [|[[ns dt] n] l IH]; intros s; [reflexivity|]. cbn [groups map concat]. change (size ((ns, dt, n) :: l)) with (n + size l)%nat.
  rewrite IH, tab_app. reflexivity.
Qed.
Lemma groups_cut p X kinds : forall s s', cut p (groups p X kinds s) (tab (size kinds) (fun i => tab p (X (s' i)))) = groups p X kinds s'.
Proof.
  induction kinds as [|[[ns dt] n] l IH]; intros s s'; [reflexivity|]. cbn [groups cut]. change (size ((ns, dt, n) :: l)) with (n + size l)%nat.
  rewrite drawn_shape, tab_app, firstn_app, skipn_app, tab_length, Nat.sub_diag.
  rewrite firstn_all2, skipn_all2 by (rewrite tab_length; auto). cbn [firstn skipn app]. rewrite app_nil_r. f_equal. apply IH.
Qed.
Lemma groups_regroup p X kinds s q : is_perm (size kinds) q -> regroup p q (groups p X kinds s) = groups p X kinds (fun i => s (nth i q 0%nat)).
Proof. intros Hq. unfold regroup. rewrite groups_rows, rows_in_order by auto. apply (groups_cut p X kinds s (fun i => s (nth i q 0%nat))). Qed.
Lemma groups_ext p X kinds : forall s s', (forall i, (i < size kinds)%nat -> s i = s' i) -> groups p X kinds s = groups p X kinds s'.
Proof.
  induction kinds as [|[[ns dt] n] l IH]; intros s s' H; [reflexivity|]. cbn [groups]. change (size ((ns, dt, n) :: l)) with (n + size l)%nat in H. f_equal.
  - apply drawn_ext. intros i Hi. apply H. lia.
  - apply IH. intros i Hi. apply H. lia.
Qed.
Lemma groups_several p X es kinds s : (2 <= length kinds)%nat ->
  Forall (fun n => match to_estimation es with Ok UStatistic => 2 | _ => 1 end <= n)%nat (sizes kinds) -> several p es (groups p X kinds s).
Proof.
  intros H2 HF. split.
  - clear HF. revert s H2. assert (G : forall s, length (groups p X kinds s) = length kinds); [|intros s; rewrite G; auto].
    induction kinds as [|[[ns dt] n] l IH]; intros s; cbn [groups length]; auto.
  - clear H2. revert s. induction kinds as [|[[ns dt] n] l IH]; intros s; cbn [groups]; [constructor|]. inversion HF; subst. constructor; auto.
    split; [apply drawn_wf|]. rewrite drawn_shape. auto.
Qed.

(** For samples drawn from one distribution the test of homogeneity with [b] resamples has level [alpha] in the same sense, with
    every number of samples, estimator and average. *)
Theorem C76_energy_level E K w X p kinds e av es st b alpha : valid_env E -> distribution K w -> 0 < e -> 0 <= alpha -> to_estimation es = Ok st ->
  (2 <= length kinds)%nat -> Forall (fun n => match st with UStatistic => 2 | VStatistic => 1 end <= n)%nat (sizes kinds) ->
  let n := size kinds in let d s := groups p X kinds s in
  let tie_free_run s r := tie_free (statistics (regroup p) (energy_test_on E e av es) (d s) r) in
  exists t, (forall s r, length r = b -> Forall (is_perm n) r -> exists g, energy_test_on E e av es (d s) (Z.of_nat b) r = Ok (t s r, g)) /\
  expect K w n (fun s => share_of_runs n b (fun r => tie_free_run s r && leb (pvalue (t s r)) alpha))
  <= alpha * expect K w n (fun s => share_of_runs n b (tie_free_run s)) /\
  expect K w n (fun s => share_of_runs n b (fun r => leb (pvalue (t s r)) alpha))
  <= alpha + expect K w n (fun s => share_of_runs n b (fun r => negb (tie_free_run s r))).
Proof.
  intros HE HD He Ha Hst H2 HF n d tf.
  assert (HS : forall s, several p es (d s)).
  { intros s. apply groups_several; auto. rewrite Hst. exact HF. }
  exists (fun s r => match energy_test_on E e av es (d s) (Z.of_nat (length r)) r with Ok (t, _) => t | Err _ => mkTest 0 0 end). split.
  { intros s r Lr Fr. rewrite Lr. unfold energy_test_on. rewrite (energy_test_stats E replay p _ e b _ av es st) by (auto using replay_permuting; apply HS).
    eexists. reflexivity. }
  assert (P : forall s r, pvalue (match energy_test_on E e av es (d s) (Z.of_nat (length r)) r with Ok (t, _) => t | Err _ => mkTest 0 0 end) = p_of (energy_test_on E e av es) (d s) r).
  { intros s r. unfold p_of. destruct (energy_test_on _ _ _ _ _ _ _) as [[t g]|]; reflexivity. }
  assert (L : expect K w n (fun s => share_of_runs n b (fun r => tf s r && leb (p_of (energy_test_on E e av es) (d s) r) alpha))
    <= alpha * expect K w n (fun s => share_of_runs n b (fun r => tf s r))).
  { apply (level_generic (regroup p) (energy_test_on E e av es) K w n b alpha d); auto.
    - intros s s' H. apply groups_ext. auto.
    - intros s o Ho. apply groups_regroup. auto.
    - intros s. pose proof (C32_energy_test E p (d s) e av es st b alpha HE (HS s) Hst He Ha) as V. unfold d in V at 1. rewrite groups_total in V. exact V. }
  pose proof (level_with_ties (regroup p) (energy_test_on E e av es) K w n b alpha d HD Ha L) as LT.
  split.
  - eapply Rle_trans; [right|exact L]. apply expect_ext. intros s. unfold share_of_runs. do 2 f_equal. apply count_if_ext. intros r _. rewrite P. reflexivity.
  - eapply Rle_trans; [right|exact LT]. apply expect_ext. intros s. unfold share_of_runs. do 2 f_equal. apply count_if_ext. intros r _. rewrite P. reflexivity.
Qed.

(** Two samples drawn from the same distribution, however the two distributions are given by their atoms. *)
Lemma one_law K L w v X Y p ns dt ns' dt' n m (G : list (array R) -> R) : distribution K w -> distribution L v -> same_law p K L w v X Y ->
  expect K w n (fun s => expect L v m (fun u => G [drawn ns dt n p X s; drawn ns' dt' m p Y u]))
  = expect K w (n + m) (fun s => G (groups p X [(ns, dt, n); (ns', dt', m)] s)).
Proof.
  intros Hw Hv H.
  rewrite (expect_ext K w n _ (fun s => expect K w m (fun u => G [drawn ns dt n p X s; drawn ns' dt' m p X u]))).
  - symmetry. apply (expect_concat K w n m Hw (fun s u => G [drawn ns dt n p X s; drawn ns' dt' m p X u])).
    intros s s' u u' Hs Hu. rewrite (drawn_ext ns dt n p X s s' Hs), (drawn_ext ns' dt' m p X u u' Hu). reflexivity.
  - intros s. apply (same_law_expect p K L w v X Y Hw Hv H m (fun f => G [drawn ns dt n p X s; mkArr ns' dt' (Mat p (tab m f))])).
    intros f g Hfg. do 4 f_equal. f_equal. apply tab_ext. auto.
Qed.

Theorem C76_energy_two E K L w v X Y p ns dt ns' dt' n m e av st b alpha : valid_env E -> distribution K w -> distribution L v -> 0 < e -> 0 <= alpha ->
  (2 <= n)%nat -> (2 <= m)%nat -> same_law p K L w v X Y ->
  let d s u := [drawn ns dt n p X s; drawn ns' dt' m p Y u] in
  let tie_free_run s u r := tie_free (statistics (regroup p) (energy_test_on E e av (EstEnum st)) (d s u) r) in
  exists t, (forall s u r, length r = b -> Forall (is_perm (n + m)) r -> exists g, energy_test_on E e av (EstEnum st) (d s u) (Z.of_nat b) r = Ok (t s u r, g)) /\
  expect K w n (fun s => expect L v m (fun u => share_of_runs (n + m) b (fun r => tie_free_run s u r && leb (pvalue (t s u r)) alpha)))
  <= alpha * expect K w n (fun s => expect L v m (fun u => share_of_runs (n + m) b (tie_free_run s u))) /\
  expect K w n (fun s => expect L v m (fun u => share_of_runs (n + m) b (fun r => leb (pvalue (t s u r)) alpha)))
  <= alpha + expect K w n (fun s => expect L v m (fun u => share_of_runs (n + m) b (fun r => negb (tie_free_run s u r)))).
Proof.
  intros HE Hw Hv He Ha Hn Hm H d tf.
  set (tt := fun d r => match energy_test_on E e av (EstEnum st) d (Z.of_nat b) r with Ok (t, _) => t | Err _ => mkTest 0 0 end).
  set (kinds := [(ns, dt, n); (ns', dt', m)]).
  assert (HS : forall s u, several p (EstEnum st) (d s u)).
  { intros s u. split; [cbn; lia|]. destruct (drawn_two ns dt ns' dt' n m p X Y s u) as (Wx & Wy & Sx & Sy & Cx & Cy).
    repeat constructor; auto; cbn [to_estimation]; destruct st; lia. }
  exists (fun s u r => tt (d s u) r). split.
  { intros s u r Lr Fr. unfold tt, energy_test_on. rewrite (energy_test_stats E replay p _ e b _ av (EstEnum st) st) by (auto using replay_permuting; apply HS).
    eexists. reflexivity. }
  destruct (C76_energy_level E K w X p kinds e av (EstEnum st) st b alpha) as (t & Ht & H1 & H2); auto.
  { repeat constructor; destruct st; cbn; lia. }
  assert (Sz : size kinds = (n + m)%nat) by (unfold size; cbn; lia). rewrite Sz in *.
  assert (T : forall s r, In r (words b (all_perms (n + m))) -> t s r = tt (groups p X kinds s) r).
  { intros s r Hr. apply in_words in Hr as [Lr Fr]. destruct (Ht s r Lr) as (g & Hg).
    - apply Forall_forall. intros q Hq. apply in_all_perms. auto.
    - unfold tt. cbv zeta in Hg. rewrite Hg. reflexivity. }
  set (tfd := fun d r => tie_free (statistics (regroup p) (energy_test_on E e av (EstEnum st)) d r)).
  set (G1 := fun l => share_of_runs (n + m) b (fun r => tfd l r && leb (pvalue (tt l r)) alpha)). set (G2 := fun l => share_of_runs (n + m) b (tfd l)).
  set (G3 := fun l => share_of_runs (n + m) b (fun r => leb (pvalue (tt l r)) alpha)). set (G4 := fun l => share_of_runs (n + m) b (fun r => negb (tfd l r))).
  pose proof (fun G => one_law K L w v X Y p ns dt ns' dt' n m G Hw Hv H) as O. fold kinds in O.
  pose proof (O G1) as O1. pose proof (O G2) as O2. pose proof (O G3) as O3. pose proof (O G4) as O4. clear O.
  unfold G1, G2, G3, G4 in *. cbv beta in *. unfold tf, d. unfold tfd in *. rewrite O1, O2, O3, O4. split.
  - eapply Rle_trans; [right|exact H1]. apply expect_ext. intros s. unfold share_of_runs. do 2 f_equal. apply count_if_ext. intros r Hr. rewrite T by auto. reflexivity.
  - eapply Rle_trans; [right|exact H2]. apply expect_ext. intros s. unfold share_of_runs. do 2 f_equal. apply count_if_ext. intros r Hr. rewrite T by auto. reflexivity.
Qed.

(** ** Concrete cases *)

Lemma expect_positive K w : distribution K w -> forall n (s0 : nat -> nat) f, (forall i, (i < n)%nat -> (s0 i < K)%nat /\ 0 < w (s0 i)) -> (forall s, 0 <= f s) ->
  (forall s, (forall i, (i < n)%nat -> s i = s0 i) -> 0 < f s) -> 0 < expect K w n f.
Proof.
  intros HD. induction n as [|n IH]; intros s0 f H0 Hf Hp.
  - cbn [expect]. apply Hp. intros; lia.
  - cbn [expect]. destruct (H0 n) as [Hk Hw]; [lia|]. destruct HD as [HD1 HD2].
    assert (P : 0 < w (s0 n) * expect K w n (fun s => f (fun j => if Nat.eqb j n then s0 n else s j))).
    { apply Rmult_lt_0_compat; auto. apply (IH s0); auto. intros s Hs. apply Hp. intros i Hi. destruct (Nat.eqb_spec i n) as [->|]; auto. apply Hs. lia. }
    eapply Rlt_le_trans; [exact P|]. rewrite <- (rsum_delta K (s0 n) (fun k => w k * expect K w n (fun s => f (fun j => if Nat.eqb j n then k else s j)))) by auto.
    apply rsum_le. intros k Hk'. destruct (Nat.eqb k (s0 n)); [lra|]. apply Rmult_le_pos; [auto|].
    rewrite <- (expect_const K w HD2 n 0). apply expect_le; auto. split; auto.
Qed.
Lemma share_positive n b good r : length r = b -> Forall (is_perm n) r -> good r = true -> 0 < share_of_runs n b good.
Proof.
  intros Lr Fr Hg. unfold share_of_runs. apply Rdiv_lt_0_compat; [|apply runs_pos]. apply lt_0_INR. unfold count_if.
  assert (In r (filter good (words b (all_perms n)))) as Hin.
  { apply filter_In. split; auto. apply in_words. split; auto. intros q Hq. apply in_all_perms. rewrite Forall_forall in Fr. auto. }
  destruct (filter good _); [destruct Hin|cbn; lia].
Qed.

(** Two coins thrown independently four times, one resample, level 1/2: runs without ties have a positive probability. *)
Example C76_meets : exists t,
  (forall s r, length r = 1%nat -> Forall (is_perm 4) r ->
    exists st, dcov_test_on (env_R true) (drawn Numpy F64 4 1 other s) 1 (drawn Numpy F64 4 1 coin s) 1 r = Ok (t s r, st)) /\
  let free s := share_of_runs 4 1 (fun r => tie_free (statistics permute_sample (dcov_test_on (env_R true) (drawn Numpy F64 4 1 other s) 1) (drawn Numpy F64 4 1 coin s) r)) in
  0 < expect 4 (fun _ => 1 / 4) 4 free /\
  expect 4 (fun _ => 1 / 4) 4 (fun s => share_of_runs 4 1 (fun r =>
    tie_free (statistics permute_sample (dcov_test_on (env_R true) (drawn Numpy F64 4 1 other s) 1) (drawn Numpy F64 4 1 coin s) r) && leb (pvalue (t s r)) (1 / 2)))
  <= 1 / 2 * expect 4 (fun _ => 1 / 4) 4 free.
Proof.
  assert (HD : distribution 4 (fun _ => 1 / 4)) by (split; [intros; lra|cbn; lra]).
  destruct (C76_dcov_level (env_R true) 4 (fun _ => 1 / 4) coin other 1 1 Numpy F64 Numpy F64 4 1 1 (1 / 2)) as (t & Ht & H1 & _);
    auto using env_R_valid, coins_independent; try lra; try lia.
  exists t. split; [exact Ht|]. cbv zeta. split; [|exact H1].
  apply (expect_positive 4 (fun _ => 1 / 4) HD 4 (fun i => if Nat.ltb i 2 then 0 else 3)%nat).
  - intros i Hi. split; [destruct (Nat.ltb i 2); lia|lra].
  - intros s. apply share_range.
  - intros s Hs. assert (Hq : is_perm 4 [0; 2; 1; 3]%nat) by (apply perm_skip, perm_swap).
    apply (share_positive 4 1 _ [[0; 2; 1; 3]]%nat); auto. unfold tie_free. destruct (ListDec.NoDup_dec _ _) as [|N]; auto. exfalso. apply N. clear N.
    unfold statistics. cbn [map]. constructor; [|constructor; [intros []|constructor]]. intros [Heq|[]]. revert Heq. rewrite permute_drawn by auto.
    unfold stat_of, dcov_test_on. change 0%Z with (Z.of_nat 0).
    rewrite !(dcov_test_eval (env_R true) replay _ _ 4) by (auto using env_R_valid, replay_permuting; try lra; unfold paired; auto 8 using drawn_wf, drawn_shape with arith).
    cbn [statistic]. intros Heq. apply Rmult_eq_reg_l in Heq; [|cbn; lra]. revert Heq.
    set (bit := fun i : nat => if Nat.ltb i 2 then 0 else 1). set (mix := fun i : nat => if Nat.even i then 0 else 1).
    assert (A : forall i j, (i < 4)%nat -> (j < 4)%nat -> distances 1 (drawn Numpy F64 4 1 coin s) i j = Rabs (bit i - bit j)).
    { intros i j Hi Hj. rewrite distances_1, !drawn_obs, !Hs by first [reflexivity|lia]. unfold coin, bit. destruct (Nat.ltb i 2), (Nat.ltb j 2); reflexivity. }
    assert (B : forall i j, (i < 4)%nat -> (j < 4)%nat -> distances 1 (drawn Numpy F64 4 1 other s) i j = Rabs (bit i - bit j)).
    { intros i j Hi Hj. rewrite distances_1, !drawn_obs, !Hs by first [reflexivity|lia]. unfold other, bit. destruct (Nat.ltb i 2), (Nat.ltb j 2); reflexivity. }
    assert (C : forall i j, (i < 4)%nat -> (j < 4)%nat -> distances 1 (drawn Numpy F64 4 1 coin (fun i => s (nth i [0; 2; 1; 3] 0)))%nat i j = Rabs (mix i - mix j)).
    { intros i j Hi Hj. rewrite distances_1, !drawn_obs, !Hs by first [reflexivity|lia|apply (is_perm_lt _ _ _ Hq); lia]. unfold coin, mix.
      destruct i as [|[|[|[|i]]]]; try lia; destruct j as [|[|[|[|j]]]]; try lia; reflexivity. }
    rewrite (dcov2_ext 4 _ _ (fun i j => Rabs (mix i - mix j)) (fun i j => Rabs (bit i - bit j))) by auto.
    rewrite (dcov2_ext 4 (distances _ _) _ (fun i j => Rabs (bit i - bit j)) (fun i j => Rabs (bit i - bit j))) by auto.
    assert (R0 : Rabs 0 = 0) by apply Rabs_R0. assert (R1 : Rabs 1 = 1) by apply Rabs_R1. assert (R2 : Rabs (-1) = 1) by (replace (-1) with (- (1)) by ring; rewrite Rabs_Ropp; apply Rabs_R1).
    unfold dcov2, dcenter, mean, rsum2. cbn [rsum]. unfold bit, mix. cbn [Nat.ltb Nat.leb Nat.even]. rewrite !Rminus_eq_0, !Rminus_0_l, !Rminus_0_r, !R0, !R1. change (- (1)) with (Ropp 1). rewrite ?Rabs_Ropp, ?R1. cbn [INR]. lra.
Qed.

(** A coin thrown twice and twice again (given by two and by four atoms), one resample, level 1/2. *)
Example C76_energy_meets : exists t,
  let d s u := [drawn Numpy F64 2 1 coin s; drawn Numpy F64 2 1 other u] in
  (forall s u r, length r = 1%nat -> Forall (is_perm 4) r -> exists g, energy_test_on (env_R true) 1 None (EstEnum VStatistic) (d s u) 1 r = Ok (t s u r, g)) /\
  let free s u r := tie_free (statistics (regroup 1) (energy_test_on (env_R true) 1 None (EstEnum VStatistic)) (d s u) r) in
  let pr f := expect 2 (fun _ => 1 / 2) 2 (fun s => expect 4 (fun _ => 1 / 4) 2 (fun u => share_of_runs 4 1 (f s u))) in
  0 < pr free /\ pr (fun s u r => free s u r && leb (pvalue (t s u r)) (1 / 2)) <= 1 / 2 * pr free.
Proof.
  assert (HD : distribution 2 (fun _ => 1 / 2)) by (split; [intros; lra|cbn; lra]). assert (HD' : distribution 4 (fun _ => 1 / 4)) by (split; [intros; lra|cbn; lra]).
  destruct (C76_energy_two (env_R true) 2 4 (fun _ => 1 / 2) (fun _ => 1 / 4) coin other 1 Numpy F64 Numpy F64 2 2 1 None VStatistic 1 (1 / 2)) as (t & Ht & H1 & _);
    auto using env_R_valid; try lra.
  { intros z. unfold prob_at, coin, other, same_pointb. cbn. repeat match goal with |- context [Req_EM_T ?a ?b] => destruct (Req_EM_T a b) end; cbn; lra. }
  exists t. cbv zeta. split; [exact Ht|]. split; [|exact H1].
  apply (expect_positive 2 (fun _ => 1 / 2) HD 2 (fun _ => 0%nat)).
  - intros i Hi. split; [lia|lra].
  - intros s. rewrite <- (expect_const 4 (fun _ => 1 / 4) (proj2 HD') 2 0). apply expect_mono; auto. intros u. apply share_range.
  - intros s Hs. apply (expect_positive 4 (fun _ => 1 / 4) HD' 2 (fun _ => 2%nat)).
    + intros i Hi. split; [lia|lra].
    + intros u. apply share_range.
    + intros u Hu. assert (Hq : is_perm 4 [0; 2; 1; 3]%nat) by (apply perm_skip, perm_swap).
      apply (share_positive 4 1 _ [[0; 2; 1; 3]]%nat); auto. unfold tie_free. destruct (ListDec.NoDup_dec _ _) as [|N]; auto. exfalso. apply N. clear N.
      assert (D : [drawn Numpy F64 2 1 coin s; drawn Numpy F64 2 1 other u] = [mkArr Numpy F64 (Mat 1 [[0]; [0]]); mkArr Numpy F64 (Mat 1 [[1]; [1]])]).
      { unfold drawn, tab. cbn [seq map]. rewrite !Hs, !Hu by lia. reflexivity. }
      rewrite D. unfold statistics. cbn [map].
      change (regroup 1 [0; 2; 1; 3]%nat [mkArr Numpy F64 (Mat 1 [[0]; [0]]); mkArr Numpy F64 (Mat 1 [[1]; [1]])])
        with [mkArr Numpy F64 (Mat 1 [[0]; [1]]); mkArr Numpy F64 (Mat 1 [[0]; [1]])].
      constructor; [|constructor; [intros []|constructor]]. intros [Heq|[]]. revert Heq.
      assert (HT : forall a b c d, two_samples 2 2 1 (mkArr Numpy F64 (Mat 1 [[a]; [b]])) (mkArr Numpy F64 (Mat 1 [[c]; [d]]))) by (intros; repeat split; repeat constructor).
      assert (HS : forall a b c d, several 1 (EstEnum VStatistic) [mkArr Numpy F64 (Mat 1 [[a]; [b]]); mkArr Numpy F64 (Mat 1 [[c]; [d]])])
        by (intros; split; [cbn; lia|]; repeat constructor).
      assert (V : forall a b c d, stat_of (energy_test_on (env_R true) 1 None (EstEnum VStatistic)) [mkArr Numpy F64 (Mat 1 [[a]; [b]]); mkArr Numpy F64 (Mat 1 [[c]; [d]])]
        = 2 * ((Rabs (a - c) + Rabs (a - d) + Rabs (b - c) + Rabs (b - d)) / 4) - (Rabs (a - b) + Rabs (b - a)) / 4 - (Rabs (c - d) + Rabs (d - c)) / 4).
      { intros a b c d. unfold stat_of, energy_test_on. change 0%Z with (Z.of_nat 0).
        rewrite (energy_test_stats (env_R true) replay 1 _ 1 0 _ None (EstEnum VStatistic) VStatistic) by (auto using env_R_valid, replay_permuting; lra). cbn [statistic].
        rewrite (two_pairs (env_R true) VStatistic 1 _ _ 2 2 1) by auto using env_R_valid. unfold block_energy, rsum2. cbn [rsum]. rewrite !dist_1, !rpow_1 by apply Rabs_pos.
        cbn. rewrite !Rminus_eq_0, Rabs_R0. field. }
      rewrite !V. rewrite !Rminus_eq_0, !Rminus_0_l, !Rminus_0_r, ?Rabs_Ropp, !Rabs_R0, !Rabs_R1. lra.
Qed.
