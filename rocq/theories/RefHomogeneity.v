(** Evaluation of the k-sample energy statistic. *)
From Coq Require Import Reals Lra Lia List Arith Bool ZArith Permutation.
From Verif Require Import Num Numpy MUtils MDistances MMergesort MInternals MDcor MEnergy MHypothesis MHomogeneity Sums Spec Centering Tab
  Samples Api RefDist RefCenter RefApi Invariance RefEnergy RefTests.
Import ListNotations.
Local Open Scope R_scope.

(** Number of pooled observations, and coordinate [k] of pooled observation [i]. *)
Definition total (samples : list (array R)) : nat := list_sum (map shape0 samples).
Fixpoint pooled (samples : list (array R)) (i k : nat) : R :=
  match samples with
  | [] => 0
  | s :: r => if Nat.ltb i (shape0 s) then obs s i k else pooled r (i - shape0 s) k
  end.
(** Where sample [i] starts. *)
Definition off (samples : list (array R)) (i : nat) : nat := total (firstn i samples).

Definition rows_of (x : array R) : list (list R) := snd (transform_to_2d (adata x)).

(** [samples] all have [p] columns. *)
Definition well_formed (p : nat) (samples : list (array R)) : Prop := Forall (fun s => wf s /\ ncols s = p) samples.

Lemma rows_tab x : wf x -> rows_of x = tab2 (shape0 x) (ncols x) (obs x).
Proof. intros. unfold rows_of. rewrite transform_to_2d_tab by auto. reflexivity. Qed.

Lemma pooled_rows p samples : well_formed p samples ->
  concat (map rows_of samples) = tab2 (total samples) p (pooled samples).
Proof.
  induction 1 as [|s r [Ws Cs] Hr IH]; [reflexivity|]. cbn [map concat]. rewrite IH, rows_tab by auto.
  change (total (s :: r)) with (shape0 s + total r)%nat. unfold tab2. rewrite tab_app. f_equal.
  - apply tab_ext. intros i Hi. rewrite Cs. apply tab_ext. intros k Hk. cbn [pooled].
    destruct (Nat.ltb_spec i (shape0 s)); [reflexivity|lia].
  - apply tab_ext. intros i Hi. apply tab_ext. intros k Hk. cbn [pooled].
    destruct (Nat.ltb_spec (shape0 s + i) (shape0 s)); [lia|]. f_equal. lia.
Qed.

Lemma pooled_off samples d : forall i r k, (i < length samples)%nat -> (r < shape0 (nth i samples d))%nat ->
  pooled samples (off samples i + r) k = obs (nth i samples d) r k.
Proof.
  induction samples as [|s l IH]; intros i r k Hi Hr; [cbn in Hi; lia|]. destruct i as [|i].
  - change (off (s :: l) 0) with 0%nat. cbn [plus nth pooled] in *. destruct (Nat.ltb_spec r (shape0 s)); [reflexivity|lia].
  - change (off (s :: l) (S i)) with (shape0 s + off l i)%nat. cbn [pooled nth] in *.
    destruct (Nat.ltb_spec (shape0 s + off l i + r) (shape0 s)); [lia|].
    replace (shape0 s + off l i + r - shape0 s)%nat with (off l i + r)%nat by lia. apply IH; auto. cbn in Hi. lia.
Qed.

Lemma off_le samples d i : (i < length samples)%nat -> (off samples i + shape0 (nth i samples d) <= total samples)%nat.
Proof.
  revert i. induction samples as [|s l IH]; intros i Hi; [cbn in Hi; lia|]. destruct i as [|i].
  - cbn. unfold total. cbn. lia.
  - change (off (s :: l) (S i)) with (shape0 s + off l i)%nat. change (total (s :: l)) with (shape0 s + total l)%nat. cbn [nth].
    specialize (IH i). cbn in Hi. lia.
Qed.

Lemma nat_cumsum_tab l : forall acc, nat_cumsum acc l = tab (length l) (fun i => acc + list_sum (firstn (S i) l))%nat.
Proof.
  induction l as [|a l IH]; intros acc; cbn [nat_cumsum length]; [reflexivity|]. rewrite tab_S, IH. f_equal; [cbn; lia|].
  apply tab_ext. intros i Hi. change (firstn (S (S i)) (a :: l)) with (a :: firstn (S i) l). cbn [list_sum fold_right].
  unfold list_sum. lia.
Qed.

Lemma removelast_tab {A} n (f : nat -> A) : removelast (tab (S n) f) = tab n f.
Proof. rewrite tab_snoc. apply removelast_last. Qed.

Lemma sample_indexes_tab samples : sample_indexes (map shape0 samples) = tab (length samples) (off samples).
Proof.
  destruct samples as [|s l]; [reflexivity|]. unfold sample_indexes. cbn [map]. rewrite nat_cumsum_tab. cbn [length].
  rewrite removelast_tab, map_length, tab_S. f_equal. apply tab_ext. intros i Hi. cbn [plus].
  unfold off, total. change (shape0 s :: map shape0 l) with (map shape0 (s :: l)). rewrite firstn_map. reflexivity.
Qed.

Lemma slice_tab {A} n (f : nat -> A) a k : (a + k <= n)%nat -> slice (tab n f) a (a + k) = tab k (fun i => f (a + i)%nat).
Proof.
  intros H. unfold slice. rewrite skipn_tab. replace (a + k - a)%nat with k by lia.
  replace (n - a)%nat with (k + (n - a - k))%nat by lia. rewrite tab_app, firstn_app, tab_length, Nat.sub_diag.
  cbn [firstn]. rewrite app_nil_r. rewrite <- (tab_length k (fun j => f (a + j)%nat)) at 1. apply firstn_all.
Qed.

Lemma submatrix_tab {T} n (D : nat -> nat -> T) a k b l : (a + k <= n)%nat -> (b + l <= n)%nat ->
  submatrix (tab2 n n D) a (a + k) b (b + l) = tab2 k l (fun i j => D (a + i)%nat (b + j)%nat).
Proof.
  intros H1 H2. unfold submatrix, tab2 at 1. rewrite slice_tab by auto. rewrite tab_map. unfold tab2. apply tab_ext. intros i Hi.
  apply slice_tab; auto.
Qed.

Section Stat.
  Variable E : Env R.
  Hypothesis EN : e_num E = RNum.

  (** The two-sample statistic from three functions giving the distances. *)
  Definition pair_value (av : average_fn (T:=R)) (st : estimation_stat) (n m : nat) (dxx dyy dxy : nat -> nat -> R) : R :=
    INR (n * m) / INR (n + m) *
    (2 * apply_average E av (concat (tab2 n m dxy)) - apply_average E av (flat_of st (tab2 n n dxx))
     - apply_average E av (flat_of st (tab2 m m dyy))).

  Lemma coefficient_ok n m : (1 <= n)%nat -> energy_coefficient E n m = Ok (INR (n * m) / INR (n + m)).
  Proof.
    intros Hn. unfold energy_coefficient. cbv zeta. destruct (Z.eqb_spec (Z.of_nat n + Z.of_nat m) 0); [lia|]. rewrite EN. cbn.
    rewrite <- Nat2Z.inj_mul, <- Nat2Z.inj_add, <- !INR_IZR_INZ. reflexivity.
  Qed.

  Lemma pair_statistic_tab samples d N D av es st i j : to_estimation es = Ok st -> N = total samples ->
    (i < length samples)%nat -> (j < length samples)%nat -> (1 <= shape0 (nth i samples d))%nat ->
    pair_statistic E (tab2 N N D) (sample_indexes (map shape0 samples)) (map shape0 samples) av es (i, j)
    = let a := off samples i in let b := off samples j in
      Ok (pair_value av st (shape0 (nth i samples d)) (shape0 (nth j samples d))
            (fun r s => D (a + r) (a + s))%nat (fun r s => D (b + r) (b + s))%nat (fun r s => D (a + r) (b + s))%nat).
  Proof.
    intros Hs -> Hi Hj H1. cbv zeta. unfold pair_statistic. rewrite sample_indexes_tab, !tab_nth by auto.
    rewrite !(nth_indep (map shape0 samples) 0%nat (shape0 d)) by (rewrite map_length; auto).
    rewrite !(map_nth shape0).
    pose proof (off_le samples d i Hi). pose proof (off_le samples d j Hj).
    rewrite !submatrix_tab by auto. unfold energy_test_statistic_from_distance_matrices, energy_distance_from_distance_matrices.
    rewrite Hs. cbn [rbind]. rewrite coefficient_ok by auto. cbn [rbind]. rewrite EN. unfold pair_value. destruct st; reflexivity.
  Qed.

  Lemma accumulate_ok f h l : (forall p, In p l -> f p = Ok (h p)) -> forall acc,
    accumulate E f l acc = Ok (match l, acc with [], _ => acc | _, _ =>
      Some (match acc with None => 0 | Some a => a end + lsum (map h l)) end).
  Proof.
    revert h. induction l as [|p l IH]; intros h Hf acc; [reflexivity|]. cbn [accumulate].
    rewrite Hf by (left; auto). cbn [rbind]. rewrite (IH h) by (intros; apply Hf; right; auto). rewrite EN. cbn [nadd RNum].
    f_equal. destruct l as [|p' l]; cbn [map lsum fold_right]; destruct acc; f_equal; cbn; try ring.
  Qed.

  Lemma lsum_tab n f : lsum (tab n f) = rsum n f.
  Proof. induction n; [reflexivity|]. rewrite tab_snoc, lsum_app, IHn. cbn. ring. Qed.

  Lemma pairs_sum k h : lsum (map h (sample_pairs k)) = rsum2 k k (fun i j => if Nat.ltb i j then h (i, j) else 0).
  Proof.
    unfold sample_pairs. rewrite concat_map, lsum_concat, !map_map, seq_tab, tab_map, lsum_tab.
    unfold rsum2. apply rsum_ext. intros i Hi. rewrite map_map, seq_tab_s, tab_map, lsum_tab.
    rewrite (rsum_skip (i + 1) k (fun j => h (i, j))). apply rsum_ext. intros j Hj.
    destruct (Nat.ltb_spec j (i + 1)), (Nat.ltb_spec i j); auto; lia.
  Qed.

  Lemma in_pairs k i j : In (i, j) (sample_pairs k) <-> (i < j < k)%nat.
  Proof.
    unfold sample_pairs. rewrite in_concat. split.
    - intros (l & Hl & Hin). apply in_map_iff in Hl as (i' & <- & Hi). apply in_map_iff in Hin as (j' & He & Hj).
      injection He as -> ->. apply in_seq in Hi, Hj. lia.
    - intros H. exists (map (fun j => (i, j)) (seq (i + 1) (k - (i + 1)))). split.
      + apply in_map_iff. exists i. split; auto. apply in_seq. lia.
      + apply in_map_iff. exists j. split; auto. apply in_seq. lia.
  Qed.

  (** The k-sample statistic as a sum over the pairs of samples. *)
  Lemma multivariate_tab samples d N D av es st : to_estimation es = Ok st -> N = total samples -> (2 <= length samples)%nat ->
    Forall (fun s => 1 <= shape0 s)%nat samples ->
    energy_statistic_multivariate E (tab2 N N D) (sample_indexes (map shape0 samples)) (map shape0 samples) av es
    = Ok (rsum2 (length samples) (length samples) (fun i j => if Nat.ltb i j then
            let a := off samples i in let b := off samples j in
            pair_value av st (shape0 (nth i samples d)) (shape0 (nth j samples d))
              (fun r s => D (a + r) (a + s))%nat (fun r s => D (b + r) (b + s))%nat (fun r s => D (a + r) (b + s))%nat
          else 0)).
  Proof.
    intros Hs HN Hk H1. unfold energy_statistic_multivariate.
    assert (length (sample_indexes (map shape0 samples)) = length samples) as -> by (rewrite sample_indexes_tab; apply tab_length).
    set (h := fun p : nat * nat => let (i, j) := p in
                pair_value av st (shape0 (nth i samples d)) (shape0 (nth j samples d))
                  (fun r s => D (off samples i + r) (off samples i + s))%nat (fun r s => D (off samples j + r) (off samples j + s))%nat
                  (fun r s => D (off samples i + r) (off samples j + s))%nat).
    rewrite (accumulate_ok _ h).
    - cbn [rbind]. assert (In (0, 1)%nat (sample_pairs (length samples))) as Hin by (apply in_pairs; lia).
      rewrite <- (pairs_sum _ h). destruct (sample_pairs (length samples)) as [|p l]; [contradiction|]. cbn [of_option]. f_equal. ring.
    - intros [i j] Hin. apply in_pairs in Hin. unfold h. rewrite (pair_statistic_tab samples d N D av es st) by
        (auto; try lia; rewrite Forall_forall in H1; apply H1, nth_In; lia). reflexivity.
  Qed.
End Stat.
