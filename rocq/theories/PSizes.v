(** Samples of different sizes in the tests and in the partial functions: the rest of C43. *)
From Coq Require Import Reals Lra Lia List Arith Bool ZArith.
From Verif Require Import Num Numpy MUtils MDistances MInternals MDcor MPartial MHypothesis MIndependence Sums Spec Centering Tab
  Samples RefDist Api AvlGeneric Calls RefApi Witness PMethods PShapes RefCenter PPartial.
Import ListNotations.
Local Open Scope monad_scope.

(** ** Shapes *)

Lemma map2_row {A B C} (f : A -> B -> C) u v n : length u = n -> length v = n -> length (map2 f u v) = n.
Proof. intros. unfold map2. rewrite map_length, combine_length. lia. Qed.
Lemma mat_map {A B} n (f : A -> B) m : mat n m -> mat n (map (map f) m).
Proof.
  intros [H1 H2]. split; [rewrite map_length; auto|]. apply Forall_map. eapply Forall_impl; [|exact H2].
  intros r Hr. cbn beta. rewrite map_length. exact Hr.
Qed.
Lemma mat_map2 {A B C} n (f : A -> B -> C) a b : mat n a -> mat n b -> mat n (map2 (map2 f) a b).
Proof.
  intros [H1 H2] [H3 H4]. split; [apply map2_row; auto|]. unfold map2 at 1. apply Forall_map, Forall_forall. intros [u v] Hu.
  rewrite Forall_forall in H2, H4. apply map2_row; [apply H2|apply H4]; eauto using in_combine_l, in_combine_r.
Qed.
Lemma same_shape_mat {A B} n (a : list (list A)) (b : list (list B)) : mat n a -> mat n b -> same_shape a b = true.
Proof.
  intros [H1 H2] [H3 H4]. unfold same_shape. rewrite H1, H3, Nat.eqb_refl. cbn [andb]. apply forallb_forall. intros [u v] Hu.
  rewrite Forall_forall in H2, H4. cbn [fst snd]. rewrite (H2 u), (H4 v) by eauto using in_combine_l, in_combine_r. apply Nat.eqb_refl.
Qed.

(** Element-wise operations: fine on matrices of the same size, rejected on matrices of different sizes other than 1 x 1. *)
Lemma elt_op_same {A B C} (f : A -> B -> C) n a b : mat n a -> mat n b ->
  exists r, elt_op f a b = Ok r /\ mat n r.
Proof. intros Ha Hb. unfold elt_op. rewrite (same_shape_mat n) by auto. eexists. split; [reflexivity|]. apply mat_map2; auto. Qed.
Lemma elt_op_diff {A B C} (f : A -> B -> C) n k a b : mat n a -> mat k b -> n <> k -> n <> 1 -> k <> 1 ->
  elt_op f a b = Err ValueError.
Proof.
  intros [H1 _] [H2 _] H Hn Hk. unfold elt_op, same_shape, bcast_axis at 1.
  destruct (Nat.eqb_spec (length a) (length b)); [lia|]. cbn [andb].
  destruct a as [|u [|u' a]], b as [|v [|v' b]]; cbn in *; try lia; reflexivity.
Qed.

Section Generic.
  Context {T : Type} (E : Env T).
  Let N := e_num E.

  Lemma udm_ok x e : exists m, outcome (u_distance_matrix E x e) = Ok m /\ mat (shape0 x) m.
  Proof.
    unfold u_distance_matrix, distance_matrix_generic, check_valid_dcov_exponent, pairwise_distances.
    pose proof (rows_2d x) as Rx. destruct (transform_to_2d (adata x)) as [cx rx]. cbn in Rx.
    destruct (pdist_ok E (ans x) (adt x) cx rx e) as (a & -> & A1 & A2).
    assert (mat (shape0 x) a) as Ma by (split; [congruence|]; rewrite Forall_forall in *; intros r Hr; rewrite (A2 r Hr); exact Rx).
    rewrite outcome_bind.
    assert (outcome (if exponent_in_range E e then ret tt else emit WDcovExponent) = Ok tt) as -> by (destruct (exponent_in_range E e); reflexivity).
    cbn [rbind]. rewrite outcome_bind. cbn [rbind outcome lift snd].
    erewrite uc_run; [|eapply copy_self; reflexivity|reflexivity|reflexivity|apply (square_mat (shape0 x)), Ma].
    eexists. split; [reflexivity|]. set (n := shape0 x) in *. clearbody n. destruct Ma as [M1 M2].
    unfold uc_pure, symmetric_matrix_sums, row_sums, zero_diag, add_all, sub_rows, sub_cols. cbv beta iota zeta.
    set (mean := map _ (map _ a)). assert (length mean = n) as Lm by (unfold mean; rewrite !map_length; auto). clearbody mean.
    split.
    - apply map2_row; [rewrite seq_length|]; rewrite map_length; apply map2_row; rewrite ?map_length; auto.
    - unfold map2 at 1. apply Forall_map, Forall_forall. intros [i r] Hr. apply in_combine_r in Hr.
      assert (forall A (l : list A) i v, length (upd l i v) = length l) as Hu.
      { clear. intros A l. induction l; intros [|i] v; cbn; auto. }
      cbv beta iota. rewrite Hu. cbn [snd]. apply in_map_iff in Hr as (r' & <- & Hr). rewrite map_length. unfold map2 at 1 in Hr.
      apply in_map_iff in Hr as ([r'' s] & <- & Hr). cbn [fst snd] in *. rewrite map_length. apply in_combine_l in Hr.
      apply in_map_iff in Hr as (r0 & <- & Hr). apply map2_row; auto. rewrite Forall_forall in M2. auto.
  Qed.

  Lemma up_same n a b : mat n a -> mat n b -> exists v, u_product E a b = Ok v.
  Proof. intros Ha Hb. unfold u_product, elt_product. destruct (elt_op_same (nmul (e_num E)) n a b Ha Hb) as (r & -> & _). cbn; eauto. Qed.
  Lemma up_diff n k a b : mat n a -> mat k b -> n <> k -> n <> 1 -> k <> 1 -> u_product E a b = Err ValueError.
  Proof. intros. unfold u_product, elt_product. rewrite (elt_op_diff _ n k) by auto. reflexivity. Qed.

  Lemma compl_ok k c : mat k c -> exists q, u_complementary_projection E c = Ok q /\
    (forall a, mat k a -> exists p, q a = Ok p /\ mat k p) /\
    (forall n a, mat n a -> n <> k -> n <> 1 -> k <> 1 -> q a = Err ValueError).
  Proof.
    intros Hc. unfold u_complementary_projection, u_projection.
    destruct (up_same k c c Hc Hc) as (d & ->). cbn [rbind]. eexists. split; [reflexivity|]. split.
    - intros a Ha. destruct (neqb (e_num E) d (nzero (e_num E))); cbn [rbind].
      + apply elt_op_same; auto. apply mat_map; auto.
      + destruct (up_same k a c Ha Hc) as (ac & ->). cbn [rbind]. apply elt_op_same; auto. apply mat_map; auto.
    - intros n a Ha H Hn Hk. destruct (neqb (e_num E) d (nzero (e_num E))); cbn [rbind].
      + apply (elt_op_diff _ n k); auto. apply mat_map; auto.
      + rewrite (up_diff n k) by auto. reflexivity.
  Qed.

  (** ** The theorems: any kind of numbers, finite or not *)

  Theorem C43_dcov_test {S} (G : Rng S) x y B e rs : shape0 x <> shape0 y ->
    outcome (distance_covariance_test E G x y B e rs) = Err ValueError.
  Proof.
    intros H. unfold distance_covariance_test, check_same_n_elements. rewrite outcome_bind. cbn [lift outcome snd].
    destruct (Nat.eqb_spec (shape0 x) (shape0 y)); [contradiction|reflexivity].
  Qed.

  Theorem C43_t_test x y : shape_env E ->
    wf x -> wf y -> shape0 x <> shape0 y ->
    (exists ex, outcome (distance_correlation_t_statistic E x y) = Err ex) /\
    (exists ex, outcome (distance_correlation_t_test E x y) = Err ex).
  Proof.
    intros HE Wx Wy H.
    assert (exists ex, outcome (distance_correlation_t_statistic E x y) = Err ex) as [ex Hs].
    { unfold distance_correlation_t_statistic. rewrite outcome_bind.
      destruct (C43_rejected E UDcorSqr x y (nunit (e_num E)) MAuto CAuto) as [ex Hx]; auto; [discriminate|].
      unfold call, api_fn in Hx. rewrite Hx. cbn; eauto. }
    split; [eauto|]. unfold distance_correlation_t_test. rewrite outcome_bind, Hs. cbn; eauto.
  Qed.

  Section Partial.
    Variables x y z : array T.
    Hypothesis Hd : ~ (shape0 x = shape0 y /\ shape0 y = shape0 z).
    Hypothesis Hx : shape0 x <> 1.
    Hypothesis Hy : shape0 y <> 1.
    Hypothesis Hz : shape0 z <> 1.

    Theorem C43_partial_covariance : outcome (partial_distance_covariance E x y z) = Err ValueError.
    Proof.
      unfold partial_distance_covariance.
      destruct (udm_ok x (nunit (e_num E))) as (a & Ea & Ma), (udm_ok y (nunit (e_num E))) as (b & Eb & Mb),
        (udm_ok z (nunit (e_num E))) as (c & Ec & Mc).
      rewrite outcome_bind, Ea. cbn [rbind]. rewrite outcome_bind, Eb. cbn [rbind]. rewrite outcome_bind, Ec. cbn [rbind].
      destruct (compl_ok _ c Mc) as (q & Hq & Q1 & Q2). rewrite outcome_bind. cbn [outcome lift snd]. rewrite Hq. cbn [rbind].
      rewrite outcome_bind. cbn [outcome lift snd]. destruct (Nat.eq_dec (shape0 x) (shape0 z)) as [Hxz|Hxz].
      - destruct (Q1 a) as (pa & -> & _); [rewrite <- Hxz; auto|]. cbn [rbind]. rewrite outcome_bind. cbn [outcome lift snd].
        rewrite (Q2 (shape0 y) b) by (auto; intros ?; apply Hd; split; congruence). reflexivity.
      - rewrite (Q2 (shape0 x) a) by auto. reflexivity.
    Qed.

    Theorem C43_partial_correlation : outcome (partial_distance_correlation E x y z) = Err ValueError.
    Proof.
      unfold partial_distance_correlation.
      destruct (udm_ok x (nunit (e_num E))) as (a & Ea & Ma), (udm_ok y (nunit (e_num E))) as (b & Eb & Mb),
        (udm_ok z (nunit (e_num E))) as (c & Ec & Mc).
      rewrite outcome_bind, Ea. cbn [rbind]. rewrite outcome_bind, Eb. cbn [rbind]. rewrite outcome_bind, Ec. cbn [rbind].
      destruct (up_same _ a a Ma Ma) as (aa & Haa), (up_same _ b b Mb Mb) as (bb & Hbb), (up_same _ c c Mc Mc) as (cc & Hcc).
      rewrite outcome_bind. cbn [outcome lift snd]. rewrite Haa. cbn [rbind].
      rewrite outcome_bind. cbn [outcome lift snd]. rewrite Hbb. cbn [rbind].
      rewrite outcome_bind. cbn [outcome lift snd]. rewrite Hcc. cbn [rbind].
      rewrite outcome_bind. cbn [outcome lift snd]. destruct (Nat.eq_dec (shape0 x) (shape0 y)) as [Hxy|Hxy].
      - destruct (up_same (shape0 y) a b) as (ab & ->); [rewrite <- Hxy; auto|auto|]. cbn [rbind]. rewrite outcome_bind. cbn [outcome lift snd].
        rewrite (up_diff (shape0 x) (shape0 z) a c) by (auto; intros ?; apply Hd; split; congruence). reflexivity.
      - rewrite (up_diff (shape0 x) (shape0 y) a b) by auto. reflexivity.
    Qed.

    Theorem C43_partial_test {S} (G : Rng S) B e rs :
      outcome (partial_distance_covariance_test E G x y z B e rs) = Err ValueError.
    Proof.
      unfold partial_distance_covariance_test. cbv zeta.
      destruct (udm_ok x e) as (a & Ea & Ma), (udm_ok y e) as (b & Eb & Mb), (udm_ok z e) as (c & Ec & Mc).
      rewrite outcome_bind, Ea. cbn [rbind]. rewrite outcome_bind, Eb. cbn [rbind]. rewrite outcome_bind, Ec. cbn [rbind].
      destruct (compl_ok _ c Mc) as (q & Hq & Q1 & Q2). rewrite outcome_bind. cbn [outcome lift snd]. rewrite Hq. cbn [rbind].
      rewrite outcome_bind. cbn [outcome lift snd]. destruct (Nat.eq_dec (shape0 x) (shape0 z)) as [Hxz|Hxz].
      - destruct (Q1 a) as (pa & -> & _); [rewrite <- Hxz; auto|]. cbn [rbind]. rewrite outcome_bind. cbn [outcome lift snd].
        rewrite (Q2 (shape0 y) b) by (auto; intros ?; apply Hd; split; congruence). reflexivity.
      - rewrite (Q2 (shape0 x) a) by auto. reflexivity.
    Qed.
  End Partial.
End Generic.

(** ** A single observation is broadcast *)

Lemma udm_single E (z : array R) : e_num E = RNum -> shape0 z = 1 -> outcome (u_distance_matrix E z 1%R) = Ok [[0%R]].
Proof.
  intros EN Hz. unfold u_distance_matrix, distance_matrix_generic, check_valid_dcov_exponent, pairwise_distances.
  pose proof (rows_2d z) as Rx. destruct (transform_to_2d (adata z)) as [cx rx]. cbn in Rx.
  destruct (pdist_ok E (ans z) (adt z) cx rx 1%R) as (a & -> & A1 & A2).
  rewrite outcome_bind.
  assert (outcome (if exponent_in_range E 1%R then ret tt else emit WDcovExponent) = Ok tt) as -> by (destruct (exponent_in_range E 1%R); reflexivity).
  cbn [rbind]. rewrite outcome_bind. cbn [rbind outcome lift snd].
  assert (length a = 1) as La by congruence. destruct a as [|u [|]]; try discriminate. apply Forall_inv in A2.
  assert (length u = 1) as Lu by congruence. destruct u as [|v [|]]; try discriminate.
  unfold u_centered, float_copy_to_out. cbn. rewrite EN. reflexivity.
Qed.

Lemma bcast_single {A B C} (f : A -> B -> C) n m v : mat n m -> n <> 1 -> elt_op f m [[v]] = Ok (map (map (fun u => f u v)) m).
Proof.
  intros [H1 H2] Hn. unfold elt_op, same_shape.
  assert (forall l, length l <> 1 -> bcast_axis (fun x y => Ok (f x y)) l [v] = Ok (map (fun u => f u v) l)) as Hr.
  { intros l Hl. unfold bcast_axis. cbn [length]. destruct (Nat.eqb_spec (length l) 1); [lia|].
    assert (forall l, mapM (fun a => Ok (f a v)) l = Ok (map (fun u => f u v) l)) as H.
    { clear. induction l; cbn; auto. rewrite IHl. reflexivity. }
    destruct l as [|u [|u' l]]; cbn in Hl; try lia; apply H. }
  unfold bcast_axis at 1. cbn [length]. destruct (Nat.eqb_spec (length m) 1); [lia|]. cbn [andb].
  assert (forall k, Forall (fun r => length r = n) k -> mapM (fun a => bcast_axis (fun x y => Ok (f x y)) a [v]) k = Ok (map (map (fun u => f u v)) k)) as H.
  { induction 1 as [|r k Hk Hks IH]; cbn; auto. rewrite Hr by lia. rewrite IH. reflexivity. }
  destruct m as [|r [|r' m]]; cbn in *; try lia; [reflexivity|]. apply (H (r :: r' :: m)). exact H2.
Qed.

(** A sample [z] of a single observation is not rejected: it removes nothing, and the result is the bias-corrected
    squared distance covariance of [x] and [y]. *)
Theorem C43_single_ignored E x y z n : valid_env E -> paired n x y -> (4 <= n)%nat -> shape0 z = 1 ->
  outcome (partial_distance_covariance E x y z) = outcome (u_distance_covariance_sqr E x y 1%R (MethodEnum MAuto) CAuto).
Proof.
  intros HE (Wx & Wy & Sx & Sy & _) Hn Hz. pose proof HE as [EN _ _].
  rewrite (C22_inner_product E x y x n) by (auto; unfold triple; auto 8).
  assert (nunit (e_num E) = 1%R) as H1 by (rewrite EN; reflexivity).
  unfold partial_distance_covariance. rewrite H1, !outcome_bind, (dmg_u E x n) by (auto; lra || lia). cbn [rbind].
  rewrite !outcome_bind, (dmg_u E y n) by (auto; lra || lia). cbn [rbind].
  rewrite !outcome_bind, (udm_single E z) by auto. cbn [rbind].
  unfold u_complementary_projection, u_projection.
  assert (u_product E [[0%R]] [[0%R]] = Ok 0%R) as ->.
  { unfold u_product, elt_product, elt_op. rewrite EN. cbn. unfold np_sum. change (nsum RNum) with (seq_sum Rplus 0%R). cbn. f_equal. lra. }
  cbn [rbind]. rewrite !outcome_bind. cbn [outcome lift snd rbind].
  assert (neqb (e_num E) 0%R (nzero (e_num E)) = true) as -> by (rewrite EN; apply Reqb_refl). cbn [rbind map].
  assert (forall f, elt_op (nsub (e_num E)) (tab2 n n f) [[nzero (e_num E)]] = Ok (tab2 n n f)) as Hb.
  { intros f. rewrite (bcast_single _ n) by (try apply tab2_mat; lia). f_equal. rewrite EN.
    rewrite <- (map_id (tab2 n n f)) at 2. apply map_ext. intros r. rewrite <- (map_id r) at 2. apply map_ext. intros u.
    cbn [nsub nzero RNum]. lra. }
  rewrite !Hb. cbn [rbind]. rewrite ?outcome_bind. cbn [outcome lift snd rbind]. rewrite ?Hb. cbn [rbind outcome lift snd].
  rewrite bind_ok. cbn [outcome lift snd].   rewrite u_product_tab by auto. reflexivity.
Qed.

Definition z1 : array R := mkArr Numpy F64 (Vec [7%R]).
Theorem C43_single_refuted : shape0 z1 <> shape0 xs /\
  exists v, outcome (partial_distance_covariance (env_R true) xs ys z1) = Ok v.
Proof.
  split; [discriminate|]. rewrite (C43_single_ignored (env_R true) xs ys z1 5); auto using env_R_valid, xs_ys; try lia.
  eexists. apply (C22_inner_product _ _ _ zs 5); [apply env_R_valid|apply C22_meets].
Qed.

(** Samples of sizes 5, 6 and 5. *)
Example C43_sizes_meets : outcome (partial_distance_covariance (env_R true) xs yl zs) = Err ValueError /\
  outcome (partial_distance_correlation (env_R true) xs yl zs) = Err ValueError /\
  (exists ex, outcome (distance_correlation_t_test (env_R true) xs yl) = Err ex).
Proof.
  split; [|split].
  - apply C43_partial_covariance; cbn; lia.
  - apply C43_partial_correlation; cbn; lia.
  - apply C43_t_test; auto using valid_shape_env, env_R_valid, R_00; try exact I; discriminate.
Qed.
