(** C49: samples of fixed width integers.

    [hR] (MInteger.v): an integer of the dtype, or a float; [hx v] is the number [v] stands for.
    [ints x]: the integer array [x] as the program sees it.  [reals x]: the same numbers as exact reals.
    [valid_henv w E]: arithmetic of the integer dtype whose reduction is [w] ([wrap 64] for int64, [uwrap 8] for uint8),
    a correct argsort of integers, np.empty of the right size. *)
From Coq Require Import Reals Lra Lia List Arith Bool ZArith.
From Verif Require Import Num Numpy MUtils MDistances MInternals MMergesort MAvl MDcor MInteger Sums Spec Centering Tab
  Samples Api Invariance RefDist RefDcor RefApi SpecFacts Witness Calls Transfer Hom RefInteger.
Import ListNotations.
Local Open Scope R_scope.

(** Two int64 numpy samples of the same size. *)
Definition int64_pair (n : nat) (x y : array Z) : Prop :=
  paired n (reals x) (reals y) /\ univariate x /\ univariate y /\
  adt x = SInt /\ adt y = SInt /\ ans x = Numpy /\ ans y = Numpy /\
  Forall fits64 (entries x) /\ Forall fits64 (entries y).

Definition covariance_fn (f : api) : Prop := f = DcovSqr \/ f = Dcov \/ f = UDcovSqr.
Definition avl_or_auto (m : dcov_method) : Prop := m = MAvl \/ m = MAuto.

Lemma row_le_total n (a : nat -> nat -> R) i : (forall i j, 0 <= a i j) -> (i < n)%nat -> rsum n (a i) <= rsum2 n n a.
Proof.
  intros Ha. unfold rsum2. generalize n at 1 3 as m. induction m as [|m IH]; intros Hi; [lia|].
  cbn [rsum]. destruct (Nat.eq_dec i m) as [->|].
  - assert (0 <= rsum m (fun i => rsum n (fun j => a i j))); [|eta; lra]. apply rsum_nonneg. intros. apply rsum_nonneg. auto.
  - specialize (IH ltac:(lia)). assert (0 <= rsum n (a m)); [|eta; lra]. apply rsum_nonneg. auto.
Qed.

Lemma finish_ok ER f n a b t : valid_env ER -> (min_size f <= n)%nat -> symmetric n a -> symmetric n b -> hollow n a -> hollow n b ->
  terms_ok n a b (wants_var f) t -> finish ER f n t = Ok (value f n a b).
Proof.
  intros HR Hn Sa Sb Ha Hb Ht. pose proof (ve_num _ HR) as RN. unfold finish.
  destruct f; cbn [wants_var corrected min_size value] in *.
  - rewrite (terms_dcov_V ER RN _ n a b false) by auto. reflexivity.
  - rewrite (terms_dcov_V ER RN _ n a b false) by auto. cbn [rbind]. rewrite RN, sqrt_clamp_R. reflexivity.
  - rewrite (terms_dcov_V ER RN _ n a b true) by auto. cbn [rbind].
    destruct (terms_dvar_V ER RN (t_vkind t) n a b t Hn Sa Sb Ht) as (p & q & -> & -> & -> & ->). cbn [rbind].
    rewrite (correlation_of_ok ER HR) by apply dvar_nonneg. reflexivity.
  - rewrite (terms_dcov_V ER RN _ n a b true) by auto. cbn [rbind].
    destruct (terms_dvar_V ER RN (t_vkind t) n a b t Hn Sa Sb Ht) as (p & q & -> & -> & -> & ->). cbn [rbind].
    rewrite (correlation_of_ok ER HR) by apply dvar_nonneg. rewrite RN, sqrt_clamp_R. reflexivity.
  - rewrite (terms_dcov_U ER RN _ n a b false) by auto. reflexivity.
  - rewrite (terms_dcov_U ER RN _ n a b true) by auto. cbn [rbind].
    destruct (terms_dvar_U ER RN (t_vkind t) n a b t Hn Sa Sb Ha Hb Ht) as (p & q & -> & -> & -> & ->). cbn [rbind].
    rewrite (correlation_of_ok ER HR) by (apply udvar_nonneg; auto). reflexivity.
Qed.

(** The sums of products of distances, and of the distances of each sample, can be held in an int64: the result is
    the one on the same numbers as floats. *)
Theorem C49_avl f E x y n m cm : valid_henv (wrap 64) E -> int64_pair n x y -> (4 <= n)%nat ->
  covariance_fn f -> avl_or_auto m -> not_forced cm ->
  rsum2 n n (fun i j => distances 1 (reals x) i j * distances 1 (reals y) i j) < 2 ^ 63 ->
  rsum2 n n (distances 1 (reals x)) < 2 ^ 63 -> rsum2 n n (distances 1 (reals y)) < 2 ^ 63 ->
  rmap hx (call f E (ints x) (ints y) (HI 1) m cm)
  = Ok (Fin (value f n (distances 1 (reals x)) (distances 1 (reals y)))).
Proof.
  intros HE (Hp & Ux & Uy & Tx & Ty & Nx & Ny & Fx & Fy) Hn Hf Hm Hcm Hab Ha Hb.
  set (a := distances 1 (reals x)) in *. set (b := distances 1 (reals y)) in *.
  assert (Pa : forall i j, 0 <= a i j) by (intros; apply rpow_nonneg).
  assert (Pb : forall i j, 0 <= b i j) by (intros; apply rpow_nonneg).
  pose proof (hreal_env_valid _ E HE) as HR.
  destruct (avl_terms_int E HE x y n Hp Hn Ux Uy Tx Nx Fx Fy cm Hcm) as (tz & T1 & T2). fold a b in T2.
  rewrite call_terms. assert (wants_var f = false) as Hw by (destruct Hf as [-> | [-> | ->]]; reflexivity). rewrite Hw.
  rewrite (method_avl_int E HE x y n Hp Hn Ux Uy Nx m cm Hcm) by (destruct Hm; auto). rewrite T1. cbn [rbind].
  assert (Sx : shape0 (ints x) = n) by (destruct Hp as (_ & _ & H & _); unfold ints; rewrite amap_shape0, <- (amap_shape0 IZR x); exact H). rewrite Sx.
  destruct (terms_ok_axis n a b false _ ltac:(lia) T2) as [Q1 Q2].
  assert (Hfit : forall z, 0 <= IZR z < 2 ^ 63 -> hx (wI z) = Fin (IZR z)).
  { intros z [H0 H1]. cbn. rewrite wrap64_id; auto. unfold fits64. apply le_IZR in H0.
    assert (z < 2 ^ 63)%Z; [|lia]. apply lt_IZR. change (2 ^ 63)%Z with (2 ^ Z.of_nat 63)%Z. rewrite <- pow_IZR. exact H1. }
  pose proof T2 as (M1 & M2 & M3 & M4 & M5 & _). cbn [t_mean_prod t_a_axis t_a_total t_b_axis t_b_total hom_terms] in M1, M2, M3, M4, M5.
  assert (Hrow : forall (c : nat -> nat -> R) l, (forall i j, 0 <= c i j) -> rsum2 n n c < 2 ^ 63 ->
    map IZR l = tab n (fun i => rsum n (c i)) -> map hx (map wI l) = map Fin (map IZR l)).
  { intros c l Pc Hc Hl. rewrite !map_map. apply map_ext_in. intros z Hz. apply Hfit.
    apply (in_map IZR) in Hz. rewrite Hl in Hz. unfold tab in Hz. apply in_map_iff in Hz. destruct Hz as (i & <- & Hi).
    apply in_seq in Hi. split; [apply rsum_nonneg; auto|]. eapply Rle_lt_trans; [apply row_le_total; auto; lia|auto]. }
  rewrite (h_finish (wrap 64) E (vh_num _ _ HE) (hreal_env E) HR f (hom_terms IZR tz)).
  - unfold finish. rewrite Hw. destruct Hf as [-> | [-> | ->]]; cbn [corrected value].
    + rewrite (terms_dcov_V _ (ve_num _ HR) _ n a b false) by (lia || apply dmat_symmetric || exact T2). reflexivity.
    + rewrite (terms_dcov_V _ (ve_num _ HR) _ n a b false) by (lia || apply dmat_symmetric || exact T2). cbn [rbind rmap].
      rewrite (ve_num _ HR), sqrt_clamp_R. reflexivity.
    + rewrite (terms_dcov_U _ (ve_num _ HR) _ n a b false) by (lia || apply dmat_symmetric || apply dmat_hollow || exact T2). reflexivity.
  - rewrite Hw. unfold denotes. cbn [t_kind t_vkind t_mean_prod t_a_axis t_a_total t_b_axis t_b_total hom_terms].
    assert (Hnn : forall c : nat -> nat -> R, (forall i j, 0 <= c i j) -> 0 <= rsum2 n n c)
      by (intros; apply rsum_nonneg; intros; apply rsum_nonneg; auto).
    do 2 (split; [reflexivity|]). split; [apply Hfit; rewrite M1; split; auto; apply Hnn; intros; apply Rmult_le_pos; auto|].
    split; [apply (Hrow a); auto|]. split; [apply Hfit; rewrite M3; auto|]. split; [apply (Hrow b); auto|].
    split; [apply Hfit; rewrite M5; auto|]. discriminate.
  - exact Q1.
  - exact Q2.
  - destruct Hf as [-> | [-> | ->]]; cbn; lia.
Qed.

(** In general: the formula applied to the sums reduced modulo 2^64 into the range of int64. *)
Theorem C49_avl_modular E x y n m cm : valid_henv (wrap 64) E -> int64_pair n x y -> (4 <= n)%nat ->
  avl_or_auto m -> not_forced cm ->
  exists (ab ta tb : Z) (ra rb : nat -> Z),
    IZR ab = rsum2 n n (fun i j => distances 1 (reals x) i j * distances 1 (reals y) i j) /\
    IZR ta = rsum2 n n (distances 1 (reals x)) /\ IZR tb = rsum2 n n (distances 1 (reals y)) /\
    (forall i, (i < n)%nat -> IZR (ra i) = rsum n (distances 1 (reals x) i)) /\
    (forall i, (i < n)%nat -> IZR (rb i) = rsum n (distances 1 (reals y) i)) /\
    let w z := IZR (wrap 64 z) in
    rmap hx (call DcovSqr E (ints x) (ints y) (HI 1) m cm)
    = Ok (Fin (w ab / INR n ^ 2 - 2 * (rsum n (fun i => w (ra i) * w (rb i)) / INR n ^ 3) + w ta * w tb / INR n ^ 4)).
Proof.
  intros HE (Hp & Ux & Uy & Tx & Ty & Nx & Ny & Fx & Fy) Hn Hm Hcm.
  pose proof (hreal_env_valid _ E HE) as HR.
  destruct (avl_terms_int E HE x y n Hp Hn Ux Uy Tx Nx Fx Fy cm Hcm) as (tz & T1 & T2).
  pose proof T2 as (M1 & M2 & M3 & M4 & M5 & _). cbn [t_mean_prod t_a_axis t_a_total t_b_axis t_b_total hom_terms] in M1, M2, M3, M4, M5.
  exists (t_mean_prod tz), (t_a_total tz), (t_b_total tz), (fun i => nth i (t_a_axis tz) 0%Z), (fun i => nth i (t_b_axis tz) 0%Z).
  do 3 (split; [assumption|]).
  split; [intros i Hi; rewrite <- (map_nth IZR), M2, tab_nth by auto; reflexivity|].
  split; [intros i Hi; rewrite <- (map_nth IZR), M4, tab_nth by auto; reflexivity|].
  cbv zeta. rewrite call_terms. cbn [wants_var].
  rewrite (method_avl_int E HE x y n Hp Hn Ux Uy Nx m cm Hcm) by (destruct Hm; auto). rewrite T1. cbn [rbind].
  assert (Sx : shape0 (ints x) = n) by (destruct Hp as (_ & _ & H & _); unfold ints; rewrite amap_shape0, <- (amap_shape0 IZR x); exact H). rewrite Sx.
  assert (La : length (t_a_axis tz) = n) by (rewrite <- (map_length IZR), M2; apply tab_length).
  assert (Lb : length (t_b_axis tz) = n) by (rewrite <- (map_length IZR), M4; apply tab_length).
  set (tw := hom_terms (fun z => IZR (wrap 64 z)) tz).
  rewrite (h_finish (wrap 64) E (vh_num _ _ HE) (hreal_env E) HR DcovSqr tw).
  - unfold finish, tw. cbn [wants_var corrected t_kind t_mean_prod t_a_axis t_a_total t_b_axis t_b_total hom_terms].
    rewrite (tab_of_list_n 0%Z n (t_a_axis tz) La), (tab_of_list_n 0%Z n (t_b_axis tz) Lb), !tab_map.
    rewrite (dcov_from_terms_V _ (ve_num _ HR)) by lia. cbn [rbind rmap]. do 2 f_equal.
    unfold dcov2_terms. assert (INR n <> 0) by (apply not_0_INR; lia).
    rewrite (rsum_ext n (fun i => _ / _ * _) (fun i => (IZR (wrap 64 (nth i (t_a_axis tz) 0%Z)) * IZR (wrap 64 (nth i (t_b_axis tz) 0%Z))) * / INR n)).
    2:{ intros i Hi. rewrite ?tab_nth by auto. field. auto. }
    rewrite rsum_scal_r, <- (tab_of_list_n 0%Z n (t_a_axis tz) La), <- (tab_of_list_n 0%Z n (t_b_axis tz) Lb). field. auto.
  - unfold denotes, tw. cbn. rewrite !map_map. repeat split; auto; discriminate.
  - unfold tw. cbn. intros Hnil. apply (f_equal (@length _)) in Hnil. rewrite map_length, La in Hnil. cbn in Hnil. lia.
  - unfold tw. cbn. rewrite !map_length. congruence.
  - cbn. lia.
Qed.

(** The naive method, any of the six functions, any positive exponent, any integer dtype: exact when the dtype can
    hold the squared distances between observations.  [h] is the exponent, [e] its value. *)
Theorem C49_naive f d E x y n h e cm : valid_henv (reduce d) E -> (1 <= width d)%Z ->
  wf x -> wf y -> shape0 x = n -> shape0 y = n -> (min_size f <= n)%nat -> hx h = Fin e -> 0 < e ->
  int_dtype x -> int_dtype y -> not_scipy E x -> not_scipy E y -> not_forced cm ->
  squares_fit d x -> squares_fit d y ->
  rmap hx (call f E (ints x) (ints y) h MNaive cm)
  = Ok (Fin (value f n (distances e (reals x)) (distances e (reals y)))).
Proof.
  intros HE Hk Wx Wy Lx Ly Hn Hh He Dx Dy Sx Sy Hcm Fx Fy.
  assert (Hn1 : (1 <= n)%nat) by (destruct f; cbn in Hn; lia).
  pose proof (hreal_env_valid _ E HE) as HR.
  destruct (naive_int d Hk E HE h e x y n cm (wants_var f) Hh He Wx Wy Lx Ly Hn1 Dx Dy Sx Sy Fx Fy Hcm) as (t & T1 & T2).
  rewrite call_terms. cbn [method_terms]. rewrite T1. cbn [rbind].
  unfold ints. rewrite amap_shape0, Lx.
  destruct (terms_ok_axis n _ _ _ t Hn1 T2) as [Q1 Q2].
  rewrite (h_finish (reduce d) E (vh_num _ _ HE) (hreal_env E) HR f t) by (auto using hf_denotes).
  rewrite (finish_ok (hreal_env E) f n (distances e (reals x)) (distances e (reals y)) t HR) by (auto; apply dmat_symmetric || apply dmat_hollow). reflexivity.
Qed.

(** ** Outside the range: silently wrong values *)

Lemma rbounds : 0 < 2 ^ 64. Proof. apply pow_lt. lra. Qed.

Definition x_big : array Z := mkArr Numpy SInt (Vec [0; 2 ^ 32; 0; 0]%Z).

Lemma x_big_pair : int64_pair 4 x_big x_big.
Proof.
  assert (Forall fits64 (entries x_big)) by (repeat constructor; unfold fits64; lia).
  repeat split; auto; cbn; lia.
Qed.

Lemma x_big_dist i j : distances 1 (reals x_big) i j = Rabs (obs (reals x_big) i 0 - obs (reals x_big) j 0).
Proof. apply distances_1. reflexivity. Qed.

(** Four int64 observations, one of them 2^32: AVL and AUTO return a negative squared distance covariance of the
    sample with itself (the exact value is positive). *)
Theorem C49_avl_refuted E m cm : valid_henv (wrap 64) E -> avl_or_auto m -> not_forced cm ->
  exists r, rmap hx (call DcovSqr E (ints x_big) (ints x_big) (HI 1) m cm) = Ok (Fin r) /\ r < 0 /\
    0 < value DcovSqr 4 (distances 1 (reals x_big)) (distances 1 (reals x_big)).
Proof.
  intros HE Hm Hcm.
  destruct (C49_avl_modular E x_big x_big 4 m cm HE x_big_pair ltac:(lia) Hm Hcm) as (ab & ta & tb & ra & rb & H1 & H2 & H3 & H4 & H5 & H6).
  eexists. split; [exact H6|].
  set (t := (2 ^ 32)%Z) in *. assert (Ht : IZR t = 4294967296) by reflexivity.
  assert (D : forall i j, distances 1 (reals x_big) i j = if Nat.eqb i 1 then (if Nat.eqb j 1 then 0 else IZR t) else (if Nat.eqb j 1 then IZR t else 0)).
  { intros i j. rewrite x_big_dist. unfold obs, reals, amap, x_big; cbn [adata map]. fold t.
    destruct i as [|[|[|[|[|i]]]]], j as [|[|[|[|[|j]]]]]; cbn [nth Nat.eqb]; rewrite ?Ht;
      match goal with |- Rabs ?a = _ => first [replace a with 0 by lra; apply Rabs_R0
        | rewrite Rabs_pos_eq by lra; lra | rewrite Rabs_left by lra; lra] end. }
  assert (ab = 6 * 2 ^ 64)%Z as ->.
  { apply eq_IZR. rewrite H1. change (6 * 2 ^ 64)%Z with 110680464442257309696%Z.
    unfold rsum2. cbn [rsum]. rewrite !D. cbn [Nat.eqb]. rewrite Ht. lra. }
  assert (ta = 6 * t)%Z as ->.
  { apply eq_IZR. rewrite H2. unfold rsum2. cbn [rsum]. rewrite !D. cbn [Nat.eqb]. rewrite mult_IZR, Ht. lra. }
  assert (tb = 6 * t)%Z as ->.
  { apply eq_IZR. rewrite H3. unfold rsum2. cbn [rsum]. rewrite !D. cbn [Nat.eqb]. rewrite mult_IZR, Ht. lra. }
  assert (R0 : forall (r : nat -> Z), (forall i, (i < 4)%nat -> IZR (r i) = rsum 4 (distances 1 (reals x_big) i)) ->
    r 0%nat = t /\ r 1%nat = (3 * t)%Z /\ r 2%nat = t /\ r 3%nat = t).
  { intros r Hr. repeat split; apply eq_IZR; rewrite Hr by lia; cbn [rsum]; rewrite !D; cbn [Nat.eqb]; rewrite ?mult_IZR, Ht; lra. }
  assert (W1 : wrap 64 (6 * 2 ^ 64) = 0%Z) by reflexivity. assert (W2 : wrap 64 (6 * t) = 25769803776%Z) by reflexivity.
  assert (W3 : wrap 64 t = 4294967296%Z) by reflexivity. assert (W4 : wrap 64 (3 * t) = 12884901888%Z) by reflexivity.
  split.
  - cbn [rsum]. destruct (R0 ra H4) as (-> & -> & -> & ->). destruct (R0 rb H5) as (-> & -> & -> & ->).
    rewrite W1, W2, W3, W4. cbn [INR]. lra.
  - cbn [value]. rewrite (dcov2_from_terms 4) by (try lia; apply dmat_symmetric). unfold dcov2_terms, rsum2. cbn [rsum].
    rewrite !D. cbn [Nat.eqb]. rewrite Ht. cbn [INR]. lra.
Qed.

(** Two uint8 observations 0 and 16: every naive distance is 0, so a sample that is not constant has distance
    covariance 0 with itself. *)
Definition x_u8 : array Z := mkArr Numpy UInt (Vec [0; 16]%Z).
Theorem C49_naive_refuted E cm : valid_henv (uwrap 8) E -> not_forced cm ->
  rmap (map (map hx)) (pairwise_distances E (ints x_u8) None (HI 1)) = Ok [[Fin 0; Fin 0]; [Fin 0; Fin 0]] /\
  rmap hx (call DcovSqr E (ints x_u8) (ints x_u8) (HI 1) MNaive cm) = Ok (Fin 0) /\
  value DcovSqr 2 (distances 1 (reals x_u8)) (distances 1 (reals x_u8)) = 64.
Proof.
  intros HE Hcm.
  assert (P : pairwise_distances E (ints x_u8) None (HI 1) = Ok [[hf 0; hf 0]; [hf 0; hf 0]]).
  { unfold pairwise_distances, ints, x_u8, amap. cbn [adata map transform_to_2d ans adt].
    unfold pdist. assert (can_be_numpy_double E Numpy UInt = false) as -> by (unfold can_be_numpy_double; apply andb_false_r).
    unfold cdist_naive. cbn [Nat.eqb orb map bcast_row repeat]. unfold dist_power, half, sq_norm, np_sum. rewrite (vh_num _ _ HE).
    change (nsum (HNum (uwrap 8))) with (seq_sum (hop (uwrap 8) Z.add xadd) (HI 0)). unfold seq_sum, map2. cbn [combine map fst snd fold_left nzero nadd nsub nmul npow ndiv nofZ HNum hop hx].
    repeat match goal with |- context [uwrap 8 ?z] => let v := eval vm_compute in (uwrap 8 z) in change (uwrap 8 z) with v end.
    assert (xpow (Fin 0) (xdiv (Fin 1) (Fin 2)) = Fin 0) as ->; [|reflexivity].
    rewrite fin_div by lra. rewrite fin_pow by lra. unfold Rpow_py. destruct (Req_EM_T (1 / 2) 0); [lra|]. destruct (Rle_dec 0 0); [reflexivity|lra]. }
  split; [rewrite P; reflexivity|].
  pose proof (hreal_env_valid _ E HE) as HR. split.
  - rewrite call_terms. cbn [method_terms wants_var].
    assert (outcome (dcov_terms_naive E (ints x_u8) (ints x_u8) (HI 1) cm false)
      = Ok (hom_terms hf (mkTerms (0 + 0 * 0 + 0 * 0 + 0 * 0 + 0 * 0) [0 + 0 + 0; 0 + 0 + 0] (0 + (0 + 0 + 0) + (0 + 0 + 0))
          [0 + 0 + 0; 0 + 0 + 0] (0 + (0 + 0 + 0) + (0 + 0 + 0)) None None AllNumpy AllNumpy))) as ->.
    { assert (Hch : outcome (check_valid_dcov_exponent E (HI 1)) = Ok tt) by (unfold check_valid_dcov_exponent; destruct (exponent_in_range E (HI 1)); reflexivity).
      assert (outcome (dcov_terms_naive E (ints x_u8) (ints x_u8) (HI 1) cm false)
        = outcome (dcov_terms_naive E (ints x_u8) (ints x_u8) (HI 1) CNoCompile false)) as -> by (destruct Hcm; subst; reflexivity).
      unfold dcov_terms_naive, compute_distances. rewrite !outcome_bind, Hch, P. rewrite (vh_num _ _ HE).
      cbn. unfold symmetric_matrix_sums, hom_terms. rewrite (vh_num _ _ HE). cbn. reflexivity. }
    cbn [rbind]. rewrite (h_finish (uwrap 8) E (vh_num _ _ HE) (hreal_env E) HR DcovSqr _ _ _ (hf_denotes _ _)); [|discriminate|reflexivity|cbn; lia].
    unfold finish. cbn [wants_var corrected t_kind t_mean_prod t_a_axis t_a_total t_b_axis t_b_total].
    change [0 + 0 + 0; 0 + 0 + 0] with (tab 2 (fun _ => 0 + 0 + 0)). change (shape0 (ints x_u8)) with 2%nat.
    rewrite (dcov_from_terms_V _ (ve_num _ HR)) by lia. cbn [rbind rmap]. do 2 f_equal. unfold dcov2_terms. cbn [rsum INR]. field.
  - assert (D : forall i j, (i < 2)%nat -> (j < 2)%nat -> distances 1 (reals x_u8) i j = if Nat.eqb i j then 0 else 16).
    { intros i j Hi Hj. rewrite distances_1 by reflexivity. unfold obs, reals, amap, x_u8; cbn [adata map].
      destruct i as [|[|i]], j as [|[|j]]; try lia; cbn [nth Nat.eqb];
      match goal with |- Rabs ?a = _ => first [replace a with 0 by lra; apply Rabs_R0
        | rewrite Rabs_pos_eq by lra; lra | rewrite Rabs_left by lra; lra] end. }
    cbn [value]. rewrite (dcov2_from_terms 2) by (try lia; apply dmat_symmetric). unfold dcov2_terms, rsum2. cbn [rsum].
    rewrite !D by lia. cbn [Nat.eqb INR]. lra.
Qed.

(** ** The hypotheses can be met *)

Definition env_H (w : Z -> Z) (np : bool) : Env hR :=
  mkEnv hR (HNum w) (fun l => argsort_R (map (fun h => xtor (hx h)) l)) (fun n => repeat (HI 3) n) (fun _ => ([], [])) (fun _ _ => HI 0) np.
Lemma env_H_valid w np : valid_henv w (env_H w np).
Proof.
  split; cbn; auto using repeat_length. intros l. rewrite map_map. cbn. apply (ve_argsort _ (env_R_valid true)).
Qed.

Definition xi : array Z := mkArr Numpy SInt (Vec [1; 5; 3; 1; -2]%Z).
Definition yi : array Z := mkArr Numpy SInt (Mat 1 [[2]; [7]; [7]; [0]; [1]]%Z).
Lemma xi_yi : int64_pair 5 xi yi.
Proof. repeat split; auto; cbn; try lia; repeat constructor; unfold fits64; lia. Qed.

Lemma small_dist (x : array Z) n i j : univariate x -> n = shape0 x -> (i < n)%nat -> (j < n)%nat ->
  (forall k, (k < n)%nat -> -10 <= obs (reals x) k 0 <= 10) -> 0 <= distances 1 (reals x) i j <= 20.
Proof.
  intros U -> Hi Hj Hb. rewrite distances_1 by (unfold univariate, reals; rewrite amap_ncols; auto).
  split; [apply Rabs_pos|]. apply Rabs_le. pose proof (Hb i Hi). pose proof (Hb j Hj). lra.
Qed.
Lemma rsum2_le_const n (f : nat -> nat -> R) c : (forall i j, (i < n)%nat -> (j < n)%nat -> f i j <= c) -> rsum2 n n f <= INR n * (INR n * c).
Proof.
  intros H. unfold rsum2. rewrite <- rsum_const. apply rsum_le. intros i Hi. rewrite <- rsum_const. apply rsum_le. intros j Hj. auto.
Qed.

Example C49_meets :
  rmap hx (call Dcov (env_H (wrap 64) true) (ints xi) (ints yi) (HI 1) MAuto CAuto)
  = Ok (Fin (value Dcov 5 (distances 1 (reals xi)) (distances 1 (reals yi)))) /\
  rmap hx (call Dcor (env_H (wrap 32) false) (ints xi) (ints yi) (HF (Fin (3 / 2))) MNaive CAuto)
  = Ok (Fin (value Dcor 5 (distances (3 / 2) (reals xi)) (distances (3 / 2) (reals yi)))).
Proof.
  assert (Bx : forall k, (k < 5)%nat -> -10 <= obs (reals xi) k 0 <= 10).
  { intros k Hk. unfold obs, reals, amap, xi; cbn [adata map]. destruct k as [|[|[|[|[|k]]]]]; cbn [nth]; lra || lia. }
  assert (By : forall k, (k < 5)%nat -> -10 <= obs (reals yi) k 0 <= 10).
  { intros k Hk. unfold obs, reals, amap, yi; cbn [adata map]. destruct k as [|[|[|[|[|k]]]]]; cbn [nth]; lra || lia. }
  assert (Dx : forall i j, (i < 5)%nat -> (j < 5)%nat -> 0 <= distances 1 (reals xi) i j <= 20) by (intros; apply (small_dist xi 5); auto; reflexivity).
  assert (Dy : forall i j, (i < 5)%nat -> (j < 5)%nat -> 0 <= distances 1 (reals yi) i j <= 20) by (intros; apply (small_dist yi 5); auto; reflexivity).
  assert (Hbig : 10000 < 2 ^ 63) by (change (10000 < IZR 2 ^ 63); rewrite pow_IZR; apply IZR_lt; reflexivity).
  split.
  - apply C49_avl; auto using env_H_valid, xi_yi; try lia; unfold covariance_fn, avl_or_auto, not_forced; auto.
    + eapply Rle_lt_trans; [apply (rsum2_le_const 5 _ 400)|cbn [INR]; lra]. intros i j Hi Hj. specialize (Dx i j Hi Hj). specialize (Dy i j Hi Hj).
      replace 400 with (20 * 20) by lra. apply Rmult_le_compat; lra.
    + eapply Rle_lt_trans; [apply (rsum2_le_const 5 _ 20)|cbn [INR]; lra]. intros i j Hi Hj. apply Dx; auto.
    + eapply Rle_lt_trans; [apply (rsum2_le_const 5 _ 20)|cbn [INR]; lra]. intros i j Hi Hj. apply Dy; auto.
  - assert (Hfit : forall z : array Z, univariate z -> shape0 z = 5%nat ->
      (forall i j, (i < 5)%nat -> (j < 5)%nat -> 0 <= distances 1 (reals z) i j <= 20) -> squares_fit (Signed 32) z).
    { intros z U L D i j Hi Hj. rewrite L in *. specialize (D i j Hi Hj). unfold distances, dmat in D.
      rewrite rpow_1 in D by apply dist_nonneg. assert (Hc : ncols (reals z) = ncols z) by apply amap_ncols.
      rewrite Hc in D. set (t := dist _ _ _) in *. change (limit (Signed 32)) with 2147483648%Z. nra. }
    apply (C49_naive Dcor (Signed 32)); try (unfold int_dtype, not_forced; auto using env_H_valid; fail).
    + cbn. lia.
    + exact I.
    + repeat constructor.
    + lra.
    + intros _; left; reflexivity.
    + intros _; left; reflexivity.
    + apply Hfit; auto; reflexivity.
    + apply Hfit; auto; reflexivity.
Qed.
