(** C48 and C52: results on finite samples in arithmetic with infinities and NaN.

    [xR] is the real line with +inf, -inf and NaN, and the rules of IEEE 754 for them (Num.v, no rounding and no
    overflow).  [fin x]: the array [x] with every real [r] replaced by the finite value [Fin r] (Transfer.v).
    [valid_xenv E]: the external sort and allocation routines meet their contracts. *)
From Coq Require Import Reals Lra Lia List Arith Bool ZArith Permutation.
From Verif Require Import Num Numpy MUtils MDistances MInternals MMergesort MAvl MDcor MPartial MEnergy Sums Spec Centering Tab
  Samples Api RefDist RefDcor RefApi RefEnergy SpecFacts Invariance Witness Calls PMethods PEnergy PPartial Transfer TransferMore.
Import ListNotations.
Local Open Scope R_scope.

(** ** C52: with enough observations the result is the finite textbook value, never inf or NaN *)

(** The call behaves as in exact real arithmetic: same exception or the same number. *)
Theorem C52_same_as_real f E x y n e m cm : valid_xenv E -> paired n x y -> (min_size f <= n)%nat -> 0 < e ->
  (forall ex, call f E (fin x) (fin y) (Fin e) m cm = Err ex <-> call f (real_env E) x y e m cm = Err ex) /\
  (forall v, call f E (fin x) (fin y) (Fin e) m cm = Ok v <-> exists r, v = Fin r /\ call f (real_env E) x y e m cm = Ok r).
Proof.
  intros HE (Wx & Wy & Sx & Sy & Hn) Hm He. unfold call. rewrite (fin_call E HE e He) by (auto; lia).
  unfold outcome. cbn [mmap snd]. destruct (snd (api_fn f (real_env E) x y e (MethodEnum m) cm)) as [r|ex']; cbn [rmap].
  - split; [split; discriminate|]. intros v. split; [intros [= <-]; eauto|intros (r' & -> & [= <-]); auto].
  - split; [split; intros [= ->]; auto|]. intros v. split; [discriminate|intros (r' & _ & [=])].
Qed.

Theorem C52_finite f E x y n e m cm : valid_xenv E -> paired n x y -> (min_size f <= n)%nat -> 0 < e -> accepts m cm x y e ->
  call f E (fin x) (fin y) (Fin e) m cm = Ok (Fin (value f n (distances e x) (distances e y))).
Proof.
  intros HE Hp Hm He Ha. apply (C52_same_as_real f E x y n e m cm); auto. eexists. split; [reflexivity|].
  apply call_ok; auto using real_env_valid.
Qed.

(** Whatever the method, compile mode and dtype: an exception or a finite number. *)
Theorem C52_never_nan f E x y n e m cm v : valid_xenv E -> paired n x y -> (min_size f <= n)%nat -> 0 < e ->
  call f E (fin x) (fin y) (Fin e) m cm = Ok v -> exists r, v = Fin r.
Proof. intros HE Hp Hm He H. apply (C52_same_as_real f E x y n e m cm) in H; auto. destruct H as (r & -> & _). eauto. Qed.

Theorem C52_energy E x y n m p e es : valid_xenv E -> two_samples n m p x y -> enough es n m -> 0 < e ->
  outcome (energy_distance E (fin x) (fin y) (Fin e) None es)
  = match outcome (energy_distance (real_env E) x y e None es) with Ok r => Ok (Fin r) | Err ex => Err ex end.
Proof. intros HE H2 Hen He. rewrite (fin_energy E HE x y n m p) by auto. reflexivity. Qed.

Theorem C52_partial_covariance E x y z n : valid_xenv E -> triple n x y z ->
  outcome (partial_distance_covariance E (fin x) (fin y) (fin z)) = Ok (Fin (pcov n x y z)).
Proof.
  intros HE Ht. rewrite (fin_partial_cov E HE x y z n) by auto.
  pose proof (C22_value (real_env E) x y z n (real_env_valid E HE) Ht) as H. unfold outcome in *. cbn [mmap snd]. rewrite H. reflexivity.
Qed.
Theorem C52_partial_correlation E x y z n : valid_xenv E -> triple n x y z ->
  outcome (partial_distance_correlation E (fin x) (fin y) (fin z))
  = Ok (Fin (corr (pcov n x y z) (pcov n x x z) (pcov n y y z))).
Proof.
  intros HE Ht. rewrite (fin_partial_cor E HE x y z n) by auto.
  pose proof (C23_value (real_env E) x y z n (real_env_valid E HE) Ht) as H. unfold outcome in *. cbn [mmap snd]. rewrite H. reflexivity.
Qed.

(** ** C48: fewer than four observations *)

Definition bias_corrected_fn (f : api) : Prop := f = UDcovSqr \/ f = UDcorSqr.

Section Small.
  Context (E : Env xR) (HE : valid_xenv E).
  Let EN : e_num E = XNum := vx_num E HE.

  Lemma rsum_INR1 f : rsum 1 f = f 0%nat.
  Proof. cbn. ring. Qed.

  Lemma xdiv0 a : 0 <= a -> a = 0 /\ xdiv (Fin a) (Fin 0) = NaN \/ 0 < a /\ xdiv (Fin a) (Fin 0) = PInf.
  Proof.
    intros [H|<-]; [right|left]; cbn; destruct (Reqb_spec 0 0); try lra; split; auto.
    - destruct (Rltb_spec 0 a); auto; lra.
    - destruct (Rltb_spec 0 0); auto; lra.
  Qed.

  (** The bias-corrected formula for one, two or three observations. *)
  Lemma small_from_terms k n a b mp : (1 <= n <= 3)%nat -> symmetric n a -> symmetric n b -> hollow n a -> hollow n b ->
    (forall i j, 0 <= a i j) -> (forall i j, 0 <= b i j) -> mp = rsum2 n n (fun i j => a i j * b i j) ->
    dcov_from_terms E k (Fin mp) (map Fin (tab n (fun i => rsum n (a i)))) (Fin (rsum2 n n a))
      (map Fin (tab n (fun i => rsum n (b i)))) (Fin (rsum2 n n b)) n true
    = if match k with AllNumpy => false | MeanProdPy => n =? 3 | AllPy => true end then Err ZeroDivisionError else Ok NaN.
  Proof.
    intros Hn Sa Sb Ha Hb Pa Pb ->. unfold dcov_from_terms. rewrite EN.
    assert (Hz : IZR (Z.of_nat n) <> 0) by (apply not_0_IZR; lia).
    rewrite (map_maps Fin Fin (fun v => v / IZR (Z.of_nat n))) by (intros; cbn [ndiv nofZ XNum]; apply fin_div; auto).
    rewrite fin_dot. unfold np_dot. rewrite map_length, !tab_length, Nat.eqb_refl. cbn [rmap rbind].
    assert (Hk : match k with AllNumpy => false | MeanProdPy => (Z.of_nat n =? 0)%Z || (Z.of_nat n - 3 =? 0)%Z
       | AllPy => (Z.of_nat n =? 0)%Z || (Z.of_nat n - 3 =? 0)%Z
           || ((Z.of_nat n - 1) * (Z.of_nat n - 2) * (Z.of_nat n - 3) =? 0)%Z end
       = match k with AllNumpy => false | MeanProdPy => n =? 3 | AllPy => true end).
    { destruct n as [|[|[|[|n]]]]; try lia; destruct k; reflexivity. }
    rewrite Hk. clear Hk. set (zde := match k with AllNumpy => false | MeanProdPy => n =? 3 | AllPy => true end).
    destruct zde; [reflexivity|]. f_equal.
    assert (Hnn : forall m f, (forall i j, 0 <= f i j) -> 0 <= rsum2 m m f) by (intros; apply rsum_nonneg; intros; apply rsum_nonneg; auto).
    assert (Hin : 0 < / IZR (Z.of_nat n)) by (apply Rinv_0_lt_compat, (IZR_lt 0); lia).
    cbn [nmul ndiv nofZ XNum]. rewrite (fin_div _ _ Hz), (fin_div _ _ Hz), fin_mul.
    set (third := rsum2 n n a / IZR (Z.of_nat n) * rsum2 n n b).
    assert (H3 : 0 <= third) by (unfold third, Rdiv; repeat apply Rmult_le_pos; auto; lra).
    replace ((Z.of_nat n - 1) * (Z.of_nat n - 2) * (Z.of_nat n - 3))%Z with 0%Z by (destruct n as [|[|[|[|n]]]]; lia).
    destruct (Nat.eq_dec n 1) as [->|Hn1].
    - assert (third = 0) as -> by (unfold third, rsum2; cbn [rsum]; rewrite Ha by lia; lra).
      destruct (xdiv0 0) as [[_ ->]|[? _]]; try lra. unfold nadd, nsub; cbn [XNum].
      destruct (xsub _ _); reflexivity.
    - set (second := ndot RNum _ _).
      assert (H2 : 0 <= second).
      { unfold second. rewrite dot_R, tab_map, tab_map2, np_sum_tab. apply rsum_nonneg. intros i Hi. cbn [nmul RNum].
        unfold Rdiv. repeat apply Rmult_le_pos; try (apply rsum_nonneg; auto); lra. }
      replace ((Z.of_nat n - 2) * (Z.of_nat n - 3))%Z with 0%Z by (destruct n as [|[|[|[|n]]]]; lia).
      set (first := rsum2 n n (fun i j => a i j * b i j) / IZR (Z.of_nat n)).
      assert (H1 : 0 <= first) by (unfold first, Rdiv; apply Rmult_le_pos; [apply Hnn; intros; apply Rmult_le_pos; auto|lra]).
      assert (HF : exists r, xdiv (Fin first) (Fin (IZR (Z.of_nat n - 3))) = r /\ r <> NInf).
      { eexists. split; [reflexivity|]. destruct (Nat.eq_dec n 3) as [->|]; [|rewrite fin_div by (apply not_0_IZR; lia); discriminate].
        destruct (xdiv0 first H1) as [[_ Hd]|[_ Hd]]; cbn in *; rewrite Hd; discriminate. }
      destruct HF as (r & -> & Hr). unfold nadd, nsub; cbn [XNum].
      destruct (xdiv0 second H2) as [[_ ->]|[_ ->]].
      + destruct r; reflexivity.
      + assert (xmul (Fin 2) PInf = PInf) as -> by (cbn; destruct (Rltb_spec 0 2); auto; lra).
        destruct (xdiv0 third H3) as [[_ ->]|[_ ->]]; destruct r; try reflexivity; congruence.
  Qed.

  Lemma finish_small f n a b t : bias_corrected_fn f -> (1 <= n <= 3)%nat -> symmetric n a -> symmetric n b -> hollow n a -> hollow n b ->
    (forall i j, 0 <= a i j) -> (forall i j, 0 <= b i j) -> terms_ok n a b (wants_var f) t ->
    (finish E f n (fin_terms t) = Ok NaN \/ finish E f n (fin_terms t) = Err ZeroDivisionError) /\
    (t_kind t = AllNumpy -> t_vkind t = AllNumpy -> finish E f n (fin_terms t) = Ok NaN) /\
    (n = 3%nat -> t_kind t <> AllNumpy -> finish E f n (fin_terms t) = Err ZeroDivisionError).
  Proof.
    intros Hf Hn Sa Sb Ha Hb Pa Pb (H1 & H2 & H3 & H4 & H5 & H6). unfold finish, fin_terms.
    cbn [t_mean_prod t_a_axis t_a_total t_b_axis t_b_total t_kind t_vkind t_mp_a t_mp_b]. rewrite H2, H3, H4, H5.
    assert (Hcorr : correlation_of E NaN NaN NaN = NaN).
    { unfold correlation_of. rewrite EN. reflexivity. }
    destruct Hf as [-> | ->]; cbn [wants_var corrected] in *.
    - rewrite (small_from_terms _ n a b) by auto.
      destruct (t_kind t), (t_vkind t); cbn [rbind]; (split; [|split; [discriminate || auto|]]);
        try (intros ->; cbn; congruence); destruct (n =? 3); cbn [rbind]; auto.
    - destruct (H6 eq_refl) as [-> ->]. cbn [option_map].
      rewrite (small_from_terms _ n a b), (small_from_terms _ n a a), (small_from_terms _ n b b) by auto.
      destruct (t_kind t), (t_vkind t); cbn [rbind]; rewrite ?Hcorr; (split; [|split; [discriminate || auto|]]);
        try (intros ->; cbn; congruence); destruct (n =? 3); cbn [rbind]; rewrite ?Hcorr; auto.
  Qed.
End Small.

Lemma small_call f E x y n e m cm : bias_corrected_fn f -> valid_xenv E -> paired n x y -> (n <= 3)%nat -> 0 < e ->
  accepts m cm x y e ->
  call f E (fin x) (fin y) (Fin e) m cm = Ok NaN \/ call f E (fin x) (fin y) (Fin e) m cm = Err ZeroDivisionError.
Proof.
  intros Hf HE (Wx & Wy & Sx & Sy & Hn) H3 He Ha. rewrite call_terms, (fin_method E HE e He) by (auto; lia).
  destruct (method_terms_ok (real_env E) (real_env_valid E HE) x y n Wx Wy Sx Sy Hn m e cm (wants_var f) He Ha) as (q & t & Hq & Ht & Hok).
  unfold outcome in *. cbn [mmap snd]. rewrite Ht. cbn [rmap rbind]. rewrite fin_shape0, Sx.
  destruct (finish_small E HE f n (relabel q (distances e x)) (relabel q (distances e y)) t) as [H _]; auto; try lia.
  1, 2: apply relabel_sym; auto. 1, 2: apply relabel_hollow; auto.
  all: intros i j; apply rpow_nonneg.
Qed.

(** NAIVE and AUTO: NaN, without an exception. *)
Theorem C48_naive f E x y n e m cm : bias_corrected_fn f -> valid_xenv E -> paired n x y -> (n <= 3)%nat -> 0 < e ->
  m = MNaive \/ m = MAuto -> not_forced cm ->
  call f E (fin x) (fin y) (Fin e) m cm = Ok NaN.
Proof.
  intros Hf HE Hp H3 He Hm Hc. pose proof Hp as (Wx & Wy & Sx & Sy & Hn). pose proof (real_env_valid E HE) as HR. pose proof HR as [RN _ _].
  rewrite call_terms, (fin_method E HE e He) by (auto; lia).
  destruct (naive_terms (real_env E) RN x y e cm (wants_var f) n Wx Wy He Sx Sy Hc) as (t & Ht & K & KV & Hok).
  assert (outcome (method_terms (real_env E) m x y e cm (wants_var f)) = Ok t) as Ht'.
  { destruct Hm as [-> | ->]; cbn [method_terms]; [exact Ht|]. unfold terms_auto.
    destruct (is_numpy (together x y) && can_use_fast_algorithm (real_env E) x y e) eqn:Hfc; auto.
    apply (fast_case_spec (real_env E) HR x y n Sx Sy) in Hfc. destruct Hfc as (_ & _ & _ & ? & _). lia. }
  unfold outcome in *. cbn [mmap snd]. rewrite Ht'. cbn [rmap rbind]. rewrite fin_shape0, Sx.
  destruct (finish_small E HE f n (distances e x) (distances e y) t) as [_ [H' _]]; auto; try lia.
  1, 2: apply dmat_symmetric. 1, 2: apply dmat_hollow. all: intros i j; apply rpow_nonneg.
Qed.

(** Every method, compile mode and dtype: an exception or NaN. *)
Theorem C48_never_a_number f E x y n e m cm v : bias_corrected_fn f -> valid_xenv E -> paired n x y -> (n <= 3)%nat -> 0 < e ->
  call f E (fin x) (fin y) (Fin e) m cm = Ok v -> v = NaN.
Proof.
  intros Hf HE Hp H3 He Hv. pose proof Hp as (Wx & Wy & Sx & Sy & Hn). pose proof (real_env_valid E HE) as HR.
  assert (Hacc : accepts m cm x y e -> v = NaN).
  { intros Ha. destruct (small_call f E x y n e m cm Hf HE Hp H3 He Ha) as [H|H]; congruence. }
  destruct (C03_complete x y n e m cm Hp) as [Ha|[[ex Hr]|Hc]]; auto.
  - rewrite call_terms, (fin_method E HE e He) in Hv by (auto; lia).
    pose proof (raises_terms (real_env E) x y n m cm e ex (wants_var f) HR Hp Hr) as Ht.
    unfold outcome in *. cbn [mmap snd] in Hv. rewrite Ht in Hv. discriminate.
  - destruct (cast_mismatch_accepts x y n e m cm Hp Hc) as (-> & -> & Hp' & Ha).
    destruct (small_call f E x (as_f64 y) n 1 MMergesort CNoCompile Hf HE Hp' H3 He Ha) as [H|H];
      rewrite call_terms, (fin_method E HE 1 He) in H, Hv by (auto; lia);
      destruct (cast_mismatch_terms (real_env E) x y n 1 MMergesort cm (wants_var f) HR Hp Hc) as [Ht|Ht];
      unfold outcome in *; cbn [mmap snd] in *; rewrite Ht in Hv; try discriminate; congruence.
Qed.

Lemma mergesort_kind {T} (E : Env T) x y e cm rv t : outcome (terms_mergesort E x y e cm rv) = Ok t -> t_kind t <> AllNumpy.
Proof.
  assert (Himpl : forall (E : Env T) oob c k kv v w t, terms_mergesort_impl E oob c k kv v w rv = Ok t -> t_kind t = k).
  { intros E' oob c k kv v w t'. unfold terms_mergesort_impl.
    repeat match goal with |- rbind ?m _ = _ -> _ => destruct m; cbn [rbind]; [|discriminate] end. intros [= <-]. reflexivity. }
  assert (Hm : forall c dx dy v w t, mergesort_impl E c dx dy v w rv = Ok t -> t_kind t <> AllNumpy).
  { intros c dx dy v w t'. unfold mergesort_impl. destruct c; [destruct (_ && _)%bool|destruct (_ || _)%bool]; try discriminate;
      intros H; apply Himpl in H; rewrite H; discriminate. }
  unfold terms_mergesort. destruct (negb _); [discriminate|]. rewrite !outcome_bind. cbn [outcome lift snd].
  destruct (transform_to_1d (adata x)) as [v|]; [|discriminate]. rewrite outcome_bind. cbn [outcome lift snd].
  destruct (transform_to_1d (adata y)) as [w|]; [|discriminate]. destruct (together x y); [|discriminate].
  destruct (impls cm) as [l|]; [|discriminate].
  assert (Htry : forall l, outcome (try_impls WFallbackMergesort (is_auto cm) (fun c => mergesort_impl E c (adt x) (adt y) v w rv) l) = Ok t ->
     t_kind t <> AllNumpy).
  { intros l'. induction l' as [|c l' IH]; cbn [try_impls]; [discriminate|].
    destruct (mergesort_impl E c (adt x) (adt y) v w rv) as [t'|ex] eqn:Hi.
    - intros [= <-]. eapply Hm; eauto.
    - destruct ex; try discriminate. destruct (is_auto cm); [|discriminate]. rewrite outcome_bind. cbn. auto. }
  apply Htry.
Qed.

(** MERGESORT with three observations raises ZeroDivisionError where NAIVE returns NaN. *)
Theorem C48_mergesort_three f E x y e cm : bias_corrected_fn f -> valid_xenv E -> paired 3 x y -> 0 < e ->
  accepts MMergesort cm x y e ->
  call f E (fin x) (fin y) (Fin e) MMergesort cm = Err ZeroDivisionError.
Proof.
  intros Hf HE (Wx & Wy & Sx & Sy & Hn) He Ha. rewrite call_terms, (fin_method E HE e He) by (auto; lia).
  destruct (method_terms_ok (real_env E) (real_env_valid E HE) x y 3 Wx Wy Sx Sy Hn MMergesort e cm (wants_var f) He Ha) as (q & t & Hq & Ht & Hok).
  pose proof (mergesort_kind (real_env E) x y e cm (wants_var f) t Ht) as Hk.
  unfold outcome in *. cbn [mmap snd]. rewrite Ht. cbn [rmap rbind]. rewrite fin_shape0, Sx.
  destruct (finish_small E HE f 3 (relabel q (distances e x)) (relabel q (distances e y)) t) as [_ [_ H]]; auto.
  1, 2: apply relabel_sym; auto. 1, 2: apply relabel_hollow; auto.
  all: intros i j; apply rpow_nonneg.
Qed.

(** ** The hypotheses can be met *)

Definition env_F : Env xR :=
  mkEnv xR XNum (fun l => argsort_R (map xtor l)) (fun n => repeat NaN n) (fun _ => ([], [])) (fun _ _ => NaN) true.
Lemma env_F_valid : valid_xenv env_F.
Proof.
  split; cbn; auto using repeat_length. intros l. rewrite map_map. cbn. rewrite map_id. apply (ve_argsort _ (env_R_valid true)).
Qed.

Definition x3 : array R := mkArr Numpy F64 (Vec [1; 2; 4]).
Definition y3 : array R := mkArr Numpy F64 (Vec [3; 1; 2]).
Lemma x3_y3 : paired 3 x3 y3.
Proof. repeat split; cbn; auto. Qed.

Example C48_meets :
  call UDcovSqr env_F (fin x3) (fin y3) (Fin 1) MNaive CAuto = Ok NaN /\
  call UDcorSqr env_F (fin x3) (fin y3) (Fin (3 / 2)) MAuto CNoCompile = Ok NaN /\
  call UDcovSqr env_F (fin x3) (fin y3) (Fin 1) MMergesort CAuto = Err ZeroDivisionError.
Proof.
  split; [|split].
  - apply (C48_naive UDcovSqr env_F x3 y3 3 1); auto using env_F_valid, x3_y3; try lra; left; reflexivity.
  - apply (C48_naive UDcorSqr env_F x3 y3 3 (3/2)); auto using env_F_valid, x3_y3; try lra; right; reflexivity.
  - apply C48_mergesort_three; auto using env_F_valid, x3_y3; try lra; [left; reflexivity|].
    cbn. unfold accepts_mergesort, univariate, mergesort_dtypes, is_object, not_forced. cbn. repeat split; auto.
    left. repeat split; auto; intros [? ?]; discriminate.
Qed.

Example C52_meets :
  call Dcor env_F (fin xs) (fin ys) (Fin 1) MAvl CCompileCpu = Ok (Fin (value Dcor 5 (distances 1 xs) (distances 1 ys))) /\
  call UDcorSqr env_F (fin xs) (fin ys) (Fin (1/2)) MNaive CAuto = Ok (Fin (value UDcorSqr 5 (distances (1/2) xs) (distances (1/2) ys))).
Proof.
  split; apply C52_finite; auto using env_F_valid, xs_ys; try lra; cbn; try lia.
  - apply xs_ys_avl_cpu.
  - left. reflexivity.
Qed.
