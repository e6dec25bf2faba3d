(** C53, C54: double precision.

    [b64] (MFloat.v): IEEE-754 double precision numbers, from Flocq; [B2R v] is the real number a finite double stands for.
    [valid_fenv lib E]: double precision arithmetic whose sums add every element once, in any order; argsort that sorts finite doubles, np.empty of the right size.
    [doubles x]: the float64 array holding the integers [x].  [reals x]: the same numbers as exact reals. *)
From Coq Require Import Reals Lra Lia List Arith Bool ZArith Psatz.
From Flocq Require Import Core IEEE754.BinarySingleNaN.
From Verif Require Import Num Numpy MUtils MDistances MInternals MMergesort MAvl MDcor MInteger MFloat Sums Spec Centering Tab
  Samples RefDist RefAvl RefDcor Api Witness RefApi SpecFacts Calls AvlGeneric Transfer Hom RefInteger RefFloat FloatAvl FloatApi
  FloatEnv FloatSum FloatError FloatAccuracy PInteger.
Import ListNotations.
Local Open Scope R_scope.

(** Two float64 numpy samples of [n] integers, of magnitude at most [X] and [Y]. *)
Definition float_pair (n : nat) (X Y : Z) (x y : array Z) : Prop :=
  paired n (reals x) (reals y) /\ univariate x /\ univariate y /\
  adt x = F64 /\ adt y = F64 /\ ans x = Numpy /\ ans y = Numpy /\
  Forall (fun z => Z.abs z <= X)%Z (entries x) /\ Forall (fun z => Z.abs z <= Y)%Z (entries y).

(** The sums of products of the algorithms can be held in 53 bits. *)
Definition moderate (n : nat) (X Y : Z) : Prop :=
  (1 <= X /\ 1 <= Y /\ 4 * X ^ 2 <= 2 ^ 53 /\ 4 * Y ^ 2 <= 2 ^ 53 /\
   32 * Z.of_nat (Nat.log2_up n) * Z.of_nat n ^ 2 * (X * Y) <= 2 ^ 53)%Z.

Definition not_mergesort (m : dcov_method) : Prop := m = MAuto \/ m = MNaive \/ m = MAvl.

Lemma pair_exact lib E n X Y x y m cm : valid_fenv lib E -> float_pair n X Y x y -> moderate n X Y -> (4 <= n)%nat ->
  not_mergesort m -> float_mode m cm ->
  exists t, outcome (method_terms E m (doubles x) (doubles y) (b64_ofZ 1) cm false) = Ok t /\
    exact_terms n (distances 1 (reals x)) (distances 1 (reals y)) t.
Proof.
  intros HE (Hp & Ux & Uy & Fx & Fy & Sx & Sy & HX & HY) (X1 & Y1 & BX & BY & HB) Hn Hm Hcm.
  apply (call_exact lib E HE x y X Y n); auto. destruct Hm as [-> | [-> | ->]]; discriminate.
Qed.

Lemma doubles_shape0 x : shape0 (doubles x) = shape0 (reals x).
Proof. unfold doubles, reals. rewrite !amap_shape0. reflexivity. Qed.

(** Bit for bit the same double from every method and compile mode, except that a zero may have another sign. *)
Theorem C53_methods_agree f lib E n X Y x y m1 cm1 m2 cm2 : valid_fenv lib E -> float_pair n X Y x y -> moderate n X Y -> (4 <= n)%nat ->
  covariance_fn f -> not_mergesort m1 -> not_mergesort m2 -> float_mode m1 cm1 -> float_mode m2 cm2 ->
  exists v w, call f E (doubles x) (doubles y) (b64_ofZ 1) m1 cm1 = Ok v /\ call f E (doubles x) (doubles y) (b64_ofZ 1) m2 cm2 = Ok w /\
    (v = w \/ exists s t, v = B754_zero s /\ w = B754_zero t).
Proof.
  intros HE Hp HB Hn Hf Hm1 Hm2 Hc1 Hc2.
  destruct (pair_exact lib E n X Y x y m1 cm1) as (t1 & T1 & X1); auto.
  destruct (pair_exact lib E n X Y x y m2 cm2) as (t2 & T2 & X2); auto.
  assert (Hw : wants_var f = false) by (destruct Hf as [-> | [-> | ->]]; reflexivity).
  rewrite !call_terms, Hw, T1, T2. cbn [rbind]. rewrite doubles_shape0. destruct Hp as ((_ & _ & Lx & _) & _). rewrite Lx.
  exact (finish_exact lib E f n _ _ t1 t2 (vf_num _ _ HE) Hw Hn X1 X2).
Qed.

(** ** Accuracy *)

Definition is_int (r : R) : Prop := exists z, r = IZR z.
Lemma is_int_sum n f : (forall i, (i < n)%nat -> is_int (f i)) -> is_int (rsum n f).
Proof.
  induction n as [|n IH]; intros H; cbn [rsum]; [exists 0%Z; reflexivity|].
  destruct IH as [p Hp]; auto. destruct (H n) as [q Hq]; auto. exists (p + q)%Z. rewrite Hp, Hq, plus_IZR. reflexivity.
Qed.
Lemma is_int_mul p q : is_int p -> is_int q -> is_int (p * q).
Proof. intros [u ->] [v ->]. exists (u * v)%Z. rewrite mult_IZR. reflexivity. Qed.

Lemma exact_near M v r : exact v r -> is_int r -> 0 <= r <= M -> 1 <= M -> near 0 M v r.
Proof.
  intros (F & Rv) [z Hz] Hr HM. split; [auto|]. rewrite Rv, Rminus_eq_0, Rabs_R0, gam_0. split; [lra|].
  split; [|lra]. destruct (Req_dec r 0) as [H0|H0]; auto. right. split; [lra|].
  assert (1 <= r). { rewrite Hz in *. assert (0 < z)%Z by (apply lt_IZR; lra). apply IZR_le. lia. }
  apply Rle_trans with (/ 1); [apply Rinv_le; lra|lra].
Qed.
Lemma exacts_near M n l (g : nat -> R) : exacts l (tab n g) -> (forall i, (i < n)%nat -> is_int (g i) /\ 0 <= g i <= M) -> 1 <= M ->
  Forall2 (near 0 M) l (tab n g) /\ length l = n.
Proof.
  intros H Hg HM. assert (Forall (fun r => is_int r /\ 0 <= r <= M) (tab n g)) as Ht.
  { unfold tab. apply Forall_map, Forall_forall. intros i Hi. apply in_seq in Hi. apply Hg. lia. }
  assert (length l = length (tab n g)) as Hl by (clear - H; unfold exacts in H; induction H; cbn; auto).
  split; [|rewrite Hl; apply tab_length]. clear Hg Hl. unfold exacts in H. induction H; constructor.
  - apply exact_near; auto; apply Forall_inv in Ht; tauto.
  - apply IHForall2. eapply Forall_inv_tail; eauto.
Qed.

Section Distances.
  Context (x : array Z) (n : nat) (X : Z) (Wx : wf (reals x)) (Ux : univariate x) (Lx : shape0 (reals x) = n).
  Context (HX : Forall (fun z => Z.abs z <= X)%Z (entries x)).
  Lemma dist_int i j : (i < n)%nat -> (j < n)%nat -> is_int (distances 1 (reals x) i j) /\ 0 <= distances 1 (reals x) i j <= 2 * IZR X.
  Proof.
    intros Hi Hj. assert (Lx' : shape0 x = n) by (rewrite <- Lx; unfold reals; rewrite amap_shape0; auto).
    pose proof (zdist_IZR x Wx Ux) as Hz. rewrite Lx' in Hz.
    assert (le : length (entries x) = n) by (rewrite <- Lx'; apply entries_length; auto).
    assert (distances 1 (reals x) i j = IZR (nth j (nth i (zdist (entries x)) []) 0%Z)) as ->.
    { rewrite <- (map_nth IZR). change (@nil Z) with (@nil Z). rewrite <- (map_nth (map IZR)), Hz. unfold tab2. cbn [map]. rewrite tab_nth, tab_nth by auto. reflexivity. }
    split; [eexists; reflexivity|]. unfold zdist.
    rewrite (nth_indep _ [] ((fun u => map (fun v => Z.abs (u - v)) (entries x)) 0%Z)) by (rewrite map_length; lia).
    rewrite (map_nth (fun u => map (fun v => Z.abs (u - v)) (entries x))).
    rewrite (nth_indep _ 0%Z ((fun v => Z.abs (nth i (entries x) 0%Z - v)) 0%Z)) by (rewrite map_length; lia).
    rewrite (map_nth (fun v => Z.abs (nth i (entries x) 0%Z - v))).
    rewrite Forall_forall in HX. pose proof (HX (nth i (entries x) 0%Z) ltac:(apply nth_In; lia)). pose proof (HX (nth j (entries x) 0%Z) ltac:(apply nth_In; lia)).
    rewrite <- mult_IZR. split; apply IZR_le; lia.
  Qed.
  Lemma row_int i : (i < n)%nat -> is_int (rsum n (distances 1 (reals x) i)) /\ 0 <= rsum n (distances 1 (reals x) i) <= INR n * (2 * IZR X).
  Proof.
    intros Hi. split; [apply is_int_sum; intros; apply dist_int; auto|]. rewrite <- rsum_const.
    split; [apply rsum_nonneg; intros; apply dist_int|apply rsum_le; intros; apply dist_int]; auto.
  Qed.
  Lemma total_int : is_int (rsum2 n n (distances 1 (reals x))) /\ 0 <= rsum2 n n (distances 1 (reals x)) <= INR n * (INR n * (2 * IZR X)).
  Proof.
    unfold rsum2. split; [apply is_int_sum; intros; apply row_int; auto|]. rewrite <- rsum_const.
    split; [apply rsum_nonneg; intros; apply row_int|apply rsum_le; intros; apply row_int]; auto.
  Qed.
End Distances.

Definition squared (f : api) : Prop := f = DcovSqr \/ f = UDcovSqr.
(** Error allowed, in units of (n + 10) X Y. *)
Definition error_unit (f : api) : R := match f with UDcovSqr => / 2 ^ 45 | _ => / 2 ^ 48 end.

Lemma size_V N XY f1 f2 f3 : 4 <= N -> 0 <= XY -> f1 <= 4 * N ^ 2 * XY / N / N -> f2 <= 4 * N ^ 2 * XY / N ^ 2 -> f3 <= 4 * N ^ 3 * XY / N ^ 3 ->
  f1 + 2 * f2 + f3 <= 16 * XY.
Proof.
  intros HN HX H1 H2 H3. replace (4 * N ^ 2 * XY / N / N) with (4 * XY) in H1 by (field; lra).
  replace (4 * N ^ 2 * XY / N ^ 2) with (4 * XY) in H2 by (field; lra). replace (4 * N ^ 3 * XY / N ^ 3) with (4 * XY) in H3 by (field; lra). lra.
Qed.
Lemma ratio_le p q c : 0 < q -> p <= c * q -> p / q <= c.
Proof. intros Hq H. apply (Rmult_le_reg_r q); auto. unfold Rdiv. rewrite Rmult_assoc, Rinv_l by lra. lra. Qed.
Lemma size_U N XY f1 f2 f3 : 4 <= N -> 0 <= XY -> f1 <= 4 * N ^ 2 * XY / N / (N - 3) -> f2 <= 4 * N ^ 2 * XY / ((N - 2) * (N - 3)) ->
  f3 <= 4 * N ^ 3 * XY / ((N - 1) * (N - 2) * (N - 3)) -> f1 + 2 * f2 + f3 <= 128 * XY.
Proof.
  intros HN HX H1 H2 H3. assert (exists t, 0 <= t /\ N = 4 + t) as (t & Ht & ->) by (exists (N - 4); split; lra). clear HN.
  assert (f1 <= 16 * XY).
  { eapply Rle_trans; [exact H1|]. replace (4 * (4 + t) ^ 2 * XY / (4 + t)) with (4 * (4 + t) * XY) by (field; lra). apply ratio_le; [lra|]. nra. }
  assert (f2 <= 32 * XY).
  { eapply Rle_trans; [exact H2|]. apply ratio_le; [nra|]. assert (0 <= t * t * XY) by nra. nra. }
  assert (f3 <= 48 * XY).
  { eapply Rle_trans; [exact H3|]. apply ratio_le; [apply Rmult_lt_0_compat; nra|].
    assert (0 <= t * XY) by nra. assert (0 <= t * t * XY) by nra. assert (0 <= t * t * t * XY) by (apply Rmult_le_pos; nra). nra. }
  lra.
Qed.

Theorem C54_accuracy f lib E n X Y x y m cm : valid_fenv lib E -> float_pair n X Y x y -> moderate n X Y -> (4 <= n)%nat ->
  squared f -> not_mergesort m -> float_mode m cm ->
  exists v, call f E (doubles x) (doubles y) (b64_ofZ 1) m cm = Ok v /\ is_finite v = true /\
    Rabs (B2R v - value f n (distances 1 (reals x)) (distances 1 (reals y))) <= (INR n + 10) * error_unit f * (IZR X * IZR Y).
Proof.
  intros HE Hp HB Hn Hf Hm Hcm.
  destruct (pair_exact lib E n X Y x y m cm) as (t & T1 & T2); auto.
  destruct HB as (X1 & Y1 & BX & BY & HB).
  destruct Hp as ((Wx & Wy & Lx & Ly & _) & Ux & Uy & _ & _ & _ & _ & HX & HY).
  assert (Hw : wants_var f = false) by (destruct Hf as [-> | ->]; reflexivity).
  rewrite call_terms, Hw, T1. cbn [rbind]. rewrite doubles_shape0, Lx.
  set (a := distances 1 (reals x)) in *. set (b := distances 1 (reals y)) in *.
  pose proof (dist_int x n X Wx Ux Lx HX) as Da. pose proof (dist_int y n Y Wy Uy Ly HY) as Db.
  pose proof (row_int x n X Wx Ux Lx HX) as Ra. pose proof (row_int y n Y Wy Uy Ly HY) as Rb.
  pose proof (total_int x n X Wx Ux Lx HX) as Ta. pose proof (total_int y n Y Wy Uy Ly HY) as Tb.
  fold a in Da, Ra, Ta. fold b in Db, Rb, Tb.
  (* sizes *)
  assert (X1' : 1 <= IZR X) by (apply IZR_le; auto). assert (Y1' : 1 <= IZR Y) by (apply IZR_le; auto).
  assert (N4 : 4 <= INR n) by (replace 4 with (INR 4) by (cbn; ring); apply le_INR; auto).
  assert (HB' : 64 * (INR n * (INR n * (IZR X * IZR Y))) <= 2 ^ 53).
  { rewrite INR_IZR_INZ, <- !mult_IZR. rewrite (pow_IZR 2 53). apply IZR_le. change (2 ^ Z.of_nat 53)%Z with (2 ^ 53)%Z. eapply Z.le_trans; [|exact HB].
    pose proof (Nat.log2_up_le_mono 4 n Hn) as HL. change (Nat.log2_up 4) with 2%nat in HL.
    assert (0 <= Z.of_nat n * (Z.of_nat n * (X * Y)))%Z by nia. nia. }
  set (N := INR n) in *. set (XY := IZR X * IZR Y) in *.
  assert (XY1 : 1 <= XY) by (unfold XY; nra). assert (XX : IZR X <= XY) by (unfold XY; nra). assert (YX : IZR Y <= XY) by (unfold XY; nra).
  assert (NN : N <= N * N) by nra.
  assert (Hnb : N <= 2 ^ 39).
  { assert (64 * (N * N) <= 2 ^ 53).
    { eapply Rle_trans; [|exact HB']. assert (N * N * 1 <= N * N * XY) by (apply Rmult_le_compat_l; nra). lra. }
    assert (2 ^ 53 <= 64 * (2 ^ 39 * 2 ^ 39)) by lra. apply Rnot_lt_le. intros Hlt. assert (2 ^ 39 * 2 ^ 39 < N * N) by (apply Rmult_le_0_lt_compat; lra). lra. }
  assert (S1 : 4 * (N * (N * XY)) <= 2 ^ 53) by (assert (0 <= N * (N * XY)) by (repeat apply Rmult_le_pos; lra); lra).
  assert (Mb : forall c, 0 <= c <= XY -> N * (2 * c) <= 2 ^ 53 /\ N * (N * (2 * c)) <= 2 ^ 53).
  { intros c Hc. assert (N * c <= N * XY) by (apply Rmult_le_compat_l; lra).
    assert (N * (N * c) <= N * (N * XY)) by (apply Rmult_le_compat_l; lra).
    assert (0 <= N * c) by (apply Rmult_le_pos; lra). assert (N * c <= N * (N * c)) by nra. lra. }
  assert (P53 : 1 <= 2 ^ 53) by lra.
  destruct T2 as (M1 & M2 & M3 & M4 & M5).
  assert (Pint : is_int (rsum2 n n (fun i j => a i j * b i j)) /\ 0 <= rsum2 n n (fun i j => a i j * b i j) <= N * (N * (4 * XY))).
  { unfold rsum2. split; [do 2 (apply is_int_sum; intros); apply is_int_mul; [apply Da|apply Db]; auto|]. split.
    - apply rsum_nonneg. intros. apply rsum_nonneg. intros. apply Rmult_le_pos; [apply Da|apply Db]; auto.
    - unfold N. rewrite <- rsum_const. apply rsum_le. intros. rewrite <- rsum_const. apply rsum_le. intros.
      replace (4 * XY) with ((2 * IZR X) * (2 * IZR Y)) by (unfold XY; ring). apply Rmult_le_compat; try apply Da; try apply Db; auto. }
  set (P := rsum2 n n (fun i j => a i j * b i j)) in *.
  assert (N1 : near 0 (2 ^ 53) (t_mean_prod t) P) by (apply exact_near; auto; try tauto; split; [tauto|]; lra).
  destruct (exacts_near (2 ^ 53) n _ _ M2) as [N2 La]; auto.
  { intros i Hi. split; [apply Ra; auto|]. destruct (Ra i Hi) as (_ & R0 & R1). split; [exact R0|]. eapply Rle_trans; [exact R1|]. apply (Mb (IZR X)). lra. }
  assert (N3 : near 0 (2 ^ 53) (t_a_total t) (rsum2 n n a)).
  { apply exact_near; auto; try tauto. split; [tauto|]. destruct Ta as (_ & _ & T). eapply Rle_trans; [exact T|]. apply (Mb (IZR X)). lra. }
  destruct (exacts_near (2 ^ 53) n _ _ M4) as [N4' Lb]; auto.
  { intros i Hi. split; [apply Rb; auto|]. destruct (Rb i Hi) as (_ & R0 & R1). split; [exact R0|]. eapply Rle_trans; [exact R1|]. apply (Mb (IZR Y)). lra. }
  assert (N5 : near 0 (2 ^ 53) (t_b_total t) (rsum2 n n b)).
  { apply exact_near; auto; try tauto. split; [tauto|]. destruct Tb as (_ & _ & T). eapply Rle_trans; [exact T|]. apply (Mb (IZR Y)). lra. }
  assert (fw : few (n + 12 + 2 * 0)).
  { unfold few. rewrite !plus_INR. replace (INR 12) with 12 by (cbn; ring). change (INR (2 * 0)) with 0. fold N. change 40%nat with (1 + 39)%nat. rewrite pow_add. lra. }
  destruct (from_terms_near lib (vf_lib _ _ HE) E (vf_num _ _ HE) n Hn Hnb (corrected f) 0 53 (t_kind t) _ _ _ _ _ _ _ _ _ _ ltac:(lia) fw N1 N2 N3 N4' N5 La Lb) as (v & V1 & V2 & V3 & V4 & _).
  replace (n + 10 + 2 * 0)%nat with (n + 10)%nat in V3 by lia.
  exists v. split; [unfold finish; rewrite Hw, V1; destruct Hf as [-> | ->]; reflexivity|]. split; [exact V2|].
  (* the formula is the value *)
  set (f1 := P / INR n / den1 n (corrected f)) in *.
  set (f2 := np_sum RNum (map2 Rmult (map (fun v0 => v0 / INR n) (tab n (fun i => rsum n (a i)))) (tab n (fun i => rsum n (b i)))) / den2 n (corrected f)) in *.
  set (f3 := rsum2 n n a / INR n * rsum2 n n b / den3 n (corrected f)) in *.
  assert (f2 = rsum n (fun i => rsum n (a i) / N * rsum n (b i)) / den2 n (corrected f)) as F2.
  { unfold f2. rewrite tab_map, tab_map2, np_sum_tab. reflexivity. }
  assert (Hval : value f n a b = f1 - 2 * f2 + f3).
  { rewrite F2. destruct Hf as [-> | ->]; cbn [value].
    - rewrite dcov2_from_terms by (lia || apply dmat_symmetric). reflexivity.
    - rewrite udcov2_from_terms by (lia || apply dmat_symmetric || apply dmat_hollow). reflexivity. }
  rewrite Hval. eapply Rle_trans; [exact V3|].
  (* size of the three parts *)
  assert (Np : 0 < N) by lra. assert (iN : 0 < / N) by (apply Rinv_0_lt_compat; lra).
  destruct (dens_pos n Hn (corrected f)) as (D1 & D2 & D3).
  assert (i1 : 0 < / den1 n (corrected f)) by (apply Rinv_0_lt_compat; lra).
  assert (i2 : 0 < / den2 n (corrected f)) by (apply Rinv_0_lt_compat; lra).
  assert (i3 : 0 < / den3 n (corrected f)) by (apply Rinv_0_lt_compat; lra).
  assert (B1 : f1 <= 4 * N ^ 2 * XY / N / den1 n (corrected f)).
  { unfold f1, Rdiv. fold N. apply Rmult_le_compat_r; [lra|]. apply Rmult_le_compat_r; [lra|]. lra. }
  assert (B2 : f2 <= 4 * N ^ 2 * XY / den2 n (corrected f)).
  { rewrite F2. unfold Rdiv at 1 3. apply Rmult_le_compat_r; [lra|].
    apply Rle_trans with (N * (4 * N * XY)); [|apply Req_le; ring]. unfold N at 2. rewrite <- rsum_const. apply rsum_le. intros i Hi.
    destruct (Ra i Hi) as (_ & A0 & A1). destruct (Rb i Hi) as (_ & B0 & B1').
    replace (4 * N * XY) with (N * (2 * IZR X) / N * (N * (2 * IZR Y))) by (unfold XY; field; lra).
    apply Rmult_le_compat; auto; [apply Rmult_le_pos; lra|]. apply Rmult_le_compat_r; lra. }
  assert (B3 : f3 <= 4 * N ^ 3 * XY / den3 n (corrected f)).
  { unfold f3. unfold Rdiv at 1 3. apply Rmult_le_compat_r; [lra|]. fold N.
    replace (4 * N ^ 3 * XY) with (N * (N * (2 * IZR X)) / N * (N * (N * (2 * IZR Y)))) by (unfold XY; field; lra).
    destruct Ta as (_ & A0 & A1). destruct Tb as (_ & B0 & B1').
    apply Rmult_le_compat; auto; [apply Rmult_le_pos; lra|]. apply Rmult_le_compat_r; lra. }
  assert (HS : f1 + 2 * f2 + f3 <= (match f with UDcovSqr => 128 | _ => 16 end) * XY).
  { destruct Hf as [-> | ->]; [apply (size_V N)|apply (size_U N)]; auto; lra. }
  assert (Hg : gam (n + 10) <= 2 * (N + 10) * ulp1).
  { unfold N. replace 10 with (INR 10) by (cbn; ring). rewrite <- plus_INR. apply gam_lin. rewrite plus_INR. fold N. replace (INR 10) with 10 by (cbn; ring).
    unfold ulp1. assert (N + 10 <= 2 ^ 40) by (change 40%nat with (1 + 39)%nat; rewrite pow_add; lra).
    apply Rle_trans with (2 ^ 40 * / 2 ^ 53); [apply Rmult_le_compat_r; lra|]. lra. }
  eapply Rle_trans; [apply Rmult_le_compat; [apply gam_nonneg| |exact Hg|exact HS]|].
  { eapply Rle_trans; [apply Rabs_pos|exact V4]. }
  unfold ulp1, error_unit. destruct Hf as [-> | ->]; cbv iota; apply Req_le; field.
Qed.

(** ** Examples and limits *)

Definition fints (l : list Z) : array Z := mkArr Numpy F64 (Vec l).
Definition xf : array Z := fints [3; 1; 4; 1; 5; 9]%Z.
Definition yf : array Z := fints [2; 7; 1; 8; 2; 8]%Z.
Lemma xf_yf : float_pair 6 10 10 xf yf /\ moderate 6 10 10.
Proof.
  split; [|red; repeat split; vm_compute; discriminate]. repeat split; auto; cbn; try lia; repeat constructor; lia.
Qed.

Example C53_C54_meets :
  (exists v w, call Dcov env_M (doubles xf) (doubles yf) (b64_ofZ 1) MNaive CAuto = Ok v /\
             call Dcov env_M (doubles xf) (doubles yf) (b64_ofZ 1) MAvl CCompileCpu = Ok w /\
             (v = w \/ exists s t, v = B754_zero s /\ w = B754_zero t)) /\
  (exists v, call DcovSqr env_F (doubles xf) (doubles yf) (b64_ofZ 1) MAuto CAuto = Ok v /\ is_finite v = true /\
    Rabs (B2R v - value DcovSqr 6 (distances 1 (reals xf)) (distances 1 (reals yf))) <= (INR 6 + 10) * / 2 ^ 48 * (10 * 10)).
Proof.
  destruct xf_yf as [Hp HB]. split.
  - apply (C53_methods_agree Dcov modern env_M 6 10 10); unfold covariance_fn, not_mergesort, float_mode, not_forced; auto using env_F_valid, env_M_valid; lia.
  - apply (C54_accuracy DcovSqr plain env_F 6 10 10); unfold squared, not_mergesort, float_mode, not_forced; auto using env_F_valid, env_M_valid; lia.
Qed.

(** For witnesses: compute with the signs, mantissas and exponents. *)
Definition result_of (r : res b64) : b64 := match r with Ok v => v | Err _ => B754_nan end.
Definition sf (r : res b64) : res SpecFloat.spec_float := rmap B2SF r.
Lemma sf_ok r c : sf r = Ok c -> c <> SpecFloat.S754_nan -> r = Ok (result_of r) /\ B2SF (result_of r) = c.
Proof. destruct r; cbn; intros [= H] Hc; auto. Qed.
Lemma sf_eq r r' c : sf r = Ok c -> sf r' = Ok c -> r = r'.
Proof. destruct r, r'; cbn; intros [= H] [= H']; try discriminate. f_equal. apply B2SF_inj. congruence. Qed.
Lemma B2SF_real (v : b64) s m e : B2SF v = SpecFloat.S754_finite s m e -> B2R v = F2R (Float radix2 (cond_Zopp s (Zpos m)) e).
Proof. destruct v; cbn; intros [= -> -> ->]. reflexivity. Qed.


Definition x0 : array Z := fints [0; 1; 2; 3; 5]%Z.
Definition x1 : array Z := fints (map (Z.add (10 ^ 9)) [0; 1; 2; 3; 5]%Z).
Definition x2 : array Z := fints (map (Z.add (10 ^ 9)) [0; 3; 1; 2; 7]%Z).

(** The bound of [moderate] is needed.  The same five numbers, moved by 10^9 (each still exactly a double): the naive
    method returns the same number as without the move, AVL returns a negative squared distance covariance. *)
Theorem C53_offset_refuted : entries x1 = map (Z.add (10 ^ 9)) (entries x0) /\ float_pair 5 (2 * 10 ^ 9) (2 * 10 ^ 9) x1 x1 /\
  call DcovSqr env_F (doubles x1) (doubles x1) (b64_ofZ 1) MNaive CAuto = call DcovSqr env_F (doubles x0) (doubles x0) (b64_ofZ 1) MNaive CAuto /\
  exists v w, call DcovSqr env_F (doubles x1) (doubles x1) (b64_ofZ 1) MNaive CAuto = Ok v /\
    call DcovSqr env_F (doubles x1) (doubles x1) (b64_ofZ 1) MAvl CAuto = Ok w /\ B2R w < 0 /\ 1 < B2R v.
Proof.
  split; [reflexivity|]. split.
  { repeat split; auto; cbn; try lia; repeat constructor; lia. }
  assert (S0 : sf (call DcovSqr env_F (doubles x0) (doubles x0) (b64_ofZ 1) MNaive CAuto) = Ok (SpecFloat.S754_finite false 7666928005635534 (-52))) by (vm_compute; reflexivity).
  assert (S1 : sf (call DcovSqr env_F (doubles x1) (doubles x1) (b64_ofZ 1) MNaive CAuto) = Ok (SpecFloat.S754_finite false 7666928005635534 (-52))) by (vm_compute; reflexivity).
  assert (S2 : sf (call DcovSqr env_F (doubles x1) (doubles x1) (b64_ofZ 1) MAvl CAuto) = Ok (SpecFloat.S754_finite true 4748595447099450 (-50))) by (vm_compute; reflexivity).
  split; [apply (sf_eq _ _ _ S1 S0)|].
  destruct (sf_ok _ _ S1 ltac:(discriminate)) as [H1 H1']. destruct (sf_ok _ _ S2 ltac:(discriminate)) as [H2 H2'].
  eexists. eexists. split; [exact H1|]. split; [exact H2|]. rewrite (B2SF_real _ _ _ _ H1'), (B2SF_real _ _ _ _ H2').
  split; [apply F2R_lt_0; reflexivity|]. unfold F2R. cbn [Fnum Fexp cond_Zopp]. change (bpow radix2 (-52)) with (/ 4503599627370496). lra.
Qed.

(** Correlations: AVL's variances suffer in the same way, and the squared distance correlation of a sample with itself
    comes out far outside [0, 1]; naive returns exactly 1. *)
Theorem C53_correlation_refuted : float_pair 5 (2 * 10 ^ 9) (2 * 10 ^ 9) x2 x2 /\
  call DcorSqr env_F (doubles x2) (doubles x2) (b64_ofZ 1) MNaive CAuto = Ok (b64_ofZ 1) /\
  exists w, call DcorSqr env_F (doubles x2) (doubles x2) (b64_ofZ 1) MAvl CAuto = Ok w /\ B2R w < -2.
Proof.
  split.
  { repeat split; auto; cbn; try lia; repeat constructor; lia. }
  assert (S1 : sf (call DcorSqr env_F (doubles x2) (doubles x2) (b64_ofZ 1) MNaive CAuto) = sf (Ok (b64_ofZ 1))) by (vm_compute; reflexivity).
  assert (S2 : sf (call DcorSqr env_F (doubles x2) (doubles x2) (b64_ofZ 1) MAvl CAuto) = Ok (SpecFloat.S754_finite true 5743403804944275 (-51))) by (vm_compute; reflexivity).
  split; [apply (sf_eq _ _ (B2SF (b64_ofZ 1)) S1); reflexivity|].
  destruct (sf_ok _ _ S2 ltac:(discriminate)) as [H2 H2'].
  eexists. split; [exact H2|]. rewrite (B2SF_real _ _ _ _ H2'). unfold F2R. cbn [Fnum Fexp cond_Zopp Z.opp].
  change (bpow radix2 (-51)) with (/ 2251799813685248). lra.
Qed.
