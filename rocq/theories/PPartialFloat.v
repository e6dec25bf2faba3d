(** C77: the partial functions in double precision.

    The bias-corrected inner product of two samples is what [u_product(u_distance_matrix(x), u_distance_matrix(y))] returns. *)
From Coq Require Import Reals Lra Lia List Arith Bool ZArith Psatz.
From Flocq Require Import Core IEEE754.BinarySingleNaN.
From Verif Require Import Num Numpy MUtils MDistances MInternals MDcor MPartial MFloat Sums Spec Centering Tab Samples RefDist RefDcor RefCenter Api
  RefInteger RefFloat RefApi SpecFacts Calls Invariance PSizes PPartial FloatApi FloatSum FloatEnv FloatError FloatAccuracy PFloat FloatNaive PNaiveFloat FloatCorr PFloatCorr
  FloatTStat FloatAvlErr FloatCenter FloatExact NanInst PExact PTTest PFloatTests Witness FloatPartial.
Import ListNotations.
Local Open Scope R_scope.
Local Open Scope monad_scope.

Definition inner (E : Env b64) (x y : array b64) : res b64 :=
  outcome (a <- u_distance_matrix E x (b64_ofZ 1) ;; b <- u_distance_matrix E y (b64_ofZ 1) ;; lift (u_product E a b)).

Lemma inner_mat E x y a b : outcome (u_distance_matrix E x (b64_ofZ 1)) = Ok a -> outcome (u_distance_matrix E y (b64_ofZ 1)) = Ok b ->
  inner E x y = u_product E a b.
Proof. intros Ha Hb. unfold inner. rewrite outcome_bind, Ha. cbn [rbind]. rewrite outcome_bind, Hb. reflexivity. Qed.

Lemma up_value {T} (E : Env T) n a b : mat n a -> mat n b ->
  u_product E a b = Ok (ndiv (e_num E) (np_sum (e_num E) (concat (map2 (map2 (nmul (e_num E))) a b))) (nofZ (e_num E) (Z.of_nat n * (Z.of_nat n - 3)))).
Proof.
  intros Ha Hb. unfold u_product, elt_product, elt_op. rewrite (same_shape_mat n) by auto. cbn [rbind]. destruct Ha as [-> _]. reflexivity.
Qed.
Lemma map2_self {A B} (f : A -> A -> B) l : map2 f l l = map (fun u => f u u) l.
Proof. unfold map2. induction l; cbn; congruence. Qed.

Lemma self_nonneg lib E x v : valid_fenv lib E -> (4 <= shape0 x)%nat -> inner E x x = Ok v -> is_finite v = true -> 0 <= B2R v.
Proof.
  intros HE Hn Hv Fv. apply f_nn_real; auto. destruct (udm_ok E x (b64_ofZ 1)) as (a & Ha & Ma). rewrite (inner_mat E x x a a Ha Ha) in Hv.
  rewrite (up_value E (shape0 x)) in Hv by auto. injection Hv as <-. rewrite (vf_num _ _ HE). cbn [ndiv nofZ nmul B64Num].
  apply div_nn; [|apply ofZ_sign; nia]. eapply sum_of_nn; [apply (np_sum_of lib _ (vf_lib _ _ HE))|].
  rewrite map2_self. apply Forall_concat. apply Forall_forall. intros r Hr. apply in_map_iff in Hr. destruct Hr as (u & <- & _). rewrite map2_self.
  apply Forall_forall. intros w Hw. apply in_map_iff in Hw. destruct Hw as (d & <- & _). apply mul_self_nn.
Qed.

(** The run of the partial correlation. *)
Lemma pcor_run lib E x y z : e_num E = B64Num lib -> shape0 x = shape0 z -> shape0 y = shape0 z -> exists aa bb cc ab ac bc,
  inner E x x = Ok aa /\ inner E y y = Ok bb /\ inner E z z = Ok cc /\ inner E x y = Ok ab /\ inner E x z = Ok ac /\ inner E y z = Ok bc /\
  outcome (partial_distance_correlation E x y z) =
    Ok (quotient lib (clipped_correlation E ab aa bb) (clipped_correlation E ac aa cc) (clipped_correlation E bc bb cc)).
Proof.
  intros EN Hx Hy. destruct (udm_ok E x (b64_ofZ 1)) as (a & Ha & Ma). destruct (udm_ok E y (b64_ofZ 1)) as (b & Hb & Mb).
  destruct (udm_ok E z (b64_ofZ 1)) as (c & Hc & Mc). rewrite Hx in Ma. rewrite Hy in Mb.
  destruct (up_same E _ a a Ma Ma) as [aa Aa]. destruct (up_same E _ b b Mb Mb) as [bb Bb]. destruct (up_same E _ c c Mc Mc) as [cc Cc].
  destruct (up_same E _ a b Ma Mb) as [ab Ab]. destruct (up_same E _ a c Ma Mc) as [ac Ac]. destruct (up_same E _ b c Mb Mc) as [bc Bc].
  exists aa, bb, cc, ab, ac, bc. rewrite (inner_mat E x x a a), (inner_mat E y y b b), (inner_mat E z z c c), (inner_mat E x y a b), (inner_mat E x z a c), (inner_mat E y z b c) by auto.
  do 6 (split; [assumption|]). unfold partial_distance_correlation.
  assert (nunit (e_num E) = b64_ofZ 1) as -> by (rewrite EN; reflexivity).
  repeat (rewrite !outcome_bind, ?Ha, ?Hb, ?Hc, ?Aa, ?Bb, ?Cc, ?Ab, ?Ac, ?Bc; cbn [lift outcome snd rbind]).
  rewrite EN. reflexivity.
Qed.

(** ** The partial correlation is a number *)

(** When the inner products of the three samples with each other did not overflow, the partial correlation is a number,
    of absolute value at most 2^55. *)
Theorem C77_correlation_finite lib E x y z : valid_fenv lib E -> (4 <= shape0 z)%nat -> shape0 x = shape0 z -> shape0 y = shape0 z ->
  (forall p q, In p [x; y; z] -> In q [x; y; z] -> exists v, inner E p q = Ok v /\ is_finite v = true) ->
  exists v, outcome (partial_distance_correlation E x y z) = Ok v /\ is_finite v = true /\ Rabs (B2R v) <= 2 ^ 55.
Proof.
  intros HE Hn Hx Hy Hp. pose proof (vf_num _ _ HE) as EN.
  destruct (pcor_run lib E x y z EN Hx Hy) as (aa & bb & cc & ab & ac & bc & Aa & Bb & Cc & Ab & Ac & Bc & ->).
  assert (In x [x; y; z] /\ In y [x; y; z] /\ In z [x; y; z]) as (Ix & Iy & Iz) by (cbn [In]; tauto).
  assert (F : forall p q v, In p [x; y; z] -> In q [x; y; z] -> inner E p q = Ok v -> is_finite v = true).
  { intros p q v Ip Iq Hv. destruct (Hp p q Ip Iq) as (v' & Hv' & Fv). congruence. }
  pose proof (F _ _ _ Ix Ix Aa) as Faa. pose proof (F _ _ _ Iy Iy Bb) as Fbb. pose proof (F _ _ _ Iz Iz Cc) as Fcc.
  pose proof (F _ _ _ Ix Iy Ab) as Fab. pose proof (F _ _ _ Ix Iz Ac) as Fac. pose proof (F _ _ _ Iy Iz Bc) as Fbc.
  pose proof (self_nonneg lib E x aa HE ltac:(lia) Aa Faa) as Pa. pose proof (self_nonneg lib E y bb HE ltac:(lia) Bb Fbb) as Pb.
  pose proof (self_nonneg lib E z cc HE ltac:(lia) Cc Fcc) as Pc.
  destruct (clipped_finite lib E EN ab aa bb) as [F1 B1]; auto. destruct (clipped_finite lib E EN ac aa cc) as [F2 B2]; auto.
  destruct (clipped_finite lib E EN bc bb cc) as [F3 B3]; auto.
  eexists. split; [reflexivity|]. apply quotient_finite; auto.
Qed.

(** ** On the data *)

(** Three float64 samples of [n] observations without infinities or NaN, of any numbers of columns. *)
Definition double_triple (n : nat) (x y z : array b64) : Prop :=
  triple n (freals x) (freals y) (freals z) /\ forall w, In w [x; y; z] -> adt w = F64 /\ Forall (fun v => is_finite v = true) (entries w).
(** Their columns are at most [c], the distances at most [Dx], [Dy] and [Dz]; the sizes are moderate. *)
Definition moderate_triple (n c : nat) (x y z : array b64) (Dx Dy Dz : R) : Prop :=
  (Z.of_nat n <= 2 ^ 18)%Z /\ (Z.of_nat c <= 2 ^ 30)%Z /\
  forall w D, In (w, D) [(x, Dx); (y, Dy); (z, Dz)] -> (ncols w <= c)%nat /\ spread n w /\ / 2 ^ 100 <= D <= 2 ^ 200 /\
    forall i j, (i < n)%nat -> (j < n)%nat -> distances 1 (freals w) i j <= D.

Lemma nonzero_eqb (v : b64) : B2R v <> 0 -> Beqb v (B754_zero false) = false.
Proof. destruct v as [s|[]| |[] m e H]; cbn; auto; congruence. Qed.

Section Data.
  Context (lib : flib) (E : Env b64) (HE : valid_fenv lib E).
  Let EN : e_num E = B64Num lib := vf_num _ _ HE.
  Let GL : good_lib lib := vf_lib _ _ HE.
  Context (n c : nat) (x y z : array b64) (Dx Dy Dz : R) (Ht : double_triple n x y z) (Hm : moderate_triple n c x y z Dx Dy Dz).
  Let n4 : (4 <= n)%nat. Proof. destruct Ht as ((_ & _ & _ & _ & _ & _ & H) & _). exact H. Qed.
  Let n18 : INR n <= 2 ^ 18. Proof. apply small_INR. apply Hm. Qed.
  Let c30 : (Z.of_nat c <= 2 ^ 30)%Z. Proof. apply Hm. Qed.

  Definition depth : nat := (c + 2 * n + 10)%nat.
  Definition pdepth : nat := (n * n + 4 * n + 2 * c + 24)%nat.

  Lemma few_depth : few (6 * depth + 3 * (n * n) + 17).
  Proof. assert ((Z.of_nat n <= 2 ^ 18)%Z) by apply Hm. unfold few. apply small_INR. unfold depth. change (Z.of_nat 40) with 40%Z. nia. Qed.

  Lemma u_sample w D : In (w, D) [(x, Dx); (y, Dy); (z, Dz)] ->
    exists f, outcome (u_distance_matrix E w (b64_ofZ 1)) = Ok (tab2 n n f) /\
      forall i j, (i < n)%nat -> (j < n)%nat -> apx depth (8 * D) (f i j) (ucenter n (distances 1 (freals w)) i j).
  Proof.
    intros Iw. pose proof few_depth as fw. destruct Hm as (Hn' & _ & Hw). destruct (Hw w D Iw) as (Cw & Sw & BD & HD).
    assert (Fs : wf w /\ shape0 w = n /\ adt w = F64 /\ Forall (fun v => is_finite v = true) (entries w)).
    { destruct Ht as ((Wx & Wy & Wz & Lx & Ly & Lz & _) & HF). rewrite freals_shape0 in Lx, Ly, Lz. apply freals_wf in Wx, Wy, Wz.
      assert (In w [x; y; z]) as I by (cbn in Iw; destruct Iw as [[= <- <-]|[[= <- <-]|[[= <- <-]|[]]]]; cbn; auto).
      destruct (HF w I). cbn in Iw. destruct Iw as [[= <- <-]|[[= <- <-]|[[= <- <-]|[]]]]; auto. }
    destruct Fs as (Ww & Lw & Fw & Iw').
    assert (cw : INR (ncols w) <= 2 ^ (2 * 15)) by (apply small_INR; change (Z.of_nat (2 * 15)) with 30%Z; lia).
    assert (SP : forall i j k, (i < n)%nat -> (j < n)%nat -> (k < ncols w)%nat ->
      let t := obs (freals w) i k - obs (freals w) j k in t = 0 \/ (/ 2 ^ 100 <= Rabs t <= 2 ^ 100)).
    { intros i j k Hi Hj Hk t. destruct (Sw i j k Hi Hj Hk) as [H|H]; [left; unfold t; lra|right; exact H]. }
    assert (f4 : few (4 + ncols w)) by (apply (few_le _ _ fw); unfold depth; lia).
    pose proof (fdists_near lib GL E EN w n Lw (entries_fin n w Ww Lw Iw') 100 15 cw ltac:(lia) f4 SP) as Nw.
    exists (fuc lib n (fdists E w)). split; [apply (fdmg_u lib E EN); apply (pairwise_fdists lib E EN w n Ww Lw Fw)|].
    assert (b100 : bpow radix2 (-900) <= D).
    { apply Rle_trans with (/ 2 ^ 100); [|lra]. apply Rle_trans with (bpow radix2 (-100)); [apply bpow_le; lia|].
      destruct (pow_bpow 100) as [_ <-]. apply Rle_refl. }
    assert (H200 : 2 ^ 200 <= 2 ^ 300) by (apply pow2_le; lia).
    assert (DBB : D <= BB) by (apply Rle_trans with (2 ^ 200); [lra|apply pow2_le; lia]).
    intros i j Hi Hj. apply (apx_k (4 + ncols w + 2 * n + 6)); [|unfold depth; lia].
    apply uc_apx; auto; try lra; [lia|apply (few_le _ _ fw); unfold depth; lia| |apply dmat_symmetric].
    intros i' j' Hi' Hj'. apply (near_apx _ (2 ^ (100 + 15))); auto. right. auto.
  Qed.

  Lemma size8 D : / 2 ^ 100 <= D <= 2 ^ 200 -> bpow radix2 (-400) <= 8 * D <= 2 ^ 300.
  Proof.
    intros BD. assert (P100 : bpow radix2 (-100) = / 2 ^ 100) by (destruct (pow_bpow 100) as [_ H]; exact H).
    assert (bpow radix2 (-400) <= / 2 ^ 100) by (rewrite <- P100; apply bpow_le; lia).
    assert (8 * 2 ^ 200 <= 2 ^ 300) by (replace 8 with (2 ^ 3) by ring; rewrite <- pow_add; apply pow2_le; lia).
    assert (0 < / 2 ^ 100) by (rewrite <- P100; apply bpow_gt_0). lra.
  Qed.

  Lemma inner_apx p q D D' : In (p, D) [(x, Dx); (y, Dy); (z, Dz)] -> In (q, D') [(x, Dx); (y, Dy); (z, Dz)] ->
    exists v, inner E p q = Ok v /\ apx pdepth (4 * (8 * D * (8 * D'))) v (ip n (freals p) (freals q)).
  Proof.
    intros Ip Iq. pose proof few_depth as fw. destruct (u_sample p D Ip) as (f & Uf & Af). destruct (u_sample q D' Iq) as (g & Ug & Ag).
    destruct Hm as (_ & _ & Hw). destruct (Hw p D Ip) as (_ & _ & B & _). destruct (Hw q D' Iq) as (_ & _ & B' & _).
    destruct (fu_product lib GL E EN depth depth n (8 * D) (8 * D') f g (ucenter n (distances 1 (freals p))) (ucenter n (distances 1 (freals q)))
      n4 n18 (size8 D B) (size8 D' B') ltac:(apply (few_le _ _ fw); lia) Af Ag) as (v & Hv & Av).
    exists v. rewrite (inner_mat E p q _ _ Uf Ug). split; [exact Hv|]. rewrite ip_uprod. apply (apx_k _ _ _ _ _ Av). unfold depth, pdepth. lia.
  Qed.

  Lemma data_finite : exists v, outcome (partial_distance_correlation E x y z) = Ok v /\ is_finite v = true /\ Rabs (B2R v) <= 2 ^ 55.
  Proof.
    destruct Ht as ((_ & _ & _ & Lx & Ly & Lz & _) & _). rewrite freals_shape0 in Lx, Ly, Lz.
    apply (C77_correlation_finite lib E x y z HE); try congruence; try lia.
    intros p q Ip Iq.
    assert (ID : forall w, In w [x; y; z] -> exists D, In (w, D) [(x, Dx); (y, Dy); (z, Dz)]) by (intros w [<-|[<-|[<-|[]]]]; eexists; cbn; eauto).
    destruct (ID p Ip) as [D HD]. destruct (ID q Iq) as [D' HD']. destruct (inner_apx p q D D' HD HD') as (v & Hv & [(F & _) _]). eauto.
  Qed.

  (** ** Accuracy of the partial correlation *)

  (** The error of an inner product, as a multiple of the product of the largest distances. *)
  Definition inner_error (n c : nat) : R := (INR n ^ 2 + 4 * INR n + 2 * INR c + 24) / 2 ^ 44.

  Lemma pdepth_R : INR pdepth = INR n ^ 2 + 4 * INR n + 2 * INR c + 24.
  Proof. unfold pdepth. repeat (rewrite ?plus_INR, ?mult_INR). cbn [INR]. ring. Qed.
  Lemma gam_pdepth : gam pdepth * 256 <= inner_error n c.
  Proof.
    pose proof few_depth as fw. assert (f2 : few pdepth) by (apply (few_le _ _ fw); unfold depth, pdepth; lia). unfold few in f2.
    pose proof (gam_lin pdepth) as H. unfold inner_error. rewrite <- pdepth_R. set (K := INR pdepth) in *.
    assert (H1 : K * ulp1 <= / 2) by (apply Rle_trans with (2 ^ 40 * ulp1); [apply Rmult_le_compat_r; auto; pose proof ulp1_pos; lra|unfold ulp1; lra]).
    specialize (H H1). unfold ulp1 in H. lra.
  Qed.
  Lemma inner_error_pos : 0 <= inner_error n c.
  Proof. eapply Rle_trans; [|exact gam_pdepth]. pose proof (gam_nonneg pdepth). lra. Qed.
  Lemma D_nonneg w D : In (w, D) [(x, Dx); (y, Dy); (z, Dz)] -> 0 < D.
  Proof. intros I. destruct Hm as (_ & _ & Hw). destruct (Hw w D I) as (_ & _ & B & _). assert (0 < / 2 ^ 100) by (apply Rinv_0_lt_compat, pow_lt; lra). lra. Qed.

  Lemma inner_close p q D D' : In (p, D) [(x, Dx); (y, Dy); (z, Dz)] -> In (q, D') [(x, Dx); (y, Dy); (z, Dz)] ->
    exists v, inner E p q = Ok v /\ is_finite v = true /\ Rabs (B2R v - ip n (freals p) (freals q)) <= inner_error n c * (D * D').
  Proof.
    intros Ip Iq. destruct (inner_apx p q D D' Ip Iq) as (v & Hv & [(F & Er & _) _]). exists v. do 2 (split; [assumption|]).
    eapply Rle_trans; [exact Er|]. replace (gam pdepth * (4 * (8 * D * (8 * D')))) with (gam pdepth * 256 * (D * D')) by ring.
    pose proof (D_nonneg p D Ip). pose proof (D_nonneg q D' Iq). apply Rmult_le_compat_r; [|exact gam_pdepth]. apply Rmult_le_pos; lra.
  Qed.

  Section Accuracy.
    Context (rho dl : R) (Hr : rho <= / 4).
    Context (Hv : forall w D, In (w, D) [(x, Dx); (y, Dy); (z, Dz)] -> / 2 ^ 450 <= ip n (freals w) (freals w) <= 2 ^ 450 /\
      inner_error n c * (D * D) <= rho * ip n (freals w) (freals w)).
    Let cor p q := corr (ip n (freals p) (freals q)) (ip n (freals p) (freals p)) (ip n (freals q) (freals q)).

    Lemma rho_pos : 0 <= rho.
    Proof.
      destruct (Hv x Dx ltac:(cbn; auto)) as [B H]. assert (0 < / 2 ^ 450) by (apply Rinv_0_lt_compat, pow_lt; lra).
      assert (0 <= inner_error n c * (Dx * Dx)) by (apply Rmult_le_pos; [apply inner_error_pos|]; pose proof (D_nonneg x Dx ltac:(cbn; auto)); nra).
      apply (Rmult_le_reg_r (ip n (freals x) (freals x))); lra.
    Qed.

    Lemma clipped_close p q D D' pq pp qq : In (p, D) [(x, Dx); (y, Dy); (z, Dz)] -> In (q, D') [(x, Dx); (y, Dy); (z, Dz)] ->
      inner E p q = Ok pq -> inner E p p = Ok pp -> inner E q q = Ok qq ->
      let r := clipped_correlation E pq pp qq in is_finite r = true /\ -1 <= B2R r <= 1 /\ Rabs (B2R r - cor p q) <= 3 * rho + / 2 ^ 49.
    Proof.
      intros Ip Iq E1 E2 E3. pose proof rho_pos as r0.
      destruct (inner_close p q D D' Ip Iq) as (v1 & W1 & F1 & C1). rewrite E1 in W1. injection W1 as <-.
      destruct (inner_close p p D D Ip Ip) as (v2 & W2 & F2 & C2). rewrite E2 in W2. injection W2 as <-.
      destruct (inner_close q q D' D' Iq Iq) as (v3 & W3 & F3 & C3). rewrite E3 in W3. injection W3 as <-.
      destruct (Hv p D Ip) as [Bp Rp]. destruct (Hv q D' Iq) as [Bq Rq]. pose proof (D_nonneg p D Ip) as P1. pose proof (D_nonneg q D' Iq) as P2.
      assert (P450 : 0 < / 2 ^ 450) by (apply Rinv_0_lt_compat, pow_lt; lra).
      assert (rp : rho * ip n (freals p) (freals p) <= / 4 * ip n (freals p) (freals p)) by (apply Rmult_le_compat_r; lra).
      assert (rq : rho * ip n (freals q) (freals q) <= / 4 * ip n (freals q) (freals q)) by (apply Rmult_le_compat_r; lra).
      pose proof C2 as C2'. pose proof C3 as C3'. apply Rabs_le_inv in C2'. apply Rabs_le_inv in C3'.
      destruct (correlation_error lib E UDcorSqr UDcovSqr n (freals p) (freals q) pq pp qq (inner_error n c) D D' rho EN) as [Ff Ef]; auto;
        try lra; [right; auto|apply inner_error_pos|].
      rewrite (correlation_of_fcorr lib E _ _ _ EN) in Ff, Ef. change (value UDcorSqr n (distances 1 (freals p)) (distances 1 (freals q))) with (cor p q) in Ef.
      rewrite (clipped_fcorr lib E pq pp qq EN) by (auto; lra).
      destruct (clip_value lib E EN (fcorr lib pq pp qq) (finite_not_nan _ Ff)) as [Fc Rc]. rewrite ext_finite in Rc by auto.
      cbv zeta. rewrite Rc. split; [exact Fc|]. split; [apply clipR_range|].
      eapply Rle_trans; [apply clipR_near|exact Ef]. apply corr_range, ip_cs.
    Qed.

    (** ** Accuracy of the partial covariance *)

    Lemma combination a b w s t : uprod n (fun i j => a i j - s * w i j) (fun i j => b i j - t * w i j)
      = uprod n a b - t * uprod n a w - s * uprod n b w + s * t * uprod n w w.
    Proof.
      unfold uprod at 1. rewrite (rsum2_ext n n _ (fun i j => a i j * b i j - t * (a i j * w i j) - s * (b i j * w i j) + s * t * (w i j * w i j))) by (intros; ring).
      rewrite rsum2_plus, !rsum2_minus, !rsum2_scal_l. unfold uprod. ring.
    Qed.

    Let V w := ip n (freals w) (freals w).
    Let root p := sqrt (V p / V z).

    Lemma root_size p D : In (p, D) [(x, Dx); (y, Dy); (z, Dz)] -> bpow radix2 (-450) <= root p <= 2 ^ 450 /\ root p * Dz <= 2 ^ 250.
    Proof.
      intros Ip. assert (Iz : In (z, Dz) [(x, Dx); (y, Dy); (z, Dz)]) by (cbn; auto). pose proof rho_pos as r0.
      destruct (Hv p D Ip) as [Bp _]. destruct (Hv z Dz Iz) as [Bz Rz]. pose proof (D_nonneg z Dz Iz) as P2. fold (V p) in Bp. fold (V z) in Bz, Rz.
      assert (P450 : 0 < / 2 ^ 450) by (apply Rinv_0_lt_compat, pow_lt; lra).
      set (q := root p). assert (Q : q * q = V p / V z) by (unfold q, root; apply sqrt_sqrt, Rlt_le, Rdiv_lt_0_compat; lra).
      assert (q0 : 0 < q) by (unfold q, root; apply sqrt_lt_R0, Rdiv_lt_0_compat; lra). set (CC := V z) in *.
      split; [split|].
      - apply Rsqr_incr_0; [|apply bpow_ge_0|lra]. unfold Rsqr. rewrite Q, <- bpow_plus. change (-450 + -450)%Z with (-900)%Z.
        apply (Rmult_le_reg_r CC); [lra|]. unfold Rdiv. rewrite Rmult_assoc, Rinv_l, Rmult_1_r by lra.
        destruct (pow_bpow 450) as [_ p2]. change (- Z.of_nat 450)%Z with (-450)%Z in p2. change (-900)%Z with (-450 + -450)%Z. rewrite bpow_plus, p2.
        apply Rle_trans with (/ 2 ^ 450 * / 2 ^ 450 * 2 ^ 450).
        + apply Rmult_le_compat_l; [apply Rmult_le_pos; lra|lra].
        + rewrite Rmult_assoc, Rinv_l by (apply pow_nonzero; lra). lra.
      - apply Rsqr_incr_0; [|lra|apply pow_le; lra]. unfold Rsqr. rewrite Q. apply (Rmult_le_reg_r CC); [lra|]. unfold Rdiv. rewrite Rmult_assoc, Rinv_l, Rmult_1_r by lra.
        apply Rle_trans with (2 ^ 450 * 2 ^ 450 * / 2 ^ 450); [rewrite Rmult_assoc, Rinv_r by (apply pow_nonzero; lra); lra|].
        apply Rmult_le_compat_l; [apply Rmult_le_pos; apply pow_le; lra|lra].
      - assert (DD : Dz * Dz <= 2 ^ 42 * CC).
        { assert (e24 : / 2 ^ 40 <= inner_error n c).
          { unfold inner_error. pose proof (pos_INR n). pose proof (pos_INR c). assert (0 <= INR n ^ 2) by (apply pow_le; auto). lra. }
          assert (/ 2 ^ 40 * (Dz * Dz) <= inner_error n c * (Dz * Dz)) by (apply Rmult_le_compat_r; nra).
          assert (rho * CC <= / 4 * CC) by (apply Rmult_le_compat_r; lra). lra. }
        apply Rsqr_incr_0; [|apply Rmult_le_pos; lra|apply pow_le; lra]. unfold Rsqr. replace (q * Dz * (q * Dz)) with (q * q * (Dz * Dz)) by ring. rewrite Q.
        apply Rle_trans with (V p / CC * (2 ^ 42 * CC)).
        + apply Rmult_le_compat_l; auto. apply Rlt_le, Rdiv_lt_0_compat; lra.
        + replace (V p / CC * (2 ^ 42 * CC)) with (2 ^ 42 * V p) by (field; lra). apply Rle_trans with (2 ^ 42 * 2 ^ 450); [apply Rmult_le_compat_l; lra|].
          rewrite <- !pow_add. apply pow2_le. lia.
    Qed.

    (** The computed coefficient of the projection on the matrix of [z]. *)
    Lemma coefficient_close p D pz zz : In (p, D) [(x, Dx); (y, Dy); (z, Dz)] -> inner E p z = Ok pz -> inner E z z = Ok zz ->
      let t := b64_div pz zz in B2R zz <> 0 /\ is_finite t = true /\ Rabs (B2R t) <= 2 * root p /\
      Rabs (B2R t - ip n (freals p) (freals z) / V z) <= (3 * rho + / 2 ^ 50) * root p.
    Proof.
      intros Ip E1 E2. pose proof rho_pos as r0. assert (Iz : In (z, Dz) [(x, Dx); (y, Dy); (z, Dz)]) by (cbn; auto).
      destruct (inner_close p z D Dz Ip Iz) as (v1 & W1 & F1 & C1). rewrite E1 in W1. injection W1 as <-.
      destruct (inner_close z z Dz Dz Iz Iz) as (v2 & W2 & F2 & C2). rewrite E2 in W2. injection W2 as <-.
      destruct (Hv p D Ip) as [Bp Rp]. destruct (Hv z Dz Iz) as [Bz Rz]. pose proof (D_nonneg p D Ip) as P1. pose proof (D_nonneg z Dz Iz) as P2.
      fold (V p) in Bp, Rp. fold (V z) in Bz, Rz, C2.
      assert (P450 : 0 < / 2 ^ 450) by (apply Rinv_0_lt_compat, pow_lt; lra).
      set (q := root p). assert (Q : q * q = V p / V z) by (unfold q, root; apply sqrt_sqrt, Rlt_le, Rdiv_lt_0_compat; lra).
      assert (q0 : 0 < q) by (unfold q, root; apply sqrt_lt_R0, Rdiv_lt_0_compat; lra).
      assert (Q2 : q * V z * (q * V z) = V p * V z) by (replace (q * V z * (q * V z)) with (q * q * V z * V z) by ring; rewrite Q; field; lra).
      assert (eps0 := inner_error_pos).
      assert (C1' : Rabs (B2R pz - ip n (freals p) (freals z)) <= rho * (q * V z)).
      { eapply Rle_trans; [exact C1|]. apply Rsqr_incr_0; [|apply Rmult_le_pos; auto; apply Rmult_le_pos; lra|apply Rmult_le_pos; auto; apply Rmult_le_pos; lra].
        unfold Rsqr. replace (inner_error n c * (D * Dz) * (inner_error n c * (D * Dz))) with (inner_error n c * (D * D) * (inner_error n c * (Dz * Dz))) by ring.
        replace (rho * (q * V z) * (rho * (q * V z))) with (rho * V p * (rho * V z)) by (transitivity (rho * rho * (q * V z * (q * V z))); [rewrite Q2|]; ring).
        apply Rmult_le_compat; auto; apply Rmult_le_pos; auto; apply Rmult_le_pos; lra. }
      assert (C2' : Rabs (B2R zz - V z) <= rho * V z) by lra.
      pose proof (ip_cs n (freals p) (freals z)) as CS. fold (V p) (V z) in CS.
      assert (IB : Rabs (ip n (freals p) (freals z)) <= q * V z).
      { apply Rsqr_incr_0; [|apply Rabs_pos|apply Rmult_le_pos; lra]. rewrite <- Rsqr_abs. unfold Rsqr. rewrite Q2. exact CS. }
      set (AC := ip n (freals p) (freals z)) in *. set (CC := V z) in *.
      assert (zlow : 3 / 4 * CC <= B2R zz). { apply Rabs_le_inv in C2'. assert (rho * CC <= / 4 * CC) by (apply Rmult_le_compat_r; lra). lra. }
      assert (z0 : 0 < B2R zz) by lra.
      assert (tr : Rabs (AC / CC) <= q). { unfold Rdiv. rewrite Rabs_mult, Rabs_inv, (Rabs_pos_eq CC) by lra. apply (Rmult_le_reg_r CC); [lra|]. rewrite Rmult_assoc, Rinv_l by lra. lra. }
      assert (raw : Rabs (B2R pz / B2R zz - AC / CC) <= 8 / 3 * rho * q).
      { replace (B2R pz / B2R zz - AC / CC) with ((B2R pz - AC - AC / CC * (B2R zz - CC)) / B2R zz) by (field; lra).
        unfold Rdiv at 1. rewrite Rabs_mult, Rabs_inv, (Rabs_pos_eq (B2R zz)) by lra. apply (Rmult_le_reg_r (B2R zz)); [lra|]. rewrite Rmult_assoc, Rinv_l, Rmult_1_r by lra.
        apply Rle_trans with (rho * (q * CC) + q * (rho * CC)).
        - eapply Rle_trans; [apply Rabs_triang|]. rewrite Rabs_Ropp, Rabs_mult. apply Rplus_le_compat; auto. apply Rmult_le_compat; auto; apply Rabs_pos.
        - replace (rho * (q * CC) + q * (rho * CC)) with (8 / 3 * rho * q * (3 / 4 * CC)) by field. apply Rmult_le_compat_l; auto. apply Rmult_le_pos; [|lra]. nra. }
      assert (rq : 8 / 3 * rho * q <= 2 / 3 * q) by (apply Rmult_le_compat_r; lra).
      assert (mag : Rabs (B2R pz / B2R zz) <= 5 / 3 * q).
      { replace (B2R pz / B2R zz) with (B2R pz / B2R zz - AC / CC + AC / CC) by ring. eapply Rle_trans; [apply Rabs_triang|]. lra. }
      destruct (root_size p D Ip) as ((ql & qup) & _). fold q in ql, qup. assert (qlow : bpow radix2 (-900) <= 2 * q) by (pose proof (bpow_le radix2 (-900) (-450) ltac:(lia)); lra).
      intros t. split; [lra|].
      pose proof (round_abs (B2R pz / B2R zz) (2 * q) ltac:(lra) qlow) as RA.
      assert (Ft : is_finite t = true /\ B2R t = b64_round (B2R pz / B2R zz)).
      { apply (fin_div_small pz zz 451); auto; [lia|lra|].
        eapply Rle_trans; [exact mag|]. destruct (pow_bpow 451) as [p1 _]. change (Z.of_nat 451) with 451%Z in p1. rewrite p1.
        replace (2 ^ 451) with (2 * 2 ^ 450) by (rewrite (tech_pow_Rmult 2 450); reflexivity). lra. }
      destruct Ft as [Ft Rt]. split; [exact Ft|]. rewrite Rt.
      assert (er : Rabs (b64_round (B2R pz / B2R zz) - AC / CC) <= (3 * rho + / 2 ^ 50) * q).
      { replace (b64_round (B2R pz / B2R zz) - AC / CC) with ((b64_round (B2R pz / B2R zz) - B2R pz / B2R zz) + (B2R pz / B2R zz - AC / CC)) by ring.
        eapply Rle_trans; [apply Rabs_triang|]. assert (ulp1 * (2 * q) <= / 2 ^ 50 * q) by (unfold ulp1; nra).
        assert (8 / 3 * rho * q <= 3 * rho * q) by (apply Rmult_le_compat_r; lra). lra. }
      split; [|exact er].
      replace (b64_round (B2R pz / B2R zz)) with ((b64_round (B2R pz / B2R zz) - B2R pz / B2R zz) + B2R pz / B2R zz) by ring.
      eapply Rle_trans; [apply Rabs_triang|]. unfold ulp1 in RA. nra.
    Qed.

    Definition rdepth : nat := (n * n + 4 * n + 2 * c + 28)%nat.

    Lemma residual_close p D : In (p, D) [(x, Dx); (y, Dy); (z, Dz)] -> forall a w, outcome (u_distance_matrix E p (b64_ofZ 1)) = Ok a ->
      outcome (u_distance_matrix E z (b64_ofZ 1)) = Ok w ->
      exists q f tau, u_complementary_projection E w = Ok q /\ q a = Ok (tab2 n n f) /\ Rabs (tau - ip n (freals p) (freals z) / V z) <= (3 * rho + / 2 ^ 50) * root p /\ forall i j, (i < n)%nat -> (j < n)%nat ->
          apx (S (S depth)) (8 * (D + 2 * root p * Dz)) (f i j) (ucenter n (distances 1 (freals p)) i j - tau * ucenter n (distances 1 (freals z)) i j).
    Proof.
      intros Ip a w Ha Hw. assert (Iz : In (z, Dz) [(x, Dx); (y, Dy); (z, Dz)]) by (cbn; auto). pose proof few_depth as fw.
      destruct (u_sample p D Ip) as (fa & Ua & Aa). destruct (u_sample z Dz Iz) as (fz & Uz & Az). rewrite Ha in Ua. rewrite Hw in Uz. injection Ua as ->. injection Uz as ->.
      destruct (inner_apx p z D Dz Ip Iz) as (pz & Hpz & _). destruct (inner_apx z z Dz Dz Iz Iz) as (zz & Hzz & _).
      destruct (coefficient_close p D pz zz Ip Hpz Hzz) as (z0 & Ft & Mt & Et).
      rewrite (inner_mat E p z _ _ Ha Hw) in Hpz. rewrite (inner_mat E z z _ _ Hw Hw) in Hzz.
      unfold u_complementary_projection, u_projection. rewrite Hzz. cbn [rbind]. eexists. exists (fun i j => b64_sub (fa i j) (b64_mul (b64_div pz zz) (fz i j))), (B2R (b64_div pz zz)).
      split; [reflexivity|]. split; [|split; [exact Et|]].
      - rewrite EN. cbn [neqb nzero B64Num]. rewrite nonzero_eqb by auto. rewrite Hpz. cbn [rbind ndiv nmul nsub B64Num].
        rewrite tab2_map. unfold elt_op. rewrite same_shape_tab2, tab2_map2. reflexivity.
      - intros i j Hi Hj. pose proof (root_size p D Ip) as [q0 qz].
        destruct Hm as (_ & _ & Hs). destruct (Hs p D Ip) as (_ & _ & BD & _). destruct (Hs z Dz Iz) as (_ & _ & BZ & _).
        assert (b550 : bpow radix2 (-900) <= 2 * root p * (8 * Dz)).
        { destruct (pow_bpow 100) as [_ p2]. change (- Z.of_nat 100)%Z with (-100)%Z in p2.
          apply Rle_trans with (bpow radix2 (-450) * bpow radix2 (-100)); [rewrite <- bpow_plus; apply bpow_le; lia|].
          pose proof (bpow_gt_0 radix2 (-450)). pose proof (bpow_gt_0 radix2 (-100)). apply Rmult_le_compat; try lra. }
        pose proof (bpow_le radix2 (-900) (-450) ltac:(lia)) as b9. pose proof (bpow_gt_0 radix2 (-450)) as b4.
        assert (B251 : 2 * 2 ^ 450 <= BB) by (rewrite (tech_pow_Rmult 2 450); apply pow2_le; lia).
        assert (B256 : 16 * 2 ^ 250 + 8 * 2 ^ 200 <= BB).
        { assert (H3 : 2 ^ 200 <= 2 ^ 250) by (apply pow2_le; lia). apply Rle_trans with (2 ^ 5 * 2 ^ 250); [pose proof (pow_lt 2 200 ltac:(lra)); lra|].
          rewrite <- pow_add. apply pow2_le. lia. }
        pose proof (pow_lt 2 200 ltac:(lra)) as p200.
        assert (At : apx 0 (2 * root p) (b64_div pz zz) (B2R (b64_div pz zz))) by (apply apx_exact; auto; [right|]; lra).
        pose proof (apx_mul _ _ _ _ _ _ _ _ At (Az i j Hi Hj) ltac:(apply (few_le _ _ fw); lia) ltac:(lra) (or_intror b550)) as A1.
        pose proof (apx_sub _ _ _ _ _ _ _ (apx_k _ (S (0 + depth)) _ _ _ (Aa i j Hi Hj) ltac:(lia)) A1 ltac:(apply (few_le _ _ fw); lia) ltac:(lra)) as A2.
        replace (8 * (D + 2 * root p * Dz)) with (8 * D + 2 * root p * (8 * Dz)) by ring. exact A2.
    Qed.

    Lemma pcov_close : exists v, outcome (partial_distance_covariance E x y z) = Ok v /\ is_finite v = true /\
      Rabs (B2R v - pcov n (freals x) (freals y) (freals z))
        <= (INR n ^ 2 + 4 * INR n + 2 * INR c + 28) / 2 ^ 44 * ((Dx + 2 * root x * Dz) * (Dy + 2 * root y * Dz)) + (3 * rho + / 2 ^ 50) ^ 2 * sqrt (V x * V y).
    Proof.
      pose proof few_depth as fw. pose proof rho_pos as r0.
      assert (Ix : In (x, Dx) [(x, Dx); (y, Dy); (z, Dz)]) by (cbn; auto). assert (Iy : In (y, Dy) [(x, Dx); (y, Dy); (z, Dz)]) by (cbn; auto).
      assert (Iz : In (z, Dz) [(x, Dx); (y, Dy); (z, Dz)]) by (cbn; auto).
      destruct (udm_ok E x (b64_ofZ 1)) as (a & Ha & _). destruct (udm_ok E y (b64_ofZ 1)) as (b & Hb & _). destruct (udm_ok E z (b64_ofZ 1)) as (w & Hw & _).
      destruct (residual_close x Dx Ix a w Ha Hw) as (q & f & tau & Hq & Qa & Et & Af). destruct (residual_close y Dy Iy b w Hb Hw) as (q' & g & sig & Hq' & Qb & Es & Ag).
      rewrite Hq in Hq'. injection Hq' as <-.
      destruct (root_size x Dx Ix) as (qx & qxz). destruct (root_size y Dy Iy) as (qy & qyz).
      pose proof (bpow_gt_0 radix2 (-450)) as b4.
      assert (S300 : forall p D, In (p, D) [(x, Dx); (y, Dy); (z, Dz)] -> bpow radix2 (-400) <= 8 * (D + 2 * root p * Dz) <= 2 ^ 300).
      { intros p D Ip. destruct (root_size p D Ip) as (q1 & q2). destruct Hm as (_ & _ & Hs). destruct (Hs p D Ip) as (_ & _ & BD & _). pose proof (D_nonneg z Dz Iz) as z0.
        destruct (size8 D BD) as [s1 _]. assert (0 <= root p * Dz) by (apply Rmult_le_pos; lra). split; [lra|].
        assert (H3 : 2 ^ 200 <= 2 ^ 250) by (apply pow2_le; lia). apply Rle_trans with (2 ^ 5 * 2 ^ 250); [pose proof (pow_lt 2 200 ltac:(lra)); lra|].
        rewrite <- pow_add. apply pow2_le. lia. }
      destruct (fu_product lib GL E EN (S (S depth)) (S (S depth)) n _ _ f g _ _ n4 n18 (S300 x Dx Ix) (S300 y Dy Iy) ltac:(apply (few_le _ _ fw); lia) Af Ag) as (v & Hv' & [(Fv & Ev & _) _]).
      exists v. split; [|split; [exact Fv|]].
      - unfold partial_distance_covariance. assert (nunit (e_num E) = b64_ofZ 1) as -> by (rewrite EN; reflexivity).
        rewrite outcome_bind, Ha. cbn [rbind]. rewrite outcome_bind, Hb. cbn [rbind]. rewrite outcome_bind, Hw. cbn [rbind].
        rewrite outcome_bind, outcome_lift, Hq. cbn [rbind]. rewrite outcome_bind, outcome_lift, Qa. cbn [rbind]. rewrite outcome_bind, outcome_lift, Qb. cbn [rbind]. exact Hv'.
      - rewrite combination, <- !ip_uprod in Ev.
        destruct (Hv x Dx Ix) as [Bx _]. destruct (Hv y Dy Iy) as [By _]. destruct (Hv z Dz Iz) as [Bz _]. fold (V x) in Bx. fold (V y) in By. fold (V z) in Bz, Ev, Et, Es.
        assert (P450 : 0 < / 2 ^ 450) by (apply Rinv_0_lt_compat, pow_lt; lra).
        assert (PC : pcov n (freals x) (freals y) (freals z) = ip n (freals x) (freals y) - ip n (freals x) (freals z) * ip n (freals y) (freals z) / V z).
        { unfold pcov. fold (V z). destruct (Req_EM_T (V z) 0); [lra|reflexivity]. }
        rewrite PC. set (XY := ip n (freals x) (freals y)) in *. set (XZ := ip n (freals x) (freals z)) in *. set (YZ := ip n (freals y) (freals z)) in *.
        assert (ID : XY - sig * XZ - tau * YZ + tau * sig * V z = XY - XZ * YZ / V z + (tau - XZ / V z) * (sig - YZ / V z) * V z) by (field; lra).
        rewrite ID in Ev.
        replace (B2R v - (XY - XZ * YZ / V z)) with (B2R v - (XY - XZ * YZ / V z + (tau - XZ / V z) * (sig - YZ / V z) * V z) + (tau - XZ / V z) * (sig - YZ / V z) * V z) by ring.
        eapply Rle_trans; [apply Rabs_triang|]. apply Rplus_le_compat.
        + eapply Rle_trans; [exact Ev|].
          set (Mx := Dx + 2 * root x * Dz) in *. set (My := Dy + 2 * root y * Dz) in *.
          assert (M0 : 0 <= Mx * My) by (pose proof (S300 x Dx Ix) as SX; pose proof (S300 y Dy Iy) as SY; fold Mx in SX; fold My in SY; pose proof (bpow_gt_0 radix2 (-400)); apply Rmult_le_pos; lra).
          set (K := (S (S depth) + S (S depth) + n * n + 4)%nat).
          assert (KR : INR K = INR n ^ 2 + 4 * INR n + 2 * INR c + 28).
          { unfold K, depth. replace (S (S (c + 2 * n + 10)) + S (S (c + 2 * n + 10)) + n * n + 4)%nat with (n * n + 4 * n + 2 * c + 28)%nat by lia.
            repeat (rewrite ?plus_INR, ?mult_INR). cbn [INR]. ring. }
          rewrite <- KR. assert (f2 : few K) by (apply (few_le _ _ fw); unfold K, depth; lia). unfold few in f2. pose proof ulp1_pos as u0.
          assert (H1 : INR K * ulp1 <= / 2) by (apply Rle_trans with (2 ^ 40 * ulp1); [apply Rmult_le_compat_r; auto; lra|unfold ulp1; lra]).
          pose proof (gam_lin K H1) as GL1. replace (gam K * (4 * (8 * Mx * (8 * My)))) with (gam K * 256 * (Mx * My)) by ring.
          apply Rmult_le_compat_r; auto. unfold ulp1 in GL1. lra.
        + rewrite !Rabs_mult, (Rabs_pos_eq (V z)) by lra.
          assert (RR : root x * root y * V z = sqrt (V x * V y)).
          { unfold root. rewrite <- sqrt_mult by (apply Rlt_le, Rdiv_lt_0_compat; lra). rewrite <- (sqrt_square (V z)) at 3 by lra. rewrite <- sqrt_mult.
            - f_equal. field. lra.
            - apply Rmult_le_pos; apply Rlt_le, Rdiv_lt_0_compat; lra.
            - apply Rmult_le_pos; lra. }
          rewrite <- RR. set (e := 3 * rho + / 2 ^ 50) in *.
          replace (e ^ 2 * (root x * root y * V z)) with (e * root x * (e * root y) * V z) by ring. apply Rmult_le_compat_r; [lra|].
          apply Rmult_le_compat; auto; apply Rabs_pos.
    Qed.

    (** ** Given itself *)
    Lemma zero_isz (v : b64) : is_finite v = true -> B2R v = 0 -> isz v.
    Proof. intros F H. apply isz_exact. split; auto. Qed.
    Lemma one_mul (v : b64) : is_finite v = true -> is_finite (b64_mul (b64_ofZ 1) v) = true /\ B2R (b64_mul (b64_ofZ 1) v) = B2R v.
    Proof.
      intros F. destruct ofZ_1 as [F1 R1]. pose proof (Bmult_correct 53 1024 b64_prec b64_emax mode_NE (b64_ofZ 1) v) as H. fold (b64_mul (b64_ofZ 1) v) in H.
      rewrite R1, Rmult_1_l, F1, F in H. rewrite round_generic in H by (try apply valid_rnd_N; apply generic_format_B2R).
      rewrite Rlt_bool_true in H by (apply abs_B2R_lt_emax). destruct H as (H1 & H2 & _). auto.
    Qed.
    Lemma minus_own (v : b64) : is_finite v = true -> isz (b64_sub v (b64_mul (b64_ofZ 1) v)).
    Proof.
      intros F. destruct (one_mul v F) as [F1 R1]. destruct (fin_sub_small v (b64_mul (b64_ofZ 1) v) 0 ltac:(lia) F F1) as [F2 R2].
      - rewrite R1, Rminus_eq_0, Rabs_R0. apply bpow_ge_0.
      - apply zero_isz; auto. rewrite R2, R1, Rminus_eq_0. apply round_0, valid_rnd_N.
    Qed.
    Lemma own_ratio (v : b64) : is_finite v = true -> B2R v <> 0 -> b64_div v v = b64_ofZ 1.
    Proof.
      intros F Nz. destruct ofZ_1 as [F1 R1]. assert (Q : B2R v / B2R v = 1) by (field; auto).
      destruct (fin_div_small v v 0 ltac:(lia) F F Nz) as [Fd Rd]; [rewrite Q, Rabs_R1; cbn; lra|].
      rewrite Q in Rd. assert (Rr : b64_round 1 = 1) by (apply (b64_round_Z 1); cbn; lia). rewrite Rr in Rd.
      apply B2R_inj; [apply is_finite_strict_B2R; lra|apply is_finite_strict_B2R; lra|lra].
    Qed.

    Lemma itself_residual w : outcome (u_distance_matrix E z (b64_ofZ 1)) = Ok w ->
      exists q f, u_complementary_projection E w = Ok q /\ q w = Ok (tab2 n n f) /\ forall i j, (i < n)%nat -> (j < n)%nat -> isz (f i j).
    Proof.
      intros Hw. assert (Iz : In (z, Dz) [(x, Dx); (y, Dy); (z, Dz)]) by (cbn; auto).
      destruct (u_sample z Dz Iz) as (fz & Uz & Az). rewrite Hw in Uz. injection Uz as ->.
      destruct (inner_apx z z Dz Dz Iz Iz) as (zz & Hzz & [(Fz & _) _]).
      destruct (coefficient_close z Dz zz zz Iz Hzz Hzz) as (z0 & _).
      rewrite (inner_mat E z z _ _ Hw Hw) in Hzz.
      unfold u_complementary_projection, u_projection. rewrite Hzz. cbn [rbind]. eexists. exists (fun i j => b64_sub (fz i j) (b64_mul (b64_ofZ 1) (fz i j))).
      split; [reflexivity|]. split.
      - rewrite EN. cbn [neqb nzero B64Num]. rewrite nonzero_eqb by auto. rewrite Hzz. cbn [rbind ndiv nmul nsub B64Num].
        rewrite (own_ratio zz Fz z0), tab2_map. unfold elt_op. rewrite same_shape_tab2, tab2_map2. reflexivity.
      - intros i j Hi Hj. apply minus_own. destruct (Az i j Hi Hj) as [(F & _) _]. exact F.
    Qed.

    Lemma zero_product f g : (forall i j, (i < n)%nat -> (j < n)%nat -> zpair (f i j, g i j)) -> exists v, u_product E (tab2 n n f) (tab2 n n g) = Ok v /\ isz v.
    Proof.
      intros H. unfold u_product, elt_product, elt_op. rewrite same_shape_tab2. cbn [rbind]. rewrite tab2_map2, EN, tab2_length. eexists. split; [reflexivity|].
      cbn [ndiv nofZ nmul B64Num]. apply isz_div_ofZ; [|nia]. apply (isz_sum_of _ _ (np_sum_of lib _ GL)).
      apply Forall_concat. unfold tab2, tab. rewrite Forall_map. apply Forall_forall. intros i Hi. apply in_seq in Hi. rewrite Forall_map. apply Forall_forall. intros j Hj. apply in_seq in Hj.
      apply zpair_mul. apply H; lia.
    Qed.

    Lemma pcov_itself : x = z \/ y = z -> exists v, outcome (partial_distance_covariance E x y z) = Ok v /\ isz v.
    Proof.
      intros Hxz.
      assert (Ix : In (x, Dx) [(x, Dx); (y, Dy); (z, Dz)]) by (cbn; auto). assert (Iy : In (y, Dy) [(x, Dx); (y, Dy); (z, Dz)]) by (cbn; auto).
      destruct (udm_ok E x (b64_ofZ 1)) as (a & Ha & _). destruct (udm_ok E y (b64_ofZ 1)) as (b & Hb & _). destruct (udm_ok E z (b64_ofZ 1)) as (w & Hw & _).
      destruct (residual_close x Dx Ix a w Ha Hw) as (q & f & tau & Hq & Qa & _ & Af). destruct (residual_close y Dy Iy b w Hb Hw) as (q' & g & sig & Hq' & Qb & _ & Ag).
      destruct (itself_residual w Hw) as (q2 & h & Hq2 & Qz & Zh). rewrite Hq in Hq', Hq2. injection Hq' as <-. injection Hq2 as <-.
      assert (P : exists f' g', q a = Ok (tab2 n n f') /\ q b = Ok (tab2 n n g') /\ forall i j, (i < n)%nat -> (j < n)%nat -> zpair (f' i j, g' i j)).
      { destruct Hxz as [e|e].
        - exists h, g. assert (a = w) as -> by (rewrite e in Ha; congruence). do 2 (split; [assumption|]). intros i j Hi Hj. apply zp_l; auto. destruct (Ag i j Hi Hj) as [(F & _) _]. exact F.
        - exists f, h. assert (b = w) as -> by (rewrite e in Hb; congruence). do 2 (split; [assumption|]). intros i j Hi Hj. apply zp_r; auto. destruct (Af i j Hi Hj) as [(F & _) _]. exact F. }
      destruct P as (f' & g' & Q1 & Q2 & Hz). destruct (zero_product f' g' Hz) as (v & Hv' & Zv). exists v. split; [|exact Zv].
      unfold partial_distance_covariance. assert (nunit (e_num E) = b64_ofZ 1) as -> by (rewrite EN; reflexivity).
      rewrite outcome_bind, Ha. cbn [rbind]. rewrite outcome_bind, Hb. cbn [rbind]. rewrite outcome_bind, Hw. cbn [rbind].
      rewrite outcome_bind, outcome_lift, Hq. cbn [rbind]. rewrite outcome_bind, outcome_lift, Q1. cbn [rbind]. rewrite outcome_bind, outcome_lift, Q2. cbn [rbind]. exact Hv'.
    Qed.

    Lemma clipped_itself zz : inner E z z = Ok zz -> clipped_correlation E zz zz zz = b64_ofZ 1.
    Proof.
      intros Hzz. assert (Iz : In (z, Dz) [(x, Dx); (y, Dy); (z, Dz)]) by (cbn; auto). pose proof rho_pos as r0.
      destruct (inner_close z z Dz Dz Iz Iz) as (v2 & W2 & F2 & C2). rewrite Hzz in W2. injection W2 as <-. destruct (Hv z Dz Iz) as [Bz Rz]. fold (V z) in Bz, Rz, C2.
      assert (P450 : 0 < / 2 ^ 450) by (apply Rinv_0_lt_compat, pow_lt; lra).
      assert (rho * V z <= / 4 * V z) by (apply Rmult_le_compat_r; lra). apply Rabs_le_inv in C2.
      rewrite (clipped_fcorr lib E zz zz zz EN) by (auto; lra). rewrite self_ratio; auto.
      - unfold clip1. rewrite EN. reflexivity.
      - destruct (pow_bpow 500) as [p1 p2]. change (- Z.of_nat 500)%Z with (-500)%Z in p2. change (Z.of_nat 500) with 500%Z in p1. rewrite p1, p2.
        assert (/ 2 ^ 500 <= / 2 ^ 452) by (apply Rinv_le; [apply pow_lt; lra|apply pow2_le; lia]).
        assert (/ 2 ^ 452 = / 4 * / 2 ^ 450) by (change 452%nat with (2 + 450)%nat; rewrite pow_add, Rinv_mult; f_equal; f_equal; ring).
        assert (2 ^ 452 <= 2 ^ 500) by (apply pow2_le; lia). assert (2 ^ 452 = 4 * 2 ^ 450) by (change 452%nat with (2 + 450)%nat; rewrite pow_add; f_equal; ring). lra.
    Qed.

    Lemma pcor_itself : x = z \/ y = z -> exists v, outcome (partial_distance_correlation E x y z) = Ok v /\ isz v.
    Proof.
      intros Hxz. destruct Ht as ((_ & _ & _ & Lx & Ly & Lz & _) & _). rewrite freals_shape0 in Lx, Ly, Lz.
      destruct (pcor_run lib E x y z EN) as (aa & bb & cc & ab & ac & bc & Aa & Bb & Cc & Ab & Ac & Bc & ->); try congruence.
      assert (Ix : In (x, Dx) [(x, Dx); (y, Dy); (z, Dz)]) by (cbn; auto). assert (Iy : In (y, Dy) [(x, Dx); (y, Dy); (z, Dz)]) by (cbn; auto).
      assert (Iz : In (z, Dz) [(x, Dx); (y, Dy); (z, Dz)]) by (cbn; auto).
      destruct (clipped_close x z Dx Dz ac aa cc) as (F2 & B2 & E2); auto.
      destruct (clipped_close y z Dy Dz bc bb cc) as (F3 & B3 & E3); auto.
      pose proof (clipped_itself cc Cc) as One.
      assert (R1 : isz (rest lib (b64_ofZ 1))) by (exists false; vm_compute; reflexivity).
      assert (Zd : isz (denom lib (clipped_correlation E ac aa cc) (clipped_correlation E bc bb cc))).
      { unfold denom. destruct Hxz as [e|e].
        - assert (ac = cc) as -> by (rewrite e in Ac; congruence). assert (aa = cc) as -> by (rewrite e in Aa; congruence). rewrite One. apply isz_mul_l; auto. apply rest_real; auto.
        - assert (bc = cc) as -> by (rewrite e in Bc; congruence). assert (bb = cc) as -> by (rewrite e in Bb; congruence). rewrite One. apply isz_mul_r; auto. apply rest_real; auto. }
      eexists. split; [reflexivity|]. unfold quotient. destruct Zd as [s ->]. assert (Beqb (B754_zero s : b64) (B754_zero false) = true) as -> by (destruct s; reflexivity). eexists. reflexivity.
    Qed.

    Context (Hxz : dl <= 1 - cor x z * cor x z) (Hyz : dl <= 1 - cor y z * cor y z) (H16 : 16 * (3 * rho + / 2 ^ 49) <= dl).

    Lemma pcor_close : exists v, outcome (partial_distance_correlation E x y z) = Ok v /\ is_finite v = true /\
      Rabs (B2R v - corr (pcov n (freals x) (freals y) (freals z)) (pcov n (freals x) (freals x) (freals z)) (pcov n (freals y) (freals y) (freals z)))
        <= 16 * ((3 * rho + / 2 ^ 49) / dl).
    Proof.
      pose proof rho_pos as r0.
      destruct Ht as ((_ & _ & _ & Lx & Ly & Lz & _) & _). rewrite freals_shape0 in Lx, Ly, Lz.
      destruct (pcor_run lib E x y z EN) as (aa & bb & cc & ab & ac & bc & Aa & Bb & Cc & Ab & Ac & Bc & ->); try congruence.
      assert (Ix : In (x, Dx) [(x, Dx); (y, Dy); (z, Dz)]) by (cbn; auto). assert (Iy : In (y, Dy) [(x, Dx); (y, Dy); (z, Dz)]) by (cbn; auto).
      assert (Iz : In (z, Dz) [(x, Dx); (y, Dy); (z, Dz)]) by (cbn; auto).
      destruct (clipped_close x y Dx Dy ab aa bb) as (F1 & B1 & E1); auto. destruct (clipped_close x z Dx Dz ac aa cc) as (F2 & B2 & E2); auto.
      destruct (clipped_close y z Dy Dz bc bb cc) as (F3 & B3 & E3); auto.
      eexists. split; [reflexivity|].
      set (ex := corr (pcov n (freals x) (freals y) (freals z)) (pcov n (freals x) (freals x) (freals z)) (pcov n (freals y) (freals y) (freals z))).
      pose proof (ip_nonneg n (freals x) n4) as N1. pose proof (ip_nonneg n (freals y) n4) as N2. pose proof (ip_nonneg n (freals z) n4) as N3.
      pose proof (partial_formula (ip n (freals x) (freals y)) (ip n (freals x) (freals z)) (ip n (freals y) (freals z)) (ip n (freals x) (freals x)) (ip n (freals y) (freals y))
        (ip n (freals z) (freals z)) N1 N2 N3 (ip_cs _ _ _) (ip_cs _ _ _) (ip_cs _ _ _)) as PF. cbv zeta in PF.
      fold (cor x y) (cor x z) (cor y z) in PF.
      match type of PF with _ = ?w => change w with ex in PF end.
      assert (p49 : 0 < / 2 ^ 49) by lra.
      assert (S1 : 0 < sqrt (1 - cor x z * cor x z)) by (apply sqrt_lt_R0; lra). assert (S2 : 0 < sqrt (1 - cor y z * cor y z)) by (apply sqrt_lt_R0; lra).
      assert (SP : 0 < sqrt (1 - cor x z * cor x z) * sqrt (1 - cor y z * cor y z)) by (apply Rmult_lt_0_compat; auto).
      destruct (Reqb_spec (sqrt (1 - cor x z * cor x z) * sqrt (1 - cor y z * cor y z)) 0) as [C|_]; [lra|].
      assert (ER : -1 <= ex <= 1).
      { apply corr_range. change (pcov n (freals x) (freals y) (freals z)) with (pinner (ip n (freals x) (freals y)) (ip n (freals x) (freals z)) (ip n (freals y) (freals z)) (ip n (freals z) (freals z))).
        change (pcov n (freals x) (freals x) (freals z)) with (pinner (ip n (freals x) (freals x)) (ip n (freals x) (freals z)) (ip n (freals x) (freals z)) (ip n (freals z) (freals z))).
        change (pcov n (freals y) (freals y) (freals z)) with (pinner (ip n (freals y) (freals y)) (ip n (freals y) (freals z)) (ip n (freals y) (freals z)) (ip n (freals z) (freals z))).
        rewrite !ip_uprod, <- !uprod_residual by exact n4. apply uprod_cs. }
      assert (CR : forall p q, -1 <= cor p q <= 1) by (intros; apply corr_range, ip_cs).
      rewrite <- PF. apply quotient_error; auto; try lra.
      rewrite <- PF in ER. set (SS := sqrt (1 - cor x z * cor x z) * sqrt (1 - cor y z * cor y z)) in *.
      set (num := cor x y - cor x z * cor y z) in *. replace num with (num / SS * SS) by (field; lra).
      rewrite Rabs_mult, (Rabs_pos_eq SS) by lra. rewrite <- (Rmult_1_l SS) at 3. apply Rmult_le_compat_r; [lra|]. apply Rabs_le. lra.
    Qed.
  End Accuracy.
End Data.

(** ** The theorems *)

(** The conditioning of the three samples: their distance variances are of ordinary size, and the rounding error of each is
    at most [rho] of it. *)
Definition well_conditioned (n c : nat) (rho : R) (l : list (array b64 * R)) : Prop :=
  rho <= / 4 /\ forall w D, In (w, D) l -> let v := udcov2 n (distances 1 (freals w)) (distances 1 (freals w)) in
    / 2 ^ 450 <= v <= 2 ^ 450 /\ (INR n ^ 2 + 4 * INR n + 2 * INR c + 24) / 2 ^ 44 * (D * D) <= rho * v.

(** On the data: no overflow, also for constant samples. *)
Theorem C77_correlation_data lib E n c x y z Dx Dy Dz : valid_fenv lib E -> double_triple n x y z -> moderate_triple n c x y z Dx Dy Dz ->
  exists v, outcome (partial_distance_correlation E x y z) = Ok v /\ is_finite v = true /\ Rabs (B2R v) <= 2 ^ 55.
Proof. intros HE Ht Hm. exact (data_finite lib E HE n c x y z Dx Dy Dz Ht Hm). Qed.

(** The exact partial correlation. *)
Definition pcor (n : nat) (x y z : array R) : R := corr (pcov n x y z) (pcov n x x z) (pcov n y y z).

Theorem C77_correlation_accuracy lib E n c x y z Dx Dy Dz rho dl : valid_fenv lib E -> double_triple n x y z -> moderate_triple n c x y z Dx Dy Dz ->
  well_conditioned n c rho [(x, Dx); (y, Dy); (z, Dz)] ->
  let cor p q := udcor2 n (distances 1 (freals p)) (distances 1 (freals q)) in
  dl <= 1 - cor x z ^ 2 -> dl <= 1 - cor y z ^ 2 -> 16 * (3 * rho + / 2 ^ 49) <= dl ->
  exists v, outcome (partial_distance_correlation E x y z) = Ok v /\ is_finite v = true /\
    Rabs (B2R v - pcor n (freals x) (freals y) (freals z)) <= 16 * (3 * rho + / 2 ^ 49) / dl.
Proof.
  intros HE Ht Hm [Hr Hv] cor H1 H2 H3.
  destruct (pcor_close lib E HE n c x y z Dx Dy Dz Ht Hm rho dl Hr Hv) as (v & A & B & Cl).
  - eapply Rle_trans; [exact H1|]. apply Req_le. cbn [pow]. rewrite Rmult_1_r. reflexivity.
  - eapply Rle_trans; [exact H2|]. apply Req_le. cbn [pow]. rewrite Rmult_1_r. reflexivity.
  - exact H3.
  - exists v. do 2 (split; [assumption|]). unfold pcor. replace (16 * (3 * rho + / 2 ^ 49) / dl) with (16 * ((3 * rho + / 2 ^ 49) / dl)) by (unfold Rdiv; ring). exact Cl.
Qed.

(** The projections amplify the distances of x by the ratio of the standard deviations of x and z. *)
Theorem C77_covariance_accuracy lib E n c x y z Dx Dy Dz rho : valid_fenv lib E -> double_triple n x y z -> moderate_triple n c x y z Dx Dy Dz ->
  well_conditioned n c rho [(x, Dx); (y, Dy); (z, Dz)] ->
  let v w := udcov2 n (distances 1 (freals w)) (distances 1 (freals w)) in let size w D := D + 2 * sqrt (v w / v z) * Dz in
  exists r, outcome (partial_distance_covariance E x y z) = Ok r /\ is_finite r = true /\
    Rabs (B2R r - pcov n (freals x) (freals y) (freals z))
      <= (INR n ^ 2 + 4 * INR n + 2 * INR c + 28) / 2 ^ 44 * (size x Dx * size y Dy) + (3 * rho + / 2 ^ 50) ^ 2 * sqrt (v x * v y).
Proof. intros HE Ht Hm [Hr Hv]. exact (pcov_close lib E HE n c x y z Dx Dy Dz Ht Hm rho Hr Hv). Qed.

(** Given one of the two samples itself, both are exactly zero. *)
Theorem C77_given_itself lib E n c x y z Dx Dy Dz rho : valid_fenv lib E -> double_triple n x y z -> moderate_triple n c x y z Dx Dy Dz ->
  well_conditioned n c rho [(x, Dx); (y, Dy); (z, Dz)] -> x = z \/ y = z ->
  (exists v, outcome (partial_distance_covariance E x y z) = Ok v /\ exact v 0) /\ (exists v, outcome (partial_distance_correlation E x y z) = Ok v /\ exact v 0).
Proof.
  intros HE Ht Hm [Hr Hv] Hz. split.
  - destruct (pcov_itself lib E HE n c x y z Dx Dy Dz Ht Hm rho Hr Hv Hz) as (v & H1 & H2). exists v. split; auto. apply isz_exact; auto.
  - destruct (pcor_itself lib E HE n c x y z Dx Dy Dz Ht Hm rho Hr Hv Hz) as (v & H1 & H2). exists v. split; auto. apply isz_exact; auto.
Qed.

(** ** Given a constant *)
Lemma minus_zeros : forall (a w : list (list b64)), Forall2 (fun r s => length r = length s) a w ->
  map2 (map2 b64_sub) a (map (map (fun _ => B754_zero false : b64)) w) = a.
Proof.
  assert (Row : forall (r s : list b64), length r = length s -> map2 b64_sub r (map (fun _ => B754_zero false : b64) s) = r).
  { induction r as [|u r IH]; intros [|v s] H; cbn in H; try lia; [reflexivity|]. cbn. f_equal; [|apply IH; lia]. destruct u as [[]|[]| |]; reflexivity. }
  induction 1 as [|r s a w H F IH]; [reflexivity|]. cbn. f_equal; [apply Row; auto|exact IH].
Qed.
Lemma mat_Forall2 n (a w : list (list b64)) : mat n a -> mat n w -> Forall2 (fun r s => length r = length s) a w.
Proof.
  intros [La Ha] [Lw Hw]. assert (L : length a = length w) by congruence. clear La Lw. revert w L Hw.
  induction Ha as [|r a Hr Ha IH]; intros [|s w] L Hw; cbn in L; try lia; constructor; inversion Hw; subst; auto.
Qed.

(** When the computed distance variance of z is a zero, the partial covariance is bit for bit the inner product of x and y. *)
Theorem C77_given_nothing lib E x y z zz : e_num E = B64Num lib -> shape0 x = shape0 z -> shape0 y = shape0 z -> inner E z z = Ok zz -> exact zz 0 ->
  outcome (partial_distance_covariance E x y z) = inner E x y.
Proof.
  intros EN Hx Hy Hzz Zz. apply isz_exact in Zz. destruct (udm_ok E x (b64_ofZ 1)) as (a & Ha & Ma). destruct (udm_ok E y (b64_ofZ 1)) as (b & Hb & Mb).
  destruct (udm_ok E z (b64_ofZ 1)) as (w & Hw & Mw). rewrite Hx in Ma. rewrite Hy in Mb.
  rewrite (inner_mat E x y a b Ha Hb). rewrite (inner_mat E z z w w Hw Hw) in Hzz.
  unfold partial_distance_covariance. assert (nunit (e_num E) = b64_ofZ 1) as -> by (rewrite EN; reflexivity).
  rewrite outcome_bind, Ha. cbn [rbind]. rewrite outcome_bind, Hb. cbn [rbind]. rewrite outcome_bind, Hw. cbn [rbind].
  rewrite outcome_bind, outcome_lift. unfold u_complementary_projection, u_projection. rewrite Hzz. cbn [rbind].
  assert (Q : neqb (e_num E) zz (nzero (e_num E)) = true) by (rewrite EN; destruct Zz as [[] ->]; reflexivity). rewrite Q. cbn [rbind].
  assert (P : forall m, mat (shape0 z) m -> elt_op (nsub (e_num E)) m (map (map (fun _ => nzero (e_num E))) w) = Ok m).
  { intros m Mm. unfold elt_op. rewrite (same_shape_mat (shape0 z)); auto.
    - rewrite EN. cbn [nsub nzero B64Num]. f_equal. apply minus_zeros. apply (mat_Forall2 _ _ _ Mm Mw).
    - destruct Mw as [L F]. split; [rewrite map_length; auto|]. rewrite Forall_map. eapply Forall_impl; [|exact F]. intros r Hr. rewrite map_length. exact Hr. }
  rewrite outcome_bind, outcome_lift, P by auto. cbn [rbind]. rewrite outcome_bind, outcome_lift, P by auto. cbn [rbind]. reflexivity.
Qed.

(** For instance when all the observations of z are equal: any x and y, also with infinities and NaN. *)
Theorem C77_given_constant lib E x y z : valid_fenv lib E -> wf z -> (4 <= shape0 z)%nat -> shape0 x = shape0 z -> shape0 y = shape0 z ->
  fconstant z -> is_float64 z -> outcome (partial_distance_covariance E x y z) = inner E x y.
Proof.
  intros HE Wz Hn Hx Hy Cz Fz. pose proof (vf_num _ _ HE) as EN. pose proof (vf_lib _ _ HE) as GL. set (n := shape0 z) in *.
  pose proof (fdmg_u lib E EN n z _ (pairwise_fdist lib E HE z (b64_ofZ 1) Wz)) as U.
  set (d := fun i j => fdist_of lib E z (b64_ofZ 1) (frow_of z i) (frow_of z j)) in *.
  assert (Zd : forall i j, (i < n)%nat -> (j < n)%nat -> isz (d i j)) by (intros i j Hi Hj; apply (constant_dist lib E HE); auto; left; reflexivity).
  assert (Sum : forall f, (forall i, (i < n)%nat -> isz (f i)) -> isz (fsum lib n f)).
  { intros f Hf. unfold fsum. apply (isz_sum_of _ _ (np_sum_of lib _ GL)). unfold tab. rewrite Forall_map. apply Forall_forall. intros i Hi. apply in_seq in Hi. apply Hf. lia. }
  assert (Zu : forall i j, (i < n)%nat -> (j < n)%nat -> isz (fuc lib n d i j)).
  { intros i j Hi Hj. unfold fuc. destruct (j =? i)%nat; [eexists; reflexivity|].
    assert (Mean : forall k, (k < n)%nat -> isz (b64_div (fsum lib n (d k)) (b64_ofZ (Z.of_nat n - 2)))) by (intros k Hk; apply isz_div_ofZ; [apply Sum; auto|lia]).
    apply isz_add; [apply isz_sub; auto; apply isz_sub; auto|]. apply isz_div_ofZ; [apply Sum; intros; apply Sum; auto|nia]. }
  assert (P : exists v, u_product E (tab2 n n (fuc lib n d)) (tab2 n n (fuc lib n d)) = Ok v /\ isz v).
  { unfold u_product, elt_product, elt_op. rewrite same_shape_tab2. cbn [rbind]. rewrite tab2_map2, EN, tab2_length. eexists. split; [reflexivity|].
    cbn [ndiv nofZ nmul B64Num]. apply isz_div_ofZ; [|nia]. apply (isz_sum_of _ _ (np_sum_of lib _ GL)).
    apply Forall_concat. unfold tab2, tab. rewrite Forall_map. apply Forall_forall. intros i Hi. apply in_seq in Hi. rewrite Forall_map. apply Forall_forall. intros j Hj. apply in_seq in Hj.
    apply isz_mul_l; [apply Zu; lia|]. assert (Z : isz (fuc lib n d i j)) by (apply Zu; lia). destruct Z as [s ->]. reflexivity. }
  destruct P as (v & Hv & Zv). apply (C77_given_nothing lib E x y z v EN Hx Hy); [rewrite (inner_mat E z z _ _ U U); exact Hv|apply isz_exact; auto].
Qed.

(** ** The range is lost *)

Lemma ints_triple n l m k : length l = n -> length m = n -> length k = n -> (4 <= n)%nat -> Forall (fun z => (Z.abs z <= 2 ^ 53)%Z) l ->
  Forall (fun z => (Z.abs z <= 2 ^ 53)%Z) m -> Forall (fun z => (Z.abs z <= 2 ^ 53)%Z) k -> double_triple n (ints l) (ints m) (ints k).
Proof.
  intros Hl Hm Hk Hn Fl Fm Fk. destruct (ints_pair n l m Hl Hm ltac:(lia) Fl Fm) as ((W1 & W2 & S1 & S2 & _) & D1 & D2 & E1 & E2).
  destruct (ints_pair n k k Hk Hk ltac:(lia) Fk Fk) as ((W3 & _ & S3 & _) & D3 & _ & E3 & _).
  split; [repeat split; auto|]. intros w [<-|[<-|[<-|[]]]]; auto.
Qed.

(** The exact partial correlation is between -1 and 1 (C23); the computed one is not.  Here z = 3x, so the exact value is 0,
    and the computed value is -2. *)
Theorem C77_range_refuted : exists E x y z v, valid_fenv plain E /\ double_triple 5 x y z /\
  (forall i, (i < 5)%nat -> obs (freals z) i 0 = 3 * obs (freals x) i 0) /\ outcome (partial_distance_correlation E x y z) = Ok v /\ B2R v = -2.
Proof.
  set (x := ints [9; 2; 9; 2; 2]%Z). set (y := ints [6; 0; 3; 0; 0]%Z). set (z := ints [27; 6; 27; 6; 6]%Z).
  assert (V : sf (outcome (partial_distance_correlation env_F x y z)) = Ok (SpecFloat.S754_finite true 4503599627370496 (-51))) by (vm_compute; reflexivity).
  destruct (sf_ok _ _ V ltac:(discriminate)) as [V1 V2].
  exists env_F, x, y, z. eexists. split; [exact env_F_valid|]. split; [|split; [|split; [exact V1|]]].
  - apply ints_triple; try reflexivity; [lia| | |]; repeat (constructor; [lia|]); constructor.
  - assert (Z : forall z, (Z.abs z <= 2 ^ 53)%Z -> B2R (b64_ofZ z) = IZR z) by (intros k Hk; destruct (rep_ofZ k Hk) as (_ & H & _); exact H).
    intros i Hi. assert (O : forall l, obs (freals (ints l)) i 0 = nth i (map B2R (map b64_ofZ l)) 0) by reflexivity.
    unfold x, z. rewrite !O. rewrite !map_map. destruct i as [|[|[|[|[|i]]]]]; cbn [map nth]; try lia; rewrite !Z by (cbn; lia); lra.
  - rewrite (B2SF_real _ _ _ _ V2). unfold F2R. cbn [Fnum Fexp cond_Zopp]. change (bpow radix2 (-51)) with (/ 2251799813685248). change (- (4503599627370496))%Z with (-4503599627370496)%Z. lra.
Qed.

(** ** Cases that meet the hypotheses: (3, 1, 2, 1, 5), (0, 2, 2, 7, 1) and (0, 0, 0, 2, 2), with partial covariance 4/9 *)
Definition zi : array b64 := ints [0; 0; 0; 2; 2]%Z.
Definition zs : array R := mkArr Numpy F64 (Vec [0; 0; 0; 2; 2]).
Lemma zi_zs : freals zi = zs.
Proof. apply (ints_freals [0; 0; 0; 2; 2]%Z). repeat constructor; cbn; lia. Qed.
Definition dz (i j : nat) : R := IZR (nth j (nth i [[0;0;0;2;2];[0;0;0;2;2];[0;0;0;2;2];[2;2;2;0;0];[2;2;2;0;0]] [])%Z 0%Z).
Lemma zs_dist i j : (i < 5)%nat -> (j < 5)%nat -> distances 1 zs i j = dz i j.
Proof.
  intros Hi Hj. rewrite distances_1 by reflexivity. unfold obs, dz; cbn [adata zs nth].
  destruct i as [|[|[|[|[|i]]]]]; try lia; destruct j as [|[|[|[|[|j]]]]]; try lia; cbn;
    match goal with |- Rabs ?a = _ => (rewrite (Rabs_right a) by lra) || (rewrite (Rabs_left a) by lra) end; lra.
Qed.
Lemma dz_2 i j : (i < 5)%nat -> (j < 5)%nat -> 0 <= dz i j <= 2.
Proof. intros Hi Hj. destruct i as [|[|[|[|[|i]]]]]; try lia; destruct j as [|[|[|[|[|j]]]]]; try lia; unfold dz; cbn; lra. Qed.
Lemma zs_cov : udcov2 5 dx dz = - (8 / 15) /\ udcov2 5 dy dz = - (4 / 15) /\ udcov2 5 dz dz = 8 / 5.
Proof.
  assert (forall a, rsum2 5 5 a = a 0%nat 0%nat + a 0%nat 1%nat + a 0%nat 2%nat + a 0%nat 3%nat + a 0%nat 4%nat + a 1%nat 0%nat + a 1%nat 1%nat + a 1%nat 2%nat + a 1%nat 3%nat + a 1%nat 4%nat + a 2%nat 0%nat + a 2%nat 1%nat + a 2%nat 2%nat + a 2%nat 3%nat + a 2%nat 4%nat + a 3%nat 0%nat + a 3%nat 1%nat + a 3%nat 2%nat + a 3%nat 3%nat + a 3%nat 4%nat + a 4%nat 0%nat + a 4%nat 1%nat + a 4%nat 2%nat + a 4%nat 3%nat + a 4%nat 4%nat) as H2
    by (intros; unfold rsum2; cbn [rsum]; ring).
  assert (forall f : nat -> R, rsum 5 f = f 0%nat + f 1%nat + f 2%nat + f 3%nat + f 4%nat) as H1 by (intros; cbn; ring).
  repeat split; unfold udcov2, uprod; rewrite H2; unfold ucenter; cbn [Nat.eqb]; rewrite !H2, !H1; unfold dx, dy, dz; cbn; lra.
Qed.
Lemma zi_spread : spread 5 zi.
Proof. apply int_spread. intros i k Hi Hk. cbn in Hk. rewrite zi_zs. destruct i as [|[|[|[|[|i]]]]]; try lia; cbn; eexists; (split; [reflexivity|lia]). Qed.

Lemma example_ips : ip 5 (freals xi) (freals xi) = 16 / 15 /\ ip 5 (freals yi) (freals yi) = 2 / 5 /\ ip 5 (freals xi) (freals yi) = 8 / 15 /\
  ip 5 (freals zi) (freals zi) = 8 / 5 /\ ip 5 (freals xi) (freals zi) = - (8 / 15) /\ ip 5 (freals yi) (freals zi) = - (4 / 15).
Proof.
  destruct xs_ys_cov as (H1 & H2 & H3). destruct zs_cov as (H4 & H5 & H6). unfold ip. rewrite xi_xs, yi_ys, zi_zs.
  rewrite (udcov2_ext 5 (distances 1 xs) (distances 1 xs) dx dx), (udcov2_ext 5 (distances 1 ys) (distances 1 ys) dy dy), (udcov2_ext 5 (distances 1 xs) (distances 1 ys) dx dy),
    (udcov2_ext 5 (distances 1 zs) (distances 1 zs) dz dz), (udcov2_ext 5 (distances 1 xs) (distances 1 zs) dx dz), (udcov2_ext 5 (distances 1 ys) (distances 1 zs) dy dz)
    by auto using xs_dist, ys_dist, zs_dist. tauto.
Qed.

Lemma example_triple : double_triple 5 xi yi zi.
Proof. apply ints_triple; try reflexivity; [lia| | |]; repeat (constructor; [lia|]); constructor. Qed.
Lemma example_moderate : moderate_triple 5 1 xi yi zi 4 7 2.
Proof.
  assert (B : forall D, 1 <= D <= 8 -> / 2 ^ 100 <= D <= 2 ^ 200).
  { intros D HD. assert (8 <= 2 ^ 200) by (replace 8 with (2 ^ 3) by ring; apply Rle_pow; [lra|lia]).
    assert (/ 2 ^ 100 <= 1) by (rewrite <- Rinv_1; apply Rinv_le_contravar; [lra|]; apply pow_R1_Rle; lra). lra. }
  split; [cbn; lia|]. split; [cbn; lia|]. intros w D I. cbn [In] in I. destruct I as [[= <- <-]|[[= <- <-]|[[= <- <-]|[]]]]; (split; [cbn; lia|]).
  - split; [exact xi_spread|]. split; [apply B; lra|]. intros i j Hi Hj. rewrite xi_xs, xs_dist by auto. apply dx_4; auto.
  - split; [exact yi_spread|]. split; [apply B; lra|]. intros i j Hi Hj. rewrite yi_ys, ys_dist by auto. apply dy_7; auto.
  - split; [exact zi_spread|]. split; [apply B; lra|]. intros i j Hi Hj. rewrite zi_zs, zs_dist by auto. apply dz_2; auto.
Qed.
Lemma example_conditioned : well_conditioned 5 1 (/ 2 ^ 29) [(xi, 4); (yi, 7); (zi, 2)].
Proof.
  destruct example_ips as (H1 & H2 & _ & H4 & _). unfold ip in *. split; [lra|]. intros w D I. cbn [In] in I.
  destruct I as [[= <- <-]|[[= <- <-]|[[= <- <-]|[]]]]; cbv zeta; rewrite ?H1, ?H2, ?H4; (split; [apply pow450; lra|]); cbn [INR]; lra.
Qed.

Example C77_meets_covariance : exists r, outcome (partial_distance_covariance env_F xi yi zi) = Ok r /\ is_finite r = true /\ Rabs (B2R r - 4 / 9) <= / 2 ^ 25.
Proof.
  destruct (C77_covariance_accuracy plain env_F 5 1 xi yi zi 4 7 2 (/ 2 ^ 29) env_F_valid example_triple example_moderate example_conditioned) as (r & H1 & H2 & H3).
  exists r. do 2 (split; [assumption|]). destruct example_ips as (I1 & I2 & I3 & I4 & I5 & I6).
  assert (P : pcov 5 (freals xi) (freals yi) (freals zi) = 4 / 9) by (unfold pcov; rewrite I3, I4, I5, I6; destruct (Req_EM_T (8 / 5) 0); lra).
  rewrite P in H3. unfold ip in I1, I2, I4. cbv zeta in H3. rewrite I1, I2, I4 in H3. eapply Rle_trans; [exact H3|].
  assert (S1 : 0 <= sqrt (16 / 15 / (8 / 5)) <= 1) by (split; [apply sqrt_pos|]; rewrite <- sqrt_1; apply sqrt_le_1_alt; lra).
  assert (S2 : 0 <= sqrt (2 / 5 / (8 / 5)) <= 1) by (split; [apply sqrt_pos|]; rewrite <- sqrt_1; apply sqrt_le_1_alt; lra).
  assert (S3 : 0 <= sqrt (16 / 15 * (2 / 5)) <= 1) by (split; [apply sqrt_pos|]; rewrite <- sqrt_1; apply sqrt_le_1_alt; lra).
  assert (M : (4 + 2 * sqrt (16 / 15 / (8 / 5)) * 2) * (7 + 2 * sqrt (2 / 5 / (8 / 5)) * 2) <= 8 * 11) by (apply Rmult_le_compat; lra).
  cbn [INR pow]. nra.
Qed.

Example C77_meets_correlation : exists r, outcome (partial_distance_correlation env_F xi yi zi) = Ok r /\ is_finite r = true /\
  Rabs (B2R r - pcor 5 xs ys zs) <= / 2 ^ 22.
Proof.
  destruct example_ips as (I1 & I2 & I3 & I4 & I5 & I6).
  assert (SQ : forall c u v, 0 < u * v -> corr c u v ^ 2 = c * c / (u * v)).
  { intros c u v H. unfold corr. destruct (Req_EM_T (u * v) 0); [lra|]. cbn [pow]. rewrite Rmult_1_r. replace (c / sqrt (u * v) * (c / sqrt (u * v))) with (c * c / (sqrt (u * v) * sqrt (u * v))).
    - rewrite sqrt_sqrt by lra. reflexivity.
    - field. pose proof (sqrt_lt_R0 _ H). lra. }
  destruct (C77_correlation_accuracy plain env_F 5 1 xi yi zi 4 7 2 (/ 2 ^ 29) (5 / 6) env_F_valid example_triple example_moderate example_conditioned) as (r & H1 & H2 & H3).
  - unfold udcor2. fold (ip 5 (freals xi) (freals zi)) (ip 5 (freals xi) (freals xi)) (ip 5 (freals zi) (freals zi)). rewrite I1, I4, I5, SQ by lra. lra.
  - unfold udcor2. fold (ip 5 (freals yi) (freals zi)) (ip 5 (freals yi) (freals yi)) (ip 5 (freals zi) (freals zi)). rewrite I2, I4, I6, SQ by lra. lra.
  - lra.
  - exists r. do 2 (split; [assumption|]). rewrite xi_xs, yi_ys, zi_zs in H3. lra.
Qed.

Example C77_meets_itself : (exists v, outcome (partial_distance_covariance env_F xi yi xi) = Ok v /\ exact v 0) /\
  (exists v, outcome (partial_distance_correlation env_F xi yi xi) = Ok v /\ exact v 0).
Proof.
  destruct example_triple as [(W1 & W2 & W3 & L1 & L2 & L3 & L4) F]. destruct example_moderate as (N1 & N2 & M). destruct example_conditioned as [R1 R2].
  apply (C77_given_itself plain env_F 5 1 xi yi xi 4 7 4 (/ 2 ^ 29)); auto using env_F_valid.
  - split; [repeat split; auto|]. intros w [<-|[<-|[<-|[]]]]; apply F; cbn; auto.
  - split; [exact N1|]. split; [exact N2|]. intros w D [[= <- <-]|[[= <- <-]|[[= <- <-]|[]]]]; apply M; cbn; auto.
  - split; [exact R1|]. intros w D [[= <- <-]|[[= <- <-]|[[= <- <-]|[]]]]; apply R2; cbn; auto.
Qed.

Example C77_meets_constant : fconstant (ints [3; 3; 3; 3; 3]%Z) /\ is_float64 (ints [3; 3; 3; 3; 3]%Z) /\ wf (ints [3; 3; 3; 3; 3]%Z).
Proof.
  split; [|split; [reflexivity|repeat constructor]]. intros i k Hi Hk. cbn in Hi, Hk.
  destruct i as [|[|[|[|[|i]]]]]; try lia; destruct k; try lia; split; reflexivity.
Qed.
