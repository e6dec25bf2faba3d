(** C87, continued: distance_covariance, the square root of the covariance.  It is multiplied by 2^j if k + l = 2j, in particular by 2^k
    if both samples are multiplied by 2^k. *)
From Coq Require Import Reals Lra Lia List Arith Bool ZArith Psatz.
From Flocq Require Import Core IEEE754.BinarySingleNaN.
From Verif Require Import Num Numpy MUtils MDistances MInternals MMergesort MAvl MDcor MInteger MFloat Sums Spec Tab Samples RefDist RefDcor Api Witness
  Calls AvlGeneric RefInteger RefFloat FloatApi FloatSum FloatEnv FloatError FloatCorr FloatAvlVar PInteger PFloat FloatNaive PFloatCorr PMergeFloat
  FloatScale FloatScaleAvl FloatScaleMerge PFloatScale PFloatScaleAvl PFloatScaleAvlCor PFloatScaleMerge.
Import ListNotations.
Local Open Scope R_scope.
Local Notation p2 := (bpow radix2).

Lemma tiny_double (v : b64) : is_finite v = true -> B2R v = 0 \/ p2 (-1074) <= Rabs (B2R v).
Proof.
  intros F. pose proof (generic_format_B2R 53 1024 v) as G. apply FLT_format_generic in G; [|reflexivity].
  destruct G as [[m e] G1 _ G3]. cbn [Fexp] in G3. change (-1074 <= e)%Z in G3. rewrite G1. unfold F2R. cbn [Fnum Fexp].
  destruct (Z.eq_dec m 0) as [-> | H]; [left; ring|right]. rewrite Rabs_mult, (Rabs_pos_eq (p2 e)) by apply bpow_ge_0. rewrite <- abs_IZR.
  assert (1 <= IZR (Z.abs m)) by (apply IZR_le; lia). assert (p2 (-1074) <= p2 e) by (apply bpow_le; lia). pose proof (bpow_gt_0 radix2 e). nra.
Qed.

(** The root of a double is a normal double or zero, so it scales exactly. *)
Lemma root_scaled lib j (v v' : b64) : (-40 <= j <= 40)%Z -> is_finite v = true -> is_finite v' = true -> B2R v' = powerRZ 2 (2 * j) * B2R v ->
  is_finite (sqrt_clamp (B64Num lib) v) = true /\ is_finite (sqrt_clamp (B64Num lib) v') = true /\
  B2R (sqrt_clamp (B64Num lib) v') = powerRZ 2 j * B2R (sqrt_clamp (B64Num lib) v).
Proof.
  intros J F F' S. rewrite <- !(bpow_powerRZ radix2) in *. pose proof (bpow_gt_0 radix2 (2 * j)) as P2.
  unfold sqrt_clamp. cbn [nltb nzero nsqrt B64Num]. rewrite !Bltb_correct by auto. cbn [B2R].
  destruct (Rlt_bool_spec (B2R v) 0) as [N|P].
  - rewrite Rlt_bool_true by (rewrite S; nra). cbn. split; auto. split; auto. lra.
  - assert (P' : 0 <= B2R v') by (rewrite S; nra). rewrite Rlt_bool_false by auto.
    destruct (sqrt_real v F P) as (G1 & G2). destruct (sqrt_real v' F' P') as (G3 & G4). split; [exact G1|]. split; [exact G3|].
    rewrite G2, G4, S, sqrt_mult_alt by apply bpow_ge_0. rewrite sqrt_bpow. apply rnd_scale.
    destruct (tiny_double v F) as [-> | T]; [left; apply sqrt_0|right]. rewrite Rabs_pos_eq in T by auto.
    assert (L : p2 (-537) <= sqrt (B2R v)) by (rewrite <- sqrt_bpow; apply sqrt_le_1_alt; exact T).
    rewrite Rabs_mult, (Rabs_pos_eq (p2 j)), (Rabs_pos_eq (sqrt (B2R v))) by (apply bpow_ge_0 || apply sqrt_pos). split.
    + eapply Rle_trans; [|exact L]. apply bpow_le. lia.
    + apply Rle_trans with (p2 j * p2 (-537)); [rewrite <- bpow_plus; apply bpow_le; lia|apply Rmult_le_compat_l; auto using bpow_ge_0].
Qed.

Lemma dcov_of_sqr {T} (E : Env T) x y e m cm r : call DcovSqr E x y e m cm = Ok r -> call Dcov E x y e m cm = Ok (sqrt_clamp (e_num E) r).
Proof.
  rewrite !call_terms. cbn [wants_var]. destruct (outcome _) as [t|]; cbn [rbind]; [|discriminate]. unfold finish. cbn [wants_var corrected].
  repeat (match goal with |- context [dcov_from_terms E ?k ?a ?b ?c ?d ?g ?n ?bc] => destruct (dcov_from_terms E k a b c d g n bc); cbn [rbind]; try discriminate end).
  intros [= <-]. reflexivity.
Qed.

Lemma root_call lib E j x x' y y' m cm : valid_fenv lib E -> (-40 <= j <= 40)%Z ->
  (exists v v', call DcovSqr E x y (b64_ofZ 1) m cm = Ok v /\ call DcovSqr E x' y' (b64_ofZ 1) m cm = Ok v' /\
    is_finite v = true /\ is_finite v' = true /\ B2R v' = powerRZ 2 (2 * j) * B2R v) ->
  exists v v', call Dcov E x y (b64_ofZ 1) m cm = Ok v /\ call Dcov E x' y' (b64_ofZ 1) m cm = Ok v' /\
    is_finite v = true /\ is_finite v' = true /\ B2R v' = powerRZ 2 j * B2R v.
Proof.
  intros HE J (v & v' & H & H' & F & F' & S). apply dcov_of_sqr in H, H'. rewrite (vf_num _ _ HE) in H, H'. eexists _, _. split; [exact H|]. split; [exact H'|].
  apply root_scaled; auto.
Qed.

(** By NAIVE, samples of any number of columns. *)
Theorem C87_distance_covariance lib E n k l j x x' y y' cm : valid_fenv lib E -> not_forced cm -> (k + l = 2 * j)%Z ->
  (-40 <= k <= 40)%Z -> (-40 <= l <= 40)%Z -> ordinary n x -> ordinary n y -> rescaled k x x' -> rescaled l y y' ->
  exists v v', call Dcov E x y (b64_ofZ 1) MNaive cm = Ok v /\ call Dcov E x' y' (b64_ofZ 1) MNaive cm = Ok v' /\
    is_finite v = true /\ is_finite v' = true /\ B2R v' = powerRZ 2 j * B2R v.
Proof.
  intros HE Hcm Hj K L Ox Oy Rx Ry. apply (root_call lib); auto; [lia|]. rewrite <- Hj.
  apply (C87_covariance DcovSqr lib E n k l); auto; [left; reflexivity|]. cbn. apply Ox.
Qed.

(** By AVL or the default method. *)
Theorem C87_avl_distance_covariance lib E n k l j x x' y y' m cm : valid_fenv lib E -> compares E -> avl_or_auto m -> not_forced cm \/ cm = CCompileCpu ->
  (k + l = 2 * j)%Z -> (-40 <= k <= 40)%Z -> (-40 <= l <= 40)%Z -> measured n x -> measured n y -> rescaled k x x' -> rescaled l y y' ->
  exists v v', call Dcov E x y (b64_ofZ 1) m cm = Ok v /\ call Dcov E x' y' (b64_ofZ 1) m cm = Ok v' /\
    is_finite v = true /\ is_finite v' = true /\ B2R v' = powerRZ 2 j * B2R v.
Proof.
  intros HE HC Hm Hcm Hj K L Mx My Rx Ry. apply (root_call lib); auto; [lia|]. rewrite <- Hj.
  apply (C87_avl DcovSqr lib E n k l); auto. left; reflexivity.
Qed.

(** By MERGESORT. *)
Theorem C87_mergesort_distance_covariance lib E n k l j x x' y y' cm : valid_fenv lib E -> compares E -> not_forced cm \/ cm = CCompileCpu ->
  (k + l = 2 * j)%Z -> (-40 <= k <= 40)%Z -> (-40 <= l <= 40)%Z -> measured n x -> measured n y -> rescaled k x x' -> rescaled l y y' ->
  exists v v', call Dcov E x y (b64_ofZ 1) MMergesort cm = Ok v /\ call Dcov E x' y' (b64_ofZ 1) MMergesort cm = Ok v' /\
    is_finite v = true /\ is_finite v' = true /\ B2R v' = powerRZ 2 j * B2R v.
Proof.
  intros HE HC Hcm Hj K L Mx My Rx Ry. apply (root_call lib); auto; [lia|]. rewrite <- Hj.
  apply (C87_mergesort DcovSqr lib E n k l); auto. left; reflexivity.
Qed.

(** Both samples in units of 1/8: the distance covariance is multiplied by 8. *)
Example C87_distance_covariance_meets : valid_fenv plain env_F /\ compares env_F /\ measured 5 xi /\ measured 5 yi /\
  rescaled 3 xi (times eight xi) /\ rescaled 3 yi (times eight yi) /\
  (exists v v', call Dcov env_F xi yi (b64_ofZ 1) MNaive CAuto = Ok v /\ call Dcov env_F (times eight xi) (times eight yi) (b64_ofZ 1) MNaive CAuto = Ok v' /\ B2R v' = 8 * B2R v) /\
  (exists v v', call Dcov env_F xi yi (b64_ofZ 1) MAuto CAuto = Ok v /\ call Dcov env_F (times eight xi) (times eight yi) (b64_ofZ 1) MAuto CAuto = Ok v' /\ B2R v' = 8 * B2R v) /\
  (exists v v', call Dcov env_F xi yi (b64_ofZ 1) MMergesort CAuto = Ok v /\ call Dcov env_F (times eight xi) (times eight yi) (b64_ofZ 1) MMergesort CAuto = Ok v' /\ B2R v' = 8 * B2R v).
Proof.
  destruct C87_mergesort_meets as (HE & HC & (Mx & _) & (My & _) & _). destruct C87_meets as (Ox & Oy & Rx & _).
  assert (By : Forall (fun z => (Z.abs z <= 100)%Z) [0; 2; 2; 7; 1]%Z) by (repeat constructor; cbn; lia).
  destruct eight_real as (F8 & R8). assert (P8 : powerRZ 2 3 = 8) by (unfold powerRZ; change (Pos.to_nat 3) with 3%nat; lra).
  assert (Ry : rescaled 3 yi (times eight yi)) by (apply (C87_times 5); auto; try lia; intros; apply (small_range [0; 2; 2; 7; 1]%Z); auto).
  assert (NF : not_forced CAuto) by (left; reflexivity). assert (A : avl_or_auto MAuto) by (right; reflexivity).
  split; [exact HE|]. split; [exact HC|]. split; [exact Mx|]. split; [exact My|]. split; [exact Rx|]. split; [exact Ry|]. rewrite <- P8. split; [|split].
  - destruct (C87_distance_covariance plain env_F 5 3 3 3 xi (times eight xi) yi (times eight yi) CAuto) as (v & v' & V & V' & _ & _ & S); auto; try lia. exists v, v'. auto.
  - destruct (C87_avl_distance_covariance plain env_F 5 3 3 3 xi (times eight xi) yi (times eight yi) MAuto CAuto) as (v & v' & V & V' & _ & _ & S); auto; try lia. exists v, v'. auto.
  - destruct (C87_mergesort_distance_covariance plain env_F 5 3 3 3 xi (times eight xi) yi (times eight yi) CAuto) as (v & v' & V & V' & _ & _ & S); auto; try lia. exists v, v'. auto.
Qed.
